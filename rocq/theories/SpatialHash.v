(** SpatialHash (include/fcl/broadphase/detail/spatial_hash-inl.h, SH below), SimpleHashTable and
    SparseHashTable (detail/simple_hash_table-inl.h, detail/sparse_hash_table-inl.h) and
    SpatialHashingCollisionManager (broadphase_spatialhash-inl.h, SHM below).
    Coordinates and the cell size are integers (any common unit), divided exactly.
    Not modelled: overflow of the int cell numbers, the distance queries, computeBound.
    [None] is undefined behaviour: list::erase(end()). *)
From Coq Require Import ZArith List Bool Lia Permutation Arith.
From Verif Require Import AabbZ Broadphase QueryComb SSaP.
Import ListNotations.
Local Open Scope Z_scope.

(** ** Cells and keys *)

(** cell_size, scene_limit. *)
Record grid := Grid { scene : aabb; cell : Z }.

(** std::ceil of a quotient; std::floor is [Z.div]. *)
Definition cdiv (a b : Z) : Z := - ((- a) / b).
(** width[i], SH:52-58. *)
Definition width (g : grid) (i : nat) : Z :=
  cdiv (coord i (bmax (scene g)) - coord i (bmin (scene g))) (cell g).
(** min_x, max_x and so on, SH:64-69. *)
Definition cell_min (g : grid) (b : aabb) (i : nat) : Z :=
  (coord i (bmin b) - coord i (bmin (scene g))) / cell g.
Definition cell_max (g : grid) (b : aabb) (i : nat) : Z :=
  cdiv (coord i (bmax b) - coord i (bmin (scene g))) (cell g).
(** [for(int x = lo; x < hi; ++x)] *)
Definition zrange (lo hi : Z) : list Z := map (fun k => lo + Z.of_nat k) (seq 0 (Z.to_nat (hi - lo))).
(** SH:79, an unsigned int. *)
Definition key (g : grid) (x y z : Z) : Z :=
  (x + y * width g 0 + z * width g 0 * width g 1) mod 2 ^ 32.
(** SpatialHash::operator(), SH:62-84. *)
Definition keys (g : grid) (b : aabb) : list Z :=
  flat_map (fun x => flat_map (fun y => map (fun z => key g x y z)
    (zrange (cell_min g b 2) (cell_max g b 2)))
    (zrange (cell_min g b 1) (cell_max g b 1)))
    (zrange (cell_min g b 0) (cell_max g b 0)).

(** ** Hash tables *)

(** The buckets.  A SimpleHashTable of [range] buckets uses bucket [key mod range], a
    SparseHashTable the key itself: the function [idx] below. *)
Definition table := Z -> list obj.
Definition simple_idx (range : Z) : Z -> Z := fun k => k mod range.
Definition sparse_idx : Z -> Z := fun k => k.
Definition t_empty : table := fun _ => [].
Definition t_put (t : table) (k : Z) (l : list obj) : table := fun j => if j =? k then l else t j.
(** std::set::insert, ordered by address. *)
Fixpoint set_add (o : obj) (l : list obj) : list obj :=
  match l with
  | [] => [o]
  | a :: r => if Nat.ltb o a then o :: l else if Nat.eqb o a then l else a :: set_add o r
  end.

Section Table.
  Variable idx : Z -> Z.
  (** insert, simple_hash_table-inl.h:74-80. *)
  Definition t_insert (ks : list Z) (o : obj) (t : table) : table :=
    fold_left (fun t k => t_put t (idx k) (t (idx k) ++ [o])) ks t.
  (** query, simple_hash_table-inl.h:84-97. *)
  Definition t_query (ks : list Z) (t : table) : list obj :=
    fold_left (fun s k => fold_left (fun s o => set_add o s) (t (idx k)) s) ks [].
  (** remove, simple_hash_table-inl.h:101-110; list::remove erases every copy. *)
  Definition t_remove (ks : list Z) (o : obj) (t : table) : table :=
    fold_left (fun t k => t_put t (idx k) (take_out o (t (idx k)))) ks t.
End Table.

(** ** The manager *)

(** objs, objs_partially_penetrating_scene_limit, objs_outside_scene_limit, obj_aabb_map,
    hash_table. *)
Record shm := Shm {
  h_objs : list obj;
  h_part : list obj;
  h_out : list obj;
  h_map : obj -> option aabb;
  h_tab : table }.
Definition h_empty : shm := Shm [] [] [] (fun _ => None) t_empty.

(** list::erase(std::find(...)): the first copy; the end iterator may not be erased. *)
Fixpoint erase1 (o : obj) (l : list obj) : option (list obj) :=
  match l with
  | [] => None
  | a :: r => if Nat.eqb a o then Some r else option_map (cons a) (erase1 o r)
  end.
Inductive where_ := Inside | Partly | Outside.
Definition where_is (g : grid) (b : aabb) : where_ :=
  if overlap (scene g) b then if contain (scene g) b then Inside else Partly else Outside.
Definition map_put (m : obj -> option aabb) (o : obj) (b : option aabb) : obj -> option aabb :=
  fun x => if Nat.eqb x o then b else m x.

Section Ops.
  (** numeric_limits<S>::max(); the grid; the bucket of a key; the current AABBs. *)
  Variables (MX : Z) (g : grid) (idx : Z -> Z) (box : obj -> aabb).

  (** The common body of registerObject and update(), SHM:80-95, 141-156. *)
  Definition h_place (o : obj) (m : shm) : shm :=
    match overlap_part (scene g) (box o) with
    | Some p =>
        Shm (h_objs m) (if contain (scene g) (box o) then h_part m else h_part m ++ [o]) (h_out m)
            (map_put (h_map m) o (Some (box o))) (t_insert idx (keys g p) o (h_tab m))
    | None =>
        Shm (h_objs m) (h_part m) (h_out m ++ [o]) (map_put (h_map m) o (Some (box o))) (h_tab m)
    end.
  (** registerObject, SHM:75-96. *)
  Definition h_register (o : obj) (m : shm) : shm :=
    h_place o (Shm (h_objs m ++ [o]) (h_part m) (h_out m) (h_map m) (h_tab m)).
  (** unregisterObject, SHM:100-120: looks at the current AABB. *)
  Definition h_unregister (o : obj) (m : shm) : shm :=
    match overlap_part (scene g) (box o) with
    | Some p =>
        Shm (take_out o (h_objs m))
            (if contain (scene g) (box o) then h_part m else take_out o (h_part m)) (h_out m)
            (map_put (h_map m) o None) (t_remove idx (keys g p) o (h_tab m))
    | None =>
        Shm (take_out o (h_objs m)) (h_part m) (take_out o (h_out m)) (map_put (h_map m) o None) (h_tab m)
    end.
  (** update(), SHM:131-157. *)
  Definition h_update (m : shm) : shm :=
    fold_left (fun m o => h_place o m) (h_objs m) (Shm (h_objs m) [] [] (h_map m) t_empty).
  (** update(obj), SHM:161-271; operator[] of the map default-constructs a missing AABB. *)
  Definition h_update_obj (o : obj) (m : shm) : option shm :=
    let old := match h_map m o with Some b => b | None => empty_box MX end in
    let t1 := match overlap_part (scene g) old with
              | Some p => t_remove idx (keys g p) o (h_tab m) | None => h_tab m end in
    let t2 := match overlap_part (scene g) (box o) with
              | Some p => t_insert idx (keys g p) o t1 | None => t1 end in
    let lists :=
      match where_is g (box o), where_is g old with
      | Inside, Partly => option_map (fun p => (p, h_out m)) (erase1 o (h_part m))
      | Inside, Outside => option_map (fun q => (h_part m, q)) (erase1 o (h_out m))
      | Partly, Inside => Some (h_part m ++ [o], h_out m)
      | Partly, Outside => option_map (fun q => (h_part m ++ [o], q)) (erase1 o (h_out m))
      | Outside, Inside => Some (h_part m, h_out m ++ [o])
      | Outside, Partly => option_map (fun p => (p, h_out m ++ [o])) (erase1 o (h_part m))
      | _, _ => Some (h_part m, h_out m)
      end in
    option_map (fun pq => Shm (h_objs m) (fst pq) (snd pq) (map_put (h_map m) o (Some (box o))) t2) lists.
  (** clear(), SHM:283-289: objs_partially_penetrating_scene_limit is kept. *)
  Definition h_clear (m : shm) : shm := Shm [] (h_part m) [] (fun _ => None) t_empty.
  (** size, empty, getObjects, SHM:293-297, 605-615. *)
  Definition h_size (m : shm) : nat := length (h_objs m).
  Definition h_is_empty (m : shm) : bool := match h_objs m with [] => true | _ => false end.
  Definition h_get (m : shm) : list obj := h_objs m.

  (** The objects visited by collide_ for the box [b], SHM:318-369. *)
  Definition h_candidates (b : aabb) (m : shm) : list obj :=
    match overlap_part (scene g) b with
    | Some p =>
        t_query idx (keys g p) (h_tab m) ++ (if contain (scene g) b then [] else h_out m)
    | None => h_part m ++ h_out m
    end.
  (** collide_(obj), SHM:318-370. *)
  Definition h_collide_ (m : shm) (o : obj) : query :=
    ceach (fun o2 => cwhen (negb (Nat.eqb o o2)) (ccall o o2)) (h_candidates (box o) m).
  (** collide(obj), SHM:301-305. *)
  Definition h_collide_obj (m : shm) (o : obj) : query :=
    if Nat.eqb (h_size m) 0 then cskip else h_collide_ m o.
  (** collide(), SHM:460-515. *)
  Definition h_collide_self (m : shm) : query :=
    if Nat.eqb (h_size m) 0 then cskip
    else ceach (fun o1 => ceach (fun o2 => cwhen (Nat.ltb o1 o2) (ccall o1 o2)) (h_candidates (box o1) m)) (h_objs m).
  (** collide(other) with another manager of the same grid, SHM:543-571. *)
  Definition h_collide_other (m other : shm) : query :=
    if Nat.eqb (h_size m) 0 || Nat.eqb (h_size other) 0 then cskip
    else if Nat.ltb (h_size m) (h_size other) then ceach (h_collide_ other) (h_objs m)
    else ceach (h_collide_ m) (h_objs other).
End Ops.

(** ** Histories *)

Inductive hop :=
| HMove (o : obj) (b : aabb) | HReg (o : obj) | HUnreg (o : obj)
| HSetup | HUpdate | HUpdateObj (o : obj) | HClear.
Definition h_step (MX : Z) (g : grid) (idx : Z -> Z) (op : hop) (s : shm * (obj -> aabb)) : option (shm * (obj -> aabb)) :=
  let (m, box) := s in
  match op with
  | HMove o b => Some (m, set_box box o b)
  | HReg o => Some (h_register g idx box o m, box)
  | HUnreg o => Some (h_unregister g idx box o m, box)
  | HSetup => Some (m, box)
  | HUpdate => Some (h_update g idx box m, box)
  | HUpdateObj o => option_map (fun m => (m, box)) (h_update_obj MX g idx box o m)
  | HClear => Some (h_clear m, box)
  end.
Fixpoint h_run (MX : Z) (g : grid) (idx : Z -> Z) (ops : list hop) (s : shm * (obj -> aabb)) : option (shm * (obj -> aabb)) :=
  match ops with
  | [] => Some s
  | op :: r => match h_step MX g idx op s with Some s' => h_run MX g idx r s' | None => None end
  end.

(** Specification: the registered objects, and the AABB each object had when the manager was
    last told about it (registration, update(), update(obj)). *)
Record hspec := HS { hs_regs : list obj; hs_known : obj -> aabb; hs_box : obj -> aabb }.
Definition hspec_step (x : hspec) (op : hop) : hspec :=
  match op with
  | HMove o b => HS (hs_regs x) (hs_known x) (set_box (hs_box x) o b)
  | HReg o => HS (hs_regs x ++ [o]) (set_box (hs_known x) o (hs_box x o)) (hs_box x)
  | HUnreg o => HS (take_out o (hs_regs x)) (hs_known x) (hs_box x)
  | HSetup => x
  | HUpdate => HS (hs_regs x) (hs_box x) (hs_box x)
  | HUpdateObj o => HS (hs_regs x) (set_box (hs_known x) o (hs_box x o)) (hs_box x)
  | HClear => HS [] (hs_known x) (hs_box x)
  end.
Definition h_spec (ops : list hop) (box0 : obj -> aabb) : hspec :=
  fold_left hspec_step ops (HS [] box0 box0).
(** A box that crosses the border of the scene. *)
Definition straddles (g : grid) (b : aabb) : Prop := overlap (scene g) b = true /\ contain (scene g) b = false.
(** Objects are registered at most once at a time, removed only when registered and not moved
    since the manager was last told about them, updated only when registered; the manager is
    cleared only when no registered object straddles the border of the scene. *)
Definition h_legal (g : grid) (x : hspec) (op : hop) : Prop :=
  match op with
  | HReg o => ~ In o (hs_regs x)
  | HUnreg o => In o (hs_regs x) /\ hs_known x o = hs_box x o
  | HUpdateObj o => In o (hs_regs x)
  | HClear => forall o, In o (hs_regs x) -> ~ straddles g (hs_known x o)
  | _ => True
  end.
Fixpoint h_legal_from (g : grid) (x : hspec) (ops : list hop) : Prop :=
  match ops with
  | [] => True
  | op :: r => h_legal g x op /\ h_legal_from g (hspec_step x op) r
  end.
Definition h_legal_history (g : grid) (ops : list hop) (box0 : obj -> aabb) : Prop :=
  h_legal_from g (HS [] box0 box0) ops.
Definition h_current (x : hspec) : Prop := forall o, In o (hs_regs x) -> hs_known x o = hs_box x o.

(** ** Lemmas: tables *)

Lemma zrange_In lo hi x : In x (zrange lo hi) <-> lo <= x < hi.
Proof.
  unfold zrange. rewrite in_map_iff. split.
  - intros (k & <- & Hk). apply in_seq in Hk. lia.
  - intros H. exists (Z.to_nat (x - lo)). split; [lia|]. apply in_seq. lia.
Qed.
Lemma keys_In g b k : In k (keys g b) <-> exists x y z,
  cell_min g b 0 <= x < cell_max g b 0 /\ cell_min g b 1 <= y < cell_max g b 1 /\
  cell_min g b 2 <= z < cell_max g b 2 /\ k = key g x y z.
Proof.
  unfold keys. rewrite in_flat_map. split.
  - intros (x & Hx & H). apply in_flat_map in H as (y & Hy & H). apply in_map_iff in H as (z & <- & Hz).
    apply zrange_In in Hx, Hy, Hz. exists x, y, z. auto.
  - intros (x & y & z & Hx & Hy & Hz & ->). exists x. rewrite zrange_In. split; auto.
    apply in_flat_map. exists y. rewrite zrange_In. split; auto. apply in_map_iff. exists z. rewrite zrange_In. auto.
Qed.
Lemma t_insert_In idx ks o : forall t k a,
  In a (t_insert idx ks o t k) <-> In a (t k) \/ a = o /\ In k (map idx ks).
Proof.
  unfold t_insert. induction ks as [|j ks IH]; intros t k a; cbn [fold_left map].
  - cbn. tauto.
  - rewrite IH. unfold t_put. destruct (Z.eqb_spec k (idx j)) as [->|N].
    + rewrite in_app_iff. cbn. intuition.
    + cbn. intuition congruence.
Qed.
Lemma t_remove_In idx ks o : forall t k a,
  In a (t_remove idx ks o t k) <-> In a (t k) /\ ~ (a = o /\ In k (map idx ks)).
Proof.
  unfold t_remove. induction ks as [|j ks IH]; intros t k a; cbn [fold_left map].
  - cbn. tauto.
  - rewrite IH. unfold t_put. destruct (Z.eqb_spec k (idx j)) as [->|N].
    + rewrite take_out_In. cbn. intuition.
    + cbn. intuition congruence.
Qed.
Lemma set_add_In o l a : In a (set_add o l) <-> a = o \/ In a l.
Proof.
  induction l as [|b l IH]; cbn [set_add]; [cbn; intuition|].
  destruct (Nat.ltb_spec o b); [cbn; intuition|]. destruct (Nat.eqb_spec o b) as [->|N]; [cbn; intuition|].
  cbn. rewrite IH. intuition.
Qed.
Definition increasing (l : list obj) : Prop := Sorted.StronglySorted lt l.
Lemma set_add_incr o l : increasing l -> increasing (set_add o l).
Proof.
  unfold increasing. induction 1 as [|b l H IH F]; cbn [set_add]; [repeat constructor|].
  destruct (Nat.ltb_spec o b).
  - constructor; [constructor; auto|]. constructor; auto. eapply Forall_impl; [|exact F]. cbn; intros; lia.
  - destruct (Nat.eqb_spec o b) as [->|N]; [constructor; auto|]. constructor; auto.
    apply Forall_forall. intros a Ha. apply set_add_In in Ha as [->|Ha]; [lia|].
    rewrite Forall_forall in F. auto.
Qed.
Lemma incr_NoDup l : increasing l -> NoDup l.
Proof.
  induction 1 as [|b l H IH F]; constructor; auto. intros Hb. rewrite Forall_forall in F. specialize (F b Hb). lia.
Qed.
Lemma t_query_spec idx ks t :
  increasing (t_query idx ks t) /\ forall a, In a (t_query idx ks t) <-> exists k, In k (map idx ks) /\ In a (t k).
Proof.
  assert (G1 : forall l s, increasing s -> increasing (fold_left (fun s o => set_add o s) l s) /\
    forall a, In a (fold_left (fun s o => set_add o s) l s) <-> In a s \/ In a l).
  { induction l as [|o l IH]; intros s Hs; cbn [fold_left]; [split; auto; cbn; tauto|].
    destruct (IH (set_add o s) (set_add_incr o s Hs)) as [A B]. split; auto. intros a. rewrite B, set_add_In. cbn. intuition. }
  assert (G : forall ks s, increasing s ->
    let r := fold_left (fun s k => fold_left (fun s o => set_add o s) (t (idx k)) s) ks s in
    increasing r /\ forall a, In a r <-> In a s \/ exists k, In k (map idx ks) /\ In a (t k)).
  { clear ks. induction ks as [|k ks IH]; intros s Hs; cbn [fold_left map].
    - split; auto. intros a. split; auto. intros [|(k & [] & _)]; auto.
    - destruct (G1 (t (idx k)) s Hs) as [A B]. destruct (IH _ A) as [C D]. split; auto. intros a. rewrite D, B. cbn. split.
      + intros [[|]|(j & ? & ?)]; eauto.
      + intros [|(j & [<-|] & ?)]; eauto. }
  destruct (G ks [] ltac:(constructor)) as [A B]. split; auto. intros a. unfold t_query. rewrite B. cbn. intuition.
Qed.
Lemma erase1_spec o l : NoDup l -> In o l ->
  exists l', erase1 o l = Some l' /\ NoDup l' /\ forall a, In a l' <-> In a l /\ a <> o.
Proof.
  induction l as [|b l IH]; intros ND Hin; [destruct Hin|]. apply NoDup_cons_iff in ND as [Hb ND]. cbn [erase1].
  destruct (Nat.eqb_spec b o) as [->|N].
  - exists l. split; auto. split; auto. intros a. cbn. split.
    + intros Ha. split; auto. intros ->; auto.
    + intros [[->|] ?]; auto. contradiction.
  - destruct Hin as [|Hin]; [contradiction|]. destruct (IH ND Hin) as (l' & -> & ND' & H). cbn [option_map].
    exists (b :: l'). split; auto. split.
    + constructor; auto. rewrite H. tauto.
    + intros a. cbn. rewrite H. split; [intros [->|[]]; auto|intros [[->|] ?]; auto].
Qed.

(** ** Invariant *)

(** The buckets that hold an object with known box [b]. *)
Definition bucket (g : grid) (idx : Z -> Z) (b : aabb) (k : Z) : Prop :=
  exists p, overlap_part (scene g) b = Some p /\ In k (map idx (keys g p)).
Definition parts (g : grid) (idx : Z -> Z) (m : shm) (regs : list obj) (known : obj -> aabb) : Prop :=
  (NoDup (h_part m) /\ forall a, In a (h_part m) <-> In a regs /\ where_is g (known a) = Partly) /\
  (NoDup (h_out m) /\ forall a, In a (h_out m) <-> In a regs /\ where_is g (known a) = Outside) /\
  (forall a, In a regs -> h_map m a = Some (known a)) /\
  (forall k a, In a (h_tab m k) <-> In a regs /\ bucket g idx (known a) k).
Definition hinv (g : grid) (idx : Z -> Z) (m : shm) (x : hspec) : Prop :=
  h_objs m = hs_regs x /\ NoDup (hs_regs x) /\ parts g idx m (hs_regs x) (hs_known x).

Lemma where_part g b : match where_is g b with
  | Inside => exists p, overlap_part (scene g) b = Some p /\ contain (scene g) b = true
  | Partly => exists p, overlap_part (scene g) b = Some p /\ contain (scene g) b = false
  | Outside => overlap_part (scene g) b = None end.
Proof.
  unfold where_is, overlap_part. destruct (overlap (scene g) b); auto. destruct (contain (scene g) b); eauto.
Qed.
Lemma bucket_outside g idx b k : where_is g b = Outside -> ~ bucket g idx b k.
Proof. intros E (p & Hp & _). pose proof (where_part g b) as H. rewrite E in H. congruence. Qed.

Lemma NoDup_snoc {A} (l : list A) a : NoDup l -> ~ In a l -> NoDup (l ++ [a]).
Proof.
  intros H N. apply Permutation_NoDup with (l := a :: l); [apply Permutation_cons_append|constructor; auto].
Qed.
Lemma set_box_same box o b : set_box box o b o = b.
Proof. unfold set_box. rewrite Nat.eqb_refl. auto. Qed.
Lemma set_box_other box o b a : a <> o -> set_box box o b a = box a.
Proof. unfold set_box. intros N. destruct (Nat.eqb_spec a o); congruence. Qed.

Lemma parts_ext g idx m regs known known' : (forall a, In a regs -> known a = known' a) ->
  parts g idx m regs known -> parts g idx m regs known'.
Proof.
  intros E ((P1 & P2) & (O1 & O2) & M & T). split; [|split; [|split]].
  - split; auto. intros a. rewrite P2. split; intros [Ha H]; split; auto; [rewrite <- E|rewrite E]; auto.
  - split; auto. intros a. rewrite O2. split; intros [Ha H]; split; auto; [rewrite <- E|rewrite E]; auto.
  - intros a Ha. rewrite M, E; auto.
  - intros k a. rewrite T. split; intros [Ha H]; split; auto; [rewrite <- E|rewrite E]; auto.
Qed.
Lemma place_parts g idx box o m regs known : ~ In o regs -> parts g idx m regs known ->
  parts g idx (h_place g idx box o m) (regs ++ [o]) (set_box known o (box o)) /\
  h_objs (h_place g idx box o m) = h_objs m.
Proof.
  intros Ho ((P1 & P2) & (O1 & O2) & M & T).
  assert (Hin : forall (F : aabb -> Prop) a, In a (regs ++ [o]) /\ F (set_box known o (box o) a) <->
    (In a regs /\ F (known a)) \/ (a = o /\ F (box o))).
  { intros F a. rewrite in_app_iff. cbn. destruct (Nat.eq_dec a o) as [->|N].
    - rewrite set_box_same. tauto.
    - rewrite set_box_other by auto. intuition congruence. }
  assert (Hmap : forall a, In a (regs ++ [o]) -> map_put (h_map m) o (Some (box o)) a = Some (set_box known o (box o) a)).
  { intros a. rewrite in_app_iff. unfold map_put. cbn. intros H. destruct (Nat.eqb_spec a o) as [->|N].
    - rewrite set_box_same; auto.
    - rewrite set_box_other by auto. apply M. intuition congruence. }
  pose proof (where_part g (box o)) as W. unfold h_place.
  destruct (where_is g (box o)) eqn:EW.
  - destruct W as (p & Ep & Ec). rewrite Ep, Ec. split; auto. split; [|split; [|split]]; cbn [h_part h_out h_map h_tab]; auto.
    + split; auto. intros a. rewrite (Hin (fun b => where_is g b = Partly)), P2. intuition congruence.
    + split; auto. intros a. rewrite (Hin (fun b => where_is g b = Outside)), O2. intuition congruence.
    + intros k a. rewrite t_insert_In, (Hin (fun b => bucket g idx b k)), T.
      assert (bucket g idx (box o) k <-> In k (map idx (keys g p))); [|tauto]. unfold bucket. rewrite Ep. split.
      * intros (q & E & H). injection E as <-. auto.
      * eauto.
  - destruct W as (p & Ep & Ec). rewrite Ep, Ec. split; auto. split; [|split; [|split]]; cbn [h_part h_out h_map h_tab]; auto.
    + split.
      * apply NoDup_snoc; auto. rewrite P2. tauto.
      * intros a. rewrite (Hin (fun b => where_is g b = Partly)), in_app_iff, P2. cbn. intuition congruence.
    + split; auto. intros a. rewrite (Hin (fun b => where_is g b = Outside)), O2. intuition congruence.
    + intros k a. rewrite t_insert_In, (Hin (fun b => bucket g idx b k)), T.
      assert (bucket g idx (box o) k <-> In k (map idx (keys g p))); [|tauto]. unfold bucket. rewrite Ep. split.
      * intros (q & E & H). injection E as <-. auto.
      * eauto.
  - rewrite W. split; auto. split; [|split; [|split]]; cbn [h_part h_out h_map h_tab]; auto.
    + split; auto. intros a. rewrite (Hin (fun b => where_is g b = Partly)), P2. intuition congruence.
    + split.
      * apply NoDup_snoc; auto. rewrite O2. tauto.
      * intros a. rewrite (Hin (fun b => where_is g b = Outside)), in_app_iff, O2. cbn. intuition congruence.
    + intros k a. rewrite (Hin (fun b => bucket g idx b k)), T. pose proof (bucket_outside g idx _ k EW). tauto.
Qed.
(** Taking an object out of every part. *)
Lemma drop_parts g idx m o regs known p q f t : parts g idx m regs known ->
  (NoDup p /\ forall a, In a p <-> In a (h_part m) /\ a <> o) ->
  (NoDup q /\ forall a, In a q <-> In a (h_out m) /\ a <> o) ->
  (forall a, a <> o -> f a = h_map m a) ->
  (forall k a, In a (t k) <-> In a (h_tab m k) /\ a <> o) -> forall os,
  parts g idx (Shm os p q f t) (take_out o regs) known.
Proof.
  intros ((P1 & P2) & (O1 & O2) & M & T) [Hp1 Hp2] [Hq1 Hq2] Hf Ht os.
  split; [|split; [|split]]; cbn [h_part h_out h_map h_tab].
  - split; auto. intros a. rewrite Hp2, P2, take_out_In. tauto.
  - split; auto. intros a. rewrite Hq2, O2, take_out_In. tauto.
  - intros a Ha. apply take_out_In in Ha as [Ha N]. rewrite Hf; auto.
  - intros k a. rewrite Ht, T, take_out_In. tauto.
Qed.
Lemma take_out_NoDup o l : NoDup l -> NoDup (take_out o l).
Proof. apply NoDup_filter. Qed.
Lemma same_minus (o : obj) l : ~ In o l -> forall a, In a l <-> In a l /\ a <> o.
Proof. intros N a. split; [|tauto]. intros H. split; auto. congruence. Qed.

Section Inv.
  Variables (MX : Z) (g : grid) (idx : Z -> Z).

  Lemma unregister_inv m x o : hinv g idx m x -> In o (hs_regs x) -> hs_known x o = hs_box x o ->
    hinv g idx (h_unregister g idx (hs_box x) o m) (hspec_step x (HUnreg o)).
  Proof using Type.
    intros (E & ND & HP) Ho Hk. pose proof HP as ((P1 & P2) & (O1 & O2) & M & T).
    assert (G : parts g idx (h_unregister g idx (hs_box x) o m) (take_out o (hs_regs x)) (hs_known x) /\
                h_objs (h_unregister g idx (hs_box x) o m) = take_out o (h_objs m)).
    { pose proof (where_part g (hs_box x o)) as W. rewrite <- Hk in *. unfold h_unregister. rewrite <- Hk.
      assert (TT : forall p, overlap_part (scene g) (hs_known x o) = Some p -> forall k a,
        In a (t_remove idx (keys g p) o (h_tab m) k) <-> In a (h_tab m k) /\ a <> o).
      { intros p Ep k a. rewrite t_remove_In. split.
        - intros [Ha H]. split; auto. intros ->. apply H. split; auto. apply T in Ha as [_ (p' & Ep' & Hb)]. congruence.
        - intros [Ha H]. split; auto. intros [? _]; contradiction. }
      assert (FF : forall a, a <> o -> map_put (h_map m) o None a = h_map m a)
        by (intros a N; unfold map_put; destruct (Nat.eqb_spec a o); congruence).
      destruct (where_is g (hs_known x o)) eqn:EW.
      - destruct W as (p & Ep & Ec). rewrite Ep, Ec. split; auto. eapply drop_parts; eauto.
        + split; auto. apply same_minus. rewrite P2, EW. intuition congruence.
        + split; auto. apply same_minus. rewrite O2, EW. intuition congruence.
      - destruct W as (p & Ep & Ec). rewrite Ep, Ec. split; auto. eapply drop_parts; eauto.
        + split; [apply take_out_NoDup; auto|apply take_out_In].
        + split; auto. apply same_minus. rewrite O2, EW. intuition congruence.
      - rewrite W. split; auto. eapply drop_parts; eauto.
        + split; auto. apply same_minus. rewrite P2, EW. intuition congruence.
        + split; [apply take_out_NoDup; auto|]. intros a. apply take_out_In.
        + intros k. apply same_minus. rewrite T. intros [_ H]. eapply bucket_outside; eauto. }
    destruct G as [G1 G2]. split; [|split]; cbn [hspec_step hs_regs hs_known]; auto.
    - rewrite G2, E. auto.
    - apply take_out_NoDup; auto.
  Qed.

  Lemma update_inv m x : hinv g idx m x -> hinv g idx (h_update g idx (hs_box x) m) (hspec_step x HUpdate).
  Proof using Type.
    intros (E & ND & _). set (box := hs_box x).
    assert (G : forall l R m known, NoDup (R ++ l) -> (forall a, In a R -> known a = box a) -> parts g idx m R known ->
      let m' := fold_left (fun m o => h_place g idx box o m) l m in
      parts g idx m' (R ++ l) box /\ h_objs m' = h_objs m).
    { clear. induction l as [|o l IH]; intros R m known ND HK HP; cbn [fold_left].
      - rewrite app_nil_r. split; auto. eapply parts_ext; eauto.
      - assert (Ho : ~ In o R) by (intros H; apply (NoDup_remove_2 _ _ _ ND); rewrite in_app_iff; auto).
        destruct (place_parts g idx box o m R known Ho HP) as [P1 P2].
        assert (EL : R ++ o :: l = (R ++ [o]) ++ l) by (rewrite <- app_assoc; reflexivity). rewrite EL in *.
        destruct (IH (R ++ [o]) (h_place g idx box o m) (set_box known o (box o)) ND) as [A B]; auto.
        + intros a Ha. apply in_app_iff in Ha as [Ha|[<-|[]]].
          * rewrite set_box_other by congruence. auto.
          * apply set_box_same.
        + split; auto. congruence. }
    destruct (G (h_objs m) [] (Shm (h_objs m) [] [] (h_map m) t_empty) box) as [A B].
    - rewrite E; auto.
    - intros a [].
    - split; [|split; [|split]]; cbn; try (split; [constructor|]); intros; tauto.
    - cbn [app] in A. split; [|split]; cbn [hspec_step hs_regs hs_known]; auto.
      + unfold h_update. fold box. cbv zeta in B. rewrite B. exact E.
      + unfold h_update. fold box. rewrite E in *. exact A.
  Qed.

  Lemma update_obj_inv m x o : hinv g idx m x -> In o (hs_regs x) ->
    exists m', h_update_obj MX g idx (hs_box x) o m = Some m' /\ hinv g idx m' (hspec_step x (HUpdateObj o)).
  Proof using Type.
    intros (E & ND & HP) Ho. pose proof HP as ((P1 & P2) & (O1 & O2) & M & T).
    unfold h_update_obj. rewrite (M o Ho). set (old := hs_known x o). set (new := hs_box x o).
    set (t1 := match overlap_part (scene g) old with Some p => t_remove idx (keys g p) o (h_tab m) | None => h_tab m end).
    assert (HT1 : forall k a, In a (t1 k) <-> In a (h_tab m k) /\ a <> o).
    { intros k a. unfold t1. destruct (overlap_part (scene g) old) as [p|] eqn:Ep.
      - rewrite t_remove_In. split.
        + intros [Ha H]. split; auto. intros ->. apply H. split; auto. apply T in Ha as [_ (p' & Ep' & Hb)]. fold old in Ep'. congruence.
        + intros [Ha H]. split; auto. intros [? _]; contradiction.
      - apply same_minus. rewrite T. intros [_ (p & Ep' & _)]. fold old in Ep'. congruence. }
    (* the lists without [o] *)
    assert (HPart : where_is g old = Partly -> exists l, erase1 o (h_part m) = Some l /\ NoDup l /\ forall a, In a l <-> In a (h_part m) /\ a <> o).
    { intros W. apply erase1_spec; auto. apply P2; auto. }
    assert (HOut : where_is g old = Outside -> exists l, erase1 o (h_out m) = Some l /\ NoDup l /\ forall a, In a l <-> In a (h_out m) /\ a <> o).
    { intros W. apply erase1_spec; auto. apply O2; auto. }
    assert (NPart : where_is g old <> Partly -> NoDup (h_part m) /\ forall a, In a (h_part m) <-> In a (h_part m) /\ a <> o).
    { intros W. split; auto. apply same_minus. rewrite P2. fold old. tauto. }
    assert (NOut : where_is g old <> Outside -> NoDup (h_out m) /\ forall a, In a (h_out m) <-> In a (h_out m) /\ a <> o).
    { intros W. split; auto. apply same_minus. rewrite O2. fold old. tauto. }
    assert (TNew : forall k a, In a (match overlap_part (scene g) new with Some p => t_insert idx (keys g p) o t1 | None => t1 end k) <->
      (In a (h_tab m k) /\ a <> o) \/ (a = o /\ bucket g idx new k)).
    { intros k a. unfold bucket. destruct (overlap_part (scene g) new) as [p|] eqn:Ep.
      - rewrite t_insert_In, HT1. split; intros [H|[H1 H2]]; auto; right; split; eauto. destruct H2 as (p' & E' & H2). congruence.
      - rewrite HT1. split; auto. intros [H|[_ (p & E' & _)]]; [auto|discriminate]. }
    assert (Place : forall p q,
      (NoDup p /\ forall a, In a p <-> (In a (h_part m) /\ a <> o) \/ (a = o /\ where_is g new = Partly)) ->
      (NoDup q /\ forall a, In a q <-> (In a (h_out m) /\ a <> o) \/ (a = o /\ where_is g new = Outside)) ->
      hinv g idx (Shm (h_objs m) p q (map_put (h_map m) o (Some new))
                   (match overlap_part (scene g) new with Some p => t_insert idx (keys g p) o t1 | None => t1 end))
                  (hspec_step x (HUpdateObj o))).
    { intros p q [Hp1 Hp2] [Hq1 Hq2]. split; [|split]; cbn [hspec_step hs_regs hs_known h_objs]; auto. fold new.
      assert (Hin : forall (F : aabb -> Prop) a, In a (hs_regs x) /\ F (set_box (hs_known x) o new a) <->
        ((In a (hs_regs x) /\ F (hs_known x a)) /\ a <> o) \/ (a = o /\ F new)).
      { intros F a. destruct (Nat.eq_dec a o) as [->|N]; [rewrite set_box_same|rewrite set_box_other by auto]; tauto. }
      split; [|split; [|split]]; cbn [h_part h_out h_map h_tab].
      - split; auto. intros a. rewrite Hp2, P2, (Hin (fun b => where_is g b = Partly)). tauto.
      - split; auto. intros a. rewrite Hq2, O2, (Hin (fun b => where_is g b = Outside)). tauto.
      - intros a Ha. unfold map_put. destruct (Nat.eqb_spec a o) as [->|N]; [rewrite set_box_same|rewrite set_box_other by auto]; auto.
      - intros k a. rewrite TNew, T, (Hin (fun b => bucket g idx b k)). tauto. }
    assert (Stay : forall l (C : Prop), NoDup l -> (In o l <-> C) -> NoDup l /\ forall a, In a l <-> (In a l /\ a <> o) \/ (a = o /\ C)).
    { intros l C Hl HC. split; auto. intros a. destruct (Nat.eq_dec a o) as [->|]; tauto. }
    assert (Lose : forall l l' (C : Prop), NoDup l' -> (forall a, In a l' <-> In a l /\ a <> o) -> ~ C ->
      NoDup l' /\ forall a, In a l' <-> (In a l /\ a <> o) \/ (a = o /\ C)).
    { intros l l' C Hl' H HC. split; auto. intros a. rewrite H. tauto. }
    assert (Gain : forall l (C : Prop), NoDup l -> ~ In o l -> C -> NoDup (l ++ [o]) /\ forall a, In a (l ++ [o]) <-> (In a l /\ a <> o) \/ (a = o /\ C)).
    { intros l C Hl H HC. split; [apply NoDup_snoc; auto|]. intros a. rewrite in_app_iff. cbn.
      destruct (Nat.eq_dec a o) as [->|]; intuition congruence. }
    assert (IP : In o (h_part m) <-> where_is g old = Partly) by (rewrite P2; fold old; tauto).
    assert (IO : In o (h_out m) <-> where_is g old = Outside) by (rewrite O2; fold old; tauto).
    destruct (where_is g old) eqn:WO.
    - destruct (where_is g new) eqn:WN; cbn [option_map]; eexists; (split; [reflexivity|]); apply Place; cbn [fst snd];
        first [apply Stay; auto; rewrite ?IP, ?IO; intuition congruence | apply Gain; auto; rewrite ?IP, ?IO; congruence].
    - destruct (HPart eq_refl) as (l & El & Hl1 & Hl2).
      destruct (where_is g new) eqn:WN; rewrite ?El; cbn [option_map]; eexists; (split; [reflexivity|]); apply Place; cbn [fst snd];
        first [apply Stay; auto; rewrite ?IP, ?IO; intuition congruence | apply Gain; auto; rewrite ?IP, ?IO; congruence
              | apply Lose; auto; congruence].
    - destruct (HOut eq_refl) as (l & El & Hl1 & Hl2).
      destruct (where_is g new) eqn:WN; rewrite ?El; cbn [option_map]; eexists; (split; [reflexivity|]); apply Place; cbn [fst snd];
        first [apply Stay; auto; rewrite ?IP, ?IO; intuition congruence | apply Gain; auto; rewrite ?IP, ?IO; congruence
              | apply Lose; auto; congruence].
  Qed.

  Lemma register_inv m x o : hinv g idx m x -> ~ In o (hs_regs x) ->
    hinv g idx (h_register g idx (hs_box x) o m) (hspec_step x (HReg o)).
  Proof using Type.
    clear MX. intros (E & ND & HP) Ho. unfold h_register.
    destruct (place_parts g idx (hs_box x) o (Shm (h_objs m ++ [o]) (h_part m) (h_out m) (h_map m) (h_tab m)) (hs_regs x) (hs_known x) Ho HP) as [A B].
    split; [|split]; cbn [hspec_step hs_regs hs_known]; auto.
    - rewrite B. cbn. congruence.
    - apply NoDup_snoc; auto.
  Qed.
  Lemma clear_inv m x : hinv g idx m x -> (forall o, In o (hs_regs x) -> ~ straddles g (hs_known x o)) ->
    hinv g idx (h_clear m) (hspec_step x HClear).
  Proof using Type.
    clear MX. intros (E & ND & (P1 & P2) & _) HC. split; [|split]; cbn [hspec_step hs_regs hs_known h_clear h_objs]; auto; [constructor|].
    split; [|split; [|split]]; cbn [h_clear h_part h_out h_map h_tab].
    - split; auto. intros a. split; [|intros [[] _]]. intros Ha. exfalso. apply P2 in Ha as [Ha W]. apply (HC a Ha).
      unfold where_is in W. unfold straddles. destruct (overlap (scene g) _); [|discriminate].
      destruct (contain (scene g) _); [discriminate|auto].
    - split; [constructor|]. intros a. cbn. tauto.
    - intros a [].
    - intros k a. cbn. tauto.
  Qed.

  Lemma h_run_inv : forall ops m x, hinv g idx m x -> h_legal_from g x ops ->
    exists m', h_run MX g idx ops (m, hs_box x) = Some (m', hs_box (fold_left hspec_step ops x)) /\
      hinv g idx m' (fold_left hspec_step ops x).
  Proof.
    induction ops as [|op ops IH]; intros m x I HL; cbn [h_run fold_left]; eauto.
    destruct HL as [L1 L2]. destruct op; cbn [h_step option_map] in *.
    - exact (IH m (hspec_step x (HMove o b)) I L2).
    - exact (IH _ _ (register_inv m x o I L1) L2).
    - destruct L1 as [L1 L1']. exact (IH _ _ (unregister_inv m x o I L1 L1') L2).
    - exact (IH _ _ I L2).
    - exact (IH _ _ (update_inv m x I) L2).
    - destruct (update_obj_inv m x o I L1) as (m' & -> & I'). cbn [option_map]. exact (IH _ _ I' L2).
    - exact (IH _ _ (clear_inv m x I L1) L2).
  Qed.
End Inv.
Lemma h_start_inv g idx box : hinv g idx h_empty (HS [] box box).
Proof.
  split; [|split; [|split; [|split; [|split]]]]; cbn; try constructor; auto; try constructor; try tauto.
Qed.

(** ** Cells of overlapping boxes *)

(** On some axis the common part of [a] and [b] inside the scene is flat and lies in a plane of
    the grid. *)
Definition on_plane (g : grid) (a b : aabb) (i : nat) : Prop :=
  let lo := Z.max (Z.max (coord i (bmin a)) (coord i (bmin b))) (coord i (bmin (scene g))) in
  let hi := Z.min (Z.min (coord i (bmax a)) (coord i (bmax b))) (coord i (bmax (scene g))) in
  hi <= lo /\ exists n, lo = coord i (bmin (scene g)) + n * cell g.

Lemma ceil_floor c a b : 0 < c -> a <= b -> (a < b \/ forall n, a <> n * c) -> a / c < cdiv b c.
Proof.
  intros Hc Hab H. unfold cdiv.
  pose proof (Z.mul_div_le a c Hc). pose proof (Z.mul_div_le (- b) c Hc).
  pose proof (Z.mul_succ_div_gt (- b) c Hc).
  destruct (Z.lt_ge_cases (a / c) (- (- b / c))) as [|L]; auto. exfalso.
  assert (a <= c * - (- b / c) - 0 \/ True) by auto.
  assert (c * - (- b / c) <= c * (a / c)) by (apply Z.mul_le_mono_nonneg_l; lia).
  destruct H as [H|H]; [nia|]. apply (H (a / c)). nia.
Qed.
Lemma cdiv_mono c a b : 0 < c -> a <= b -> cdiv a c <= cdiv b c.
Proof. intros Hc H. unfold cdiv. assert (- b / c <= - a / c) by (apply Z.div_le_mono; lia). lia. Qed.

(** Boxes with a point. *)
Lemma coord_vmax i u v : coord i (vmax u v) = Z.max (coord i u) (coord i v).
Proof. destruct i as [|[|i]]; reflexivity. Qed.
Lemma coord_vmin i u v : coord i (vmin u v) = Z.min (coord i u) (coord i v).
Proof. destruct i as [|[|i]]; reflexivity. Qed.
Lemma overlap_coord a b : overlap a b = true <-> forall i, (i < 3)%nat ->
  coord i (bmin a) <= coord i (bmax b) /\ coord i (bmin b) <= coord i (bmax a).
Proof.
  rewrite overlap_ineq. split.
  - intros H i Hi. destruct i as [|[|[|i]]]; [| | |lia]; cbn; tauto.
  - intros H. pose proof (H 0%nat ltac:(lia)). pose proof (H 1%nat ltac:(lia)). pose proof (H 2%nat ltac:(lia)). cbn in *. tauto.
Qed.
Lemma nonempty_coord b : nonempty b <-> forall i, (i < 3)%nat -> coord i (bmin b) <= coord i (bmax b).
Proof.
  rewrite nonempty_ineq. split.
  - intros H i Hi. destruct i as [|[|[|i]]]; [| | |lia]; cbn; tauto.
  - intros H. pose proof (H 0%nat ltac:(lia)). pose proof (H 1%nat ltac:(lia)). pose proof (H 2%nat ltac:(lia)). cbn in *. tauto.
Qed.
Lemma contain_coord a b : contain a b = true <-> forall i, (i < 3)%nat ->
  coord i (bmin a) <= coord i (bmin b) /\ coord i (bmax b) <= coord i (bmax a).
Proof.
  destruct a as [[a1 a2 a3] [b1 b2 b3]], b as [[c1 c2 c3] [d1 d2 d3]].
  assert (E : contain (Box (V a1 a2 a3) (V b1 b2 b3)) (Box (V c1 c2 c3) (V d1 d2 d3)) = true <->
    a1 <= c1 /\ a2 <= c2 /\ a3 <= c3 /\ d1 <= b1 /\ d2 <= b2 /\ d3 <= b3).
  { unfold contain, any_gt, any_lt. cbn [bmin bmax vx vy vz].
    match goal with |- (if ?c then _ else if ?d then _ else _) = true <-> _ => destruct c eqn:E1; [|destruct d eqn:E2] end;
      (split; [intros H; try discriminate H|intros H]); lia. }
  rewrite E. split.
  - intros H i Hi. destruct i as [|[|[|i]]]; [| | |lia]; cbn; lia.
  - intros H. pose proof (H 0%nat ltac:(lia)). pose proof (H 1%nat ltac:(lia)). pose proof (H 2%nat ltac:(lia)). cbn in *. lia.
Qed.
Lemma part_coord s a p : overlap_part s a = Some p -> overlap s a = true /\ forall i,
  coord i (bmin p) = Z.max (coord i (bmin s)) (coord i (bmin a)) /\ coord i (bmax p) = Z.min (coord i (bmax s)) (coord i (bmax a)).
Proof.
  unfold overlap_part. destruct (overlap s a); [|discriminate]. intros E. injection E as <-. split; auto.
  intros i. cbn [bmin bmax]. rewrite coord_vmax, coord_vmin. auto.
Qed.

Lemma share_key g a b pa pb : 0 < cell g -> nonempty a -> nonempty b -> nonempty (scene g) -> overlap a b = true ->
  overlap_part (scene g) a = Some pa -> overlap_part (scene g) b = Some pb ->
  (forall i, (i < 3)%nat -> ~ on_plane g a b i) -> exists k, In k (keys g pa) /\ In k (keys g pb).
Proof.
  intros Hc Na Nb Ns Ho Ea Eb HP.
  apply part_coord in Ea as [Oa Ea]. apply part_coord in Eb as [Ob Eb].
  rewrite overlap_coord in Ho, Oa, Ob. rewrite nonempty_coord in Na, Nb, Ns.
  assert (G : forall i, (i < 3)%nat -> exists x, cell_min g pa i <= x < cell_max g pa i /\ cell_min g pb i <= x < cell_max g pb i).
  { intros i Hi. specialize (Ho i Hi). specialize (Oa i Hi). specialize (Ob i Hi). specialize (Na i Hi). specialize (Nb i Hi).
    specialize (Ns i Hi). specialize (HP i Hi). destruct (Ea i) as [Ea1 Ea2]. destruct (Eb i) as [Eb1 Eb2].
    unfold cell_min, cell_max. rewrite Ea1, Ea2, Eb1, Eb2. unfold on_plane in HP. cbv zeta in HP.
    set (s1 := coord i (bmin (scene g))) in *. set (s2 := coord i (bmax (scene g))) in *.
    set (a1 := coord i (bmin a)) in *. set (a2 := coord i (bmax a)) in *.
    set (b1 := coord i (bmin b)) in *. set (b2 := coord i (bmax b)) in *.
    set (lo := Z.max (Z.max a1 b1) s1) in *. set (hi := Z.min (Z.min a2 b2) s2) in *.
    assert (lo <= hi) by lia.
    exists ((lo - s1) / cell g).
    assert (L : (lo - s1) / cell g < cdiv (hi - s1) (cell g)).
    { apply ceil_floor; auto; [lia|]. destruct (Z.lt_ge_cases lo hi) as [|L]; [left; lia|right].
      intros n E. apply HP. split; auto. exists n. lia. }
    assert (cdiv (hi - s1) (cell g) <= cdiv (Z.min s2 a2 - s1) (cell g)) by (apply cdiv_mono; lia).
    assert (cdiv (hi - s1) (cell g) <= cdiv (Z.min s2 b2 - s1) (cell g)) by (apply cdiv_mono; lia).
    assert ((Z.max s1 a1 - s1) / cell g <= (lo - s1) / cell g) by (apply Z.div_le_mono; lia).
    assert ((Z.max s1 b1 - s1) / cell g <= (lo - s1) / cell g) by (apply Z.div_le_mono; lia).
    lia. }
  destruct (G 0%nat ltac:(lia)) as (x & Hx & Hx'). destruct (G 1%nat ltac:(lia)) as (y & Hy & Hy').
  destruct (G 2%nat ltac:(lia)) as (z & Hz & Hz'). exists (key g x y z). split; apply keys_In; exists x, y, z; auto.
Qed.

(** ** Queries *)

Section Queries.
  Variables (g : grid) (idx : Z -> Z) (m : shm) (regs : list obj) (box : obj -> aabb).
  Hypothesis HP : parts g idx m regs box.

  (** The candidates: without repetition, registered, complete. *)
  Lemma candidates_spec b : let l := h_candidates g idx b m in
    NoDup l /\ (forall a, In a l -> In a regs) /\
    (0 < cell g -> nonempty b -> nonempty (scene g) ->
     forall a, In a regs -> nonempty (box a) -> overlap b (box a) = true ->
       (overlap (scene g) b = true -> overlap (scene g) (box a) = true -> forall i, (i < 3)%nat -> ~ on_plane g b (box a) i) ->
       In a l).
  Proof using HP.
    destruct HP as ((P1 & P2) & (O1 & O2) & M & T). unfold h_candidates. cbv zeta.
    assert (OB : forall a, where_is g (box a) = Outside -> forall k, ~ In a (h_tab m k)).
    { intros a W k Ha. apply T in Ha as [_ Hb]. eapply bucket_outside; eauto. }
    destruct (overlap_part (scene g) b) as [p|] eqn:Ep.
    - destruct (t_query_spec idx (keys g p) (h_tab m)) as [QS QI].
      split; [|split].
      + apply NoDup_app_intro; [apply incr_NoDup; auto|destruct (contain (scene g) b); [constructor|auto]|].
        intros a Ha Hb. apply QI in Ha as (k & _ & Ha). destruct (contain (scene g) b); [destruct Hb|].
        apply O2 in Hb as [_ W]. eapply OB; eauto.
      + intros a Ha. apply in_app_iff in Ha as [Ha|Ha].
        * apply QI in Ha as (k & _ & Ha). apply T in Ha. tauto.
        * destruct (contain (scene g) b); [destruct Ha|]. apply O2 in Ha. tauto.
      + intros Hc Nb Ns a Ha Na Hov Hpl. apply in_app_iff.
        pose proof (part_coord _ _ _ Ep) as [Sb _].
        pose proof (where_part g (box a)) as W. destruct (where_is g (box a)) eqn:EW.
        1,2: left; apply QI; destruct W as (pa & Epa & _); destruct (part_coord _ _ _ Epa) as [Sa _];
          destruct (share_key g b (box a) p pa Hc Nb Na Ns Hov Ep Epa (Hpl Sb Sa)) as (k & K1 & K2);
          exists (idx k); split; [apply in_map; auto|]; apply T; split; auto; exists pa; split; auto; apply in_map; auto.
        right. destruct (contain (scene g) b) eqn:Ec; [|apply O2; auto]. exfalso.
        unfold where_is in EW. destruct (overlap (scene g) (box a)) eqn:E; [destruct (contain (scene g) (box a)); discriminate|].
        assert (overlap (scene g) (box a) = true); [|congruence]. apply overlap_coord. rewrite overlap_coord in Hov.
        rewrite contain_coord in Ec. intros i Hi. specialize (Hov i Hi). specialize (Ec i Hi). lia.
    - split; [|split].
      + apply NoDup_app_intro; auto. intros a Ha Hb. apply P2 in Ha as [_ Ha]. apply O2 in Hb as [_ Hb]. congruence.
      + intros a Ha. apply in_app_iff in Ha as [Ha|Ha]; [apply P2 in Ha|apply O2 in Ha]; tauto.
      + intros Hc Nb Ns a Ha Na Hov Hpl. apply in_app_iff. pose proof (where_part g (box a)) as W.
        destruct (where_is g (box a)) eqn:EW; [|left; apply P2; auto|right; apply O2; auto]. exfalso.
        destruct W as (pa & _ & Ec). unfold overlap_part in Ep. destruct (overlap (scene g) b) eqn:E; [discriminate|].
        assert (overlap (scene g) b = true); [|congruence]. apply overlap_coord. rewrite overlap_coord in Hov.
        rewrite contain_coord in Ec. intros i Hi. specialize (Hov i Hi). specialize (Ec i Hi). lia.
  Qed.
End Queries.
