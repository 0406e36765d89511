(** C21, C22, and C05, C06 for SpatialHashingCollisionManager. *)
From Coq Require Import ZArith List Bool Lia Permutation Arith.
From Verif Require Import AabbZ Broadphase QueryComb SSaP SpatialHash.
Import ListNotations.
Local Open Scope Z_scope.

(** ** C21: cells *)

(** The grid cell of a point on one axis. *)
Definition cell_of (g : grid) (p : vec) (i : nat) : Z := (coord i p - coord i (bmin (scene g))) / cell g.

(** The keys of a box include the key of the cell of each of its points, except points on a
    maximal face that lies in a plane of the grid. *)
Theorem hash_cells_cover : forall g b p, 0 < cell g -> in_box p b ->
  (forall i, (i < 3)%nat -> coord i p < coord i (bmax b) \/ forall n, coord i p <> coord i (bmin (scene g)) + n * cell g) ->
  In (key g (cell_of g p 0) (cell_of g p 1) (cell_of g p 2)) (keys g b).
Proof.
  intros g b p Hc Hp H. apply keys_In. exists (cell_of g p 0), (cell_of g p 1), (cell_of g p 2).
  assert (G : forall i, (i < 3)%nat -> cell_min g b i <= cell_of g p i < cell_max g b i).
  { intros i Hi. assert (Hb : coord i (bmin b) <= coord i p <= coord i (bmax b)).
    { destruct Hp as (? & ? & ?). destruct i as [|[|[|i]]]; [| | |lia]; cbn; auto. }
    specialize (H i Hi). unfold cell_min, cell_of, cell_max. split; [apply Z.div_le_mono; lia|].
    apply ceil_floor; auto; [lia|]. destruct H as [H|H]; [left; lia|right]. intros n E. apply (H n). lia. }
  split; [apply G; lia|]. split; [apply G; lia|]. split; [apply G; lia|auto].
Qed.
Print Assumptions hash_cells_cover.

(** Two boxes that overlap each other and the scene share a key, unless on some axis their common
    part inside the scene is flat and lies in a plane of the grid. *)
Theorem hash_overlap_share_key : forall g a b pa pb, 0 < cell g ->
  nonempty a -> nonempty b -> nonempty (scene g) -> overlap a b = true ->
  overlap_part (scene g) a = Some pa -> overlap_part (scene g) b = Some pb ->
  (forall i, (i < 3)%nat -> ~ on_plane g a b i) ->
  exists k, In k (keys g pa) /\ In k (keys g pb).
Proof. exact share_key. Qed.
Print Assumptions hash_overlap_share_key.

(** In particular when, on every axis, their interiors and that of the scene have pairwise a
    common point. *)
Definition interiors_meet (a b : aabb) : Prop := forall i, (i < 3)%nat ->
  coord i (bmin a) < coord i (bmax b) /\ coord i (bmin b) < coord i (bmax a).
Theorem hash_interiors_share_key : forall g a b pa pb, 0 < cell g ->
  interiors_meet a a -> interiors_meet b b -> interiors_meet (scene g) (scene g) ->
  interiors_meet a b -> interiors_meet a (scene g) -> interiors_meet b (scene g) ->
  overlap_part (scene g) a = Some pa -> overlap_part (scene g) b = Some pb ->
  exists k, In k (keys g pa) /\ In k (keys g pb).
Proof.
  intros g a b pa pb Hc Ha Hb Hs Hab Has Hbs Ea Eb. apply (share_key g a b pa pb); auto.
  - apply nonempty_coord. intros i Hi. specialize (Ha i Hi). lia.
  - apply nonempty_coord. intros i Hi. specialize (Hb i Hi). lia.
  - apply nonempty_coord. intros i Hi. specialize (Hs i Hi). lia.
  - apply overlap_coord. intros i Hi. specialize (Hab i Hi). lia.
  - intros i Hi [H _]. specialize (Ha i Hi). specialize (Hb i Hi). specialize (Hs i Hi). specialize (Hab i Hi).
    specialize (Has i Hi). specialize (Hbs i Hi). lia.
Qed.
Print Assumptions hash_interiors_share_key.

(** The cells of a box clipped to the scene are cells of the scene, and distinct cells of the
    scene have distinct keys while the scene has at most 2^32 cells. *)
Theorem hash_cells_in_scene : forall g b p i, 0 < cell g -> nonempty (scene g) -> overlap_part (scene g) b = Some p -> (i < 3)%nat ->
  0 <= cell_min g p i /\ cell_max g p i <= width g i.
Proof.
  intros g b p i Hc Ns E Hi. apply part_coord in E as [_ E]. destruct (E i) as [E1 E2]. rewrite nonempty_coord in Ns.
  specialize (Ns i Hi). unfold cell_min, cell_max, width. rewrite E1, E2. split.
  - apply Z.div_pos; lia.
  - apply cdiv_mono; lia.
Qed.
Print Assumptions hash_cells_in_scene.

Theorem hash_key_injective : forall g x y z x' y' z',
  width g 0 * width g 1 * width g 2 <= 2 ^ 32 ->
  0 <= x < width g 0 -> 0 <= y < width g 1 -> 0 <= z < width g 2 ->
  0 <= x' < width g 0 -> 0 <= y' < width g 1 -> 0 <= z' < width g 2 ->
  key g x y z = key g x' y' z' -> x = x' /\ y = y' /\ z = z'.
Proof.
  intros g x y z x' y' z' HW Hx Hy Hz Hx' Hy' Hz'. unfold key.
  set (w0 := width g 0) in *. set (w1 := width g 1) in *. set (w2 := width g 2) in *.
  assert (B : forall a b c, 0 <= a < w0 -> 0 <= b < w1 -> 0 <= c < w2 -> 0 <= a + b * w0 + c * w0 * w1 < 2 ^ 32).
  { intros a b c Ha Hb Hc. assert (b * w0 <= (w1 - 1) * w0) by nia.
    assert (P : 0 <= w0 * w1) by nia. assert (c * w0 * w1 <= (w2 - 1) * (w0 * w1)) by nia.
    assert (0 <= c * (w0 * w1)) by nia. nia. }
  rewrite !Z.mod_small by (apply B; auto). intros E.
  assert (E' : x + w0 * (y + w1 * z) = x' + w0 * (y' + w1 * z')) by lia.
  assert (Ex : x = x').
  { rewrite <- (Z.mod_small x w0), <- (Z.mod_small x' w0) by lia.
    rewrite <- (Z.mod_add x (y + w1 * z) w0), <- (Z.mod_add x' (y' + w1 * z') w0) by lia. f_equal. lia. }
  subst x'. assert (E2 : y + w1 * z = y' + w1 * z') by nia.
  assert (Ey : y = y').
  { rewrite <- (Z.mod_small y w1), <- (Z.mod_small y' w1) by lia.
    rewrite <- (Z.mod_add y z w1), <- (Z.mod_add y' z' w1) by lia. f_equal. lia. }
  subst y'. split; auto. split; auto. nia.
Qed.
Print Assumptions hash_key_injective.

Definition cube (a b : Z) : aabb := Box (V a a a) (V b b b).
Definition ten : grid := Grid (cube 0 100) 10.

(** Violation of the unconditional claim: a flat box in a plane of the grid has no key at all,
    although it overlaps the scene and other boxes. *)
Theorem hash_flat_refuted : exists b, nonempty b /\ contain (scene ten) b = true /\ keys ten b = [].
Proof.
  exists (Box (V 10 1 1) (V 10 5 5)). split; [exists (V 10 1 1); unfold in_box; cbn; lia|]. vm_compute. auto.
Qed.
Print Assumptions hash_flat_refuted.

(** ... and boxes that touch in a plane of the grid share no key. *)
Theorem hash_touching_refuted : exists a b, overlap a b = true /\ contain (scene ten) a = true /\ contain (scene ten) b = true /\
  interiors_meet a a /\ interiors_meet b b /\ forall k, ~ (In k (keys ten a) /\ In k (keys ten b)).
Proof.
  exists (cube 5 10), (cube 10 15). repeat (split; [first [reflexivity|intros i Hi; destruct i as [|[|[|i]]]; [| | |lia]; cbn; lia]|]).
  intros k [H1 H2]. vm_compute in H1, H2. intuition subst; discriminate.
Qed.
Print Assumptions hash_touching_refuted.

Example hash_cells_case :
  keys ten (cube 5 12) = [0; 100; 10; 110; 1; 101; 11; 111] /\ keys ten (cube 10 15) = [111] /\
  ~ (exists i, (i < 3)%nat /\ on_plane ten (cube 5 12) (cube 10 15) i).
Proof.
  split; [reflexivity|]. split; [reflexivity|]. intros (i & Hi & H & _). revert H.
  destruct i as [|[|[|i]]]; [| | |lia]; cbn; lia.
Qed.

(** ** The manager *)

Lemma h_reach MX g idx ops box0 : h_legal_history g ops box0 ->
  exists m, h_run MX g idx ops (h_empty, box0) = Some (m, hs_box (h_spec ops box0)) /\ hinv g idx m (h_spec ops box0).
Proof. intros HL. exact (h_run_inv MX g idx ops h_empty (HS [] box0 box0) (h_start_inv g idx box0) HL). Qed.
Lemma h_reach' MX g idx ops box0 m box : h_legal_history g ops box0 ->
  h_run MX g idx ops (h_empty, box0) = Some (m, box) -> box = hs_box (h_spec ops box0) /\ hinv g idx m (h_spec ops box0).
Proof. intros HL HR. destruct (h_reach MX g idx ops box0 HL) as (m' & E & I). rewrite E in HR. injection HR as <- <-. auto. Qed.

(** The legal histories of a manager never have undefined behaviour. *)
Theorem h_legal_total : forall MX g idx ops box0, h_legal_history g ops box0 ->
  exists m box, h_run MX g idx ops (h_empty, box0) = Some (m, box).
Proof. intros MX g idx ops box0 HL. destruct (h_reach MX g idx ops box0 HL) as (m & E & _). eauto. Qed.
Print Assumptions h_legal_total.

(** C06: size, empty and getObjects. *)
Theorem h_faithful_container : forall MX g idx ops box0 m box, h_legal_history g ops box0 ->
  h_run MX g idx ops (h_empty, box0) = Some (m, box) ->
  let regs := hs_regs (h_spec ops box0) in
  h_get m = regs /\ NoDup (h_get m) /\ h_size m = length regs /\ (h_is_empty m = true <-> regs = []).
Proof.
  intros MX g idx ops box0 m box HL HR regs. destruct (h_reach' _ _ _ _ _ _ _ HL HR) as (_ & E & ND & _).
  unfold h_get, h_size, h_is_empty. rewrite E. fold regs. repeat split; auto; destruct regs; intros; congruence.
Qed.
Print Assumptions h_faithful_container.

(** When is a pair not lost: the boxes overlap, and if both meet the scene then on no axis is their
    common part inside the scene flat in a plane of the grid. *)
Definition safely_meet (g : grid) (a b : aabb) : Prop :=
  nonempty a /\ nonempty b /\ overlap a b = true /\
  (overlap (scene g) a = true -> overlap (scene g) b = true -> forall i, (i < 3)%nat -> ~ on_plane g a b i).

(** Calls are made only on registered objects other than the first, at most once each, and on each
    registered object of [R]. *)
Definition complete_once (l : list (obj * obj)) (P R : obj -> obj -> Prop) : Prop :=
  NoDup l /\ (forall a b, In (a, b) l -> P a b) /\ (forall a b, P a b -> R a b -> In (a, b) l).

Lemma each_plays (f : obj -> bool) o l : plays (ceach (fun o2 => cwhen (f o2) (ccall o o2)) l)
  (map (pair o) (filter f l)).
Proof.
  induction l as [|a l IH]; cbn [ceach fold_right filter map]; [apply plays_skip|].
  replace (map (pair o) (if f a then a :: filter f l else filter f l))
    with ((if f a then [(o, a)] else []) ++ map (pair o) (filter f l)) by (destruct (f a); reflexivity).
  apply plays_seq; auto. apply plays_when, plays_call.
Qed.
Lemma NoDup_pair (o : obj) (l : list obj) : NoDup l -> NoDup (map (pair o) l).
Proof. apply FinFun.Injective_map_NoDup. intros a b E. congruence. Qed.
Lemma In_pair (o : obj) (f : obj -> bool) l a b : In (a, b) (map (pair o) (filter f l)) <-> a = o /\ In b l /\ f b = true.
Proof.
  rewrite in_map_iff. split.
  - intros (c & E & H). injection E as <- <-. apply filter_In in H. auto.
  - intros (-> & H). exists b. rewrite filter_In. auto.
Qed.

Lemma h_collide_spec g idx m regs box o : parts g idx m regs box -> 0 < cell g -> nonempty (scene g) ->
  exists l, plays (h_collide_ g idx box m o) l /\
  complete_once l (fun a b => a = o /\ b <> o /\ In b regs) (fun a b => safely_meet g (box a) (box b)).
Proof.
  intros HP Hc Ns. destruct (candidates_spec g idx m regs box HP (box o)) as (ND & HS & HC).
  eexists. split; [apply (each_plays (fun o2 => negb (Nat.eqb o o2)))|]. split; [|split].
  - apply NoDup_pair, NoDup_filter; auto.
  - intros a b H. apply In_pair in H as (-> & H & N). split; auto. apply negb_true_iff, Nat.eqb_neq in N. auto.
  - intros a b (-> & Hn & Hb) (Na & Nb & Hov & Hpl). apply In_pair. split; auto. split; auto.
    apply negb_true_iff, Nat.eqb_neq. auto.
Qed.

Lemma current_parts g idx m x : hinv g idx m x -> h_current x -> parts g idx m (hs_regs x) (hs_box x).
Proof. intros (_ & _ & HP) HC. eapply parts_ext; eauto. Qed.

(** C22: collide(obj), when the manager was told about the latest move of every registered object:
    each registered object other than obj is called back at most once, nothing else is, and every
    registered object whose box safely meets the box of obj is. *)
Theorem h_obj_complete : forall MX g idx ops box0 m box o, 0 < cell g -> nonempty (scene g) ->
  h_legal_history g ops box0 -> h_run MX g idx ops (h_empty, box0) = Some (m, box) -> h_current (h_spec ops box0) ->
  let Q := h_collide_obj g idx box m o in
  replays Q /\
  complete_once (calls Q) (fun a b => a = o /\ b <> o /\ In b (hs_regs (h_spec ops box0))) (fun a b => safely_meet g (box a) (box b)).
Proof.
  intros MX g idx ops box0 m box o Hc Ns HL HR HC Q. destruct (h_reach' _ _ _ _ _ _ _ HL HR) as (-> & I).
  pose proof (current_parts _ _ _ _ I HC) as HP. destruct I as (E & _). unfold Q, h_collide_obj, h_size.
  destruct (Nat.eqb_spec (length (h_objs m)) 0) as [E0|E0].
  - apply length_zero_iff_nil in E0. rewrite <- E, E0. destruct (plays_calls _ _ plays_skip) as [-> R]. split; auto.
    split; [constructor|]. split; cbn; tauto.
  - destruct (h_collide_spec g idx m _ _ o HP Hc Ns) as (l & Pl & H). destruct (plays_calls _ _ Pl) as [-> R]. auto.
Qed.
Print Assumptions h_obj_complete.

(** C22 for collide(): each unordered pair at most once. *)
Theorem h_self_complete : forall MX g idx ops box0 m box, 0 < cell g -> nonempty (scene g) ->
  h_legal_history g ops box0 -> h_run MX g idx ops (h_empty, box0) = Some (m, box) -> h_current (h_spec ops box0) ->
  let Q := h_collide_self g idx box m in let regs := hs_regs (h_spec ops box0) in
  replays Q /\
  complete_once (calls Q) (fun a b => (a < b)%nat /\ In a regs /\ In b regs) (fun a b => safely_meet g (box a) (box b)).
Proof.
  intros MX g idx ops box0 m box Hc Ns HL HR HC Q regs. destruct (h_reach' _ _ _ _ _ _ _ HL HR) as (-> & I).
  pose proof (current_parts _ _ _ _ I HC) as HP. destruct I as (E & NDr & _). fold regs in E, NDr, HP. unfold Q, h_collide_self, h_size.
  set (box := hs_box (h_spec ops box0)) in *.
  destruct (Nat.eqb_spec (length (h_objs m)) 0) as [E0|E0].
  - apply length_zero_iff_nil in E0. rewrite <- E, E0. destruct (plays_calls _ _ plays_skip) as [-> R]. split; auto.
    split; [constructor|]. split; cbn; tauto.
  - set (pl := fun o => map (pair o) (filter (Nat.ltb o) (h_candidates g idx (box o) m))).
    assert (Pl : plays (ceach (fun o1 => ceach (fun o2 => cwhen (Nat.ltb o1 o2) (ccall o1 o2)) (h_candidates g idx (box o1) m)) (h_objs m))
      (flat_map pl (h_objs m))).
    { apply plays_each. intros o _. apply (each_plays (Nat.ltb o)). }
    destruct (plays_calls _ _ Pl) as [-> R]. split; auto. rewrite E.
    assert (CS := fun o => candidates_spec g idx m regs box HP (box o)). cbv zeta in CS.
    split; [|split].
    + pose proof (fun o => proj1 (CS o)) as CN. clear - NDr CN. induction NDr as [|o l Ho ND IH]; cbn [flat_map]; [constructor|].
      apply NoDup_app_intro; auto.
      * apply NoDup_pair, NoDup_filter, CN.
      * intros [a b] H1 H2. apply In_pair in H1 as (-> & _). apply in_flat_map in H2 as (o' & Ho' & H2).
        apply In_pair in H2 as (-> & _). auto.
    + intros a b H. apply in_flat_map in H as (o & Ho & H). apply In_pair in H as (-> & Hb & L).
      apply Nat.ltb_lt in L. split; auto. split; auto. apply (CS o); auto.
    + intros a b (L & Ha & Hb) (Na & Nb & Hov & Hpl). apply in_flat_map. exists a. split; auto. apply In_pair.
      split; auto. split; [|apply Nat.ltb_lt; auto]. destruct (CS a) as (_ & _ & C). auto.
Qed.
Print Assumptions h_self_complete.

(** C22 for collide(other): the object of the smaller manager comes first. *)
Theorem h_other_complete : forall MX g idx ops box0 m box ops2 box02 m2, 0 < cell g -> nonempty (scene g) ->
  h_legal_history g ops box0 -> h_run MX g idx ops (h_empty, box0) = Some (m, box) -> h_current (h_spec ops box0) ->
  h_legal_history g ops2 box02 -> h_run MX g idx ops2 (h_empty, box02) = Some (m2, box) -> h_current (h_spec ops2 box02) ->
  let mine := hs_regs (h_spec ops box0) in let theirs := hs_regs (h_spec ops2 box02) in
  let Q := h_collide_other g idx box m m2 in
  replays Q /\
  complete_once (calls Q) (fun a b => a <> b /\
    if Nat.ltb (length mine) (length theirs) then In a mine /\ In b theirs else In a theirs /\ In b mine)
    (fun a b => safely_meet g (box a) (box b)).
Proof.
  intros MX g idx ops box0 m box ops2 box02 m2 Hc Ns HL HR HC HL2 HR2 HC2 mine theirs Q.
  destruct (h_reach' _ _ _ _ _ _ _ HL HR) as (Eb & I). destruct (h_reach' _ _ _ _ _ _ _ HL2 HR2) as (Eb2 & I2).
  pose proof (current_parts _ _ _ _ I HC) as HP. pose proof (current_parts _ _ _ _ I2 HC2) as HP2.
  rewrite <- Eb in HP. rewrite <- Eb2 in HP2. destruct I as (E & ND & _). destruct I2 as (E2 & ND2 & _).
  fold mine in E, ND, HP. fold theirs in E2, ND2, HP2.
  assert (G : forall m' regs l, parts g idx m' regs box -> NoDup l ->
    replays (ceach (h_collide_ g idx box m') l) /\
    complete_once (calls (ceach (h_collide_ g idx box m') l)) (fun a b => a <> b /\ In a l /\ In b regs) (fun a b => safely_meet g (box a) (box b))).
  { clear - Hc Ns. intros m' regs l HP ND.
    set (pl := fun o => map (pair o) (filter (fun o2 => negb (Nat.eqb o o2)) (h_candidates g idx (box o) m'))).
    assert (Pl : plays (ceach (h_collide_ g idx box m') l) (flat_map pl l)).
    { apply plays_each. intros o _. apply (each_plays (fun o2 => negb (Nat.eqb o o2))). }
    destruct (plays_calls _ _ Pl) as [-> R]. split; auto.
    assert (CS := fun o => candidates_spec g idx m' regs box HP (box o)). cbv zeta in CS.
    split; [|split].
    - pose proof (fun o => proj1 (CS o)) as CN. clear - ND CN. induction ND as [|o l Ho ND IH]; cbn [flat_map]; [constructor|].
      apply NoDup_app_intro; auto.
      + apply NoDup_pair, NoDup_filter, CN.
      + intros [a b] H1 H2. apply In_pair in H1 as (-> & _). apply in_flat_map in H2 as (o' & Ho' & H2).
        apply In_pair in H2 as (-> & _). auto.
    - intros a b H. apply in_flat_map in H as (o & Ho & H). apply In_pair in H as (-> & Hb & L).
      apply negb_true_iff, Nat.eqb_neq in L. split; auto. split; auto. apply (CS o); auto.
    - intros a b (L & Ha & Hb) (Na & Nb & Hov & Hpl). apply in_flat_map. exists a. split; auto. apply In_pair.
      split; auto. split; [|apply negb_true_iff, Nat.eqb_neq; auto]. destruct (CS a) as (_ & _ & C). auto. }
  unfold Q, h_collide_other, h_size. rewrite E, E2.
  destruct (Nat.eqb_spec (length mine) 0) as [E0|E0]; [|destruct (Nat.eqb_spec (length theirs) 0) as [E0'|E0']]; cbn [orb].
  1,2: destruct (plays_calls _ _ plays_skip) as [-> R]; split; auto; split; [constructor|]; split; [cbn; tauto|];
    intros a b [_ H]; exfalso; apply length_zero_iff_nil in E0 || apply length_zero_iff_nil in E0';
    rewrite ?E0, ?E0' in H; destruct (Nat.ltb _ _); cbn in H; tauto.
  destruct (Nat.ltb (length mine) (length theirs)); [apply (G m2 theirs mine)|apply (G m mine theirs)]; auto.
Qed.
Print Assumptions h_other_complete.

(** ** Violations *)

Definition sp (idx : Z -> Z) ops (P : shm -> (obj -> aabb) -> Prop) : Prop :=
  match h_run 1000 ten idx ops (h_empty, fun _ => cube 0 0) with Some (m, box) => P m box | None => False end.

(** C22: a flat box in a plane of the grid is never found, however deep inside the queried box;
    nor is a box that touches the queried box in a plane of the grid. *)
Theorem h_flat_refuted :
  sp sparse_idx [HMove 1%nat (Box (V 10 1 1) (V 10 5 5)); HReg 1%nat; HMove 2%nat (cube 0 90); HReg 2%nat] (fun m box =>
    overlap (box 1%nat) (box 2%nat) = true /\ contain (box 2%nat) (box 1%nat) = true /\
    calls (h_collide_obj ten sparse_idx box m 2%nat) = [] /\ calls (h_collide_obj ten sparse_idx box m 1%nat) = [] /\
    calls (h_collide_self ten sparse_idx box m) = []).
Proof. vm_compute. auto. Qed.
Print Assumptions h_flat_refuted.

Theorem h_touching_refuted :
  sp sparse_idx [HMove 1%nat (cube 5 10); HReg 1%nat; HMove 2%nat (cube 10 15); HReg 2%nat] (fun m box =>
    overlap (box 1%nat) (box 2%nat) = true /\
    calls (h_collide_obj ten sparse_idx box m 2%nat) = [] /\ calls (h_collide_self ten sparse_idx box m) = []).
Proof. vm_compute. auto. Qed.
Print Assumptions h_touching_refuted.

(** C22: clear() keeps the list of objects straddling the border of the scene: afterwards
    collide(obj) for an object outside the scene calls back an object that is not registered. *)
Theorem h_clear_refuted :
  sp sparse_idx [HMove 1%nat (cube 95 105); HReg 1%nat; HClear; HMove 2%nat (cube 200 210); HReg 2%nat; HMove 3%nat (cube 300 310)] (fun m box =>
    h_get m = [2%nat] /\ calls (h_collide_obj ten sparse_idx box m 3%nat) = [(3, 1); (3, 2)]%nat).
Proof. vm_compute. auto. Qed.
Print Assumptions h_clear_refuted.

(** C22: unregisterObject works on the current box: an object that moved since registration stays
    in the table and keeps being called back. *)
Theorem h_unregister_moved_refuted :
  sp sparse_idx [HMove 1%nat (cube 1 5); HReg 1%nat; HMove 2%nat (cube 2 6); HReg 2%nat; HMove 1%nat (cube 51 55); HUnreg 1%nat] (fun m box =>
    h_get m = [2%nat] /\ calls (h_collide_obj ten sparse_idx box m 2%nat) = [(2, 1)]%nat).
Proof. vm_compute. auto. Qed.
Print Assumptions h_unregister_moved_refuted.

(** update(obj) for an object that is not registered erases the end iterator of a list. *)
Theorem h_update_unregistered_refuted :
  h_run 1000 ten sparse_idx [HMove 1%nat (cube 1 5); HUpdateObj 1%nat] (h_empty, fun _ => cube 0 0) = None.
Proof. vm_compute. auto. Qed.
Print Assumptions h_update_unregistered_refuted.

(** A case: five objects, inside, straddling and outside; a table of 7 buckets (where distinct
    cells collide) and a sparse table.  The query box 3 straddles the border. *)
Definition case_ops : list hop :=
  [HMove 1%nat (cube 1 5); HReg 1%nat; HMove 2%nat (cube 4 12); HReg 2%nat; HMove 3%nat (cube 98 120); HReg 3%nat;
   HMove 4%nat (cube 110 130); HReg 4%nat; HMove 5%nat (cube 99 105); HReg 5%nat; HMove 4%nat (cube 3 4); HUpdateObj 4%nat;
   HUnreg 1%nat; HMove 2%nat (cube 115 140); HUpdate; HSetup].
Example h_case_legal : h_legal_history ten case_ops (fun _ => cube 0 0) /\ h_current (h_spec case_ops (fun _ => cube 0 0)) /\
  hs_regs (h_spec case_ops (fun _ => cube 0 0)) = [2; 3; 4; 5]%nat.
Proof. vm_compute. repeat split; auto; intuition discriminate. Qed.
Example h_case_runs :
  sp sparse_idx case_ops (fun m box => calls (h_collide_obj ten sparse_idx box m 3%nat) = [(3, 5); (3, 2)]%nat /\
    calls (h_collide_self ten sparse_idx box m) = [(2, 3); (2, 5); (3, 5)]%nat) /\
  sp (simple_idx 7) case_ops (fun m box => calls (h_collide_obj ten (simple_idx 7) box m 3%nat) = [(3, 5); (3, 2)]%nat).
Proof. vm_compute. auto. Qed.
Example h_case_meets : safely_meet ten (cube 98 120) (cube 99 105) /\ safely_meet ten (cube 98 120) (cube 115 140).
Proof.
  assert (N : forall a b, a <= b -> nonempty (cube a b)) by (intros a b H; exists (V a a a); unfold in_box; cbn; lia).
  split; (split; [apply N; lia|]; split; [apply N; lia|]; split; [reflexivity|]).
  - intros _ _ i Hi (H & _). revert H. destruct i as [|[|[|i]]]; [| | |lia]; cbn; lia.
  - intros _ H. discriminate H.
Qed.
