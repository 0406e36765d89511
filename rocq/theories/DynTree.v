(** DynamicAABBTreeCollisionManager
    (include/fcl/broadphase/broadphase_dynamic_AABB_tree-inl.h): queries on the tree, and the
    manager that keeps it.  Octree geometries (62-486, 905-917) are not covered here. *)
From Coq Require Import ZArith List Bool Lia Permutation Arith.
From Verif Require Import AabbZ Broadphase QueryComb HTree HTreeRun.
Import ListNotations.
Local Open Scope Z_scope.

(** ** Queries on trees *)

(** The descent rule (510, 591): into the first tree. *)
Definition descend_first (t1 t2 : tree) : bool :=
  is_leaf t2 || (negb (is_leaf t1) && (bsize (bvof t2) <? bsize (bvof t1))).

(** collisionRecurse(root1, root2, ...) (493-525). *)
Fixpoint tt_collide (t1 : tree) : tree -> query :=
  fix go (t2 : tree) : query :=
    match t1, t2 with
    | Leaf _ b1 d1, Leaf _ b2 d2 => cwhen (overlap b1 b2) (ccall d1 d2)
    | Node b1 l1 r1, Leaf _ b2 _ =>
        cwhen (overlap b1 b2) (cseq (tt_collide l1 t2) (tt_collide r1 t2))
    | Leaf _ b1 _, Node b2 l2 r2 =>
        cwhen (overlap b1 b2) (cseq (go l2) (go r2))
    | Node b1 l1 r1, Node b2 l2 r2 =>
        cwhen (overlap b1 b2)
          (if descend_first t1 t2 then cseq (tt_collide l1 t2) (tt_collide r1 t2)
           else cseq (go l2) (go r2))
    end.

(** collisionRecurse(root, query, ...) (529-552); [q] is the query's AABB, [o] the query. *)
Fixpoint tq_collide (t : tree) (q : aabb) (o : obj) : query :=
  match t with
  | Leaf _ b d => cwhen (overlap b q) (ccall d o)
  | Node b l r =>
      cwhen (overlap b q)
        (if select q l r then cseq (tq_collide r q o) (tq_collide l q o)
         else cseq (tq_collide l q o) (tq_collide r q o))
  end.

(** selfCollisionRecurse (556-571). *)
Fixpoint self_collide (t : tree) : query :=
  match t with
  | Leaf _ _ _ => cskip
  | Node _ l r => cseq (self_collide l) (cseq (self_collide r) (tt_collide l r))
  end.

(** The common pattern of 596-625: nearer child first, each only if closer than the minimum. *)
Definition dboth (d1 d2 : Z) (Q1 Q2 : dquery) : dquery :=
  if d2 <? d1 then dseq (dprune d2 Q2) (dprune d1 Q1)
  else dseq (dprune d1 Q1) (dprune d2 Q2).

(** distanceRecurse(root1, root2, ...) (575-661).  [adist] is AABB::distance
    (AABB-inl.h:292-315), of which only the order of its values matters here. *)
Fixpoint tt_distance (adist : aabb -> aabb -> Z) (t1 : tree) : tree -> dquery :=
  fix go (t2 : tree) : dquery :=
    match t1, t2 with
    | Leaf _ _ d1, Leaf _ _ d2 => dcall d1 d2
    | Node _ l1 r1, Leaf _ b2 _ =>
        dboth (adist b2 (bvof l1)) (adist b2 (bvof r1))
          (tt_distance adist l1 t2) (tt_distance adist r1 t2)
    | Leaf _ b1 _, Node _ l2 r2 =>
        dboth (adist b1 (bvof l2)) (adist b1 (bvof r2)) (go l2) (go r2)
    | Node b1 l1 r1, Node b2 l2 r2 =>
        if descend_first t1 t2
        then dboth (adist b2 (bvof l1)) (adist b2 (bvof r1))
               (tt_distance adist l1 t2) (tt_distance adist r1 t2)
        else dboth (adist b1 (bvof l2)) (adist b1 (bvof r2)) (go l2) (go r2)
    end.

(** distanceRecurse(root, query, ...) (665-706). *)
Fixpoint tq_distance (adist : aabb -> aabb -> Z) (t : tree) (q : aabb) (o : obj) : dquery :=
  match t with
  | Leaf _ _ d => dcall d o
  | Node _ l r => dboth (adist q (bvof l)) (adist q (bvof r))
                    (tq_distance adist l q o) (tq_distance adist r q o)
  end.

(** selfDistanceRecurse (710-725). *)
Fixpoint self_distance (adist : aabb -> aabb -> Z) (t : tree) : dquery :=
  match t with
  | Leaf _ _ _ => dskip
  | Node _ l r => dseq (self_distance adist l) (dseq (self_distance adist r) (tt_distance adist l r))
  end.

(** ** The manager *)

(** Members dtree, table (an unordered_map, as a list of bindings with distinct keys) and
    setup_ (broadphase_dynamic_AABB_tree.h:76-150). *)
Record dman := { d_tree : hstate; d_table : list (obj * nat); d_setup : bool }.
Definition dman_new : dman := {| d_tree := hempty; d_table := []; d_setup := false |}.

(** The tunable public members (75-85) and the floating point height test of setup (809):
    [c_flat height num] stands for height - log2(num) < max_tree_nonbalanced_level. *)
Record cfg := { c_level : Z; c_pass : Z; c_flat : nat -> nat -> bool }.

Definition lookup (o : obj) (t : list (obj * nat)) : option nat :=
  option_map snd (find (fun p => Nat.eqb (fst p) o) t).
Definition erase (o : obj) (t : list (obj * nat)) : list (obj * nat) :=
  filter (fun p => negb (Nat.eqb (fst p) o)) t.
Definition assign (o : obj) (id : nat) (t : list (obj * nat)) : list (obj * nat) :=
  (o, id) :: erase o t.

Definition set_tree (m : dman) (h : hstate) : dman :=
  {| d_tree := h; d_table := d_table m; d_setup := d_setup m |}.

(** registerObject (781-787). *)
Definition d_register (e : env) (box : obj -> aabb) (o : obj) (m : dman) : option dman :=
  match hstep e (d_tree m) (HInsert (box o) o) with
  | Some h => Some {| d_tree := h; d_table := assign o (h_next (d_tree m)) (d_table m);
                      d_setup := d_setup m |}
  | None => None
  end.

Fixpoint opt_fold {A B} (f : A -> B -> option B) (l : list A) (b : B) : option B :=
  match l with
  | [] => Some b
  | x :: r => match f x b with Some b' => opt_fold f r b' | None => None end
  end.

(** The table entries written by registerObjects (762-771). *)
Definition assign_all (n : nat) (l : list obj) (t : list (obj * nat)) : list (obj * nat) :=
  fst (fold_left (fun st o => (assign o (snd st) (fst st), S (snd st))) l (t, n)).

(** registerObjects (746-777). *)
Definition d_registers (e : env) (c : cfg) (box : obj -> aabb) (l : list obj) (m : dman) : option dman :=
  match l with
  | [] => Some m
  | _ =>
      if Nat.ltb 0 (h_n (d_tree m)) then opt_fold (d_register e box) l m
      else
        match hstep e (d_tree m) (HInit (c_level c) (map (fun o => (box o, o)) l)) with
        | Some h => Some {| d_tree := h; d_table := assign_all (h_next (d_tree m)) l (d_table m);
                            d_setup := true |}
        | None => None
        end
  end.

(** unregisterObject (791-797).  An object without entry yields a null node, which remove
    dereferences ([None]). *)
Definition d_unregister (e : env) (o : obj) (m : dman) : option dman :=
  match lookup o (d_table m) with
  | Some id =>
      match hstep e (d_tree m) (HRemove id) with
      | Some h => Some {| d_tree := h; d_table := erase o (d_table m); d_setup := d_setup m |}
      | None => None
      end
  | None => None
  end.

(** setup (801-823). *)
Definition root_height (r : option tree) : nat := match r with Some t => height t | None => 0 end.
Definition d_setup_ (e : env) (c : cfg) (m : dman) : option dman :=
  if d_setup m then Some m
  else
    let done h := Some {| d_tree := h; d_table := d_table m; d_setup := true |} in
    if Nat.eqb (h_n (d_tree m)) 0 then done (d_tree m)
    else
      match hstep e (d_tree m)
              (if c_flat c (root_height (h_root (d_tree m))) (h_n (d_tree m))
               then HBalInc (c_pass c) else HBalTop) with
      | Some h => done h
      | None => None
      end.

(** update() (827-842). *)
Definition unset (m : dman) : dman :=
  {| d_tree := d_tree m; d_table := d_table m; d_setup := false |}.
Definition d_update (e : env) (c : cfg) (box : obj -> aabb) (m : dman) : option dman :=
  match hstep e (d_tree m) (HWrite (map (fun p => (snd p, box (fst p))) (d_table m))) with
  | Some h => d_setup_ e c (unset (set_tree m h))
  | None => None
  end.

(** update_(obj) (846-857). *)
Definition d_update_one (e : env) (box : obj -> aabb) (o : obj) (m : dman) : option dman :=
  match lookup o (d_table m) with
  | None => Some (unset m)
  | Some id =>
      match h_root (d_tree m) with
      | None => None
      | Some t =>
          match find_leaf id t with
          | None => None
          | Some (b, _) =>
              if e_equal e b (box o) then Some (unset m)
              else match hstep e (d_tree m) (HUpdate id (box o)) with
                   | Some h => Some (unset (set_tree m h))
                   | None => None
                   end
          end
      end
  end.

(** clear (881-886): setup_ keeps its value. *)
Definition d_clear (m : dman) : dman :=
  {| d_tree := {| h_root := None; h_n := 0; h_opath := 0; h_next := h_next (d_tree m) |};
     d_table := []; d_setup := d_setup m |}.

(** getObjects (890-895): the vector is resized to size() and the table keys written to its
    front.  [None]: more keys than slots (a write past the end). *)
Definition d_get (m : dman) : option (list (option obj)) :=
  if Nat.leb (length (d_table m)) (h_n (d_tree m)) then
    Some (map (fun p => Some (fst p)) (d_table m)
            ++ repeat None (h_n (d_tree m) - length (d_table m)))
  else None.
(** size, empty (1016-1027; hierarchy_tree-inl.h:126-129, 306-309). *)
Definition d_size (m : dman) : nat := h_n (d_tree m).
Definition d_empty (m : dman) : bool := match h_root (d_tree m) with None => true | Some _ => false end.

(** collide(obj), collide(), collide(other) (899-1008). *)
Definition on_root (m : dman) (f : tree -> query) : query :=
  if Nat.eqb (d_size m) 0 then cskip
  else match h_root (d_tree m) with Some t => f t | None => cskip end.
Definition d_collide_obj (m : dman) (box : obj -> aabb) (o : obj) : query :=
  on_root m (fun t => tq_collide t (box o) o).
Definition d_collide_self (m : dman) : query := on_root m self_collide.
Definition d_collide_other (m m2 : dman) : query :=
  on_root m (fun t1 => on_root m2 (fun t2 => tt_collide t1 t2)).
Definition don_root (m : dman) (f : tree -> dquery) : dquery :=
  if Nat.eqb (d_size m) 0 then dskip
  else match h_root (d_tree m) with Some t => f t | None => dskip end.
Definition d_distance_obj (adist : aabb -> aabb -> Z) (m : dman) (box : obj -> aabb) (o : obj) : dquery :=
  don_root m (fun t => tq_distance adist t (box o) o).
Definition d_distance_self (adist : aabb -> aabb -> Z) (m : dman) : dquery :=
  don_root m (self_distance adist).
Definition d_distance_other (adist : aabb -> aabb -> Z) (m m2 : dman) : dquery :=
  don_root m (fun t1 => don_root m2 (fun t2 => tt_distance adist t1 t2)).

(** ** Histories *)

Inductive dop :=
| DMove (o : obj) (b : aabb)      (** the object moves: getAABB() becomes [b] *)
| DReg (o : obj) | DRegs (l : list obj) | DUnreg (o : obj)
| DSetup | DUpdate | DUpdateObj (o : obj) | DUpdateObjs (l : list obj) | DClear.

Definition moved (box : obj -> aabb) (o : obj) (b : aabb) : obj -> aabb :=
  fun x => if Nat.eqb x o then b else box x.

(** update(obj), update(objs) (861-878). *)
Definition dstep (e : env) (c : cfg) (op : dop) (w : dman * (obj -> aabb))
  : option (dman * (obj -> aabb)) :=
  let (m, box) := w in
  let keep r := option_map (fun m' => (m', box)) r in
  match op with
  | DMove o b => Some (m, moved box o b)
  | DReg o => keep (d_register e box o m)
  | DRegs l => keep (d_registers e c box l m)
  | DUnreg o => keep (d_unregister e o m)
  | DSetup => keep (d_setup_ e c m)
  | DUpdate => keep (d_update e c box m)
  | DUpdateObj o =>
      keep (match d_update_one e box o m with Some m1 => d_setup_ e c m1 | None => None end)
  | DUpdateObjs l =>
      keep (match opt_fold (d_update_one e box) l m with Some m1 => d_setup_ e c m1 | None => None end)
  | DClear => keep (Some (d_clear m))
  end.
Definition drun (e : env) (c : cfg) (ops : list dop) (box0 : obj -> aabb) : option (dman * (obj -> aabb)) :=
  opt_fold (dstep e c) ops (dman_new, box0).

(** ** Specification of a history *)

(** Registered objects, and those that moved since their box was last handed to the manager. *)
Definition reg_step (regs : list obj) (op : dop) : list obj :=
  match op with
  | DReg o => o :: regs
  | DRegs l => l ++ regs
  | DUnreg o => remove Nat.eq_dec o regs
  | DClear => []
  | _ => regs
  end.
Definition registered (ops : list dop) : list obj := fold_left reg_step ops [].
Definition dirty_step (dirty : list obj) (op : dop) : list obj :=
  match op with
  | DMove o _ => o :: dirty
  | DReg o | DUpdateObj o => remove Nat.eq_dec o dirty
  | DRegs l | DUpdateObjs l => filter (fun x => negb (existsb (Nat.eqb x) l)) dirty
  | DUpdate => []
  | DUnreg _ | DSetup | DClear => dirty
  end.
Definition unsynced (ops : list dop) : list obj := fold_left dirty_step ops [].
(** Where every object is. *)
Definition box_step (box : obj -> aabb) (op : dop) : obj -> aabb :=
  match op with DMove o b => moved box o b | _ => box end.
Definition where_ (ops : list dop) (box0 : obj -> aabb) : obj -> aabb := fold_left box_step ops box0.

(** The documented usage: no object registered twice, no stranger unregistered. *)
Definition proper_op (regs : list obj) (op : dop) : Prop :=
  match op with
  | DReg o => ~ In o regs
  | DRegs l => NoDup (l ++ regs)
  | DUnreg o => In o regs
  | _ => True
  end.
Fixpoint proper (ops : list dop) (regs : list obj) : Prop :=
  match ops with
  | [] => True
  | op :: r => proper_op regs op /\ proper r (reg_step regs op)
  end.

(** [b] is good enough for current AABB [c]: it contains it, or AABB::equal calls them equal. *)
Definition tracks (e : env) (b c : aabb) : Prop := contain b c = true \/ e_equal e b c = true.

(** ** Queries on one well formed tree *)

Notation leaf := (nat * aabb * obj)%type.
Definition datas (p : leaf * leaf) : obj * obj := (leaf_data (fst p), leaf_data (snd p)).
Definition hits (p : leaf * leaf) : bool := overlap (leaf_bv (fst p)) (leaf_bv (snd p)).

(** All pairs of leaves with overlapping boxes, across two lists and within one. *)
Definition cross (l1 l2 : list leaf) : list (obj * obj) := map datas (filter hits (list_prod l1 l2)).
Fixpoint within (l : list leaf) : list (leaf * leaf) :=
  match l with
  | [] => []
  | x :: r => map (pair x) r ++ within r
  end.
Definition inner (l : list leaf) : list (obj * obj) := map datas (filter hits (within l)).

Lemma filter_perm {A} (f : A -> bool) l l' : Permutation l l' -> Permutation (filter f l) (filter f l').
Proof.
  induction 1; cbn; auto.
  - destruct (f x); auto.
  - destruct (f x), (f y); auto; constructor.
  - etransitivity; eauto.
Qed.
Lemma list_prod_app_l {A B} (l1 l2 : list A) (m : list B) :
  list_prod (l1 ++ l2) m = list_prod l1 m ++ list_prod l2 m.
Proof. induction l1; cbn; auto. rewrite IHl1, app_assoc; auto. Qed.
Lemma list_prod_app_r {A B} (l : list A) (m1 m2 : list B) :
  Permutation (list_prod l (m1 ++ m2)) (list_prod l m1 ++ list_prod l m2).
Proof.
  induction l as [|x l IH]; cbn; auto. rewrite map_app, IH.
  rewrite <- !app_assoc. apply Permutation_app_head.
  rewrite !app_assoc. apply Permutation_app_tail. apply Permutation_app_comm.
Qed.
Lemma within_app l1 l2 :
  Permutation (within (l1 ++ l2)) (within l1 ++ within l2 ++ list_prod l1 l2).
Proof.
  induction l1 as [|x l1 IH]; cbn; [rewrite app_nil_r; auto|].
  rewrite map_app, IH, <- !app_assoc. apply Permutation_app_head.
  etransitivity; [apply Permutation_app_swap_app|]. apply Permutation_app_head, Permutation_app_swap_app.
Qed.

Lemma cross_app_l l1 l2 m : cross (l1 ++ l2) m = cross l1 m ++ cross l2 m.
Proof. unfold cross. rewrite list_prod_app_l, filter_app, map_app; auto. Qed.
Lemma cross_app_r l m1 m2 : Permutation (cross l (m1 ++ m2)) (cross l m1 ++ cross l m2).
Proof.
  unfold cross. rewrite <- map_app, <- filter_app. apply Permutation_map, filter_perm, list_prod_app_r.
Qed.
Lemma inner_app l1 l2 : Permutation (inner (l1 ++ l2)) (inner l1 ++ inner l2 ++ cross l1 l2).
Proof.
  unfold inner, cross. rewrite <- !map_app, <- !filter_app.
  apply Permutation_map, filter_perm, within_app.
Qed.

Lemma cross_apart t1 t2 : wf t1 -> wf t2 -> overlap (bvof t1) (bvof t2) = false ->
  cross (leaves t1) (leaves t2) = [].
Proof.
  intros W1 W2 E. unfold cross.
  assert (filter hits (list_prod (leaves t1) (leaves t2)) = []) as ->; auto.
  destruct (filter _ _) as [|[x y] r] eqn:F; auto. exfalso.
  assert (H : In (x, y) (filter hits (list_prod (leaves t1) (leaves t2)))) by (rewrite F; left; auto).
  apply filter_In in H as [H1 H2]. apply in_prod_iff in H1 as [Hx Hy].
  apply leaf_below in Hx. apply leaf_below in Hy.
  pose proof (wf_below _ W1 _ Hx). pose proof (wf_below _ W2 _ Hy).
  unfold hits in H2. cbn in H2. erewrite overlap_mono in E; eauto. discriminate.
Qed.

Lemma plays_guard t1 t2 Q : wf t1 -> wf t2 ->
  (exists l, plays Q l /\ Permutation l (cross (leaves t1) (leaves t2))) ->
  exists l, plays (cwhen (overlap (bvof t1) (bvof t2)) Q) l /\
            Permutation l (cross (leaves t1) (leaves t2)).
Proof.
  intros W1 W2 (l & H & P). destruct (overlap (bvof t1) (bvof t2)) eqn:E; cbn; eauto.
  exists []. rewrite cross_apart; auto using plays_skip.
Qed.
Lemma plays_both P Q L L1 L2 : Permutation L (L1 ++ L2) ->
  (exists l, plays P l /\ Permutation l L1) -> (exists l, plays Q l /\ Permutation l L2) ->
  exists l, plays (cseq P Q) l /\ Permutation l L.
Proof.
  intros HL (l1 & H1 & P1) (l2 & H2 & P2). exists (l1 ++ l2). split; [apply plays_seq; auto|].
  rewrite HL, P1, P2. auto.
Qed.

Lemma tt_collide_ok t1 : wf t1 -> forall t2, wf t2 ->
  exists l, plays (tt_collide t1 t2) l /\ Permutation l (cross (leaves t1) (leaves t2)).
Proof.
  induction t1 as [i1 b1 d1|b1 l1 IHl1 r1 IHr1]; intros W1.
  - induction t2 as [i2 b2 d2|b2 l2 IHl2 r2 IHr2]; intros W2.
    + cbn [tt_collide]. exists (if overlap b1 b2 then [(d1, d2)] else []).
      split; [apply plays_when, plays_call|]. unfold cross, hits; cbn.
      destruct (overlap b1 b2); auto.
    + cbn [tt_collide]. apply (plays_guard (Leaf i1 b1 d1) (Node b2 l2 r2)); auto.
      destruct W2 as (_ & _ & Wl & Wr).
      eapply plays_both; [cbn [leaves]; apply cross_app_r| |]; auto.
  - assert (Down : forall t2, wf t2 -> exists l, plays (cseq (tt_collide l1 t2) (tt_collide r1 t2)) l /\
              Permutation l (cross (leaves (Node b1 l1 r1)) (leaves t2))).
    { intros t2 W2. destruct W1 as (_ & _ & Wl & Wr).
      eapply plays_both; [cbn [leaves]; rewrite cross_app_l; reflexivity| |]; auto. }
    induction t2 as [i2 b2 d2|b2 l2 IHl2 r2 IHr2]; intros W2.
    + apply (plays_guard (Node b1 l1 r1) (Leaf i2 b2 d2)); auto.
    + apply (plays_guard (Node b1 l1 r1) (Node b2 l2 r2)); auto.
      destruct (descend_first (Node b1 l1 r1) (Node b2 l2 r2)); auto.
      destruct W2 as (_ & _ & Wl & Wr).
      eapply plays_both; [cbn [leaves]; apply cross_app_r| |]; [apply IHl2|apply IHr2]; auto.
Qed.

(** The query object seen as a leaf. *)
Definition as_leaf (q : aabb) (o : obj) : leaf := (0%nat, q, o).
Lemma tq_collide_ok t q o : wf t ->
  exists l, plays (tq_collide t q o) l /\ Permutation l (cross (leaves t) [as_leaf q o]).
Proof.
  induction t as [i b d|b l IHl r IHr]; intros W; cbn [tq_collide].
  - exists (if overlap b q then [(d, o)] else []).
    split; [apply plays_when, plays_call|]. unfold cross, hits; cbn. destruct (overlap b q); auto.
  - apply (plays_guard (Node b l r) (Leaf 0 q o)); auto; [exact I|].
    destruct W as (_ & _ & Wl & Wr). cbn [leaves]. destruct (select q l r).
    + eapply plays_both; [|apply IHr; auto|apply IHl; auto]. rewrite cross_app_l. apply Permutation_app_comm.
    + eapply plays_both; [|apply IHl; auto|apply IHr; auto]. rewrite cross_app_l. reflexivity.
Qed.

Lemma self_collide_ok t : wf t ->
  exists l, plays (self_collide t) l /\ Permutation l (inner (leaves t)).
Proof.
  induction t as [i b d|b l IHl r IHr]; intros W; cbn [self_collide leaves].
  - exists []. split; [apply plays_skip|reflexivity].
  - destruct W as (_ & _ & Wl & Wr).
    eapply plays_both; [apply inner_app|apply IHl; auto|].
    eapply plays_both; [reflexivity|apply IHr; auto|apply tt_collide_ok; auto].
Qed.

(** Distinct data turn the multiset statements into "exactly once". *)
Lemma leaf_unique (l : list leaf) x y : NoDup (map leaf_data l) -> In x l -> In y l ->
  leaf_data x = leaf_data y -> x = y.
Proof.
  induction l as [|z l IH]; cbn; intros ND; [tauto|]. inversion ND as [|? ? Hz ND']; subst.
  intros [->|Hx] [->|Hy] E; auto.
  - exfalso; apply Hz. rewrite E. apply in_map; auto.
  - exfalso; apply Hz. rewrite <- E. apply in_map; auto.
Qed.
Lemma id_unique (l : list leaf) x y : NoDup (map leaf_id l) -> In x l -> In y l ->
  leaf_id x = leaf_id y -> x = y.
Proof.
  induction l as [|z l IH]; cbn; intros ND; [tauto|]. inversion ND as [|? ? Hz ND']; subst.
  intros [->|Hx] [->|Hy] E; auto.
  - exfalso; apply Hz. rewrite E. apply in_map; auto.
  - exfalso; apply Hz. rewrite <- E. apply in_map; auto.
Qed.
Lemma NoDup_list_prod {A B} (l : list A) (m : list B) : NoDup l -> NoDup m -> NoDup (list_prod l m).
Proof.
  induction 1 as [|x l Hx Hl IH]; cbn; intros Hm; [constructor|].
  apply NoDup_app_intro; auto.
  - apply NoDup_map_inj; auto. congruence.
  - intros [a b] H1 H2. apply in_map_iff in H1 as (y & [= <- <-] & _).
    apply in_prod_iff in H2 as [H2 _]. auto.
Qed.
Lemma NoDup_of_map {A B} (f : A -> B) l : NoDup (map f l) -> NoDup l.
Proof. apply NoDup_map_inv. Qed.

Lemma cross_once l1 l2 : NoDup (map leaf_data l1) -> NoDup (map leaf_data l2) ->
  ordered_once (cross l1 l2) (fun a b => exists x y, In x l1 /\ In y l2 /\ leaf_data x = a /\
                                leaf_data y = b /\ overlap (leaf_bv x) (leaf_bv y) = true).
Proof.
  intros N1 N2. split.
  - apply NoDup_map_inj.
    + intros [x y] [x' y'] H H'. apply filter_In in H as [H _]. apply filter_In in H' as [H' _].
      apply in_prod_iff in H as [? ?]. apply in_prod_iff in H' as [? ?].
      unfold datas; cbn. intros [= E1 E2].
      f_equal; [apply (leaf_unique l1)|apply (leaf_unique l2)]; auto.
    + apply NoDup_filter, NoDup_list_prod; eapply NoDup_of_map; eauto.
  - intros a b. unfold cross. rewrite in_map_iff. split.
    + intros ([x y] & [= <- <-] & H). apply filter_In in H as [H Hh]. apply in_prod_iff in H as [? ?].
      exists x, y. auto.
    + intros (x & y & Hx & Hy & <- & <- & Ho). exists (x, y). split; auto.
      apply filter_In. split; auto. apply in_prod_iff; auto.
Qed.

Lemma in_within l x y : In (x, y) (within l) -> In x l /\ In y l.
Proof.
  induction l as [|z l IH]; cbn; [tauto|]. rewrite in_app_iff. intros [H|H].
  - apply in_map_iff in H as (w & [= <- <-] & Hw). auto.
  - apply IH in H. tauto.
Qed.
Lemma within_total l x y : In x l -> In y l -> x <> y -> In (x, y) (within l) \/ In (y, x) (within l).
Proof.
  induction l as [|z l IH]; cbn; [tauto|]. intros [->|Hx] [->|Hy] Hne; rewrite !in_app_iff.
  - congruence.
  - left; left. apply in_map; auto.
  - right; left. apply in_map; auto.
  - destruct (IH Hx Hy Hne); auto.
Qed.
Lemma within_asym l x y : NoDup l -> In (x, y) (within l) -> x <> y /\ ~ In (y, x) (within l).
Proof.
  induction 1 as [|z l Hz Hl IH]; cbn; [tauto|]. rewrite !in_app_iff. intros [H|H].
  - apply in_map_iff in H as (w & [= <- <-] & Hw). split; [congruence|]. intros [H|H].
    + apply in_map_iff in H as (v & [= -> ->] & _). auto.
    + apply in_within in H as [_ ?]. auto.
  - destruct (IH H) as [Hne Hn]. split; auto. intros [H'|H']; auto.
    apply in_map_iff in H' as (v & [= -> ->] & _). apply in_within in H as [? ?]. auto.
Qed.
Lemma within_nodup l : NoDup l -> NoDup (within l).
Proof.
  induction 1 as [|z l Hz Hl IH]; cbn; [constructor|]. apply NoDup_app_intro; auto.
  - apply NoDup_map_inj; auto. congruence.
  - intros [a b] H1 H2. apply in_map_iff in H1 as (v & [= <- <-] & _). apply in_within in H2 as [? _]. auto.
Qed.

Lemma inner_once l : NoDup (map leaf_data l) ->
  pairs_once (inner l) (fun a b => a <> b /\ exists x y, In x l /\ In y l /\ leaf_data x = a /\
                          leaf_data y = b /\ overlap (leaf_bv x) (leaf_bv y) = true).
Proof.
  intros ND. pose proof (NoDup_of_map _ _ ND) as NL. unfold inner. split; [|split].
  - apply NoDup_map_inj.
    + intros [x y] [x' y'] H H'. apply filter_In in H as [H _]. apply filter_In in H' as [H' _].
      apply in_within in H as [? ?]. apply in_within in H' as [? ?].
      unfold datas; cbn. intros [= E1 E2]. f_equal; apply (leaf_unique l); auto.
    + apply NoDup_filter, within_nodup; auto.
  - intros a b H. apply in_map_iff in H as ([x y] & [= <- <-] & H).
    apply filter_In in H as [H Hh]. destruct (within_asym _ _ _ NL H) as [Hne Hn].
    destruct (in_within _ _ _ H) as [Hx Hy]. split.
    + split; [|exists x, y; auto]. intros E. apply Hne. eapply leaf_unique; eauto.
    + intros H'. apply in_map_iff in H' as ([y' x'] & [= E1 E2] & H'). apply filter_In in H' as [H' _].
      destruct (in_within _ _ _ H') as [Hy' Hx'].
      apply (leaf_unique l) in E1; auto. apply (leaf_unique l) in E2; auto. subst. auto.
  - intros a b (Hne & x & y & Hx & Hy & <- & <- & Ho).
    assert (x <> y) by congruence. destruct (within_total l x y Hx Hy H) as [Hw|Hw].
    + left. apply in_map_iff. exists (x, y). split; auto. apply filter_In; auto.
    + right. apply in_map_iff. exists (y, x). split; auto. apply filter_In. split; auto.
      unfold hits; cbn. rewrite overlap_sym; auto.
Qed.

Lemma ordered_once_perm l l' R : Permutation l l' -> ordered_once l' R -> ordered_once l R.
Proof.
  intros P [N H]. split; [eapply Permutation_NoDup; [symmetry|]; eauto|].
  intros a b. rewrite <- H. split; apply Permutation_in; auto using Permutation_sym.
Qed.
Lemma pairs_once_perm l l' R : Permutation l l' -> pairs_once l' R -> pairs_once l R.
Proof.
  intros P (N & H1 & H2). assert (forall x, In x l <-> In x l').
  { intros x; split; apply Permutation_in; auto using Permutation_sym. }
  split; [eapply Permutation_NoDup; [symmetry|]; eauto|]. split.
  - intros a b. rewrite !H. apply H1.
  - intros a b. rewrite !H. apply H2.
Qed.

(** ** Distance queries on one tree *)

(** AABB::distance does not grow when the boxes do. *)
Definition dist_mono (adist : aabb -> aabb -> Z) : Prop :=
  forall A B a b, contain A a = true -> contain B b = true -> adist A B <= adist a b.

Lemma covers_dboth floor d1 d2 Q1 Q2 (P1 P2 P : obj -> obj -> Prop) D :
  (forall a b, P a b <-> P1 a b \/ P2 a b) ->
  (forall a b, P1 a b -> d1 <= D a b) -> (forall a b, P2 a b -> d2 <= D a b) ->
  covers Q1 floor P1 D -> covers Q2 floor P2 D -> covers (dboth d1 d2 Q1 Q2) floor P D.
Proof.
  intros HP H1 H2 C1 C2. unfold dboth. destruct (d2 <? d1).
  - apply covers_seq with (P1 := P2) (P2 := P1); auto using covers_prune.
    intros a b. rewrite HP. tauto.
  - apply covers_seq with (P1 := P1) (P2 := P2); auto using covers_prune.
Qed.

Definition pairs_of (l1 l2 : list leaf) (a b : obj) : Prop :=
  exists x y, In x l1 /\ In y l2 /\ leaf_data x = a /\ leaf_data y = b.
Definition far_enough (adist : aabb -> aabb -> Z) (l1 l2 : list leaf) (D : obj -> obj -> Z) : Prop :=
  forall x y, In x l1 -> In y l2 -> adist (leaf_bv x) (leaf_bv y) <= D (leaf_data x) (leaf_data y).

Lemma far_below adist t1 t2 D : dist_mono adist -> wf t1 -> wf t2 ->
  far_enough adist (leaves t1) (leaves t2) D ->
  forall a b, pairs_of (leaves t1) (leaves t2) a b -> adist (bvof t1) (bvof t2) <= D a b.
Proof.
  intros M W1 W2 F a b (x & y & Hx & Hy & <- & <-).
  apply leaf_below in Hx as Bx. apply leaf_below in Hy as By.
  specialize (F x y Hx Hy). pose proof (M _ _ _ _ (wf_below _ W1 _ Bx) (wf_below _ W2 _ By)). lia.
Qed.

Section Dist.
  Variable adist : aabb -> aabb -> Z.
  Hypothesis Hmono : dist_mono adist.
  Hypothesis Hsym : forall a b, adist a b = adist b a.

  Lemma tt_distance_covers floor D t1 : wf t1 -> forall t2, wf t2 ->
    far_enough adist (leaves t1) (leaves t2) D ->
    covers (tt_distance adist t1 t2) floor (pairs_of (leaves t1) (leaves t2)) D.
  Proof using Hmono Hsym.
    induction t1 as [i1 b1 d1|b1 l1 IHl1 r1 IHr1]; intros W1.
    - induction t2 as [i2 b2 d2|b2 l2 IHl2 r2 IHr2]; intros W2 F; cbn [tt_distance].
      + eapply covers_ext; [|apply covers_call]. intros a b; cbn. unfold pairs_of. split.
        * intros [-> ->]. exists (i1, b1, d1), (i2, b2, d2). cbn; auto.
        * intros (x & y & [<-|[]] & [<-|[]] & <- & <-). auto.
      + destruct W2 as (_ & _ & Wl & Wr).
        assert (Fl : far_enough adist (leaves (Leaf i1 b1 d1)) (leaves l2) D)
          by (intros x y Hx Hy; apply F; auto; cbn; apply in_app_iff; auto).
        assert (Fr : far_enough adist (leaves (Leaf i1 b1 d1)) (leaves r2) D)
          by (intros x y Hx Hy; apply F; auto; cbn; apply in_app_iff; auto).
        eapply covers_dboth with (P1 := pairs_of (leaves (Leaf i1 b1 d1)) (leaves l2))
                                 (P2 := pairs_of (leaves (Leaf i1 b1 d1)) (leaves r2)).
        * intros a b. unfold pairs_of; cbn [leaves]. split.
          -- intros (x & y & Hx & Hy & E1 & E2). apply in_app_iff in Hy as [Hy|Hy]; [left|right]; eauto 9.
          -- intros [(x & y & Hx & Hy & E1 & E2)|(x & y & Hx & Hy & E1 & E2)];
               exists x, y; rewrite in_app_iff; auto.
        * apply (far_below adist (Leaf i1 b1 d1) l2 D); auto.
        * apply (far_below adist (Leaf i1 b1 d1) r2 D); auto.
        * apply IHl2; auto.
        * apply IHr2; auto.
    - destruct W1 as (C1l & C1r & W1l & W1r).
      assert (W1 : wf (Node b1 l1 r1)) by (cbn; auto).
      assert (Down : forall t2, wf t2 -> far_enough adist (leaves (Node b1 l1 r1)) (leaves t2) D ->
        covers (dboth (adist (bvof t2) (bvof l1)) (adist (bvof t2) (bvof r1))
           (tt_distance adist l1 t2) (tt_distance adist r1 t2)) floor
           (pairs_of (leaves (Node b1 l1 r1)) (leaves t2)) D).
      { intros t2 W2 F.
        assert (Fl : far_enough adist (leaves l1) (leaves t2) D)
          by (intros x y Hx Hy; apply F; auto; cbn; apply in_app_iff; auto).
        assert (Fr : far_enough adist (leaves r1) (leaves t2) D)
          by (intros x y Hx Hy; apply F; auto; cbn; apply in_app_iff; auto).
        eapply covers_dboth with (P1 := pairs_of (leaves l1) (leaves t2))
                                 (P2 := pairs_of (leaves r1) (leaves t2)).
        * intros a b. unfold pairs_of; cbn [leaves]. split.
          -- intros (x & y & Hx & Hy & E1 & E2). apply in_app_iff in Hx as [Hx|Hx]; [left|right]; eauto 9.
          -- intros [(x & y & Hx & Hy & E1 & E2)|(x & y & Hx & Hy & E1 & E2)];
               exists x, y; rewrite in_app_iff; auto.
        * rewrite Hsym. apply (far_below adist l1 t2 D); auto.
        * rewrite Hsym. apply (far_below adist r1 t2 D); auto.
        * apply IHl1; auto.
        * apply IHr1; auto. }
      induction t2 as [i2 b2 d2|b2 l2 IHl2 r2 IHr2]; intros W2 F.
      + apply (Down (Leaf i2 b2 d2)); auto.
      + change (covers (if descend_first (Node b1 l1 r1) (Node b2 l2 r2)
            then dboth (adist b2 (bvof l1)) (adist b2 (bvof r1))
               (tt_distance adist l1 (Node b2 l2 r2)) (tt_distance adist r1 (Node b2 l2 r2))
            else dboth (adist b1 (bvof l2)) (adist b1 (bvof r2))
               (tt_distance adist (Node b1 l1 r1) l2) (tt_distance adist (Node b1 l1 r1) r2))
            floor (pairs_of (leaves (Node b1 l1 r1)) (leaves (Node b2 l2 r2))) D).
        destruct (descend_first (Node b1 l1 r1) (Node b2 l2 r2)).
        { apply (Down (Node b2 l2 r2)); auto. }
        destruct W2 as (_ & _ & Wl & Wr).
        assert (Fl : far_enough adist (leaves (Node b1 l1 r1)) (leaves l2) D)
          by (intros x y Hx Hy; apply F; auto; cbn; apply in_app_iff; auto).
        assert (Fr : far_enough adist (leaves (Node b1 l1 r1)) (leaves r2) D)
          by (intros x y Hx Hy; apply F; auto; cbn; apply in_app_iff; auto).
        eapply covers_dboth with (P1 := pairs_of (leaves (Node b1 l1 r1)) (leaves l2))
                                 (P2 := pairs_of (leaves (Node b1 l1 r1)) (leaves r2)).
        * intros a b. unfold pairs_of. cbn [leaves]. generalize (leaves l1 ++ leaves r1). intros L. split.
          -- intros (x & y & Hx & Hy & E1 & E2). apply in_app_iff in Hy as [Hy|Hy]; [left|right]; eauto 9.
          -- intros [(x & y & Hx & Hy & E1 & E2)|(x & y & Hx & Hy & E1 & E2)];
               exists x, y; rewrite (in_app_iff (leaves l2)); auto.
        * apply (far_below adist (Node b1 l1 r1) l2 D); auto.
        * apply (far_below adist (Node b1 l1 r1) r2 D); auto.
        * apply IHl2; auto.
        * apply IHr2; auto.
  Qed.

  Lemma tq_distance_covers floor D t q o : wf t ->
    far_enough adist (leaves t) [as_leaf q o] D ->
    covers (tq_distance adist t q o) floor (pairs_of (leaves t) [as_leaf q o]) D.
  Proof using Hmono Hsym.
    induction t as [i b d|b l IHl r IHr]; intros W F; cbn [tq_distance].
    - eapply covers_ext; [|apply covers_call]. intros a c; cbn. unfold pairs_of. split.
      + intros [-> ->]. do 2 eexists. cbn. split; [left; reflexivity|]. split; [left; reflexivity|]. auto.
      + intros (x & y & [<-|[]] & [<-|[]] & <- & <-). auto.
    - destruct W as (_ & _ & Wl & Wr).
      assert (Fl : far_enough adist (leaves l) [as_leaf q o] D)
        by (intros x y Hx Hy; apply F; auto; cbn; apply in_app_iff; auto).
      assert (Fr : far_enough adist (leaves r) [as_leaf q o] D)
        by (intros x y Hx Hy; apply F; auto; cbn; apply in_app_iff; auto).
      eapply covers_dboth with (P1 := pairs_of (leaves l) [as_leaf q o])
                               (P2 := pairs_of (leaves r) [as_leaf q o]).
      + intros a c. unfold pairs_of; cbn [leaves]. split.
        * intros (x & y & Hx & Hy & E1 & E2). apply in_app_iff in Hx as [Hx|Hx]; [left|right]; eauto 9.
        * intros [(x & y & Hx & Hy & E1 & E2)|(x & y & Hx & Hy & E1 & E2)];
            exists x, y; rewrite in_app_iff; auto.
      + rewrite Hsym. apply (far_below adist l (Leaf 0 q o) D); cbn; auto.
      + rewrite Hsym. apply (far_below adist r (Leaf 0 q o) D); cbn; auto.
      + auto.
      + auto.
  Qed.

  Definition before (l : list leaf) (a b : obj) : Prop :=
    exists x y, In (x, y) (within l) /\ leaf_data x = a /\ leaf_data y = b.

  Lemma self_distance_covers floor D t : wf t ->
    (forall x y, In (x, y) (within (leaves t)) ->
       adist (leaf_bv x) (leaf_bv y) <= D (leaf_data x) (leaf_data y)) ->
    covers (self_distance adist t) floor (before (leaves t)) D.
  Proof using Hmono Hsym.
    induction t as [i b d|b l IHl r IHr]; intros W F; cbn [self_distance].
    - apply covers_skip. intros a c (x & y & [] & _).
    - destruct W as (_ & _ & Wl & Wr). cbn [leaves] in F.
      assert (F' : forall x y, In (x, y) (within (leaves l)) \/ In (x, y) (within (leaves r)) \/
        In (x, y) (list_prod (leaves l) (leaves r)) ->
        adist (leaf_bv x) (leaf_bv y) <= D (leaf_data x) (leaf_data y)).
      { intros x y H. apply F. rewrite within_app, !in_app_iff. exact H. }
      apply covers_seq with (P1 := before (leaves l))
        (P2 := fun a b => before (leaves r) a b \/ pairs_of (leaves l) (leaves r) a b).
      + intros a c. unfold before, pairs_of. cbn [leaves]. split.
        * intros (x & y & H & E1 & E2). rewrite within_app, !in_app_iff in H.
          destruct H as [H|[H|H]]; [left; eauto|right; left; eauto|].
          right; right. apply in_prod_iff in H as [? ?]. eauto 6.
        * intros [(x & y & H & E1 & E2)|[(x & y & H & E1 & E2)|(x & y & H & H' & E1 & E2)]];
            exists x, y; rewrite within_app, !in_app_iff; auto. split; auto. right; right.
          apply in_prod_iff; auto.
      + apply IHl; auto.
      + apply covers_seq with (P1 := before (leaves r)) (P2 := pairs_of (leaves l) (leaves r)); [tauto| |].
        * apply IHr; auto.
        * apply tt_distance_covers; auto. intros x y Hx Hy. apply F'. right; right. apply in_prod_iff; auto.
  Qed.
End Dist.

Ltac dcomb lem_prune lem_seq := unfold dboth; match goal with |- context [if ?c then _ else _] => destruct c end;
  apply lem_seq; apply lem_prune; auto.

Lemma tt_distance_sound adist t1 : forall t2,
  dsound (tt_distance adist t1 t2) (pairs_of (leaves t1) (leaves t2)).
Proof.
  assert (L : forall l1 l2 l1' l2' Q, (forall x, In x l1 -> In x l1') -> (forall x, In x l2 -> In x l2') ->
     dsound Q (pairs_of l1 l2) -> dsound Q (pairs_of l1' l2')).
  { intros l1 l2 l1' l2' Q H1 H2. apply dsound_imp. intros a b (x & y & ? & ? & ? & ?). exists x, y; auto. }
  induction t1 as [i1 b1 d1|b1 l1 IHl1 r1 IHr1].
  - induction t2 as [i2 b2 d2|b2 l2 IHl2 r2 IHr2]; cbn [tt_distance].
    + apply dsound_call. exists (i1, b1, d1), (i2, b2, d2). cbn; auto.
    + dcomb dsound_prune dsound_seq.
      all: try (eapply L; [| |exact IHl2]; auto; cbn; intros; apply in_app_iff; auto).
      all: try (eapply L; [| |exact IHr2]; auto; cbn; intros; apply in_app_iff; auto).
  - assert (Dl : forall t2, dsound (tt_distance adist l1 t2) (pairs_of (leaves (Node b1 l1 r1)) (leaves t2))).
    { intros t2. eapply L; [| |apply IHl1]; auto. cbn; intros; apply in_app_iff; auto. }
    assert (Dr : forall t2, dsound (tt_distance adist r1 t2) (pairs_of (leaves (Node b1 l1 r1)) (leaves t2))).
    { intros t2. eapply L; [| |apply IHr1]; auto. cbn; intros; apply in_app_iff; auto. }
    induction t2 as [i2 b2 d2|b2 l2 IHl2 r2 IHr2].
    + cbn [tt_distance]. dcomb dsound_prune dsound_seq.
    + change (dsound (if descend_first (Node b1 l1 r1) (Node b2 l2 r2)
            then dboth (adist b2 (bvof l1)) (adist b2 (bvof r1))
               (tt_distance adist l1 (Node b2 l2 r2)) (tt_distance adist r1 (Node b2 l2 r2))
            else dboth (adist b1 (bvof l2)) (adist b1 (bvof r2))
               (tt_distance adist (Node b1 l1 r1) l2) (tt_distance adist (Node b1 l1 r1) r2))
            (pairs_of (leaves (Node b1 l1 r1)) (leaves (Node b2 l2 r2)))).
      assert (El : dsound (tt_distance adist (Node b1 l1 r1) l2)
                     (pairs_of (leaves (Node b1 l1 r1)) (leaves (Node b2 l2 r2)))).
      { eapply L; [| |exact IHl2]; auto. cbn [leaves]; intros; apply in_app_iff; auto. }
      assert (Er : dsound (tt_distance adist (Node b1 l1 r1) r2)
                     (pairs_of (leaves (Node b1 l1 r1)) (leaves (Node b2 l2 r2)))).
      { eapply L; [| |exact IHr2]; auto. cbn [leaves]; intros; apply in_app_iff; auto. }
      destruct (descend_first (Node b1 l1 r1) (Node b2 l2 r2)); dcomb dsound_prune dsound_seq.
Qed.

Lemma tt_distance_stops adist t1 : forall t2, dstops (tt_distance adist t1 t2).
Proof.
  induction t1 as [i1 b1 d1|b1 l1 IHl1 r1 IHr1].
  - induction t2 as [i2 b2 d2|b2 l2 IHl2 r2 IHr2]; cbn [tt_distance].
    + apply dstops_call.
    + dcomb dstops_prune dstops_seq.
  - induction t2 as [i2 b2 d2|b2 l2 IHl2 r2 IHr2].
    + cbn [tt_distance]. dcomb dstops_prune dstops_seq.
    + change (dstops (if descend_first (Node b1 l1 r1) (Node b2 l2 r2)
            then dboth (adist b2 (bvof l1)) (adist b2 (bvof r1))
               (tt_distance adist l1 (Node b2 l2 r2)) (tt_distance adist r1 (Node b2 l2 r2))
            else dboth (adist b1 (bvof l2)) (adist b1 (bvof r2))
               (tt_distance adist (Node b1 l1 r1) l2) (tt_distance adist (Node b1 l1 r1) r2))).
      destruct (descend_first (Node b1 l1 r1) (Node b2 l2 r2)); dcomb dstops_prune dstops_seq.
Qed.
Lemma tq_distance_stops adist t q o : dstops (tq_distance adist t q o).
Proof.
  induction t as [i b d|b l IHl r IHr]; cbn [tq_distance]; [apply dstops_call|].
  dcomb dstops_prune dstops_seq.
Qed.
Lemma self_distance_stops adist t : dstops (self_distance adist t).
Proof.
  induction t as [i b d|b l IHl r IHr]; cbn [self_distance]; [apply dstops_skip|].
  apply dstops_seq; auto. apply dstops_seq; auto using tt_distance_stops.
Qed.
Lemma tq_distance_sound adist t q o : dsound (tq_distance adist t q o) (pairs_of (leaves t) [as_leaf q o]).
Proof.
  induction t as [i b d|b l IHl r IHr]; cbn [tq_distance].
  - apply dsound_call. exists (i, b, d), (as_leaf q o). cbn; auto.
  - assert (Hl : dsound (tq_distance adist l q o) (pairs_of (leaves (Node b l r)) [as_leaf q o])).
    { eapply dsound_imp; [|exact IHl]. intros a c (x & y & ? & ? & ? & ?). exists x, y. cbn.
      rewrite in_app_iff. auto. }
    assert (Hr : dsound (tq_distance adist r q o) (pairs_of (leaves (Node b l r)) [as_leaf q o])).
    { eapply dsound_imp; [|exact IHr]. intros a c (x & y & ? & ? & ? & ?). exists x, y. cbn.
      rewrite in_app_iff. auto. }
    dcomb dsound_prune dsound_seq.
Qed.
Lemma self_distance_sound adist t : dsound (self_distance adist t) (before (leaves t)).
Proof.
  induction t as [i b d|b l IHl r IHr]; cbn [self_distance]; [apply dsound_skip|].
  apply dsound_seq; [|apply dsound_seq].
  - eapply dsound_imp; [|exact IHl]. intros a c (x & y & H & ? & ?). exists x, y. split; auto.
    cbn [leaves]. rewrite within_app, in_app_iff. auto.
  - eapply dsound_imp; [|exact IHr]. intros a c (x & y & H & ? & ?). exists x, y. split; auto.
    cbn [leaves]. rewrite within_app, !in_app_iff. auto.
  - eapply dsound_imp; [|apply tt_distance_sound]. intros a c (x & y & H & H' & ? & ?). exists x, y. split; auto.
    cbn [leaves]. rewrite within_app, !in_app_iff. right; right. apply in_prod_iff; auto.
Qed.

(** ** The manager's invariant *)

Definition entry (x : leaf) : obj * nat := (leaf_data x, leaf_id x).
Definition dinv (e : env) (m : dman) (box : obj -> aabb) (regs dirty : list obj) : Prop :=
  exists live, hinv (d_tree m) (live, h_next (d_tree m)) /\
    Permutation (map leaf_data live) regs /\ NoDup regs /\
    Permutation (d_table m) (map entry live) /\
    (forall x, In x live -> In (leaf_data x) dirty \/ tracks e (leaf_bv x) (box (leaf_data x))).

Lemma lookup_in o t id : NoDup (map fst t) -> (lookup o t = Some id <-> In (o, id) t).
Proof.
  unfold lookup. induction t as [|[a i] t IH]; cbn; intros ND.
  - split; [discriminate|tauto].
  - inversion ND as [|? ? Ha ND']; subst. destruct (Nat.eqb_spec a o) as [->|Hne]; cbn.
    + split; [intros [= ->]; auto|]. intros [[= ->]|H]; auto.
      exfalso; apply Ha. apply (in_map fst) in H. exact H.
    + rewrite IH; auto. split; [auto|]. intros [[= ? ?]|H]; auto. congruence.
Qed.
Lemma lookup_none o t : lookup o t = None <-> ~ In o (map fst t).
Proof.
  unfold lookup. induction t as [|[a i] t IH]; cbn; [tauto|].
  destruct (Nat.eqb_spec a o) as [->|Hne]; cbn; [split; [discriminate|tauto]|]. rewrite IH. tauto.
Qed.
Lemma erase_absent o t : ~ In o (map fst t) -> erase o t = t.
Proof.
  unfold erase. induction t as [|[a i] t IH]; cbn; auto. intros H.
  destruct (Nat.eqb_spec a o); [tauto|]. cbn. rewrite IH; tauto.
Qed.

Lemma entry_fst l : map fst (map entry l) = map leaf_data l.
Proof. rewrite map_map. reflexivity. Qed.
Lemma table_keys t l : Permutation t (map entry l) -> Permutation (map fst t) (map leaf_data l).
Proof. intros P. rewrite <- entry_fst. apply Permutation_map; auto. Qed.

Lemma hstep_hinv e s live o s' : env_ok e -> hinv s (live, h_next s) -> hstep e s o = Some s' ->
  hinv s' (fst (live_step (live, h_next s) o), h_next s').
Proof.
  intros He H E. pose proof (hstep_inv _ _ _ _ _ He H E) as H'. destruct H' as (A & B & C & X & F & G).
  cbn [fst snd] in *. unfold hinv. cbn [fst snd]. rewrite X. auto 10.
Qed.

Lemma d_register_inv e box o m m' regs dirty : env_ok e -> ~ In o regs -> dinv e m box regs dirty ->
  d_register e box o m = Some m' -> dinv e m' box (o :: regs) (remove Nat.eq_dec o dirty).
Proof.
  intros He Ho (live & HI & PR & NR & PT & TR) H. unfold d_register in H.
  destruct (hstep e (d_tree m) (HInsert (box o) o)) as [h|] eqn:E; [|discriminate].
  injection H as <-. pose proof (hstep_hinv _ _ _ _ _ He HI E) as HI'. cbn [live_step fst] in HI'.
  exists ((h_next (d_tree m), box o, o) :: live). cbn [d_tree d_table map]. split; auto. split; [|split; [|split]].
  - cbn. auto.
  - constructor; auto.
  - unfold assign. rewrite erase_absent; [cbn; auto|]. rewrite (table_keys _ _ PT), PR. auto.
  - intros x [<-|Hx]; cbn.
    + right. left. apply contain_refl.
    + destruct (TR x Hx) as [Hd|]; auto. left. apply in_in_remove; auto.
      intros E'. apply Ho. rewrite <- PR, <- E'. apply in_map; auto.
Qed.

(** Registering several objects one by one. *)
Lemma d_register_fold e box l m m' regs dirty : env_ok e -> NoDup (l ++ regs) -> dinv e m box regs dirty ->
  opt_fold (d_register e box) l m = Some m' ->
  exists regs' dirty', dinv e m' box regs' dirty' /\ Permutation regs' (l ++ regs) /\
    (forall x, In x dirty' <-> In x dirty /\ ~ In x l).
Proof.
  intros He. revert m regs dirty; induction l as [|o l IH]; intros m regs dirty ND HI H; cbn [opt_fold app] in *.
  - injection H as <-. exists regs, dirty. repeat split; auto; tauto.
  - destruct (d_register e box o m) as [m1|] eqn:E; [|discriminate].
    inversion ND as [|? ? Ho ND']; subst. rewrite in_app_iff in Ho.
    apply (d_register_inv e box o m m1 regs dirty) in E; auto.
    apply (IH _ (o :: regs)) with (dirty := remove Nat.eq_dec o dirty) in H; auto.
    + destruct H as (regs' & dirty' & A & B & C). exists regs', dirty'. split; auto. split.
      * rewrite B. symmetry. apply Permutation_middle.
      * intros x. rewrite C. split.
        -- intros [Hr Hl]. apply in_remove in Hr. split; [tauto|]. intros [->|]; tauto.
        -- intros [Hd Hn]. cbn in Hn. split; [apply in_in_remove|]; auto.
    + apply (Permutation_NoDup (l := o :: l ++ regs)); [apply Permutation_middle|].
      constructor; auto. rewrite in_app_iff. tauto.
Qed.

Lemma assign_all_perm n l t : NoDup l -> (forall o, In o l -> ~ In o (map fst t)) ->
  Permutation (assign_all n l t) (combine l (seq n (length l)) ++ t).
Proof.
  unfold assign_all. revert n t; induction l as [|o l IH]; intros n t ND Ht; cbn; auto.
  inversion ND; subst. rewrite IH; auto.
  - unfold assign. rewrite erase_absent; [|apply Ht; left; auto].
    symmetry. apply Permutation_middle.
  - intros x Hx. unfold assign. rewrite erase_absent; [|apply Ht; left; auto].
    cbn. intros [->|Hi]; [auto|]. apply (Ht x); cbn; auto.
Qed.
Lemma entry_number n (box : obj -> aabb) l :
  map entry (number n (map (fun o => (box o, o)) l)) = combine l (seq n (length l)).
Proof. revert n; induction l as [|o l IH]; intros n; cbn; auto. rewrite IH; auto. Qed.
Lemma data_number n (box : obj -> aabb) l : map leaf_data (number n (map (fun o => (box o, o)) l)) = l.
Proof. revert n; induction l as [|o l IH]; intros n; cbn; auto. rewrite IH; auto. Qed.
Lemma bv_number n (box : obj -> aabb) l x :
  In x (number n (map (fun o => (box o, o)) l)) -> leaf_bv x = box (leaf_data x).
Proof. revert n; induction l as [|o l IH]; intros n; cbn; [tauto|]. intros [<-|H]; eauto. Qed.

Lemma dinv_same e m box regs regs' dirty dirty' : dinv e m box regs dirty -> Permutation regs' regs ->
  (forall x, In x regs -> In x dirty -> In x dirty') -> dinv e m box regs' dirty'.
Proof.
  intros (live & HI & PR & NR & PT & TR) P D. exists live. split; auto. split; [rewrite P; auto|].
  split; [eapply Permutation_NoDup; [symmetry|]; eauto|]. split; auto.
  intros x Hx. destruct (TR x Hx); auto. left. apply D; auto. rewrite <- PR. apply in_map; auto.
Qed.

Lemma in_filter_not x l dirty :
  In x (filter (fun y => negb (existsb (Nat.eqb y) l)) dirty) <-> In x dirty /\ ~ In x l.
Proof.
  rewrite filter_In, negb_true_iff. split; intros [H1 H2]; split; auto.
  - intros Hx. assert (existsb (Nat.eqb x) l = true); [|congruence].
    apply existsb_exists. exists x. split; auto. apply Nat.eqb_refl.
  - destruct (existsb (Nat.eqb x) l) eqn:E; auto. apply existsb_exists in E as (y & Hy & Ey).
    apply Nat.eqb_eq in Ey; subst. tauto.
Qed.

Lemma d_registers_inv e c box l m m' regs dirty : env_ok e -> NoDup (l ++ regs) -> dinv e m box regs dirty ->
  d_registers e c box l m = Some m' -> dinv e m' box (l ++ regs) (dirty_step dirty (DRegs l)).
Proof.
  intros He ND HI H. unfold d_registers in H. destruct l as [|o0 l0] eqn:El.
  - injection H as <-. cbn. eapply dinv_same; eauto. intros x _ Hx. apply (in_filter_not x []). auto.
  - rewrite <- El in *. clear El o0 l0. destruct (Nat.ltb_spec 0 (h_n (d_tree m))) as [Hn|Hn].
    + destruct (d_register_fold _ _ _ _ _ _ _ He ND HI H) as (regs' & dirty' & A & B & C).
      eapply dinv_same; [exact A|symmetry; auto|]. intros x _ Hx. apply in_filter_not. apply C; auto.
    + destruct (hstep e (d_tree m) _) as [h|] eqn:E; [|discriminate]. injection H as <-.
      destruct HI as (live & HI & PR & NR & PT & TR).
      assert (live = []). { destruct HI as (_ & _ & HN & _). cbn in HN. destruct live; auto. cbn in HN. lia. }
      subst live. apply Permutation_nil in PR. subst regs. rewrite app_nil_r in *.
      apply Permutation_sym, Permutation_nil in PT. 
      pose proof (hstep_hinv _ _ _ _ _ He HI E) as HI'. cbn [live_step fst] in HI'.
      exists (number (h_next (d_tree m)) (map (fun o => (box o, o)) l)). cbn [d_tree d_table].
      split; auto. split; [rewrite data_number; auto|]. split; auto. split.
      * rewrite PT, entry_number, assign_all_perm, app_nil_r; auto.
      * intros x Hx. right. left. rewrite (bv_number _ _ _ _ Hx). apply contain_refl.
Qed.

Lemma remove_perm (o : obj) l l' : Permutation l l' ->
  Permutation (remove Nat.eq_dec o l) (remove Nat.eq_dec o l').
Proof.
  induction 1; cbn.
  - auto.
  - destruct (Nat.eq_dec o x); auto.
  - destruct (Nat.eq_dec o x), (Nat.eq_dec o y); auto; constructor.
  - etransitivity; eauto.
Qed.
Lemma remove_nodup (o : obj) l : NoDup l -> NoDup (remove Nat.eq_dec o l).
Proof.
  induction 1; cbn; [constructor|]. destruct (Nat.eq_dec o x); auto. constructor; auto.
  intros Hi. apply in_remove in Hi. tauto.
Qed.

Lemma d_unregister_inv e o m m' box regs dirty : env_ok e -> dinv e m box regs dirty ->
  d_unregister e o m = Some m' -> dinv e m' box (remove Nat.eq_dec o regs) dirty.
Proof.
  intros He (live & HI & PR & NR & PT & TR) H. unfold d_unregister in H.
  destruct (lookup o (d_table m)) as [id|] eqn:EL; [|discriminate].
  destruct (hstep e (d_tree m) (HRemove id)) as [h|] eqn:E; [|discriminate]. injection H as <-.
  pose proof (hstep_hinv _ _ _ _ _ He HI E) as HI'. cbn [live_step fst] in HI'.
  assert (NDD : NoDup (map leaf_data live)) by (eapply Permutation_NoDup; [symmetry|]; eauto).
  assert (NDI : NoDup (map leaf_id live)) by (destruct HI as (_ & _ & _ & _ & ND & _); exact ND).
  apply lookup_in in EL; [|eapply Permutation_NoDup; [symmetry; apply table_keys; eauto|auto]].
  rewrite PT in EL. apply in_map_iff in EL as (x0 & Ex0 & Hx0). injection Ex0 as Eo Ei.
  (* removing by identity is removing by data *)
  assert (Same : forall x, In x live -> has_id id x = Nat.eqb (leaf_data x) o).
  { intros x Hx. unfold has_id. destruct (Nat.eqb_spec (leaf_id x) id) as [E1|E1].
    - assert (x = x0); [|subst; symmetry; apply Nat.eqb_refl].
      apply (id_unique live); auto. congruence.
    - symmetry. apply Nat.eqb_neq. intros E2. apply E1.
      rewrite <- Ei. f_equal. apply (leaf_unique live); auto. congruence. }
  set (live' := filter (fun x => negb (has_id id x)) live).
  assert (EF : live' = filter (fun x => negb (Nat.eqb (leaf_data x) o)) live).
  { unfold live'. apply filter_ext_in. intros x Hx. rewrite Same; auto. }
  exists live'. cbn [d_tree d_table]. split; auto. split; [|split; [|split]].
  - rewrite EF. rewrite <- (remove_perm o _ _ PR). clear. induction live as [|x l IH]; cbn; auto.
    destruct (Nat.eq_dec o (leaf_data x)) as [E|E]; destruct (Nat.eqb_spec (leaf_data x) o); cbn; auto; congruence.
  - apply remove_nodup; auto.
  - rewrite EF. unfold erase. rewrite (filter_perm _ _ _ PT). clear. induction live as [|x l IH]; cbn; auto.
    destruct (Nat.eqb_spec (leaf_data x) o); cbn; auto.
  - intros x Hx. unfold live' in Hx. apply filter_In in Hx as [Hx _]. auto.
Qed.

Lemma d_setup_inv e c m m' box regs dirty : env_ok e -> dinv e m box regs dirty ->
  d_setup_ e c m = Some m' -> dinv e m' box regs dirty.
Proof.
  intros He (live & HI & PR & NR & PT & TR) H. unfold d_setup_ in H.
  destruct (d_setup m); [injection H as <-; exists live; auto|].
  destruct (Nat.eqb (h_n (d_tree m)) 0); [injection H as <-; exists live; auto|].
  destruct (hstep e (d_tree m) _) as [h|] eqn:E; [|discriminate]. injection H as <-.
  pose proof (hstep_hinv _ _ _ _ _ He HI E) as HI'. exists live. cbn [d_tree d_table].
  destruct (c_flat c _ _); auto.
Qed.

Lemma fold_put_map (upd : list (nat * aabb)) l :
  fold_left (fun l u => map (put_bv (fst u) (snd u)) l) upd l =
  map (fun x => fold_left (fun x u => put_bv (fst u) (snd u) x) upd x) l.
Proof.
  revert l; induction upd as [|u upd IH]; intros l; cbn; [rewrite map_id; auto|].
  rewrite IH, map_map. reflexivity.
Qed.
Lemma put_all_spec (upd : list (nat * aabb)) x b :
  (forall u, In u upd -> fst u = leaf_id x -> snd u = b) ->
  (In (leaf_id x) (map fst upd) \/ leaf_bv x = b) ->
  fold_left (fun x u => put_bv (fst u) (snd u) x) upd x = (leaf_id x, b, leaf_data x).
Proof.
  revert x; induction upd as [|u upd IH]; intros x H1 H2; cbn in *.
  - destruct H2 as [[]|<-]. destruct x as [[i b'] d]; reflexivity.
  - rewrite IH.
    + rewrite put_bv_id. f_equal. unfold put_bv. destruct (has_id _ _); auto.
    + intros v Hv. rewrite put_bv_id. auto.
    + rewrite put_bv_id. unfold put_bv, has_id. destruct (Nat.eqb_spec (leaf_id x) (fst u)) as [E|E].
      * right. cbn. auto.
      * destruct H2 as [[H2|H2]|H2]; auto. congruence.
Qed.

Lemma d_update_inv e c m m' box regs dirty : env_ok e -> dinv e m box regs dirty ->
  d_update e c box m = Some m' -> dinv e m' box regs [].
Proof.
  intros He (live & HI & PR & NR & PT & TR) H. unfold d_update in H.
  destruct (hstep e (d_tree m) _) as [h|] eqn:E; [|discriminate].
  eapply d_setup_inv; eauto. clear H.
  pose proof (hstep_hinv _ _ _ _ _ He HI E) as HI'. cbn [live_step fst] in HI'.
  set (upd := map (fun p => (snd p, box (fst p))) (d_table m)) in *.
  assert (NDI : NoDup (map leaf_id live)) by (destruct HI as (_ & _ & _ & _ & ND & _); exact ND).
  assert (Val : forall x, In x live ->
     fold_left (fun x u => put_bv (fst u) (snd u) x) upd x = (leaf_id x, box (leaf_data x), leaf_data x)).
  { intros x Hx. apply put_all_spec.
    - intros u Hu Eu. unfold upd in Hu. rewrite PT in Hu. rewrite map_map in Hu.
      apply in_map_iff in Hu as (y & <- & Hy). cbn in *. do 2 f_equal. apply (id_unique live); auto.
    - left. unfold upd. rewrite map_map. cbn. rewrite PT, map_map. cbn. apply in_map; auto. }
  rewrite fold_put_map in HI'.
  exists (map (fun x => fold_left (fun x u => put_bv (fst u) (snd u) x) upd x) live).
  rewrite (map_ext_in _ (fun x => (leaf_id x, box (leaf_data x), leaf_data x))) in * by auto.
  cbn [d_tree d_table unset set_tree]. split; auto. rewrite !map_map. cbn. split; auto. split; auto.
  split; [rewrite PT; reflexivity|].
  intros x Hx. apply in_map_iff in Hx as (y & <- & Hy). right. left. cbn. apply contain_refl.
Qed.

Lemma d_update_one_inv e o m m' box regs dirty : env_ok e -> dinv e m box regs dirty ->
  d_update_one e box o m = Some m' -> dinv e m' box regs (remove Nat.eq_dec o dirty).
Proof.
  intros He (live & HI & PR & NR & PT & TR) H. unfold d_update_one in H.
  assert (NDD : NoDup (map leaf_data live)) by (eapply Permutation_NoDup; [symmetry|]; eauto).
  assert (NDI : NoDup (map leaf_id live)) by (destruct HI as (_ & _ & _ & _ & ND & _); exact ND).
  assert (NDT : NoDup (map fst (d_table m))) by
    (eapply Permutation_NoDup; [symmetry; apply table_keys; eauto|auto]).
  destruct (lookup o (d_table m)) as [id|] eqn:EL.
  - apply lookup_in in EL; auto. rewrite PT in EL. apply in_map_iff in EL as (x0 & Ex0 & Hx0).
    injection Ex0 as Eo Ei.
    destruct (h_root (d_tree m)) as [t|] eqn:Er; [|discriminate].
    destruct (find_leaf id t) as [[b d]|] eqn:Ef; [|discriminate].
    apply find_leaf_in in Ef.
    assert (Ex : x0 = (id, b, d)).
    { apply (id_unique live); auto. destruct HI as (_ & P & _). cbn in P. rewrite Er in P. rewrite <- P. auto. }
    destruct (e_equal e b (box o)) eqn:Eq.
    + injection H as <-. exists live. cbn [d_tree d_table unset]. split; auto. split; auto. split; auto.
      split; auto. intros x Hx. destruct (Nat.eq_dec (leaf_data x) o) as [E|E].
      * right. right. assert (x = x0) by (apply (leaf_unique live); auto; congruence). subst x x0. cbn in *.
        subst d. auto.
      * destruct (TR x Hx); auto. left. apply in_in_remove; auto.
    + destruct (hstep e (d_tree m) (HUpdate id (box o))) as [h|] eqn:E; [|discriminate]. injection H as <-.
      pose proof (hstep_hinv _ _ _ _ _ He HI E) as HI'. cbn [live_step fst] in HI'.
      exists (map (put_bv_fat id (box o)) live). cbn [d_tree d_table unset set_tree]. split; auto.
      assert (DD : forall x, leaf_data (put_bv_fat id (box o) x) = leaf_data x).
      { intros x. unfold put_bv_fat. destruct (_ && _); auto. }
      rewrite !map_map. split; [rewrite (map_ext _ _ DD); auto|]. split; auto. split.
      * rewrite PT. erewrite map_ext; [reflexivity|]. intros x. unfold entry. rewrite DD, put_bv_fat_id; auto.
      * intros x Hx. apply in_map_iff in Hx as (y & <- & Hy). rewrite DD.
        destruct (Nat.eq_dec (leaf_data y) o) as [E'|E'].
        -- right. left. assert (y = x0) by (apply (leaf_unique live); auto; congruence). subst y.
           rewrite E'. unfold put_bv_fat, has_id. rewrite Ei, Nat.eqb_refl. cbn.
           destruct (contain (leaf_bv x0) (box o)) eqn:Ec; cbn; auto. apply contain_refl.
        -- assert (put_bv_fat id (box o) y = y) as ->.
           { unfold put_bv_fat, has_id. destruct (Nat.eqb_spec (leaf_id y) id) as [E2|E2]; auto.
             exfalso. apply E'. rewrite <- Eo. f_equal. apply (id_unique live); auto. congruence. }
           destruct (TR y Hy); auto. left. apply in_in_remove; auto.
  - injection H as <-. exists live. cbn [d_tree d_table unset]. split; auto. split; auto. split; auto. split; auto.
    intros x Hx. destruct (TR x Hx); auto. left. apply in_in_remove; auto. intros E.
    apply lookup_none in EL. apply EL. rewrite (table_keys _ _ PT), <- E. apply in_map; auto.
Qed.

Lemma d_update_fold e box l m m' regs dirty : env_ok e -> dinv e m box regs dirty ->
  opt_fold (d_update_one e box) l m = Some m' ->
  dinv e m' box regs (filter (fun x => negb (existsb (Nat.eqb x) l)) dirty).
Proof.
  intros He. revert m dirty; induction l as [|o l IH]; intros m dirty HI H; cbn [opt_fold] in H.
  - injection H as <-. eapply dinv_same; eauto. intros x _ Hx. apply (in_filter_not x []). auto.
  - destruct (d_update_one e box o m) as [m1|] eqn:E; [|discriminate].
    apply (d_update_one_inv e o m m1 box regs dirty) in E; auto.
    apply (IH _ _ E) in H.
    eapply dinv_same; [exact H|auto|]. intros x _ Hx.
    apply in_filter_not in Hx as [Hx Hl]. apply in_remove in Hx. apply in_filter_not. cbn. intuition congruence.
Qed.

Lemma dstep_inv e c op m box m' box' regs dirty : env_ok e -> proper_op regs op ->
  dinv e m box regs dirty -> dstep e c op (m, box) = Some (m', box') ->
  dinv e m' box' (reg_step regs op) (dirty_step dirty op) /\ box' = box_step box op.
Proof.
  intros He V HI H. destruct op as [o b|o|l|o| | |o|l|]; cbn [dstep proper_op reg_step dirty_step box_step] in *.
  - injection H as <- <-. split; auto. destruct HI as (live & HI & PR & NR & PT & TR).
    exists live. split; auto. split; auto. split; auto. split; auto. intros x Hx.
    unfold moved. destruct (Nat.eqb_spec (leaf_data x) o) as [->|E]; [left; left; auto|].
    destruct (TR x Hx); auto. left; right; auto.
  - destruct (d_register e box o m) as [m1|] eqn:E; [|discriminate]. injection H as <- <-.
    split; auto. eapply d_register_inv; eauto.
  - destruct (d_registers e c box l m) as [m1|] eqn:E; [|discriminate]. injection H as <- <-.
    split; auto. eapply (d_registers_inv e c box l m); eauto.
  - destruct (d_unregister e o m) as [m1|] eqn:E; [|discriminate]. injection H as <- <-.
    split; auto. eapply d_unregister_inv; eauto.
  - destruct (d_setup_ e c m) as [m1|] eqn:E; [|discriminate]. injection H as <- <-.
    split; auto. eapply d_setup_inv; eauto.
  - destruct (d_update e c box m) as [m1|] eqn:E; [|discriminate]. injection H as <- <-.
    split; auto. eapply d_update_inv; eauto.
  - destruct (d_update_one e box o m) as [m0|] eqn:E0; [|discriminate].
    destruct (d_setup_ e c m0) as [m1|] eqn:E; [|discriminate]. injection H as <- <-.
    split; auto. eapply d_setup_inv; eauto. eapply d_update_one_inv; eauto.
  - destruct (opt_fold _ l m) as [m0|] eqn:E0; [|discriminate].
    destruct (d_setup_ e c m0) as [m1|] eqn:E; [|discriminate]. injection H as <- <-.
    split; auto. eapply d_setup_inv; eauto. eapply d_update_fold; eauto.
  - injection H as <- <-. split; auto. exists []. cbn. split; [|repeat split; auto; try constructor; tauto].
    repeat split; cbn; auto; try constructor; tauto.
Qed.

Lemma drun_inv_gen e c ops m box m' box' regs dirty : env_ok e -> proper ops regs ->
  dinv e m box regs dirty -> opt_fold (dstep e c) ops (m, box) = Some (m', box') ->
  dinv e m' box' (fold_left reg_step ops regs) (fold_left dirty_step ops dirty) /\
  box' = fold_left box_step ops box.
Proof.
  intros He. revert m box regs dirty; induction ops as [|op ops IH]; intros m box regs dirty V HI H.
  - injection H as <- <-. auto.
  - cbn [opt_fold proper fold_left] in *. destruct V as [V1 V2].
    destruct (dstep e c op (m, box)) as [[m1 box1]|] eqn:E; [|discriminate].
    apply (dstep_inv e c op m box m1 box1 regs dirty) in E as [E ->]; auto.
    eapply IH; eauto.
Qed.

Lemma drun_inv e c ops box0 m box : env_ok e -> proper ops [] ->
  drun e c ops box0 = Some (m, box) ->
  dinv e m box (registered ops) (unsynced ops) /\ box = where_ ops box0.
Proof.
  intros He V H. eapply drun_inv_gen; eauto. exists []. cbn. split; [apply hempty_inv|].
  repeat split; auto; try constructor; tauto.
Qed.

(** ** Every proper history runs *)

Definition good_box (B b : aabb) : Prop := nonempty b /\ contain B b = true.
Definition op_boxes (o : hop) : list aabb :=
  match o with
  | HInsert b _ | HUpdate _ b => [b]
  | HWrite upd => map snd upd
  | HInit _ ls => map fst ls
  | _ => []
  end.
Lemma number_bv n ls x : In x (number n ls) -> In (leaf_bv x) (map fst ls).
Proof. revert n; induction ls as [|[b d] ls IH]; intros n; cbn; [tauto|]. intros [<-|H]; eauto. Qed.

Lemma live_step_boxes st o x : In x (fst (live_step st o)) ->
  (exists y, In y (fst st) /\ leaf_bv y = leaf_bv x) \/ In (leaf_bv x) (op_boxes o).
Proof.
  destruct st as [live next]. destruct o as [bv d|id|id look|id bv| | |upd|it| | |level ls];
    cbn [live_step fst op_boxes].
  all: try (intros H; left; exists x; split; [exact H|reflexivity]).
  - intros [<-|H]; [right; left; auto|eauto].
  - intros H. apply filter_In in H as [H _]. eauto.
  - intros H. apply in_map_iff in H as (y & <- & Hy). unfold put_bv_fat.
    destruct (_ && _); [right; left; auto|eauto].
  - intros [].
  - revert live; induction upd as [|u upd IH]; intros live; cbn [fold_left map]; [eauto|].
    intros H. apply IH in H as [(y & Hy & E)|H]; [|right; right; auto].
    apply in_map_iff in Hy as (z & <- & Hz). unfold put_bv in E.
    destruct (has_id (fst u) z); [right; left; auto|left; eauto].
  - intros H. right. eapply number_bv; eauto.
Qed.

Lemma hstep_good e B s live o : env_ok e -> hinv s (live, h_next s) -> valid_op e B live o ->
  (forall b, In b (op_boxes o) -> good_box B b) ->
  (forall x, In x (oleaves (h_root s)) -> good_box B (leaf_bv x)) ->
  exists s', hstep e s o = Some s' /\ (forall x, In x (oleaves (h_root s')) -> good_box B (leaf_bv x)).
Proof.
  intros He HI V Ho Hs. destruct (hstep_some e B s (live, h_next s) o He HI V) as (s' & E).
  exists s'. split; auto. intros x Hx. pose proof (hstep_inv _ _ _ _ _ He HI E) as (_ & P & _).
  rewrite P in Hx. apply live_step_boxes in Hx as [(y & Hy & <-)|Hb]; auto.
  apply Hs. destruct HI as (_ & P' & _). rewrite P'. auto.
Qed.

Definition dfit (B : aabb) (m : dman) : Prop :=
  forall x, In x (oleaves (h_root (d_tree m))) -> good_box B (leaf_bv x).

Section Progress.
  Variables (e : env) (c : cfg) (B : aabb).
  Hypothesis He : env_ok e.
  Hypothesis HB : bsize B < e_max e.
  Hypothesis Hlev : e_level e <> 1.

  Lemma lfits_of live : (forall x, In x live -> good_box B (leaf_bv x)) -> lfits e B live.
  Proof using HB. intros H. split; auto. Qed.
  Lemma llevel_of live : llevel e live.
  Proof using Hlev. intros E; contradiction. Qed.

  Lemma d_register_some box o m regs dirty : dinv e m box regs dirty -> dfit B m -> good_box B (box o) ->
    exists m', d_register e box o m = Some m' /\ dfit B m'.
  Proof using He.
    intros (live & HI & _) F G. unfold d_register.
    destruct (hstep_good e B (d_tree m) live (HInsert (box o) o)) as (h & -> & F'); auto.
    - exact I.
    - intros b [<-|[]]; auto.
    - eexists; split; eauto.
  Qed.
  Lemma d_register_fold_some box l m regs dirty : NoDup (l ++ regs) -> dinv e m box regs dirty -> dfit B m ->
    (forall o, good_box B (box o)) ->
    exists m', opt_fold (d_register e box) l m = Some m' /\ dfit B m'.
  Proof using He.
    intros ND HI F G. revert m regs dirty ND HI F; induction l as [|o l IH]; intros m regs dirty ND HI F; [cbn; eauto|].
    cbn [opt_fold app] in *. inversion ND as [|? ? Ho ND']; subst. rewrite in_app_iff in Ho.
    destruct (d_register_some box o m regs dirty HI F (G o)) as (m1 & E & F1). rewrite E.
    apply (IH m1 (o :: regs) (remove Nat.eq_dec o dirty)); auto.
    - apply (Permutation_NoDup (l := o :: l ++ regs)); [apply Permutation_middle|].
      constructor; auto. rewrite in_app_iff. tauto.
    - eapply d_register_inv; eauto.
  Qed.

  Lemma d_registers_some box l m regs dirty : NoDup (l ++ regs) -> dinv e m box regs dirty -> dfit B m ->
    (forall o, good_box B (box o)) -> exists m', d_registers e c box l m = Some m' /\ dfit B m'.
  Proof using He HB Hlev.
    intros ND HI F G. unfold d_registers. destruct l as [|o0 l0] eqn:El; [eauto|]. rewrite <- El in *.
    destruct (Nat.ltb_spec 0 (h_n (d_tree m))) as [Hn|Hn].
    - eapply d_register_fold_some; eauto.
    - destruct HI as (live & HI & _).
      destruct (hstep_good e B (d_tree m) live (HInit (c_level c) (map (fun o => (box o, o)) l)))
        as (h & -> & F'); auto.
      + cbn [valid_op]. split; [subst; discriminate|]. split; [|apply llevel_of].
        apply lfits_of. intros x Hx. rewrite (bv_number _ _ _ _ Hx). auto.
      + cbn. intros b Hb. rewrite map_map in Hb. apply in_map_iff in Hb as (o & <- & _). cbn. auto.
      + eexists; split; eauto.
  Qed.

  Lemma d_unregister_some box o m regs dirty : In o regs -> dinv e m box regs dirty -> dfit B m ->
    exists m', d_unregister e o m = Some m' /\ dfit B m'.
  Proof using He.
    intros Ho (live & HI & PR & NR & PT & TR) F. unfold d_unregister.
    assert (NDT : NoDup (map fst (d_table m))).
    { eapply Permutation_NoDup; [symmetry; apply table_keys; eauto|].
      eapply Permutation_NoDup; [symmetry|]; eauto. }
    rewrite <- PR in Ho. apply in_map_iff in Ho as (x & Ex & Hx).
    assert (EL : lookup o (d_table m) = Some (leaf_id x)).
    { apply lookup_in; auto. rewrite PT. apply in_map_iff. exists x. unfold entry. rewrite Ex. auto. }
    rewrite EL.
    destruct (hstep_good e B (d_tree m) live (HRemove (leaf_id x))) as (h & -> & F'); auto.
    - cbn. apply in_map; auto.
    - intros b [].
    - eexists; split; eauto.
  Qed.

  Lemma d_setup_some box m regs dirty : dinv e m box regs dirty -> dfit B m ->
    exists m', d_setup_ e c m = Some m' /\ dfit B m'.
  Proof using He HB Hlev.
    intros (live & HI & _) F. unfold d_setup_.
    destruct (d_setup m); [eauto|]. destruct (Nat.eqb (h_n (d_tree m)) 0); [eauto|].
    destruct (hstep_good e B (d_tree m) live
       (if c_flat c (root_height (h_root (d_tree m))) (h_n (d_tree m)) then HBalInc (c_pass c) else HBalTop))
      as (h & -> & F'); auto.
    - destruct (c_flat c _ _); cbn [valid_op]; auto. split; [|apply llevel_of].
      apply lfits_of. intros x Hx. apply F. destruct HI as (_ & P & _). rewrite P; auto.
    - destruct (c_flat c _ _); intros b [].
    - eexists; split; eauto.
  Qed.

  Lemma d_update_some box m regs dirty : dinv e m box regs dirty -> dfit B m ->
    (forall o, good_box B (box o)) -> exists m', d_update e c box m = Some m' /\ dfit B m'.
  Proof using He HB Hlev.
    intros HI F G. pose proof HI as (live & HL & PR & NR & PT & TR).
    assert (V : valid_op e B live (HWrite (map (fun p => (snd p, box (fst p))) (d_table m)))).
    { cbn. intros u Hu. apply in_map_iff in Hu as (p & <- & Hp). rewrite PT in Hp.
      apply in_map_iff in Hp as (x & <- & Hx). cbn. apply in_map; auto. }
    destruct (hstep_good e B (d_tree m) live _ He HL V) as (h & E & F'); auto.
    { cbn. intros b Hb. rewrite map_map in Hb. apply in_map_iff in Hb as (o & <- & _). cbn; auto. }
    unfold d_update. rewrite E.
    apply (d_setup_some box (unset (set_tree m h)) (map leaf_data live) (map leaf_data live)); auto.
    pose proof (hstep_hinv _ _ _ _ _ He HL E) as HI'.
    eexists. cbn [d_tree d_table unset set_tree]. split; [exact HI'|]. cbn [live_step fst].
    rewrite fold_put_map, !map_map.
    assert (D : forall upd x, leaf_data (fold_left (fun x u => put_bv (fst u) (snd u) x) upd x) = leaf_data x).
    { induction upd as [|u upd IH]; intros x; cbn; auto. rewrite IH. unfold put_bv. destruct (has_id _ _); auto. }
    assert (I : forall upd x, leaf_id (fold_left (fun x u => put_bv (fst u) (snd u) x) upd x) = leaf_id x).
    { induction upd as [|u upd IH]; intros x; cbn; auto. rewrite IH. apply put_bv_id. }
    split; [rewrite (map_ext _ leaf_data) by auto; auto|]. split; [eapply Permutation_NoDup; [symmetry|]; eauto|].
    split.
    - rewrite PT. erewrite map_ext; [reflexivity|]. intros x. unfold entry. rewrite D, I; auto.
    - intros x Hx. apply in_map_iff in Hx as (y & <- & Hy). left. rewrite D. apply in_map; auto.
  Qed.

  Lemma d_update_one_some box o m regs dirty : dinv e m box regs dirty -> dfit B m ->
    good_box B (box o) -> exists m', d_update_one e box o m = Some m' /\ dfit B m'.
  Proof using He.
    intros (live & HI & PR & NR & PT & TR) F G. unfold d_update_one.
    destruct (lookup o (d_table m)) as [id|] eqn:EL; [|eauto].
    apply lookup_in in EL.
    2:{ eapply Permutation_NoDup; [symmetry; apply table_keys; eauto|].
        eapply Permutation_NoDup; [symmetry|]; eauto. }
    rewrite PT in EL. apply in_map_iff in EL as (x0 & Ex0 & Hx0). injection Ex0 as Eo Ei.
    assert (Hin : In id (map leaf_id live)) by (rewrite <- Ei; apply in_map; auto).
    assert (Hin' : In id (oids (h_root (d_tree m)))).
    { destruct HI as (_ & P & _). cbn in P. unfold oids. rewrite P. auto. }
    destruct (h_root (d_tree m)) as [t|] eqn:Er; [|destruct Hin'].
    destruct (find_leaf_some id t Hin') as (b & d & ->).
    destruct (e_equal e b (box o)); [eauto|].
    destruct (hstep_good e B (d_tree m) live (HUpdate id (box o)) He HI Hin) as (h & -> & F').
    - intros b' [<-|[]]; auto.
    - exact F.
    - eexists; split; eauto.
  Qed.
  Lemma d_update_fold_some box l m regs dirty : dinv e m box regs dirty -> dfit B m ->
    (forall o, good_box B (box o)) ->
    exists m', opt_fold (d_update_one e box) l m = Some m' /\ dfit B m'.
  Proof using He.
    intros HI F G. revert m dirty HI F; induction l as [|o l IH]; intros m dirty HI F; cbn [opt_fold]; [eauto|].
    destruct (d_update_one_some box o m regs dirty HI F (G o)) as (m1 & E & F1). rewrite E.
    apply (IH m1 (remove Nat.eq_dec o dirty)); auto. eapply d_update_one_inv; eauto.
  Qed.

  Lemma dstep_some op m box regs dirty : proper_op regs op -> dinv e m box regs dirty -> dfit B m ->
    (forall o, good_box B (box o)) -> (forall o, good_box B (box_step box op o)) ->
    exists m', dstep e c op (m, box) = Some (m', box_step box op) /\ dfit B m'.
  Proof using He HB Hlev.
    intros V HI F G G'. destruct op as [o b|o|l|o| | |o|l|]; cbn [dstep proper_op box_step] in *.
    - eauto.
    - destruct (d_register_some box o m regs dirty HI F (G o)) as (m1 & -> & F1). cbn; eauto.
    - destruct (d_registers_some box l m regs dirty V HI F G) as (m1 & -> & F1). cbn; eauto.
    - destruct (d_unregister_some box o m regs dirty V HI F) as (m1 & -> & F1). cbn; eauto.
    - destruct (d_setup_some box m regs dirty HI F) as (m1 & -> & F1). cbn; eauto.
    - destruct (d_update_some box m regs dirty HI F G) as (m1 & -> & F1). cbn; eauto.
    - destruct (d_update_one_some box o m regs dirty HI F (G o)) as (m1 & E & F1). rewrite E.
      apply (d_update_one_inv e o m m1 box regs dirty He HI) in E.
      destruct (d_setup_some box m1 regs _ E F1) as (m2 & -> & F2). cbn; eauto.
    - destruct (d_update_fold_some box l m regs dirty HI F G) as (m1 & E & F1). rewrite E.
      apply (d_update_fold e box l m m1 regs dirty He HI) in E.
      destruct (d_setup_some box m1 regs _ E F1) as (m2 & -> & F2). cbn; eauto.
    - eexists. split; [reflexivity|]. intros x [].
  Qed.

  (** Every box in the scene stays within [B]. *)
  Definition op_fits (op : dop) : Prop := match op with DMove _ b => good_box B b | _ => True end.
  Lemma drun_some_gen ops m box regs dirty : proper ops regs -> dinv e m box regs dirty -> dfit B m ->
    (forall o, good_box B (box o)) -> Forall op_fits ops ->
    exists w, opt_fold (dstep e c) ops (m, box) = Some w.
  Proof using He HB Hlev.
    revert m box regs dirty; induction ops as [|op ops IH]; intros m box regs dirty V HI F G FO; cbn [opt_fold]; [eauto|].
    destruct V as [V1 V2]. inversion FO as [|? ? O1 O2]; subst.
    assert (G' : forall o, good_box B (box_step box op o)).
    { intros o. destruct op; cbn in *; auto. unfold moved. destruct (Nat.eqb o _); auto. }
    destruct (dstep_some op m box regs dirty V1 HI F G G') as (m1 & E & F1). rewrite E.
    apply (dstep_inv e c op m box m1 _ regs dirty He V1 HI) in E as [E _].
    eapply IH; eauto.
  Qed.
End Progress.
