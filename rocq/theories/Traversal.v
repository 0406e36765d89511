(** * Traversal of a pair of hierarchies

    Model of /repo/include/fcl/narrowphase/detail/traversal/traversal_recurse-inl.h:
    collisionRecurse (83-127), selfCollisionRecurse (224-243), distanceRecurse
    (247-307), distanceQueueRecurse (379-458), and
    propagateBVHFrontListCollisionRecurse (462-527), and of the drivers collide,
    selfCollide and distance (collision_node-inl.h 79-90, 128-157).

    The traversal node is an interface of functions on node indices
    (isFirstNodeLeaf, getFirstLeftChild, ..., firstOverSecond, BVTesting,
    leafTesting, canStop); the hierarchies behind it are described by trees of
    BvhBuild ([btree], node index at every node).  Recursion uses fuel; [None]
    is never returned on a finite tree (proved).  Statistics are not modelled. *)

From Coq Require Import List Arith Lia ZArith Bool Permutation.
From Verif Require Import BvhBuild.
Import ListNotations.

(** ** Trees *)

(** Indices of the leaf nodes. *)
Fixpoint lids (t : btree) : list nat :=
  match t with BLeaf i _ => [i] | BNode _ l r => lids l ++ lids r end.

Inductive sub : btree -> btree -> Prop :=
| sub_refl t : sub t t
| sub_left s i l r : sub s l -> sub s (BNode i l r)
| sub_right s i l r : sub s r -> sub s (BNode i l r).

Lemma sub_trans : forall a b c, sub a b -> sub b c -> sub a c.
Proof. intros a b c H1 H2. induction H2; auto using sub_left, sub_right. Qed.

Lemma lids_pos : forall t, 1 <= length (lids t).
Proof. induction t; cbn; [lia|rewrite app_length; lia]. Qed.

Lemma lids_tids : forall t i, In i (lids t) -> In i (tids t).
Proof.
  induction t as [i p|i l IHl r IHr]; intros j H; cbn in *; [tauto|].
  right. apply in_app_or in H. apply in_or_app. destruct H; auto.
Qed.

Lemma NoDup_app_l : forall A (a b : list A), NoDup (a ++ b) -> NoDup a.
Proof.
  intros A a b. induction a as [|x a IH]; intros H; [constructor|]. cbn in H.
  inversion H as [|? ? Hn Hd]; subst. constructor; [|auto]. intros Hx. apply Hn. apply in_or_app. auto.
Qed.

Lemma NoDup_app_r : forall A (a b : list A), NoDup (a ++ b) -> NoDup b.
Proof.
  intros A a b. induction a as [|x a IH]; intros H; [exact H|]. cbn in H. inversion H; auto.
Qed.

Lemma NoDup_app_disj : forall A (a b : list A) x, NoDup (a ++ b) -> In x a -> In x b -> False.
Proof.
  intros A a b x. induction a as [|y a IH]; intros H Ha Hb; [contradiction|]. cbn in H.
  inversion H as [|? ? Hn Hd]; subst. destruct Ha as [->|Ha]; [apply Hn; apply in_or_app; auto|auto].
Qed.

Lemma NoDup_app_mk : forall A (a b : list A), NoDup a -> NoDup b ->
  (forall x, In x a -> In x b -> False) -> NoDup (a ++ b).
Proof.
  intros A a b Ha Hb Hd. induction Ha as [|x a Hn Ha IH]; [exact Hb|]. cbn. constructor.
  - intros H. apply in_app_or in H. destruct H as [H|H]; [auto|]. eapply Hd; [left; reflexivity|exact H].
  - apply IH. intros y Hy. apply Hd. right. exact Hy.
Qed.

Lemma lids_NoDup : forall t, NoDup (tids t) -> NoDup (lids t).
Proof.
  induction t as [i p|i l IHl r IHr]; intros H; cbn in *; [constructor; [intros []|constructor]|].
  inversion H as [|? ? Hn Hd]; subst. apply NoDup_app_mk.
  - apply IHl. eapply NoDup_app_l; eauto.
  - apply IHr. eapply NoDup_app_r; eauto.
  - intros x H1 H2. eapply NoDup_app_disj; [exact Hd| |]; apply lids_tids; eassumption.
Qed.

Lemma sub_tids_NoDup : forall s t, sub s t -> NoDup (tids t) -> NoDup (tids s).
Proof.
  intros s t H. induction H; intros Hd; auto; apply IHsub; cbn in Hd; inversion Hd; subst;
    [eapply NoDup_app_l|eapply NoDup_app_r]; eassumption.
Qed.

Lemma sub_lids : forall s t i, sub s t -> In i (lids s) -> In i (lids t).
Proof. intros s t i H. induction H; intros Hi; auto; cbn; apply in_or_app; auto. Qed.

(** ** Cells of the product of two trees: pairs of leaves *)

Definition cells (p : btree * btree) : list (nat * nat) := list_prod (lids (fst p)) (lids (snd p)).

Lemma in_cells : forall s1 s2 i j, In (i, j) (cells (s1, s2)) <-> In i (lids s1) /\ In j (lids s2).
Proof. intros. apply in_prod_iff. Qed.

Lemma list_prod_app_l : forall A B (a b : list A) (c : list B), list_prod (a ++ b) c = list_prod a c ++ list_prod b c.
Proof. intros A B a b c. induction a as [|x a IH]; [reflexivity|]. cbn. rewrite IH, app_assoc. reflexivity. Qed.

Lemma list_prod_app_r : forall A B (a : list A) (b c : list B),
  Permutation (list_prod a (b ++ c)) (list_prod a b ++ list_prod a c).
Proof.
  intros A B a b c. induction a as [|x a IH]; [reflexivity|]. cbn. rewrite map_app, IH.
  rewrite <- !app_assoc. apply Permutation_app_head. rewrite !app_assoc. apply Permutation_app_tail.
  apply Permutation_app_comm.
Qed.

Lemma cells_split_l : forall i l r s, cells (BNode i l r, s) = cells (l, s) ++ cells (r, s).
Proof. intros. apply list_prod_app_l. Qed.

Lemma cells_split_r : forall i l r s, Permutation (cells (s, BNode i l r)) (cells (s, l) ++ cells (s, r)).
Proof. intros. apply list_prod_app_r. Qed.

Lemma cells_NoDup : forall t1 t2, NoDup (tids t1) -> NoDup (tids t2) -> NoDup (cells (t1, t2)).
Proof.
  intros t1 t2 H1 H2. apply lids_NoDup in H1. apply lids_NoDup in H2. unfold cells. cbn [fst snd].
  induction H1 as [|x a Hn Ha IH]; [constructor|]. cbn [list_prod]. apply NoDup_app_mk.
  - apply FinFun.Injective_map_NoDup; [|exact H2]. intros u v E. congruence.
  - exact IH.
  - intros [u v] Hu Hv. apply in_map_iff in Hu. destruct Hu as (w & E & _). injection E as -> ->.
    apply in_prod_iff in Hv. tauto.
Qed.

(** The number of pairs visited below a pair, used for fuel. *)
Definition weight (p : btree * btree) : nat := 2 * (length (lids (fst p)) * length (lids (snd p))) - 1.

Lemma prod_pos : forall s1 s2, 1 <= length (lids s1) * length (lids s2).
Proof. intros. pose proof (lids_pos s1). pose proof (lids_pos s2). nia. Qed.

Lemma weight_pos : forall p, 1 <= weight p.
Proof. intros [s1 s2]. unfold weight. cbn [fst snd]. pose proof (prod_pos s1 s2). lia. Qed.

Lemma weight_split_l : forall i l r s, weight (BNode i l r, s) = 1 + weight (l, s) + weight (r, s).
Proof.
  intros. unfold weight. cbn [fst snd lids]. rewrite app_length.
  pose proof (prod_pos l s). pose proof (prod_pos r s). rewrite Nat.mul_add_distr_r. lia.
Qed.

Lemma weight_split_r : forall i l r s, weight (s, BNode i l r) = 1 + weight (s, l) + weight (s, r).
Proof.
  intros. unfold weight. cbn [fst snd lids]. rewrite app_length.
  pose proof (prod_pos s l). pose proof (prod_pos s r). rewrite Nat.mul_add_distr_l. lia.
Qed.

(** ** The node interface *)

(** CollisionTraversalNodeBase / DistanceTraversalNodeBase, structure part
    (bvh_collision_traversal_node-inl.h 64-117). *)
Record iface := Iface {
  leaf1 : nat -> bool; left1 : nat -> nat; right1 : nat -> nat;
  leaf2 : nat -> bool; left2 : nat -> nat; right2 : nat -> nat;
  over : nat -> nat -> bool }.   (* firstOverSecond *)

(** The interface functions describe the trees. *)
Fixpoint shaped (leaf : nat -> bool) (lc rc : nat -> nat) (t : btree) : Prop :=
  match t with
  | BLeaf i _ => leaf i = true
  | BNode i l r => leaf i = false /\ lc i = tid l /\ rc i = tid r /\ shaped leaf lc rc l /\ shaped leaf lc rc r
  end.

Definition shaped1 (n : iface) := shaped (leaf1 n) (left1 n) (right1 n).
Definition shaped2 (n : iface) := shaped (leaf2 n) (left2 n) (right2 n).

(** firstOverSecond never asks to descend below a leaf
    (bvh_collision_traversal_node-inl.h 78-91: [l2 || (!l1 && sz1 > sz2)]). *)
Definition over_ok (n : iface) : Prop :=
  forall a b, (leaf2 n b = true -> over n a b = true) /\
              (leaf1 n a = true -> leaf2 n b = false -> over n a b = false).

Lemma shaped_sub : forall leaf lc rc s t, sub s t -> shaped leaf lc rc t -> shaped leaf lc rc s.
Proof. intros leaf lc rc s t H. induction H; intros Hs; auto; apply IHsub; cbn in Hs; tauto. Qed.

(** Pairs (leaf below the left child, leaf below the right child) of every
    inner node. *)
Fixpoint spairs (t : btree) : list (nat * nat) :=
  match t with BLeaf _ _ => [] | BNode _ l r => spairs l ++ spairs r ++ cells (l, r) end.

Lemma spairs_in : forall t i j, In (i, j) (spairs t) -> In i (lids t) /\ In j (lids t).
Proof.
  induction t as [i0 p|i0 l IHl r IHr]; intros i j H; [contradiction|]. cbn [spairs lids] in *.
  rewrite !in_app_iff in *. rewrite in_cells in H. destruct H as [H|[H|H]].
  - apply IHl in H. tauto.
  - apply IHr in H. tauto.
  - tauto.
Qed.

Lemma spairs_one : forall t, NoDup (tids t) -> forall i j, In i (lids t) -> In j (lids t) -> i <> j ->
  (In (i, j) (spairs t) \/ In (j, i) (spairs t)) /\ ~ (In (i, j) (spairs t) /\ In (j, i) (spairs t)).
Proof.
  induction t as [i0 p|i0 l IHl r IHr]; intros Hd i j Hi Hj Hne.
  { cbn in Hi, Hj. destruct Hi as [<-|[]], Hj as [<-|[]]. congruence. }
  cbn [tids] in Hd. inversion Hd as [|? ? Hn Hdd]; subst.
  assert (Hx : forall k, In k (lids l) -> In k (lids r) -> False).
  { intros k H1 H2. eapply NoDup_app_disj; [exact Hdd| |]; apply lids_tids; eassumption. }
  pose proof (spairs_in l) as Pl. pose proof (spairs_in r) as Pr.
  specialize (IHl (NoDup_app_l _ _ _ Hdd)). specialize (IHr (NoDup_app_r _ _ _ Hdd)).
  cbn [spairs]. rewrite !in_app_iff, !in_cells. cbn [lids] in Hi, Hj. apply in_app_or in Hi. apply in_app_or in Hj.
  assert (Nl : forall k m, In k (lids r) \/ In m (lids r) -> ~ In (k, m) (spairs l)).
  { intros k m Hk H. apply Pl in H. destruct H, Hk; eauto. }
  assert (Nr : forall k m, In k (lids l) \/ In m (lids l) -> ~ In (k, m) (spairs r)).
  { intros k m Hk H. apply Pr in H. destruct H, Hk; eauto. }
  pose proof (Nl i j) as N1. pose proof (Nl j i) as N2. pose proof (Nr i j) as N3. pose proof (Nr j i) as N4.
  pose proof (Hx i) as X1. pose proof (Hx j) as X2.
  destruct Hi as [Hi|Hi], Hj as [Hj|Hj].
  - destruct (IHl i j Hi Hj Hne). tauto.
  - tauto.
  - tauto.
  - destruct (IHr i j Hi Hj Hne). tauto.
Qed.

Lemma spairs_irrefl : forall t, NoDup (tids t) -> forall i, ~ In (i, i) (spairs t).
Proof.
  induction t as [i0 p|i0 l IHl r IHr]; intros Hd i; [intros []|].
  cbn [tids] in Hd. inversion Hd as [|? ? Hn Hdd]; subst. cbn [spairs]. rewrite !in_app_iff, in_cells.
  intros [H|[H|[H1 H2]]].
  - exact (IHl (NoDup_app_l _ _ _ Hdd) i H).
  - exact (IHr (NoDup_app_r _ _ _ Hdd) i H).
  - eapply NoDup_app_disj; [exact Hdd| |]; apply lids_tids; eassumption.
Qed.

Lemma length_flat_cells : forall F, length F <= length (flat_map cells F).
Proof.
  induction F as [|[s1 s2] F IH]; [auto|]. cbn [flat_map length]. rewrite app_length. unfold cells at 1.
  cbn [fst snd]. rewrite prod_length. pose proof (prod_pos s1 s2). lia.
Qed.

Lemma sub_length : forall s t, sub s t -> length (lids s) <= length (lids t).
Proof. intros s t H. induction H; cbn; try rewrite app_length; lia. Qed.

Lemma weight_sub : forall s1 s2 t1 t2, sub s1 t1 -> sub s2 t2 -> weight (s1, s2) <= weight (t1, t2).
Proof.
  intros s1 s2 t1 t2 H1 H2. apply sub_length in H1. apply sub_length in H2. unfold weight. cbn [fst snd].
  pose proof (prod_pos s1 s2). nia.
Qed.

Lemma leaf_of : forall leaf lc rc t, shaped leaf lc rc t -> leaf (tid t) = match t with BLeaf _ _ => true | _ => false end.
Proof. intros leaf lc rc [i p|i l r] H; cbn in *; tauto. Qed.

(** ** Collision traversal *)

Section Collision.
Variable n : iface.
(** BVTesting: [true] = the volumes are disjoint. *)
Variable bvt : nat -> nat -> bool.
(** The result being built, leafTesting and canStop. *)
Variable S : Type.
Variable leaf_test : nat -> nat -> S -> S.
Variable can_stop : S -> bool.

(** A front list is a list of pairs of node indices (BVH_front.h 52-70);
    [None] is the null pointer.  updateFrontList: BVH_front.cpp 54-57. *)
Notation front := (option (list (nat * nat))).
Definition upd (fl : front) (a b : nat) : front := option_map (fun l => l ++ [(a, b)]) fl.

Definition stop_now (fl : front) (s : S) : bool :=
  can_stop s && match fl with None => true | Some _ => false end.

(** collisionRecurse (83-127) *)
Fixpoint crec (fuel a b : nat) (fl : front) (s : S) : option (front * S) :=
  match fuel with
  | O => None
  | Datatypes.S fuel' =>
      if leaf1 n a && leaf2 n b then
        let fl' := upd fl a b in
        if bvt a b then Some (fl', s) else Some (fl', leaf_test a b s)
      else if bvt a b then Some (upd fl a b, s)
      else
        let '(a1, b1, a2, b2) :=
          if over n a b then (left1 n a, b, right1 n a, b) else (a, left2 n b, a, right2 n b) in
        match crec fuel' a1 b1 fl s with
        | None => None
        | Some (fl1, s1) =>
            if stop_now fl1 s1 then Some (fl1, s1) else crec fuel' a2 b2 fl1 s1
        end
  end.

(** selfCollisionRecurse (224-243); it only uses the first hierarchy to
    descend, and both must be the same. *)
Fixpoint srec (fuel a : nat) (fl : front) (s : S) : option (front * S) :=
  match fuel with
  | O => None
  | Datatypes.S fuel' =>
      if leaf1 n a then Some (fl, s)
      else
        match srec fuel' (left1 n a) fl s with
        | None => None
        | Some (fl1, s1) =>
            if stop_now fl1 s1 then Some (fl1, s1) else
            match srec fuel' (right1 n a) fl1 s1 with
            | None => None
            | Some (fl2, s2) =>
                if stop_now fl2 s2 then Some (fl2, s2)
                else crec fuel' (left1 n a) (right1 n a) fl2 s2
            end
        end
  end.

(** propagateBVHFrontListCollisionRecurse (462-527).  [todo] is the part of the
    front list the iterator has not reached (new entries are appended to it
    while it is traversed), [kept] the entries passed that stay valid, [app] the
    list [append]. *)
Fixpoint prop_loop (fuel rfuel : nat) (todo kept app : list (nat * nat)) (s : S)
  : option (list (nat * nat) * S) :=
  match todo with
  | [] => Some (kept ++ app, s)
  | (a, b) :: rest =>
      match fuel with
      | O => None
      | Datatypes.S fuel' =>
          if leaf1 n a && leaf2 n b then
            match crec rfuel a b (Some app) s with
            | Some (Some app', s') => prop_loop fuel' rfuel rest kept app' s'
            | _ => None
            end
          else if bvt a b then prop_loop fuel' rfuel rest (kept ++ [(a, b)]) app s
          else
            let '(a1, b1, a2, b2) :=
              if over n a b then (left1 n a, b, right1 n a, b) else (a, left2 n b, a, right2 n b) in
            match crec rfuel a1 b1 (Some rest) s with
            | Some (Some rest1, s1) =>
                match crec rfuel a2 b2 (Some rest1) s1 with
                | Some (Some rest2, s2) => prop_loop fuel' rfuel rest2 kept app s2
                | _ => None
                end
            | _ => None
            end
      end
  end.

(** collide (collision_node-inl.h 79-90) *)
Definition collide_node (fuel : nat) (fl : front) (s : S) : option (front * S) :=
  match fl with
  | Some ((_ :: _) as l) =>
      match prop_loop fuel fuel l [] [] s with
      | Some (l', s') => Some (Some l', s')
      | None => None
      end
  | _ => crec fuel 0 0 fl s
  end.

(** ** Specification *)

(** Performing the primitive tests of a list in order. *)
Definition tests (L : list (nat * nat)) (s : S) : S := fold_left (fun s p => leaf_test (fst p) (snd p) s) L s.

Lemma tests_app : forall L L' s, tests (L ++ L') s = tests L' (tests L s).
Proof using Type. intros. unfold tests. apply fold_left_app. Qed.

(** Performing them with early stop: an initial part of [L] is executed; if it
    is not all of [L], the result is satisfied; and it was not satisfied
    between two tests. *)
Definition tests_stop (L : list (nat * nat)) (s s' : S) : Prop :=
  exists P Q, L = P ++ Q /\ s' = tests P s /\ (Q = [] \/ can_stop s' = true) /\
    (forall P1 P2, P = P1 ++ P2 -> P1 <> [] -> P2 <> [] -> can_stop (tests P1 s) = false).

Lemma app_cmp : forall A (a b c d : list A), a ++ b = c ++ d ->
  (exists k, a = c ++ k /\ d = k ++ b) \/ (exists k, c = a ++ k /\ b = k ++ d).
Proof using Type.
  intros A a. induction a as [|x a IH]; intros b c d H.
  - right. exists c. auto.
  - destruct c as [|y c].
    + left. exists (x :: a). auto.
    + cbn in H. injection H as -> H. destruct (IH b c d H) as [(k & -> & ->)|(k & -> & ->)].
      * left. exists k. auto.
      * right. exists k. auto.
Qed.

Lemma tests_stop_seq : forall L1 L2 s s1 s2, tests_stop L1 s s1 ->
  (if can_stop s1 then s2 = s1 else tests_stop L2 s1 s2) -> tests_stop (L1 ++ L2) s s2.
Proof using Type.
  intros L1 L2 s s1 s2 (P & Q & E & Es & Hq & Hi) H2.
  destruct (can_stop s1) eqn:Ec.
  - subst s2. exists P, (Q ++ L2). rewrite E, app_assoc. auto.
  - destruct Hq as [->|Hq]; [|congruence]. rewrite app_nil_r in E. subst P.
    destruct H2 as (P2 & Q2 & E2 & Es2 & Hq2 & Hi2).
    exists (L1 ++ P2), Q2. split; [rewrite E2, app_assoc; reflexivity|].
    split; [rewrite tests_app, <- Es; exact Es2|]. split; [exact Hq2|].
    intros A B EAB HA HB.
    destruct (app_cmp _ L1 P2 A B EAB) as [(k & E1 & ->)|(k & -> & E3)].
    + destruct k as [|x k].
      * rewrite app_nil_r in E1. subst A. rewrite <- Es. exact Ec.
      * apply (Hi A (x :: k)); [exact E1|exact HA|discriminate].
    + destruct k as [|x k].
      * rewrite app_nil_r. rewrite <- Es. exact Ec.
      * rewrite tests_app, <- Es. apply (Hi2 (x :: k) B); [exact E3|discriminate|exact HB].
Qed.

(** [unsep t1 t2 i j]: the volumes of all pairs of ancestors of leaf [i] in [t1]
    and leaf [j] in [t2] (themselves included) overlap. *)
Definition unsep (t1 t2 : btree) (i j : nat) : Prop :=
  forall s1 s2, sub s1 t1 -> sub s2 t2 -> In i (lids s1) -> In j (lids s2) -> bvt (tid s1) (tid s2) = false.

(** A correct list of primitive tests for a pair of trees. *)
Definition good_tests (t1 t2 : btree) (L : list (nat * nat)) : Prop :=
  NoDup L /\
  (forall i j, In (i, j) L -> In (i, j) (cells (t1, t2)) /\ bvt i j = false) /\
  (forall i j, In (i, j) (cells (t1, t2)) -> unsep t1 t2 i j -> In (i, j) L).

Definition ids (p : btree * btree) : nat * nat := (tid (fst p), tid (snd p)).

(** A front: pairs of subtrees whose cells partition the cells of the pair. *)
Definition is_front (t1 t2 : btree) (F : list (btree * btree)) : Prop :=
  (forall s1 s2, In (s1, s2) F -> sub s1 t1 /\ sub s2 t2) /\
  Permutation (flat_map cells F) (cells (t1, t2)).

(** The entries collisionRecurse creates are pairs of leaves or separated. *)
Definition settled (F : list (btree * btree)) : Prop :=
  forall s1 s2, In (s1, s2) F -> (exists i p j q, s1 = BLeaf i p /\ s2 = BLeaf j q) \/ bvt (tid s1) (tid s2) = true.

Lemma unsep_sub : forall t1 t2 s1 s2 i j, sub s1 t1 -> sub s2 t2 -> unsep t1 t2 i j -> unsep s1 s2 i j.
Proof using Type.
  intros t1 t2 s1 s2 i j H1 H2 H u1 u2 Hu1 Hu2. apply H; eapply sub_trans; eassumption.
Qed.

Lemma crec_spec : over_ok n -> forall fuel t1 t2,
  weight (t1, t2) <= fuel -> shaped1 n t1 -> shaped2 n t2 -> NoDup (tids t1) -> NoDup (tids t2) ->
  exists L F, good_tests t1 t2 L /\ is_front t1 t2 F /\ settled F /\
    forall fl s, exists s', crec fuel (tid t1) (tid t2) fl s = Some (option_map (fun l => l ++ map ids F) fl, s') /\
      match fl with None => tests_stop L s s' | Some _ => s' = tests L s end.
Proof using Type.
  intros Hover. induction fuel as [|fuel IH]; intros t1 t2 Hw Hs1 Hs2 Hd1 Hd2.
  { pose proof (weight_pos (t1, t2)). lia. }
  assert (Hstop : bvt (tid t1) (tid t2) = true ->
    (forall i j, In (i, j) (cells (t1, t2)) -> unsep t1 t2 i j -> False)).
  { intros Hb i j Hc Hu. apply in_cells in Hc. destruct Hc as [Hi Hj].
    specialize (Hu t1 t2 (sub_refl _) (sub_refl _) Hi Hj). congruence. }
  assert (Hself : is_front t1 t2 [(t1, t2)]).
  { split; [intros s1 s2 [E|[]]; injection E as <- <-; split; apply sub_refl|].
    cbn [flat_map]. rewrite app_nil_r. reflexivity. }
  destruct (bvt (tid t1) (tid t2)) eqn:Eb.
  { (* separated *)
    exists [], [(t1, t2)]. split.
    { split; [constructor|]. split; [intros i j []|]. intros i j Hc Hu. exfalso. eapply Hstop; eauto. }
    split; [exact Hself|]. split.
    { intros s1 s2 [E|[]]. injection E as <- <-. right. exact Eb. }
    intros fl s. exists s. cbn [crec]. rewrite Eb. split.
    - destruct (leaf1 n (tid t1) && leaf2 n (tid t2)); reflexivity.
    - destruct fl; [reflexivity|]. exists [], []. split; [reflexivity|]. split; [reflexivity|].
      split; [auto|]. intros P1 P2 E H. destruct P1; [congruence|discriminate]. }
  destruct t1 as [i1 p1|i1 l1 r1] eqn:E1; [destruct t2 as [i2 p2|i2 l2 r2] eqn:E2|].
  - (* both leaves *)
    exists [(i1, i2)], [(t1, t2)]. subst t1 t2. split.
    { split; [constructor; [intros []|constructor]|]. split.
      - intros i j [E|[]]. injection E as <- <-. split; [apply in_cells; cbn; auto|exact Eb].
      - intros i j Hc _. apply in_cells in Hc. cbn in Hc. destruct Hc as [[<-|[]] [<-|[]]]. left. reflexivity. }
    split; [exact Hself|]. split.
    { intros s1 s2 [E|[]]. injection E as <- <-. left. eauto 10. }
    intros fl s. exists (leaf_test i1 i2 s). cbn [crec tid]. cbn in Hs1, Hs2. rewrite Hs1, Hs2. cbn [andb].
    cbn [tid] in Eb. rewrite Eb. split; [reflexivity|].
    destruct fl; [reflexivity|]. exists [(i1, i2)], []. split; [reflexivity|]. split; [reflexivity|].
    split; [auto|]. intros P1 P2 E H1 H2. destruct P1 as [|x P1]; [congruence|]. cbn in E. injection E as _ E.
    destruct P1; [cbn in E; congruence|discriminate].
  - (* leaf, inner: descend the second *)
    cbn [tid] in *. destruct Hs2 as (Hf2 & Hl2 & Hr2 & Hsl & Hsr). cbn in Hs1.
    cbn [tids] in Hd2. inversion Hd2 as [|? ? Hn2 Hdd]; subst.
    rewrite weight_split_r in Hw.
    destruct (IH (BLeaf i1 p1) l2) as (La & Fa & (Ga1 & Ga2 & Ga3) & (Fa1 & Fa2) & Sa & Ra);
      [lia|exact Hs1|exact Hsl|exact Hd1|eapply NoDup_app_l; eauto|].
    destruct (IH (BLeaf i1 p1) r2) as (Lb & Fb & (Gb1 & Gb2 & Gb3) & (Fb1 & Fb2) & Sb & Rb);
      [lia|exact Hs1|exact Hsr|exact Hd1|eapply NoDup_app_r; eauto|].
    exists (La ++ Lb), (Fa ++ Fb).
    assert (Hcl : forall i j, In (i, j) (cells (BLeaf i1 p1, BNode i2 l2 r2)) <->
       In (i, j) (cells (BLeaf i1 p1, l2)) \/ In (i, j) (cells (BLeaf i1 p1, r2))).
    { intros i j. rewrite !in_cells. cbn [lids]. rewrite in_app_iff. tauto. }
    split.
    { split.
      - apply NoDup_app_mk; [exact Ga1|exact Gb1|]. intros [i j] Hi Hj.
        apply Ga2 in Hi. apply Gb2 in Hj. destruct Hi as [Hi _]. destruct Hj as [Hj _].
        apply in_cells in Hi. apply in_cells in Hj.
        eapply (NoDup_app_disj _ (tids l2) (tids r2) j); [exact Hdd| |]; apply lids_tids; tauto.
      - split.
        + intros i j Hi. apply in_app_or in Hi. rewrite Hcl. destruct Hi as [Hi|Hi].
          * destruct (Ga2 _ _ Hi). tauto.
          * destruct (Gb2 _ _ Hi). tauto.
        + intros i j Hc Hu. apply in_or_app. apply Hcl in Hc. destruct Hc as [Hc|Hc].
          * left. apply Ga3; [exact Hc|]. eapply unsep_sub; [apply sub_refl|apply sub_left, sub_refl|exact Hu].
          * right. apply Gb3; [exact Hc|]. eapply unsep_sub; [apply sub_refl|apply sub_right, sub_refl|exact Hu]. }
    split.
    { split.
      - intros s1 s2 Hi. apply in_app_or in Hi. destruct Hi as [Hi|Hi].
        + destruct (Fa1 _ _ Hi). split; [assumption|apply sub_left; assumption].
        + destruct (Fb1 _ _ Hi). split; [assumption|apply sub_right; assumption].
      - rewrite flat_map_app, Fa2, Fb2. symmetry. apply cells_split_r. }
    split. { intros s1 s2 Hi. apply in_app_or in Hi. destruct Hi; auto. }
    intros fl s. cbn [crec]. rewrite Hs1, Hf2. cbn [andb]. rewrite Eb.
    rewrite (proj2 (Hover i1 i2) Hs1 Hf2). rewrite Hl2, Hr2.
    destruct (Ra fl s) as (s1 & Ea & Ta). cbn [tid] in Ea. rewrite Ea.
    destruct fl as [fl|]; cbn [option_map] in *.
    + unfold stop_now. rewrite andb_false_r.
      destruct (Rb (Some (fl ++ map ids Fa)) s1) as (s2 & Eb2 & Tb). cbn [tid option_map] in Eb2. rewrite Eb2.
      exists s2. split; [rewrite map_app, app_assoc; reflexivity|]. rewrite tests_app, <- Ta. exact Tb.
    + unfold stop_now. rewrite andb_true_r. destruct (can_stop s1) eqn:Ec.
      * exists s1. split; [reflexivity|]. eapply tests_stop_seq; [exact Ta|]. rewrite Ec. reflexivity.
      * destruct (Rb None s1) as (s2 & Eb2 & Tb). cbn [tid option_map] in Eb2. rewrite Eb2.
        exists s2. split; [reflexivity|]. eapply tests_stop_seq; [exact Ta|]. rewrite Ec. exact Tb.
  - (* the first is inner: descend as told *)
    cbn [tid] in *. pose proof Hs1 as (Hf1 & Hl1 & Hr1 & Hsl1 & Hsr1).
    cbn [tids] in Hd1. pose proof Hd1 as Hd1'. inversion Hd1' as [|? ? Hn1 Hdd1]; subst.
    destruct (over n i1 (tid t2)) eqn:Eo.
    + (* first *)
      rewrite weight_split_l in Hw.
      destruct (IH l1 t2) as (La & Fa & (Ga1 & Ga2 & Ga3) & (Fa1 & Fa2) & Sa & Ra);
        [lia|exact Hsl1|exact Hs2|eapply NoDup_app_l; eauto|exact Hd2|].
      destruct (IH r1 t2) as (Lb & Fb & (Gb1 & Gb2 & Gb3) & (Fb1 & Fb2) & Sb & Rb);
        [lia|exact Hsr1|exact Hs2|eapply NoDup_app_r; eauto|exact Hd2|].
      exists (La ++ Lb), (Fa ++ Fb).
      assert (Hcl : forall i j, In (i, j) (cells (BNode i1 l1 r1, t2)) <->
         In (i, j) (cells (l1, t2)) \/ In (i, j) (cells (r1, t2))).
      { intros i j. rewrite !in_cells. cbn [lids]. rewrite in_app_iff. tauto. }
      split.
      { split.
        - apply NoDup_app_mk; [exact Ga1|exact Gb1|]. intros [i j] Hi Hj.
          apply Ga2 in Hi. apply Gb2 in Hj. destruct Hi as [Hi _]. destruct Hj as [Hj _].
          apply in_cells in Hi. apply in_cells in Hj.
          eapply (NoDup_app_disj _ (tids l1) (tids r1) i); [exact Hdd1| |]; apply lids_tids; tauto.
        - split.
          + intros i j Hi. apply in_app_or in Hi. rewrite Hcl. destruct Hi as [Hi|Hi].
            * destruct (Ga2 _ _ Hi). tauto.
            * destruct (Gb2 _ _ Hi). tauto.
          + intros i j Hc Hu. apply in_or_app. apply Hcl in Hc. destruct Hc as [Hc|Hc].
            * left. apply Ga3; [exact Hc|]. eapply unsep_sub; [apply sub_left, sub_refl|apply sub_refl|exact Hu].
            * right. apply Gb3; [exact Hc|]. eapply unsep_sub; [apply sub_right, sub_refl|apply sub_refl|exact Hu]. }
      split.
      { split.
        - intros s1 s2 Hi. apply in_app_or in Hi. destruct Hi as [Hi|Hi].
          + destruct (Fa1 _ _ Hi). split; [apply sub_left|]; assumption.
          + destruct (Fb1 _ _ Hi). split; [apply sub_right|]; assumption.
        - rewrite flat_map_app, Fa2, Fb2. rewrite cells_split_l. reflexivity. }
      split. { intros s1 s2 Hi. apply in_app_or in Hi. destruct Hi; auto. }
      intros fl s. cbn [crec]. rewrite Hf1. cbn [andb]. rewrite Eb, Eo, Hl1, Hr1.
      destruct (Ra fl s) as (s1 & Ea & Ta). rewrite Ea.
      destruct fl as [fl|]; cbn [option_map] in *.
      * unfold stop_now. rewrite andb_false_r.
        destruct (Rb (Some (fl ++ map ids Fa)) s1) as (s2 & Eb2 & Tb). cbn [tid option_map] in Eb2. rewrite Eb2.
        exists s2. split; [rewrite map_app, app_assoc; reflexivity|]. rewrite tests_app, <- Ta. exact Tb.
      * unfold stop_now. rewrite andb_true_r. destruct (can_stop s1) eqn:Ec.
        -- exists s1. split; [reflexivity|]. eapply tests_stop_seq; [exact Ta|]. rewrite Ec. reflexivity.
        -- destruct (Rb None s1) as (s2 & Eb2 & Tb). cbn [tid option_map] in Eb2. rewrite Eb2.
           exists s2. split; [reflexivity|]. eapply tests_stop_seq; [exact Ta|]. rewrite Ec. exact Tb.
    + (* second *)
      assert (Hnl : leaf2 n (tid t2) = false).
      { destruct (leaf2 n (tid t2)) eqn:El; [|reflexivity]. rewrite (proj1 (Hover i1 (tid t2)) El) in Eo. discriminate. }
      destruct t2 as [i2 p2|i2 l2 r2]; [cbn in Hs2, Hnl; congruence|].
      destruct Hs2 as (Hf2 & Hl2 & Hr2 & Hsl & Hsr). cbn [tid] in *.
      cbn [tids] in Hd2. inversion Hd2 as [|? ? Hn2 Hdd]; subst.
      rewrite weight_split_r in Hw.
      destruct (IH (BNode i1 l1 r1) l2) as (La & Fa & (Ga1 & Ga2 & Ga3) & (Fa1 & Fa2) & Sa & Ra);
        [lia|exact Hs1|exact Hsl|exact Hd1|eapply NoDup_app_l; eauto|].
      destruct (IH (BNode i1 l1 r1) r2) as (Lb & Fb & (Gb1 & Gb2 & Gb3) & (Fb1 & Fb2) & Sb & Rb);
        [lia|exact Hs1|exact Hsr|exact Hd1|eapply NoDup_app_r; eauto|].
      exists (La ++ Lb), (Fa ++ Fb).
      assert (Hcl : forall i j, In (i, j) (cells (BNode i1 l1 r1, BNode i2 l2 r2)) <->
         In (i, j) (cells (BNode i1 l1 r1, l2)) \/ In (i, j) (cells (BNode i1 l1 r1, r2))).
      { intros i j. rewrite !in_cells. cbn [lids]. rewrite !in_app_iff. tauto. }
      split.
      { split.
        - apply NoDup_app_mk; [exact Ga1|exact Gb1|]. intros [i j] Hi Hj.
          apply Ga2 in Hi. apply Gb2 in Hj. destruct Hi as [Hi _]. destruct Hj as [Hj _].
          apply in_cells in Hi. apply in_cells in Hj.
          eapply (NoDup_app_disj _ (tids l2) (tids r2) j); [exact Hdd| |]; apply lids_tids; tauto.
        - split.
          + intros i j Hi. apply in_app_or in Hi. rewrite Hcl. destruct Hi as [Hi|Hi].
            * destruct (Ga2 _ _ Hi). tauto.
            * destruct (Gb2 _ _ Hi). tauto.
          + intros i j Hc Hu. apply in_or_app. apply Hcl in Hc. destruct Hc as [Hc|Hc].
            * left. apply Ga3; [exact Hc|]. eapply unsep_sub; [apply sub_refl|apply sub_left, sub_refl|exact Hu].
            * right. apply Gb3; [exact Hc|]. eapply unsep_sub; [apply sub_refl|apply sub_right, sub_refl|exact Hu]. }
      split.
      { split.
        - intros s1 s2 Hi. apply in_app_or in Hi. destruct Hi as [Hi|Hi].
          + destruct (Fa1 _ _ Hi). split; [assumption|apply sub_left; assumption].
          + destruct (Fb1 _ _ Hi). split; [assumption|apply sub_right; assumption].
        - rewrite flat_map_app, Fa2, Fb2. symmetry. apply cells_split_r. }
      split. { intros s1 s2 Hi. apply in_app_or in Hi. destruct Hi; auto. }
      intros fl s. cbn [crec]. rewrite Hf1. cbn [andb]. rewrite Eb, Eo, Hl2, Hr2.
      destruct (Ra fl s) as (s1 & Ea & Ta). cbn [tid] in Ea. rewrite Ea.
      destruct fl as [fl|]; cbn [option_map] in *.
      * unfold stop_now. rewrite andb_false_r.
        destruct (Rb (Some (fl ++ map ids Fa)) s1) as (s2 & Eb2 & Tb). cbn [tid option_map] in Eb2. rewrite Eb2.
        exists s2. split; [rewrite map_app, app_assoc; reflexivity|]. rewrite tests_app, <- Ta. exact Tb.
      * unfold stop_now. rewrite andb_true_r. destruct (can_stop s1) eqn:Ec.
        -- exists s1. split; [reflexivity|]. eapply tests_stop_seq; [exact Ta|]. rewrite Ec. reflexivity.
        -- destruct (Rb None s1) as (s2 & Eb2 & Tb). cbn [tid option_map] in Eb2. rewrite Eb2.
           exists s2. split; [reflexivity|]. eapply tests_stop_seq; [exact Ta|]. rewrite Ec. exact Tb.
Qed.


(** ** Self-collision *)

Definition good_self (t : btree) (L : list (nat * nat)) : Prop :=
  NoDup L /\
  (forall i j, In (i, j) L -> In (i, j) (spairs t) /\ bvt i j = false) /\
  (forall i j, In (i, j) (spairs t) -> unsep t t i j -> In (i, j) L).

Lemma srec_spec : over_ok n -> forall fuel t,
  weight (t, t) <= fuel -> shaped1 n t -> shaped2 n t -> NoDup (tids t) ->
  exists L F, good_self t L /\
    (forall s1 s2, In (s1, s2) F -> sub s1 t /\ sub s2 t) /\ Permutation (flat_map cells F) (spairs t) /\ settled F /\
    forall fl s, exists s', srec fuel (tid t) fl s = Some (option_map (fun l => l ++ map ids F) fl, s') /\
      match fl with None => tests_stop L s s' | Some _ => s' = tests L s end.
Proof using Type.
  intros Hover. induction fuel as [|fuel IH]; intros t Hw Hs1 Hs2 Hd.
  { pose proof (weight_pos (t, t)). lia. }
  destruct t as [i p|i l r].
  - exists [], []. split; [split; [constructor|split; intros i0 j0 []]|].
    split; [intros s1 s2 []|]. split; [reflexivity|]. split; [intros s1 s2 []|].
    intros fl s. exists s. cbn [srec tid]. cbn in Hs1. rewrite Hs1. split.
    + destruct fl as [fl|]; cbn; [rewrite app_nil_r|]; reflexivity.
    + destruct fl; [reflexivity|]. exists [], []. split; [reflexivity|]. split; [reflexivity|]. split; [auto|].
      intros P1 P2 E H. destruct P1; [congruence|discriminate].
  - destruct Hs1 as (Hf1 & Hl1 & Hr1 & Hsl1 & Hsr1). destruct Hs2 as (Hf2 & Hl2 & Hr2 & Hsl2 & Hsr2).
    cbn [tids] in Hd. inversion Hd as [|? ? Hn Hdd]; subst.
    pose proof (NoDup_app_l _ _ _ Hdd) as Hdl. pose proof (NoDup_app_r _ _ _ Hdd) as Hdr.
    assert (Hww : weight (l, l) <= fuel /\ weight (r, r) <= fuel /\ weight (l, r) <= fuel).
    { rewrite weight_split_l, !weight_split_r in Hw. pose proof (weight_pos (l, l)). pose proof (weight_pos (r, r)).
      pose proof (weight_pos (l, r)). lia. }
    destruct Hww as (W1 & W2 & W3).
    destruct (IH l W1 Hsl1 Hsl2 Hdl) as (La & Fa & (Ga1 & Ga2 & Ga3) & Fa1 & Fa2 & Sa & Ra).
    destruct (IH r W2 Hsr1 Hsr2 Hdr) as (Lb & Fb & (Gb1 & Gb2 & Gb3) & Fb1 & Fb2 & Sb & Rb).
    destruct (crec_spec Hover fuel l r W3 Hsl1 Hsr2 Hdl Hdr) as (Lc & Fc & (Gc1 & Gc2 & Gc3) & (Fc1 & Fc2) & Sc & Rc).
    assert (Hx : forall k, In k (lids l) -> In k (lids r) -> False).
    { intros k H1 H2. eapply NoDup_app_disj; [exact Hdd| |]; apply lids_tids; eassumption. }
    exists (La ++ Lb ++ Lc), (Fa ++ Fb ++ Fc). split.
    { split.
      - apply NoDup_app_mk; [exact Ga1|apply NoDup_app_mk; [exact Gb1|exact Gc1|]|].
        + intros [a b] H1 H2. apply Gb2 in H1. apply Gc2 in H2. destruct H1 as [H1 _], H2 as [H2 _].
          apply spairs_in in H1. apply in_cells in H2. apply (Hx a); tauto.
        + intros [a b] H1 H2. apply Ga2 in H1. destruct H1 as [H1 _]. apply spairs_in in H1.
          apply in_app_or in H2. destruct H2 as [H2|H2].
          * apply Gb2 in H2. destruct H2 as [H2 _]. apply spairs_in in H2. apply (Hx a); tauto.
          * apply Gc2 in H2. destruct H2 as [H2 _]. apply in_cells in H2. apply (Hx b); tauto.
      - split.
        + intros a b H. cbn [spairs]. rewrite !in_app_iff in *. destruct H as [H|[H|H]].
          * apply Ga2 in H. tauto.
          * apply Gb2 in H. tauto.
          * apply Gc2 in H. tauto.
        + intros a b H Hu. cbn [spairs] in H. rewrite !in_app_iff in *. destruct H as [H|[H|H]].
          * left. apply Ga3; [exact H|]. eapply unsep_sub; [| |exact Hu]; apply sub_left, sub_refl.
          * right; left. apply Gb3; [exact H|]. eapply unsep_sub; [| |exact Hu]; apply sub_right, sub_refl.
          * right; right. apply Gc3; [exact H|].
            eapply unsep_sub; [apply sub_left, sub_refl|apply sub_right, sub_refl|exact Hu]. }
    split.
    { intros s1 s2 H. rewrite !in_app_iff in H. destruct H as [H|[H|H]].
      - destruct (Fa1 _ _ H). split; apply sub_left; assumption.
      - destruct (Fb1 _ _ H). split; apply sub_right; assumption.
      - destruct (Fc1 _ _ H). split; [apply sub_left|apply sub_right]; assumption. }
    split.
    { rewrite !flat_map_app. cbn [spairs]. rewrite Fa2, Fb2, Fc2. reflexivity. }
    split. { intros s1 s2 H. rewrite !in_app_iff in H. destruct H as [H|[H|H]]; auto. }
    intros fl s. cbn [srec tid]. rewrite Hf1, Hl1, Hr1.
    destruct (Ra fl s) as (s1 & Ea & Ta). rewrite Ea.
    destruct fl as [fl|]; cbn [option_map] in *.
    + unfold stop_now. rewrite !andb_false_r.
      destruct (Rb (Some (fl ++ map ids Fa)) s1) as (s2 & Eb & Tb). cbn [option_map] in Eb. rewrite Eb.
      rewrite andb_false_r.
      destruct (Rc (Some ((fl ++ map ids Fa) ++ map ids Fb)) s2) as (s3 & Ec & Tc). cbn [option_map] in Ec. rewrite Ec.
      exists s3. split; [rewrite !map_app, !app_assoc; reflexivity|]. rewrite !tests_app, <- Ta, <- Tb. exact Tc.
    + unfold stop_now. rewrite !andb_true_r. destruct (can_stop s1) eqn:Es1.
      * exists s1. split; [reflexivity|]. eapply tests_stop_seq; [exact Ta|]. rewrite Es1. reflexivity.
      * destruct (Rb None s1) as (s2 & Eb & Tb). cbn [option_map] in Eb. rewrite Eb.
        rewrite andb_true_r. destruct (can_stop s2) eqn:Es2.
        -- exists s2. split; [reflexivity|]. eapply tests_stop_seq; [exact Ta|]. rewrite Es1.
           eapply tests_stop_seq; [exact Tb|]. rewrite Es2. reflexivity.
        -- destruct (Rc None s2) as (s3 & Ec & Tc). cbn [option_map] in Ec. rewrite Ec.
           exists s3. split; [reflexivity|]. eapply tests_stop_seq; [exact Ta|]. rewrite Es1.
           eapply tests_stop_seq; [exact Tb|]. rewrite Es2. exact Tc.
Qed.

(** ** Propagation of a front *)

Definition dec2 : forall x y : nat * nat, {x = y} + {x <> y}.
Proof using Type. decide equality; apply Nat.eq_dec. Defined.
Notation occ := (count_occ dec2).

Lemma occ_good : forall t1 t2 L x, good_tests t1 t2 L -> occ L x <= occ (cells (t1, t2)) x.
Proof using Type.
  intros t1 t2 L [i j] (H1 & H2 & _).
  destruct (in_dec dec2 (i, j) L) as [Hi|Hi].
  - pose proof (proj1 (NoDup_count_occ dec2 L) H1 (i, j)). apply H2 in Hi. destruct Hi as [Hi _].
    apply (count_occ_In dec2) in Hi. lia.
  - apply (count_occ_not_In dec2) in Hi. lia.
Qed.

Section Propagate.
Variables t1 t2 : btree.
Hypothesis Hover : over_ok n.
Hypothesis Hsh1 : shaped1 n t1.
Hypothesis Hsh2 : shaped2 n t2.
Hypothesis Hnd1 : NoDup (tids t1).
Hypothesis Hnd2 : NoDup (tids t2).
Variable rfuel : nat.
Hypothesis Hrf : weight (t1, t2) <= rfuel.

Definition in_trees (F : list (btree * btree)) : Prop := forall s1 s2, In (s1, s2) F -> sub s1 t1 /\ sub s2 t2.

Definition tested_right (F : list (btree * btree)) (T : list (nat * nat)) : Prop :=
  (forall i j, In (i, j) T -> In (i, j) (flat_map cells F) /\ bvt i j = false) /\
  (forall i j, In (i, j) (flat_map cells F) -> unsep t1 t2 i j -> In (i, j) T).

Lemma crec_sub : forall s1 s2, sub s1 t1 -> sub s2 t2 ->
  exists L F, good_tests s1 s2 L /\ is_front s1 s2 F /\ settled F /\
    forall l s, crec rfuel (tid s1) (tid s2) (Some l) s = Some (Some (l ++ map ids F), tests L s).
Proof using Hover Hsh1 Hsh2 Hnd1 Hnd2 Hrf.
  intros s1 s2 H1 H2.
  destruct (crec_spec Hover rfuel s1 s2) as (L & F & G & I & St & R).
  - eapply Nat.le_trans; [apply weight_sub; eassumption|exact Hrf].
  - eapply shaped_sub; eassumption.
  - eapply shaped_sub; eassumption.
  - eapply sub_tids_NoDup; eassumption.
  - eapply sub_tids_NoDup; eassumption.
  - exists L, F. repeat (split; [assumption|]). intros l s. destruct (R (Some l) s) as (s' & E & ->). exact E.
Qed.

(** One entry: what it contributes. *)
Lemma prop_settled : forall G fuel kept app s, in_trees G -> settled G -> length G <= fuel ->
  exists K A T, prop_loop fuel rfuel (map ids G) kept app s = Some ((kept ++ map ids K) ++ (app ++ map ids A), tests T s) /\
    in_trees (K ++ A) /\ Permutation (flat_map cells (K ++ A)) (flat_map cells G) /\
    tested_right G T /\ (forall x, occ T x <= occ (flat_map cells G) x).
Proof using Hover Hsh1 Hsh2 Hnd1 Hnd2 Hrf.
  induction G as [|[s1 s2] G IH]; intros fuel kept app s Hin Hset Hf.
  { exists [], [], []. cbn [map prop_loop]. rewrite !app_nil_r. cbn [List.app].
    split; [destruct fuel; reflexivity|]. split; [exact Hin|]. split; [reflexivity|].
    split; [split; intros i j []|]. intros x. cbn. lia. }
  destruct fuel as [|fuel]; [cbn in Hf; lia|]. cbn [length] in Hf.
  destruct (Hin s1 s2 (or_introl eq_refl)) as [Hb1 Hb2].
  assert (Hin' : in_trees G) by (intros u v H; apply Hin; right; exact H).
  assert (Hset' : settled G) by (intros u v H; apply Hset; right; exact H).
  pose proof (shaped_sub _ _ _ _ _ Hb1 Hsh1) as Hc1. pose proof (shaped_sub _ _ _ _ _ Hb2 Hsh2) as Hc2.
  pose proof (leaf_of _ _ _ _ Hc1) as Hl1. pose proof (leaf_of _ _ _ _ Hc2) as Hl2.
  cbn [map ids fst snd prop_loop].
  destruct (leaf1 n (tid s1) && leaf2 n (tid s2)) eqn:Elf.
  - destruct (crec_sub s1 s2 Hb1 Hb2) as (L & F & Gd & (F1 & F2) & _ & R). rewrite R.
    destruct (IH fuel kept (app ++ map ids F) (tests L s) Hin' Hset' ltac:(lia)) as (K & A & T & E & I1 & P1 & [T1 T2] & O).
    rewrite E. exists K, (F ++ A), (L ++ T). split.
    { rewrite map_app, !app_assoc, tests_app. reflexivity. }
    split.
    { intros u v H. rewrite !in_app_iff in H. destruct H as [H|[H|H]].
      - apply I1. apply in_or_app; auto.
      - destruct (F1 _ _ H). split; eapply sub_trans; eassumption.
      - apply I1. apply in_or_app; auto. }
    split.
    { cbn [flat_map]. rewrite <- P1, <- F2. rewrite !flat_map_app. rewrite !app_assoc.
      apply Permutation_app_tail. apply Permutation_app_comm. }
    split.
    { destruct Gd as (_ & Gd2 & Gd3). split.
      - intros i j H. cbn [flat_map]. rewrite in_app_iff in *. destruct H as [H|H].
        + apply Gd2 in H. tauto.
        + apply T1 in H. tauto.
      - intros i j H Hu. cbn [flat_map] in H. rewrite in_app_iff in *. destruct H as [H|H].
        + left. apply Gd3; [exact H|]. eapply unsep_sub; eassumption.
        + right. auto. }
    intros x. cbn [flat_map]. rewrite !count_occ_app. pose proof (occ_good _ _ _ x Gd). specialize (O x). lia.
  - destruct (Hset s1 s2 (or_introl eq_refl)) as [(i & p & j & q & -> & ->)|Hsep].
    { rewrite Hl1, Hl2 in Elf. discriminate. }
    rewrite Hsep.
    destruct (IH fuel (kept ++ [(tid s1, tid s2)]) app s Hin' Hset' ltac:(lia)) as (K & A & T & E & I1 & P1 & [T1 T2] & O).
    rewrite E. exists ((s1, s2) :: K), A, T. split.
    { cbn [map ids fst snd]. rewrite <- (app_assoc kept). reflexivity. }
    split. { intros u v [H|H]; [injection H as <- <-; auto|apply I1; exact H]. }
    split. { cbn [List.app flat_map]. rewrite P1. reflexivity. }
    split.
    { split.
      - intros a b H. cbn [flat_map]. rewrite in_app_iff. apply T1 in H. tauto.
      - intros a b H Hu. cbn [flat_map] in H. rewrite in_app_iff in H. destruct H as [H|H]; [|auto].
        exfalso. apply in_cells in H. destruct H as [H1 H2]. specialize (Hu s1 s2 Hb1 Hb2 H1 H2). congruence. }
    intros x. cbn [flat_map]. rewrite count_occ_app. specialize (O x). lia.
Qed.

Lemma prop_spec : forall F1 G fuel kept app s, in_trees F1 -> in_trees G -> settled G ->
  length F1 + length (flat_map cells F1) + length G <= fuel ->
  exists K A T, prop_loop fuel rfuel (map ids (F1 ++ G)) kept app s = Some ((kept ++ map ids K) ++ (app ++ map ids A), tests T s) /\
    in_trees (K ++ A) /\ Permutation (flat_map cells (K ++ A)) (flat_map cells (F1 ++ G)) /\
    tested_right (F1 ++ G) T /\ (forall x, occ T x <= 2 * occ (flat_map cells F1) x + occ (flat_map cells G) x).
Proof using Hover Hsh1 Hsh2 Hnd1 Hnd2 Hrf.
  induction F1 as [|[s1 s2] F1 IH]; intros G fuel kept app s Hin HinG Hset Hf.
  { destruct (prop_settled G fuel kept app s HinG Hset) as (K & A & T & R); [cbn in Hf; lia|].
    exists K, A, T. exact R. }
  destruct fuel as [|fuel]; [cbn in Hf; lia|]. cbn [length flat_map] in Hf. rewrite app_length in Hf.
  destruct (Hin s1 s2 (or_introl eq_refl)) as [Hb1 Hb2].
  assert (Hin' : in_trees F1) by (intros u v H; apply Hin; right; exact H).
  pose proof (shaped_sub _ _ _ _ _ Hb1 Hsh1) as Hc1. pose proof (shaped_sub _ _ _ _ _ Hb2 Hsh2) as Hc2.
  pose proof (leaf_of _ _ _ _ Hc1) as Hl1. pose proof (leaf_of _ _ _ _ Hc2) as Hl2.
  cbn [List.app map ids fst snd prop_loop].
  destruct (leaf1 n (tid s1) && leaf2 n (tid s2)) eqn:Elf.
  - destruct (crec_sub s1 s2 Hb1 Hb2) as (L & F & Gd & (Fr1 & Fr2) & _ & R). rewrite R.
    destruct (IH G fuel kept (app ++ map ids F) (tests L s) Hin' HinG Hset ltac:(lia)) as (K & A & T & E & I1 & P1 & [T1 T2] & O).
    rewrite E. exists K, (F ++ A), (L ++ T). split.
    { rewrite map_app, !app_assoc, tests_app. reflexivity. }
    split.
    { intros u v H. rewrite !in_app_iff in H. destruct H as [H|[H|H]].
      - apply I1. apply in_or_app; auto.
      - destruct (Fr1 _ _ H). split; eapply sub_trans; eassumption.
      - apply I1. apply in_or_app; auto. }
    split.
    { cbn [flat_map]. rewrite <- P1, <- Fr2. rewrite !flat_map_app. rewrite !app_assoc.
      apply Permutation_app_tail. apply Permutation_app_comm. }
    split.
    { destruct Gd as (_ & Gd2 & Gd3). split.
      - intros i j H. cbn [flat_map]. rewrite in_app_iff in *. destruct H as [H|H].
        + apply Gd2 in H. tauto.
        + apply T1 in H. tauto.
      - intros i j H Hu. cbn [flat_map] in H. rewrite in_app_iff in *. destruct H as [H|H].
        + left. apply Gd3; [exact H|]. eapply unsep_sub; eassumption.
        + right. auto. }
    intros x. cbn [flat_map]. rewrite !count_occ_app. pose proof (occ_good _ _ _ x Gd). specialize (O x). lia.
  - destruct (bvt (tid s1) (tid s2)) eqn:Hsep.
    + destruct (IH G fuel (kept ++ [(tid s1, tid s2)]) app s Hin' HinG Hset ltac:(lia)) as (K & A & T & E & I1 & P1 & [T1 T2] & O).
      rewrite E. exists ((s1, s2) :: K), A, T. split.
      { cbn [map ids fst snd]. rewrite <- (app_assoc kept). reflexivity. }
      split. { intros u v [H|H]; [injection H as <- <-; auto|apply I1; exact H]. }
      split. { cbn [List.app flat_map]. rewrite P1. reflexivity. }
      split.
      { split.
        - intros a b H. cbn [flat_map]. rewrite in_app_iff. apply T1 in H. tauto.
        - intros a b H Hu. cbn [flat_map] in H. rewrite in_app_iff in H. destruct H as [H|H]; [|auto].
          exfalso. apply in_cells in H. destruct H as [H1 H2]. specialize (Hu s1 s2 Hb1 Hb2 H1 H2). congruence. }
      intros x. cbn [flat_map]. rewrite count_occ_app. specialize (O x). lia.
    + (* the two pairs of children *)
      assert (Hch : exists c1 c2 e1 e2,
        (if over n (tid s1) (tid s2) then (left1 n (tid s1), tid s2, right1 n (tid s1), tid s2)
         else (tid s1, left2 n (tid s2), tid s1, right2 n (tid s2))) = (tid c1, tid c2, tid e1, tid e2) /\
        sub c1 s1 /\ sub c2 s2 /\ sub e1 s1 /\ sub e2 s2 /\
        Permutation (cells (s1, s2)) (cells (c1, c2) ++ cells (e1, e2))).
      { destruct (over n (tid s1) (tid s2)) eqn:Eo.
        - destruct s1 as [a p|a l r].
          + exfalso. cbn [tid] in *. rewrite Hl1 in Elf. cbn [andb] in Elf.
            rewrite (proj2 (Hover a (tid s2)) Hl1 Elf) in Eo. discriminate.
          + destruct Hc1 as (_ & El & Er & _). cbn [tid] in *. exists l, s2, r, s2. rewrite El, Er.
            split; [reflexivity|]. split; [apply sub_left, sub_refl|]. split; [apply sub_refl|].
            split; [apply sub_right, sub_refl|]. split; [apply sub_refl|]. rewrite cells_split_l. reflexivity.
        - destruct s2 as [a p|a l r].
          + exfalso. cbn [tid] in *. rewrite (proj1 (Hover (tid s1) a) Hl2) in Eo. discriminate.
          + destruct Hc2 as (_ & El & Er & _). cbn [tid] in *. exists s1, l, s1, r. rewrite El, Er.
            split; [reflexivity|]. split; [apply sub_refl|]. split; [apply sub_left, sub_refl|].
            split; [apply sub_refl|]. split; [apply sub_right, sub_refl|]. apply cells_split_r. }
      destruct Hch as (c1 & c2 & e1 & e2 & -> & S1 & S2 & S3 & S4 & Hp).
      destruct (crec_sub c1 c2) as (La & Fa & Ga & (Fa1 & Fa2) & Sa & Ra); [eapply sub_trans; eassumption..|].
      destruct (crec_sub e1 e2) as (Lb & Fb & Gb & (Fb1 & Fb2) & Sb & Rb); [eapply sub_trans; eassumption..|].
      rewrite Ra, Rb. rewrite <- !map_app, <- !app_assoc.
      assert (Hnew : in_trees (G ++ Fa ++ Fb)).
      { intros u v H. rewrite !in_app_iff in H. destruct H as [H|[H|H]]; [auto| |].
        - destruct (Fa1 _ _ H). split; (eapply sub_trans; [eassumption|]); eapply sub_trans; eassumption.
        - destruct (Fb1 _ _ H). split; (eapply sub_trans; [eassumption|]); eapply sub_trans; eassumption. }
      assert (Hns : settled (G ++ Fa ++ Fb)).
      { intros u v H. rewrite !in_app_iff in H. destruct H as [H|[H|H]]; auto. }
      assert (Hlen : length Fa + length Fb <= length (cells (s1, s2))).
      { rewrite (Permutation_length Hp), app_length, <- (Permutation_length Fa2), <- (Permutation_length Fb2).
        pose proof (length_flat_cells Fa). pose proof (length_flat_cells Fb). lia. }
      destruct (IH (G ++ Fa ++ Fb) fuel kept app (tests Lb (tests La s)) Hin' Hnew Hns)
        as (K & A & T & E & I1 & P1 & [T1 T2] & O); [rewrite !app_length; lia|].
      rewrite E. exists K, A, (La ++ Lb ++ T). split. { rewrite !tests_app. reflexivity. }
      split; [exact I1|].
      assert (Hpc : Permutation (flat_map cells (Fa ++ Fb)) (cells (s1, s2))).
      { rewrite flat_map_app, Fa2, Fb2, Hp. reflexivity. }
      split.
      { rewrite P1. cbn [flat_map]. rewrite !flat_map_app in *. rewrite <- Hpc, !app_assoc.
        rewrite <- (app_assoc _ (flat_map cells Fa)). rewrite (Permutation_app_comm (flat_map cells F1 ++ flat_map cells G)).
        rewrite !app_assoc. reflexivity. }
      assert (Hpin : forall x, In x (cells (s1, s2)) <-> In x (cells (c1, c2)) \/ In x (cells (e1, e2))).
      { intros x. rewrite <- in_app_iff. split; apply Permutation_in; [exact Hp|symmetry; exact Hp]. }
      assert (Hpin2 : forall x, In x (flat_map cells (Fa ++ Fb)) <-> In x (cells (s1, s2))).
      { intros x. split; apply Permutation_in; [exact Hpc|symmetry; exact Hpc]. }
      split.
      { split.
        - intros i j H. cbn [flat_map]. rewrite !in_app_iff in *. rewrite Hpin. destruct H as [H|[H|H]].
          + apply (proj1 (proj2 Ga)) in H. tauto.
          + apply (proj1 (proj2 Gb)) in H. tauto.
          + apply T1 in H. destruct H as [H H']. split; [|exact H']. rewrite !flat_map_app, !in_app_iff in H.
            rewrite flat_map_app, in_app_iff.
            specialize (Hpin2 (i, j)). rewrite flat_map_app, in_app_iff, Hpin in Hpin2. tauto.
        - intros i j H Hu. cbn [flat_map] in H. rewrite !in_app_iff in *. rewrite Hpin in H.
          destruct H as [[H|H]|H].
          + left. apply (proj2 (proj2 Ga)); [exact H|]. eapply unsep_sub; [| |exact Hu]; eapply sub_trans; eassumption.
          + right; left. apply (proj2 (proj2 Gb)); [exact H|].
            eapply unsep_sub; [| |exact Hu]; eapply sub_trans; eassumption.
          + right; right. apply T2; [|exact Hu]. rewrite flat_map_app, in_app_iff in *. rewrite flat_map_app, in_app_iff. tauto. }
      intros x. cbn [flat_map]. rewrite !count_occ_app. specialize (O x). rewrite !flat_map_app, !count_occ_app in O.
      pose proof (occ_good _ _ _ x Ga). pose proof (occ_good _ _ _ x Gb).
      assert (Ho : occ (cells (s1, s2)) x = occ (cells (c1, c2)) x + occ (cells (e1, e2)) x).
      { rewrite (proj1 (Permutation_count_occ dec2 _ _) Hp x). apply count_occ_app. }
      assert (Ho2 : occ (flat_map cells Fa) x + occ (flat_map cells Fb) x = occ (cells (s1, s2)) x).
      { rewrite <- (proj1 (Permutation_count_occ dec2 _ _) Hpc x). rewrite flat_map_app, count_occ_app. reflexivity. }
      lia.
Qed.

End Propagate.

End Collision.
