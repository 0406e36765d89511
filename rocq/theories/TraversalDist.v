(** * Distance traversal of a pair of hierarchies

    distanceRecurse (traversal_recurse-inl.h 247-307), distanceQueueRecurse
    (379-458), distance (collision_node-inl.h 144-157), and the mesh node's
    canStop (mesh_distance_traversal_node-inl.h 98-104) and result update
    (distance_result-inl.h 54-71).

    Distances are integers (a fixed-point grid); the relative tolerance is the
    fraction [rel_p / rel_q].  The front list of a distance query is not
    modelled (nothing in the library consumes it). *)

From Coq Require Import List Arith Lia ZArith Bool Permutation.
From Verif Require Import BvhBuild Traversal.
Import ListNotations.

Section Distance.
Variable n : iface.
(** BVTesting: distance of two volumes. *)
Variable bvd : nat -> nat -> Z.
(** Distance of the primitives of two leaves. *)
Variable pd : nat -> nat -> Z.
(** canStop(c) when the current minimum is [m]. *)
Variable can_stop : Z -> Z -> bool.

(** leafTesting: result->update(d, ...) keeps the smaller distance. *)
Definition leaf_upd (a b : nat) (m : Z) : Z := if (pd a b <? m)%Z then pd a b else m.

Definition children (a b : nat) : (nat * nat) * (nat * nat) :=
  if over n a b then ((left1 n a, b), (right1 n a, b)) else ((a, left2 n b), (a, right2 n b)).

(** distanceRecurse (247-307) *)
Fixpoint drec (fuel a b : nat) (m : Z) : option Z :=
  match fuel with
  | O => None
  | S fuel' =>
      if leaf1 n a && leaf2 n b then Some (leaf_upd a b m)
      else
        let '(x, y) := children a b in
        let d1 := bvd (fst x) (snd x) in
        let d2 := bvd (fst y) (snd y) in
        let visit p d m := if can_stop d m then Some m else drec fuel' (fst p) (snd p) m in
        if (d2 <? d1)%Z then
          match visit y d2 m with None => None | Some m1 => visit x d1 m1 end
        else
          match visit x d1 m with None => None | Some m1 => visit y d2 m1 end
  end.

(** The priority queue: entries (d, (a, b)); [pop] is top() followed by pop(),
    and may choose any entry of least distance. *)
Notation entry := (Z * (nat * nat))%type.
Variable pop : list entry -> option (entry * list entry).

(** distanceQueueRecurse (379-458); [q] is the queue of the current call. *)
Fixpoint dqueue (qsize fuel : nat) (q : list entry) (a b : nat) (m : Z) : option Z :=
  match fuel with
  | O => None
  | S fuel' =>
      let next q m :=
        match pop q with
        | None => Some m
        | Some ((d, (a', b')), q') => if can_stop d m then Some m else dqueue qsize fuel' q' a' b' m
        end in
      if leaf1 n a && leaf2 n b then next q (leaf_upd a b m)
      else if qsize <=? length q + 1 then          (* bvtq.full(), 371-374 *)
        match dqueue qsize fuel' [] a b m with None => None | Some m' => next q m' end
      else
        let '(x, y) := children a b in
        next (q ++ [(bvd (fst x) (snd x), x); (bvd (fst y) (snd y), y)]) m
  end.

(** distance (collision_node-inl.h 144-157) *)
Definition distance_node (qsize fuel : nat) (m : Z) : option Z :=
  if qsize <=? 2 then drec fuel 0 0 m else dqueue qsize fuel [] 0 0 m.

(** ** Specification *)

Definition pop_ok : Prop :=
  pop [] = None /\
  forall q, q <> [] -> exists x q', pop q = Some (x, q') /\ Permutation q (x :: q') /\
    forall y, In y q -> (fst x <= fst y)%Z.

(** canStop is monotone in the candidate and antitone in the current minimum. *)
Definition stop_mono : Prop := forall c c' m m', (c <= c')%Z -> (m' <= m)%Z -> can_stop c m = true -> can_stop c' m' = true.

(** The volume distance is a lower bound for all pairs of primitives below. *)
Definition lower (t1 t2 : btree) : Prop :=
  forall s1 s2 i j, sub s1 t1 -> sub s2 t2 -> In i (lids s1) -> In j (lids s2) -> (bvd (tid s1) (tid s2) <= pd i j)%Z.

Definition fold_upd (L : list (nat * nat)) (m : Z) : Z := fold_left (fun m p => leaf_upd (fst p) (snd p) m) L m.

Lemma fold_upd_app : forall L L' m, fold_upd (L ++ L') m = fold_upd L' (fold_upd L m).
Proof using Type. intros. apply fold_left_app. Qed.

Lemma leaf_upd_le : forall a b m, (leaf_upd a b m <= m /\ leaf_upd a b m <= pd a b)%Z.
Proof using Type. intros. unfold leaf_upd. destruct (Z.ltb_spec (pd a b) m); lia. Qed.

Lemma fold_upd_le : forall L m, (fold_upd L m <= m)%Z /\ forall i j, In (i, j) L -> (fold_upd L m <= pd i j)%Z.
Proof using Type.
  induction L as [|[a b] L IH]; intros m; [split; [cbn; lia|intros i j []]|].
  change (fold_upd ((a, b) :: L) m) with (fold_upd L (leaf_upd a b m)).
  destruct (IH (leaf_upd a b m)) as [H1 H2]. destruct (leaf_upd_le a b m) as [H3 H4].
  split; [lia|]. intros i j [E|H]; [injection E as <- <-; lia|auto].
Qed.

Lemma fold_upd_in : forall L m, fold_upd L m = m \/ exists i j, In (i, j) L /\ fold_upd L m = pd i j.
Proof using Type.
  induction L as [|[a b] L IH]; intros m; [auto|].
  change (fold_upd ((a, b) :: L) m) with (fold_upd L (leaf_upd a b m)).
  destruct (IH (leaf_upd a b m)) as [E|(i & j & Hi & E)].
  - rewrite E. unfold leaf_upd. destruct (pd a b <? m)%Z; [right; exists a, b; split; [left|]; reflexivity|auto].
  - right. exists i, j. split; [right; exact Hi|exact E].
Qed.

(** The outcome of a visit to a pair of subtrees. *)
Definition visited (C : list (nat * nat)) (m m' : Z) : Prop :=
  exists L, m' = fold_upd L m /\ NoDup L /\ (forall p, In p L -> In p C) /\
    forall i j, In (i, j) C -> In (i, j) L \/ can_stop (pd i j) m' = true.

Lemma visited_le : forall C m m', visited C m m' -> (m' <= m)%Z.
Proof using Type. intros C m m' (L & -> & _). apply fold_upd_le. Qed.

Lemma visited_seq : stop_mono -> forall C1 C2 m m1 m2, visited C1 m m1 -> visited C2 m1 m2 ->
  (forall p, In p C1 -> In p C2 -> False) -> visited (C1 ++ C2) m m2.
Proof using Type.
  intros Hmono C1 C2 m m1 m2 H1 H2 Hx. pose proof (visited_le _ _ _ H2) as Hle.
  destruct H1 as (L1 & -> & N1 & I1 & V1). destruct H2 as (L2 & E2 & N2 & I2 & V2).
  exists (L1 ++ L2). rewrite fold_upd_app. split; [exact E2|]. split.
  { apply NoDup_app_mk; [assumption..|]. intros p Hp Hq. eapply Hx; eauto. }
  split. { intros p Hp. apply in_app_or in Hp. apply in_or_app. destruct Hp; auto. }
  intros i j Hc. rewrite in_app_iff. apply in_app_or in Hc. destruct Hc as [Hc|Hc].
  - destruct (V1 _ _ Hc) as [H|H]; [auto|]. right. eapply Hmono; [apply Z.le_refl|exact Hle|exact H].
  - destruct (V2 _ _ Hc); auto.
Qed.

Lemma visited_perm : forall C C' m m', Permutation C C' -> visited C m m' -> visited C' m m'.
Proof using Type.
  intros C C' m m' Hp (L & E & N & I & V). exists L. split; [exact E|]. split; [exact N|]. split.
  - intros p H. eapply Permutation_in; [exact Hp|auto].
  - intros i j H. apply V. eapply Permutation_in; [symmetry; exact Hp|exact H].
Qed.

Lemma visited_none : stop_mono -> forall C m d, (forall i j, In (i, j) C -> (d <= pd i j)%Z) -> can_stop d m = true ->
  visited C m m.
Proof using Type.
  intros Hmono C m d Hd Hs. exists []. split; [reflexivity|]. split; [constructor|]. split; [intros p []|].
  intros i j Hc. right. eapply Hmono; [exact (Hd i j Hc)|apply Z.le_refl|exact Hs].
Qed.

Lemma lower_sub : forall t1 t2 s1 s2, sub s1 t1 -> sub s2 t2 -> lower t1 t2 -> lower s1 s2.
Proof using Type. intros t1 t2 s1 s2 H1 H2 H u v i j Hu Hv. apply H; eapply sub_trans; eassumption. Qed.

(** A pair of trees the interface describes. *)
Definition proper (t1 t2 : btree) : Prop :=
  shaped1 n t1 /\ shaped2 n t2 /\ NoDup (tids t1) /\ NoDup (tids t2) /\ lower t1 t2.

Lemma proper_sub : forall t1 t2 s1 s2, sub s1 t1 -> sub s2 t2 -> proper t1 t2 -> proper s1 s2.
Proof using Type.
  intros t1 t2 s1 s2 H1 H2 (A & B & C & D & E). repeat split.
  - eapply shaped_sub; eassumption.
  - eapply shaped_sub; eassumption.
  - eapply sub_tids_NoDup; eassumption.
  - eapply sub_tids_NoDup; eassumption.
  - eapply lower_sub; eassumption.
Qed.

Lemma children_spec : over_ok n -> forall t1 t2, proper t1 t2 ->
  (exists i p j q, t1 = BLeaf i p /\ t2 = BLeaf j q /\ leaf1 n (tid t1) && leaf2 n (tid t2) = true) \/
  (leaf1 n (tid t1) && leaf2 n (tid t2) = false /\
   exists c1 c2 e1 e2, children (tid t1) (tid t2) = (ids (c1, c2), ids (e1, e2)) /\
     proper c1 c2 /\ proper e1 e2 /\
     (forall i j, In (i, j) (cells (c1, c2)) -> (bvd (tid c1) (tid c2) <= pd i j)%Z) /\
     (forall i j, In (i, j) (cells (e1, e2)) -> (bvd (tid e1) (tid e2) <= pd i j)%Z) /\
     Permutation (cells (t1, t2)) (cells (c1, c2) ++ cells (e1, e2)) /\
     (forall p, In p (cells (c1, c2)) -> In p (cells (e1, e2)) -> False) /\
     weight (t1, t2) = 1 + weight (c1, c2) + weight (e1, e2)).
Proof using Type.
  intros Hover t1 t2 Hp. pose proof Hp as (Hs1 & Hs2 & Hd1 & Hd2 & Hlow).
  pose proof (leaf_of _ _ _ _ Hs1) as Hl1. pose proof (leaf_of _ _ _ _ Hs2) as Hl2.
  assert (Hgo : forall c1 c2 e1 e2, sub c1 t1 -> sub c2 t2 -> sub e1 t1 -> sub e2 t2 ->
     Permutation (cells (t1, t2)) (cells (c1, c2) ++ cells (e1, e2)) ->
     proper c1 c2 /\ proper e1 e2 /\
     (forall i j, In (i, j) (cells (c1, c2)) -> (bvd (tid c1) (tid c2) <= pd i j)%Z) /\
     (forall i j, In (i, j) (cells (e1, e2)) -> (bvd (tid e1) (tid e2) <= pd i j)%Z) /\
     Permutation (cells (t1, t2)) (cells (c1, c2) ++ cells (e1, e2)) /\
     (forall p, In p (cells (c1, c2)) -> In p (cells (e1, e2)) -> False)).
  { intros c1 c2 e1 e2 S1 S2 S3 S4 HP.
    split; [eapply proper_sub; [| |exact Hp]; assumption|]. split; [eapply proper_sub; [| |exact Hp]; assumption|].
    split; [intros i j H; apply in_cells in H; apply Hlow; tauto|].
    split; [intros i j H; apply in_cells in H; apply Hlow; tauto|]. split; [exact HP|].
    intros p A B. eapply NoDup_app_disj; [|exact A|exact B].
    eapply Permutation_NoDup; [exact HP|]. apply cells_NoDup; assumption. }
  destruct t1 as [i p|i l r]; [destruct t2 as [j q|j l r]|].
  - left. exists i, p, j, q. rewrite Hl1, Hl2. auto.
  - right. split; [rewrite Hl2; apply andb_false_r|].
    exists (BLeaf i p), l, (BLeaf i p), r. unfold children. cbn [tid] in *.
    rewrite (proj2 (Hover i j) Hl1 Hl2). destruct Hs2 as (_ & -> & -> & _). split; [reflexivity|].
    destruct (Hgo (BLeaf i p) l (BLeaf i p) r) as (A & B & C & D & E & G);
      [apply sub_refl|apply sub_left, sub_refl|apply sub_refl|apply sub_right, sub_refl|apply cells_split_r|].
    split; [exact A|]. split; [exact B|]. split; [exact C|]. split; [exact D|]. split; [exact E|]. split; [exact G|].
    apply weight_split_r.
  - right. split; [rewrite Hl1; reflexivity|]. unfold children. cbn [tid] in *.
    destruct (over n i (tid t2)) eqn:Eo.
    + exists l, t2, r, t2. destruct Hs1 as (_ & -> & -> & _). split; [reflexivity|].
      destruct (Hgo l t2 r t2) as (A & B & C & D & E & G);
        [apply sub_left, sub_refl|apply sub_refl|apply sub_right, sub_refl|apply sub_refl|rewrite cells_split_l; reflexivity|].
      split; [exact A|]. split; [exact B|]. split; [exact C|]. split; [exact D|]. split; [exact E|]. split; [exact G|].
      apply weight_split_l.
    + destruct t2 as [j q|j l2 r2].
      { cbn [tid] in *. rewrite (proj1 (Hover i j) Hl2) in Eo. discriminate. }
      exists (BNode i l r), l2, (BNode i l r), r2. cbn [tid] in *. destruct Hs2 as (_ & -> & -> & _). split; [reflexivity|].
      destruct (Hgo (BNode i l r) l2 (BNode i l r) r2) as (A & B & C & D & E & G);
        [apply sub_refl|apply sub_left, sub_refl|apply sub_refl|apply sub_right, sub_refl|apply cells_split_r|].
      split; [exact A|]. split; [exact B|]. split; [exact C|]. split; [exact D|]. split; [exact E|]. split; [exact G|].
      apply weight_split_r.
Qed.

Lemma visited_leaf : forall i p j q m, visited (cells (BLeaf i p, BLeaf j q)) m (leaf_upd i j m).
Proof using Type.
  intros. exists [(i, j)]. split; [reflexivity|]. split; [constructor; [intros []|constructor]|].
  split; [intros x H; exact H|]. intros a b H. left. exact H.
Qed.

Lemma drec_spec : over_ok n -> stop_mono -> forall fuel t1 t2 m, weight (t1, t2) <= fuel -> proper t1 t2 ->
  exists m', drec fuel (tid t1) (tid t2) m = Some m' /\ visited (cells (t1, t2)) m m'.
Proof using Type.
  intros Hover Hmono. induction fuel as [|fuel IH]; intros t1 t2 m Hw Hp.
  { pose proof (weight_pos (t1, t2)). lia. }
  cbn [drec].
  destruct (children_spec Hover t1 t2 Hp) as [(i & p & j & q & -> & -> & ->)|
    (-> & c1 & c2 & e1 & e2 & -> & Hpc & Hpe & Hlc & Hle & HP & Hx & HW)].
  { eexists. split; [reflexivity|]. apply visited_leaf. }
  cbn [ids fst snd].
  assert (Hv : forall s1 s2 d m0, proper s1 s2 -> weight (s1, s2) <= fuel ->
     (forall i j, In (i, j) (cells (s1, s2)) -> (d <= pd i j)%Z) ->
     exists m', (if can_stop d m0 then Some m0 else drec fuel (tid s1) (tid s2) m0) = Some m' /\ visited (cells (s1, s2)) m0 m').
  { intros s1 s2 d m0 Hps Hws Hd. destruct (can_stop d m0) eqn:Ec.
    - eexists. split; [reflexivity|]. eapply visited_none; eassumption.
    - apply IH; assumption. }
  destruct (Z.ltb_spec (bvd (tid e1) (tid e2)) (bvd (tid c1) (tid c2))) as [Hlt|Hge].
  - destruct (Hv e1 e2 _ m Hpe ltac:(lia) Hle) as (m1 & -> & V1).
    destruct (Hv c1 c2 _ m1 Hpc ltac:(lia) Hlc) as (m2 & -> & V2).
    exists m2. split; [reflexivity|]. eapply visited_perm; [|eapply visited_seq; [exact Hmono|exact V1|exact V2|]].
    + rewrite HP. apply Permutation_app_comm.
    + intros p A B. eapply Hx; eassumption.
  - destruct (Hv c1 c2 _ m Hpc ltac:(lia) Hlc) as (m1 & -> & V1).
    destruct (Hv e1 e2 _ m1 Hpe ltac:(lia) Hle) as (m2 & -> & V2).
    exists m2. split; [reflexivity|]. eapply visited_perm; [|eapply visited_seq; [exact Hmono|exact V1|exact V2|exact Hx]].
    rewrite HP. reflexivity.
Qed.

(** ** The queue variant *)

(** A queue entry stands for a pair of trees and carries a lower bound. *)
Definition stands (e : entry) (p : btree * btree) : Prop :=
  snd e = ids p /\ proper (fst p) (snd p) /\ forall i j, In (i, j) (cells p) -> (fst e <= pd i j)%Z.

Definition sumw (ps : list (btree * btree)) : nat := list_sum (map weight ps).

Lemma Forall2_perm : forall A B (R : A -> B -> Prop) l l' r, Permutation l l' -> Forall2 R l r ->
  exists r', Forall2 R l' r' /\ Permutation r r'.
Proof using Type.
  intros A B R l l' r Hp. revert r. induction Hp; intros r Hr.
  - exists r. auto.
  - inversion Hr as [|? y ? r0 Hxy Hr0]; subst. destruct (IHHp r0 Hr0) as (r' & H1 & H2).
    exists (y :: r'). split; [constructor; assumption|constructor; assumption].
  - inversion Hr as [|? b ? r0 H1 H2]; subst. inversion H2 as [|? a ? r1 H3 H4]; subst.
    exists (a :: b :: r1). split; [repeat constructor; assumption|constructor].
  - destruct (IHHp1 r Hr) as (r1 & H1 & H2). destruct (IHHp2 r1 H1) as (r2 & H3 & H4).
    exists r2. split; [exact H3|eapply perm_trans; eassumption].
Qed.

Lemma sumw_perm : forall a b, Permutation a b -> sumw a = sumw b.
Proof using Type.
  intros a b H. unfold sumw, list_sum. induction H; cbn [map fold_right]; lia.
Qed.

Lemma dqueue_spec : over_ok n -> stop_mono -> pop_ok -> forall qsize, 2 <= qsize ->
  forall fuel q ps t1 t2 m,
  2 * (weight (t1, t2) + sumw ps) <= fuel -> proper t1 t2 -> Forall2 stands q ps ->
  NoDup (cells (t1, t2) ++ flat_map cells ps) ->
  exists m', dqueue qsize fuel q (tid t1) (tid t2) m = Some m' /\ visited (cells (t1, t2) ++ flat_map cells ps) m m'.
Proof using Type.
  intros Hover Hmono [Hpop0 Hpop] qsize Hqs. induction fuel as [|fuel IH]; intros q ps t1 t2 m Hw Hp Hq Hnd.
  { pose proof (weight_pos (t1, t2)). lia. }
  (* popping *)
  assert (Hnext : forall q ps m, 2 * sumw ps <= fuel -> Forall2 stands q ps -> NoDup (flat_map cells ps) ->
    exists m', match pop q with
               | None => Some m
               | Some ((d, (a', b')), q') => if can_stop d m then Some m else dqueue qsize fuel q' a' b' m
               end = Some m' /\ visited (flat_map cells ps) m m').
  { clear q ps m Hw Hq Hnd. intros q ps m Hw Hq Hnd. destruct q as [|e0 q0].
    { rewrite Hpop0. inversion Hq; subst. exists m. split; [reflexivity|].
      exists []. split; [reflexivity|]. split; [constructor|]. split; [intros p []|intros i j []]. }
    destruct (Hpop (e0 :: q0) ltac:(discriminate)) as ([d [a b]] & q' & -> & HP & Hmin).
    destruct (Forall2_perm _ _ _ _ _ _ HP Hq) as (ps' & Hq' & HPp).
    destruct (can_stop d m) eqn:Ec.
    - exists m. split; [reflexivity|]. eapply visited_none; [exact Hmono| |exact Ec].
      intros i j Hc. apply in_flat_map in Hc. destruct Hc as (p & Hpi & Hc).
      assert (He : exists e, In e (e0 :: q0) /\ stands e p).
      { clear - Hq Hpi. induction Hq as [|e p0 q ps He Hq IH]; [contradiction|].
        destruct Hpi as [<-|Hpi]; [exists e; split; [left; reflexivity|exact He]|].
        destruct (IH Hpi) as (e' & H1 & H2). exists e'. split; [right; exact H1|exact H2]. }
      destruct He as (e & He & Hs). pose proof (Hmin e He) as Hm. cbn [fst] in Hm.
      destruct Hs as (_ & _ & Hs). specialize (Hs i j Hc). lia.
    - inversion Hq' as [|? p ? ps1 Hst Hrest]; subst. destruct p as [u1 u2].
      destruct Hst as (Eid & Hpu & _). cbn [snd ids fst] in Eid. injection Eid as -> ->.
      pose proof (sumw_perm _ _ HPp) as HS. cbn [sumw map list_sum fold_right] in HS. fold (list_sum (map weight ps1)) in HS.
      fold (sumw ps1) in HS.
      assert (HPc : Permutation (flat_map cells ps) (cells (u1, u2) ++ flat_map cells ps1)).
      { change (cells (u1, u2) ++ flat_map cells ps1) with (flat_map cells ((u1, u2) :: ps1)).
        apply Permutation_flat_map. exact HPp. }
      destruct (IH q' ps1 u1 u2 m) as (m' & E & V).
      + unfold sumw in *. lia.
      + exact Hpu.
      + exact Hrest.
      + eapply Permutation_NoDup; [exact HPc|exact Hnd].
      + exists m'. split; [exact E|]. eapply visited_perm; [symmetry; exact HPc|exact V]. }
  cbn [dqueue].
  destruct (children_spec Hover t1 t2 Hp) as [(i & p & j & r & -> & -> & ->)|
    (-> & c1 & c2 & e1 & e2 & Ech & Hpc & Hpe & Hlc & Hle & HP & Hx & HW)].
  - destruct (Hnext q ps (leaf_upd i j m)) as (m' & E & V).
    + pose proof (weight_pos (BLeaf i p, BLeaf j r)). lia.
    + exact Hq.
    + eapply NoDup_app_r; exact Hnd.
    + cbn [tid]. rewrite E. exists m'. split; [reflexivity|].
      eapply visited_seq; [exact Hmono|apply visited_leaf|exact V|].
      intros x A B. eapply NoDup_app_disj; [exact Hnd|exact A|exact B].
  - destruct (Nat.leb_spec qsize (length q + 1)) as [Hfull|Hnf].
    + (* full: recursive call with an empty queue *)
      assert (Hps : 1 <= sumw ps).
      { destruct q as [|e q]; [cbn in Hfull; lia|]. inversion Hq; subst. unfold sumw, list_sum. cbn [map fold_right].
        match goal with |- context [weight ?w] => pose proof (weight_pos w) end. lia. }
      destruct (IH [] [] t1 t2 m) as (m1 & E1 & V1).
      * change (sumw []) with 0. lia.
      * exact Hp.
      * constructor.
      * cbn [flat_map]. rewrite app_nil_r. apply NoDup_app_l in Hnd. exact Hnd.
      * rewrite E1. cbn [flat_map] in V1. rewrite app_nil_r in V1.
        destruct (Hnext q ps m1) as (m' & E & V).
        -- pose proof (weight_pos (t1, t2)). lia.
        -- exact Hq.
        -- eapply NoDup_app_r; exact Hnd.
        -- rewrite E. exists m'. split; [reflexivity|]. eapply visited_seq; [exact Hmono|exact V1|exact V|].
           intros x A B. eapply NoDup_app_disj; [exact Hnd|exact A|exact B].
    + rewrite Ech. cbn [ids fst snd].
      assert (HPc : Permutation (cells (t1, t2) ++ flat_map cells ps) (flat_map cells (ps ++ [(c1, c2); (e1, e2)]))).
      { rewrite flat_map_app. cbn [flat_map]. rewrite app_nil_r. rewrite HP. apply Permutation_app_comm. }
      destruct (Hnext (q ++ [(bvd (tid c1) (tid c2), (tid c1, tid c2)); (bvd (tid e1) (tid e2), (tid e1, tid e2))])
                  (ps ++ [(c1, c2); (e1, e2)]) m) as (m' & E & V).
      * unfold sumw in *. rewrite map_app, list_sum_app. unfold list_sum at 2. cbn [map fold_right]. lia.
      * apply Forall2_app; [exact Hq|]. constructor; [|constructor; [|constructor]].
        -- split; [reflexivity|]. split; [exact Hpc|exact Hlc].
        -- split; [reflexivity|]. split; [exact Hpe|exact Hle].
      * eapply Permutation_NoDup; [exact HPc|exact Hnd].
      * exists m'. split; [exact E|]. eapply visited_perm; [symmetry; exact HPc|exact V].
Qed.

(** With a queue size of 0 or 1 the queue is always full, and a pair that is not
    a pair of leaves makes the function call itself on the same pair forever. *)
Lemma dqueue_diverges : forall qsize, qsize <= 1 -> forall fuel a b m, leaf1 n a && leaf2 n b = false ->
  dqueue qsize fuel [] a b m = None.
Proof using Type.
  intros qsize Hq. induction fuel as [|fuel IH]; intros a b m Hl; [reflexivity|].
  cbn [dqueue]. rewrite Hl. cbn [length Nat.add]. replace (qsize <=? 1) with true by (symmetry; apply Nat.leb_le; lia).
  rewrite IH by exact Hl. reflexivity.
Qed.

End Distance.

(** The mesh node's canStop (mesh_distance_traversal_node-inl.h 98-104):
    [c >= min_distance - abs_err && c * (1 + rel_err) >= min_distance]. *)
Definition tol_stop (abs_err rel_p rel_q : Z) (c m : Z) : bool :=
  ((m - abs_err <=? c) && (m * rel_q <=? c * (rel_q + rel_p)))%Z.

Lemma tol_stop_mono : forall abs_err rel_p rel_q, (0 < rel_q)%Z -> (0 <= rel_p)%Z -> stop_mono (tol_stop abs_err rel_p rel_q).
Proof.
  intros abs_err rel_p rel_q Hq Hp c c' m m' Hc Hm H. unfold tol_stop in *. apply andb_true_iff in H.
  destruct H as [H1 H2]. apply Z.leb_le in H1. apply Z.leb_le in H2. apply andb_true_iff.
  split; apply Z.leb_le; nia.
Qed.
