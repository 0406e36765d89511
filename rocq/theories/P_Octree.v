(** C43 (child boxes) and C44 (octree traversals). *)
From Coq Require Import Reals Lra Lia ZArith List Bool.
From Verif Require Import VecR AabbDist P_AabbDist Obb P_Obb Motion Convert P_Convert Octree.
Import ListNotations.
Local Open Scope R_scope.

(** ** C43 *)
Lemma half_cover a b x : a <= x <= b -> exists up, half_lo up a b <= x <= half_hi up a b.
Proof. intros H. destruct (Rle_dec x ((a + b) * (1 / 2))); [exists false|exists true]; unfold half_lo, half_hi; lra. Qed.
Definition idx (x y z : bool) : nat := (Nat.b2n x + 2 * Nat.b2n y + 4 * Nat.b2n z)%nat.
Lemma idx_bits x y z : Nat.testbit (idx x y z) 0 = x /\ Nat.testbit (idx x y z) 1 = y /\ Nat.testbit (idx x y z) 2 = z.
Proof. destruct x, y, z; repeat split; reflexivity. Qed.
Lemma idx_lt x y z : (idx x y z < 8)%nat.
Proof. destruct x, y, z; cbn; lia. Qed.

(** The children cover the parent exactly. *)
Theorem child_boxes_cover : forall b p, in_boxR p b <-> exists i, (i < 8)%nat /\ in_boxR p (child_box b i).
Proof.
  intros b p. split; [|intros (i & _ & H); exact (child_in b i p H)].
  intros (H0 & H1 & H2). destruct (half_cover _ _ _ H0) as [x X], (half_cover _ _ _ H1) as [y Y], (half_cover _ _ _ H2) as [z Z].
  exists (idx x y z). split; [apply idx_lt|]. destruct (idx_bits x y z) as (E0 & E1 & E2). unfold child_box. rewrite E0, E1, E2. split; [exact X|split; [exact Y|exact Z]].
Qed.
Print Assumptions child_boxes_cover.

(** No point is strictly inside one child and in another. *)
Definition strictly_in (p : v3) (b : boxR) : Prop :=
  c0 (lo b) < c0 p < c0 (hi b) /\ c1 (lo b) < c1 p < c1 (hi b) /\ c2 (lo b) < c2 p < c2 (hi b).
Lemma half_apart (u v : bool) a b x : half_lo u a b < x < half_hi u a b -> half_lo v a b <= x <= half_hi v a b -> u = v.
Proof. destruct u, v; unfold half_lo, half_hi; intros; try reflexivity; lra. Qed.
Theorem child_boxes_disjoint : forall b i j p, (i < 8)%nat -> (j < 8)%nat -> i <> j -> strictly_in p (child_box b i) -> ~ in_boxR p (child_box b j).
Proof.
  intros b i j p Hi Hj N (H0 & H1 & H2) (K0 & K1 & K2). unfold child_box in *. cbn [lo hi c0 c1 c2] in *.
  apply half_apart with (1 := H0) in K0. apply half_apart with (1 := H1) in K1. apply half_apart with (1 := H2) in K2.
  apply N. clear -Hi Hj K0 K1 K2. do 8 (destruct i as [|i]; [do 8 (destruct j as [|j]; [first [reflexivity | discriminate]|]); lia|]). lia.
Qed.
Print Assumptions child_boxes_disjoint.

(** All children have half the side, so the cells at depth k below the root have the root's side
    over 2^k; the root box made for depth d and resolution r therefore has cells of side r. *)
Definition side (b : boxR) : v3 := vsub (hi b) (lo b).
Theorem child_box_side : forall b i, side (child_box b i) = vscale (1 / 2) (side b).
Proof.
  intros [[a0 a1 a2] [d0 d1 d2]] i. unfold side, child_box, vsub, vscale, half_lo, half_hi. cbn [lo hi c0 c1 c2].
  destruct (Nat.testbit i 0), (Nat.testbit i 1), (Nat.testbit i 2); f_equal; lra.
Qed.
Print Assumptions child_box_side.
Theorem octree_resolution : forall d r (path : list nat), length path = d ->
  side (fold_left child_box path (root_box d r)) = mk3 r r r.
Proof.
  assert (G : forall path b, vscale (INR (2 ^ length path)) (side (fold_left child_box path b)) = side b).
  { induction path as [|i path IH]; intros b.
    - cbn. destruct b as [[] []]. unfold side, vscale, vsub. cbn. f_equal; lra.
    - cbn [fold_left length Nat.pow]. rewrite mult_INR. specialize (IH (child_box b i)). rewrite child_box_side in IH.
      replace (INR 2) with 2 by (cbn; lra). revert IH. generalize (INR (2 ^ length path)) (side (fold_left child_box path (child_box b i))) (side b).
      intros k [x0 x1 x2] [y0 y1 y2]. unfold vscale. cbn. intros E. injection E as E0 E1 E2. f_equal; lra. }
  intros d r path E. specialize (G path (root_box d r)). rewrite E in G.
  assert (P : 0 < INR (2 ^ d)) by (apply lt_0_INR; apply Nat.neq_0_lt_0, Nat.pow_nonzero; lia).
  revert G. generalize (side (fold_left child_box path (root_box d r))). intros [x0 x1 x2]. unfold root_box, side, vscale, vsub. cbn [lo hi c0 c1 c2].
  set (K := INR (2 ^ d)) in *. clearbody K. intros G. injection G as G0 G1 G2.
  assert (A : forall x, K * x = K * r / 2 - - (K * r / 2) -> x = r) by (intros x Hx; apply (Rmult_eq_reg_l K); lra). f_equal; apply A; assumption.
Qed.
Print Assumptions octree_resolution.
Example child_case : let b := root_box 4 (1/4) in in_boxR (mk3 1 (-1) (1/2)) (child_box b 5) /\ ~ in_boxR (mk3 1 (-1) (1/2)) (child_box b 4) /\ hi b = mk3 2 2 2.
Proof.
  unfold root_box, child_box, half_lo, half_hi, in_boxR. cbn [lo hi c0 c1 c2 Nat.testbit Nat.odd Nat.even Nat.div2 negb].
  replace (INR (2 ^ 4)) with 16 by (cbn; lra). repeat split; try lra. f_equal; lra.
Qed.

(** ** C44: the traversals *)
Section Trav.
Variables (occ free : Z) (o_occ o_free : bool) (C : Type) (max : nat) (top : nat -> list C -> list C) (cost : bool).

Lemma occ_free_gt l x : (l <= x)%Z -> (occ <= l)%Z -> (free < l)%Z -> is_free free x = false /\ is_unc occ free x = false.
Proof. intros. unfold is_unc, is_free, is_occ. split; [apply Z.leb_gt; lia|]. replace (occ <=? x)%Z with true by (symmetry; apply Z.leb_le; lia). reflexivity. Qed.
Lemma eight_lt i : In i eight <-> (i < 8)%nat.
Proof. unfold eight. cbn. lia. Qed.

(** *** Shape *)
Section Shape.
Variables (ov hit : boxR -> bool) (gen : nat -> boxR -> list C) (meets : boxR -> Prop).
Hypothesis meets_mono : forall a b, box_in a b -> meets a -> meets b.
Hypothesis meets_ov : forall b, meets b -> ov b = true.
Definition sg (x : nat * boxR) : list C := if hit (snd x) then gen (fst x) (snd x) else [].
Lemma shape_spec : forall t b, maxprop t ->
  visits C (nat * boxR) cell max top cost sg (shape_rec occ free o_occ o_free max top cost ov hit gen t b)
    (fun x => exists l, leaf_at t b (fst x) l (snd x) /\ (occ <= l)%Z /\ (free < l)%Z /\ o_occ = true /\ o_free = false /\ meets (snd x))
    (fun x => exists l, leaf_at t b (fst x) l (snd x) /\ (occ <= l)%Z /\ o_occ = true /\ ov (snd x) = true)
    (fun k => fst k = None /\ gap_at free t b (snd k) /\ cost = true /\ o_free = false /\ meets (snd k) /\ hit (snd k) = true)
    (fun k => fst k = None /\ gap_at free t b (snd k) /\ hit (snd k) = true).
Proof.
  induction t as [|id l|id l kids IH]; intros b M.
  - eapply visits_weak with (mu := none) (ma := none) (ku := fun k => In k (if ov b && hit b then [(None, b)] else [])) (ka := fun k => In k (if ov b && hit b then [(None, b)] else [])).
    + eapply visits_ext; [|apply visits_costs]. intros s. cbn [shape_rec]. destruct (ov b && hit b); [reflexivity|]. unfold put. rewrite app_nil_r. destruct s; reflexivity.
    + intros x (l & H & _). inversion H.
    + intros x [].
    + intros [o c] (E & G & _ & _ & Hm & Hh). cbn in *. inversion G; subst. rewrite (meets_ov _ Hm), Hh. left. reflexivity.
    + intros k Hk. destruct (ov b && hit b) eqn:E; [|destruct Hk]. destruct Hk as [<-|[]]. apply andb_prop in E. cbn. split; [reflexivity|split; [constructor|tauto]].
  - cbn [shape_rec]. destruct (is_occ occ l && o_occ) eqn:E1; [destruct (ov b) eqn:E2|].
    + eapply visits_weak; [apply (visits_one _ _ _ _ _ _ sg (id, b) [])| | | |].
      * intros s. unfold sg. cbn [fst snd]. rewrite app_nil_r. destruct (hit b).
        -- eexists. split; [reflexivity|]. cbn [contacts]. auto.
        -- eexists. split; [|intros H; exact H]. rewrite add_nil. destruct s; reflexivity.
      * intros [i c] (l' & H & _). inversion H; subst. reflexivity.
      * intros x ->. apply andb_prop in E1. exists l. split; [constructor|]. split; [apply Z.leb_le; apply E1|split; [tauto|exact E2]].
      * intros k (_ & H & _). inversion H.
      * intros k [].
    + eapply visits_weak; [apply visits_skip| | | |]; [|intros ? []| |intros ? []].
      * intros [i c] (l' & H & _ & _ & _ & _ & Hm). cbn in *. inversion H; subst. rewrite (meets_ov _ Hm) in E2. discriminate.
      * intros k (_ & H & _). inversion H.
    + eapply visits_weak; [apply visits_skip| | | |]; [|intros ? []| |intros ? []].
      * intros [i c] (l' & H & Ho & _ & Hs & _). cbn in *. rewrite Hs in E1. inversion H; subst. unfold is_occ in E1. apply Z.leb_le in Ho. rewrite Ho in E1. discriminate.
      * intros k (_ & H & _). inversion H.
  - cbn [shape_rec].
    assert (Skip : (forall x l', leaf_at (Inner id l kids) b (fst x) l' (snd x) -> (occ <= l')%Z -> (free < l')%Z -> o_occ = true -> o_free = false -> meets (snd x) -> False) ->
       (forall c, gap_at free (Inner id l kids) b c -> cost = true -> o_free = false -> meets c -> hit c = true -> False) ->
       visits C (nat * boxR) cell max top cost sg (fun s => (s, false))
         (fun x => exists l0, leaf_at (Inner id l kids) b (fst x) l0 (snd x) /\ (occ <= l0)%Z /\ (free < l0)%Z /\ o_occ = true /\ o_free = false /\ meets (snd x))
         (fun x => exists l0, leaf_at (Inner id l kids) b (fst x) l0 (snd x) /\ (occ <= l0)%Z /\ o_occ = true /\ ov (snd x) = true)
         (fun k => fst k = None /\ gap_at free (Inner id l kids) b (snd k) /\ cost = true /\ o_free = false /\ meets (snd k) /\ hit (snd k) = true)
         (fun k => fst k = None /\ gap_at free (Inner id l kids) b (snd k) /\ hit (snd k) = true)).
    { intros N1 N2. eapply visits_weak; [apply visits_skip| | | |]; [|intros ? []| |intros ? []].
      - intros x (l' & H1 & H2 & H3 & H4 & H5 & H6). exact (N1 x l' H1 H2 H3 H4 H5 H6).
      - intros k (_ & H1 & H2 & H3 & H4 & H5). exact (N2 _ H1 H2 H3 H4 H5). }
    assert (Hl : forall i c l', leaf_at (Inner id l kids) b i l' c -> (l' <= l)%Z) by (intros i c l' H; apply (maxprop_leaf _ _ _ _ _ H M); cbn; lia).
    destruct (is_free free l || o_free) eqn:E1.
    { apply Skip.
      - intros [i c] l' H Ho Hf Hso Hsf _. pose proof (occ_free_gt l' l (Hl _ _ _ H) Ho Hf) as [E _]. rewrite E, Hsf in E1. discriminate.
      - intros c H _ Hsf _ _. rewrite Hsf in E1. inversion H; subst. unfold is_free in E1. replace (l <=? free)%Z with false in E1 by (symmetry; apply Z.leb_gt; assumption). discriminate. }
    apply orb_false_elim in E1. destruct E1 as [Ef Es].
    destruct ((is_unc occ free l || o_unc o_occ o_free) && negb cost) eqn:E2.
    { apply andb_prop in E2. destruct E2 as [E2 Ec]. apply Skip.
      - intros [i c] l' H Ho Hf Hso Hsf _. pose proof (occ_free_gt l' l (Hl _ _ _ H) Ho Hf) as [_ E]. rewrite E in E2. unfold o_unc in E2. rewrite Hso in E2. discriminate.
      - intros c _ Hc. rewrite Hc in Ec. discriminate. }
    destruct (ov b) eqn:E3; cbn [negb].
    2:{ assert (Nm : forall c, box_in c b -> meets c -> False) by (intros c Hc Hm; rewrite (meets_ov b (meets_mono _ _ Hc Hm)) in E3; discriminate). apply Skip.
      - intros x l' H _ _ _ _ Hm. exact (Nm _ (leaf_in _ _ _ _ _ H) Hm).
      - intros c H _ _ Hm _. exact (Nm _ (gap_in _ _ _ _ H) Hm). }
    assert (Fl : (free < l)%Z) by (unfold is_free in Ef; apply Z.leb_gt; exact Ef).
    eapply visits_weak.
    { apply (visits_turn _ _ _ _ _ _ _ _
        (fun i x => exists l', leaf_at (kids i) (child_box b i) (fst x) l' (snd x) /\ (occ <= l')%Z /\ (free < l')%Z /\ o_occ = true /\ o_free = false /\ meets (snd x))
        (fun i x => exists l', leaf_at (kids i) (child_box b i) (fst x) l' (snd x) /\ (occ <= l')%Z /\ o_occ = true /\ ov (snd x) = true)
        (fun i k => fst k = None /\ gap_at free (kids i) (child_box b i) (snd k) /\ cost = true /\ o_free = false /\ meets (snd k) /\ hit (snd k) = true)
        (fun i k => fst k = None /\ gap_at free (kids i) (child_box b i) (snd k) /\ hit (snd k) = true) eight).
      intros i Hi. destruct (M i Hi) as [_ Mi]. specialize (IH i (child_box b i) Mi). destruct (kids i) as [| |] eqn:Ek; [|exact IH|exact IH].
      destruct (negb o_free && cost) eqn:Eg; [exact IH|].
      eapply visits_weak; [apply visits_skip| | | |]; [|intros ? []| |intros ? []].
      - intros x (l' & H & _). inversion H.
      - intros k (_ & _ & Hc & Hf & _). rewrite Hc, Hf in Eg. discriminate. }
    + intros x (l' & H & R). inversion H; subst. eexists; split; [eassumption|]. exists l'. split; [assumption|exact R].
    + intros x (i & Hi & l' & H & R). exists l'. split; [econstructor; eassumption|exact R].
    + intros k (N & H & R). inversion H; subst. eexists; split; [eassumption|]. split; [exact N|split; [assumption|exact R]].
    + intros k (i & Hi & N & H & R). split; [exact N|split; [econstructor; eassumption|exact R]].
Qed.
End Shape.

(** *** Helpers for the two-sided traversals *)
Section Help.
Variables (I K : Type) (g : I -> list C).
Notation visits := (visits C I K max top cost g).
Lemma visits_none (mu ma : I -> Prop) (ku ka : K -> Prop) : (forall x, ~ mu x) -> (forall k, ~ ku k) -> visits (fun s => (s, false)) mu ma ku ka.
Proof. intros H1 H2. eapply visits_weak; [apply visits_skip| | | |]; [intros x Hx; exact (H1 x Hx)|intros ? []|intros k Hk; exact (H2 k Hk)|intros ? []]. Qed.
Lemma visits_two a1 a2 (mu1 ma1 mu2 ma2 : I -> Prop) (ku1 ka1 ku2 ka2 : K -> Prop) : visits a1 mu1 ma1 ku1 ka1 -> visits a2 mu2 ma2 ku2 ka2 ->
  visits (in_turn [a1; a2]) (fun x => mu1 x \/ mu2 x) (fun x => ma1 x \/ ma2 x) (fun x => ku1 x \/ ku2 x) (fun x => ka1 x \/ ka2 x).
Proof.
  intros H1 H2. eapply visits_weak.
  - change [a1; a2] with (map (fun b : bool => if b then a1 else a2) [true; false]).
    apply (visits_turn _ _ _ _ _ _ _ _ (fun b : bool => if b then mu1 else mu2) (fun b : bool => if b then ma1 else ma2) (fun b : bool => if b then ku1 else ku2) (fun b : bool => if b then ka1 else ka2)).
    intros [] _; assumption.
  - intros x [H|H]; [exists true|exists false]; cbn; auto.
  - intros x ([] & _ & H); auto.
  - intros x [H|H]; [exists true|exists false]; cbn; auto.
  - intros x ([] & _ & H); auto.
Qed.
Lemma visits_ifcost a (mu ma : I -> Prop) (ku ka : K -> Prop) : visits a mu ma ku ka -> (cost = false -> visits (fun s => (s, false)) mu ma ku ka) ->
  visits (fun s => if cost then a s else (s, false)) mu ma ku ka.
Proof.
  intros H1 H2. assert (E : cost = true \/ cost = false) by (destruct cost; auto). destruct E as [E|E].
  - eapply visits_ext; [|exact H1]. intros s. rewrite E. reflexivity.
  - eapply visits_ext; [|exact (H2 E)]. intros s. rewrite E. reflexivity.
Qed.
Lemma visits_prune fr unc ovb a (mu ma : I -> Prop) (ku ka : K -> Prop) :
  (fr = true -> (forall x, ~ mu x) /\ (forall k, ~ ku k)) -> (unc = true -> cost = false -> forall x, ~ mu x) -> (forall k, ku k -> cost = true) ->
  (ovb = false -> (forall x, ~ mu x) /\ (forall k, ~ ku k)) -> visits a mu ma ku ka ->
  visits (fun s => if fr : bool then (s, false) else if unc && negb cost then (s, false) else if negb ovb then (s, false) else a s) mu ma ku ka.
Proof.
  intros Hf Hu Hk Ho Ha. destruct fr; [destruct (Hf eq_refl); apply visits_none; assumption|].
  destruct (unc && negb cost) eqn:E.
  - apply andb_prop in E. destruct E as [-> E]. apply negb_true_iff in E. apply visits_none; [exact (Hu eq_refl E)|]. intros k Hx. specialize (Hk k Hx). congruence.
  - destruct ovb; cbn [negb]; [exact Ha|]. destruct (Ho eq_refl). apply visits_none; assumption.
Qed.
(** a cell tested: contacts if hit, cost events [W] *)
Lemma visits_test (x : I) (W : list K) (h : bool) (cs : list C) : g x = (if h then cs else []) ->
  visits (fun s => let s1 := if h then St (add max top cs (contacts s)) (costs s) else s in
                   let s2 := St (contacts s1) (costs s1 ++ W) in (s2, satisfied max cost (contacts s2)))
    (fun y => y = x) (fun y => y = x) (fun k => In k W) (fun k => In k W).
Proof.
  intros E. apply visits_one. intros s. rewrite E. destruct h.
  - eexists. split; [reflexivity|]. cbn. auto.
  - eexists. split; [|intros H; exact H]. rewrite add_nil. destruct s; reflexivity.
Qed.
End Help.

(** *** Mesh *)
Section Mesh.
Variables (V : Type) (vov : boxR -> V -> bool) (vsize : V -> R) (hitm : boxR -> nat -> bool) (genm : nat -> boxR -> nat -> list C) (meets : boxR -> nat -> Prop).
Hypothesis meets_mono : forall a b p, box_in a b -> meets a p -> meets b p.
Definition mg (x : nat * boxR * nat) : list C := let '(id, c, p) := x in if hitm c p then genm id c p else [].
Definition m_must t b (m : bvh V) (x : nat * boxR * nat) : Prop := let '(id, c, p) := x in
  exists l, leaf_at t b id l c /\ under m p /\ (occ <= l)%Z /\ (free < l)%Z /\ o_occ = true /\ o_free = false /\ meets c p.
Definition m_may t b (m : bvh V) (x : nat * boxR * nat) : Prop := let '(id, c, p) := x in
  exists l, leaf_at t b id l c /\ under m p /\ (occ <= l)%Z /\ o_occ = true.
Definition m_cell t b (o : option nat) (c : boxR) : Prop :=
  match o with Some id => exists l, leaf_at t b id l c /\ (free < l)%Z | None => gap_at free t b c end.
Definition m_kmust t b (m : bvh V) (k : cell * nat) : Prop := let '(o, c, p) := k in
  under m p /\ cost = true /\ o_free = false /\ meets c p /\ hitm c p = true /\ m_cell t b o c.
Definition m_kmay t b (m : bvh V) (k : cell * nat) : Prop := let '(o, c, p) := k in
  under m p /\ hitm c p = true /\ match o with Some id => cost = true /\ exists l, leaf_at t b id l c | None => gap_at free t b c end.
Definition vol_ok (m : bvh V) : Prop := each (fun v p => forall c, meets c p -> vov c v = true) m.
Notation mrec := (mesh_rec occ free o_occ o_free max top cost vov vsize hitm genm).
Notation mvisits t b m := (visits C (nat * boxR * nat) (cell * nat) max top cost mg (mrec t b m) (m_must t b m) (m_may t b m) (m_kmust t b m) (m_kmay t b m)).

Lemma m_must_in t b m id c p : m_must t b m (id, c, p) -> box_in c b /\ meets c p /\ under m p.
Proof. intros (l & H & U & _ & _ & _ & _ & Hm). split; [exact (leaf_in _ _ _ _ _ H)|auto]. Qed.
Lemma m_kmust_in t b m o c p : m_kmust t b m (o, c, p) -> box_in c b /\ meets c p /\ under m p.
Proof. intros (U & _ & _ & Hm & _ & H). split; [|auto]. destruct o; [destruct H as (l & H & _); exact (leaf_in _ _ _ _ _ H)|exact (gap_in _ _ _ _ H)]. Qed.
Lemma mesh_split t b v l r : visits C _ _ max top cost mg (in_turn [mrec t b l; mrec t b r])
     (fun x => m_must t b l x \/ m_must t b r x) (fun x => m_may t b l x \/ m_may t b r x) (fun x => m_kmust t b l x \/ m_kmust t b r x) (fun x => m_kmay t b l x \/ m_kmay t b r x) ->
  visits C _ _ max top cost mg (in_turn [mrec t b l; mrec t b r]) (m_must t b (BNode v l r)) (m_may t b (BNode v l r)) (m_kmust t b (BNode v l r)) (m_kmay t b (BNode v l r)).
Proof.
  intros H. eapply visits_weak; [exact H| | | |].
  - intros [[id c] p] (o & Ho & U & Rr). inversion U; subst; [left|right]; exists o; auto.
  - intros [[id c] p] [(o & Ho & U & Rr)|(o & Ho & U & Rr)]; exists o; (split; [exact Ho|split; [constructor; assumption|exact Rr]]).
  - intros [[o c] p] (U & Rr). inversion U; subst; [left|right]; split; auto.
  - intros [[o c] p] [(U & Rr)|(U & Rr)]; (split; [constructor; assumption|exact Rr]).
Qed.
(** nothing is lost by the three tests made before going down *)
Lemma mesh_prune t b m od a : maxprop t -> vol_ok m -> odds_le t od -> (forall o c, m_cell t b o c -> (free < od)%Z) ->
  visits C _ _ max top cost mg a (m_must t b m) (m_may t b m) (m_kmust t b m) (m_kmay t b m) ->
  visits C _ _ max top cost mg (fun s => if is_free free od || o_free then (s, false) else if (is_unc occ free od || o_unc o_occ o_free) && negb cost then (s, false)
     else if negb (vov b (vol m)) then (s, false) else a s) (m_must t b m) (m_may t b m) (m_kmust t b m) (m_kmay t b m).
Proof.
  intros M Hv Ho Hc Ha. apply visits_prune; [| | | |exact Ha].
  - intros E. split.
    + intros [[id c] p] (l & H & U & H1 & H2 & H3 & H4 & Hm). pose proof (occ_free_gt l od (maxprop_leaf _ _ _ _ _ H M _ Ho) H1 H2) as [E1 _]. rewrite E1, H4 in E. discriminate.
    + intros [[o c] p] (U & H1 & H2 & Hm & Hh & H). rewrite H2 in E. pose proof (Hc o c H) as Hf. unfold is_free in E. replace (od <=? free)%Z with false in E by (symmetry; apply Z.leb_gt; exact Hf). discriminate.
  - intros E _ [[id c] p] (l & H & U & H1 & H2 & H3 & H4 & Hm). pose proof (occ_free_gt l od (maxprop_leaf _ _ _ _ _ H M _ Ho) H1 H2) as [_ E1]. rewrite E1 in E. unfold o_unc in E. rewrite H3 in E. discriminate.
  - intros [[o c] p] (_ & H & _). exact H.
  - assert (G : forall c p, box_in c b -> meets c p -> under m p -> vov b (vol m) = true).
    { intros c p Hb Hm U. pose proof (meets_mono _ _ _ Hb Hm) as Hm'. unfold vol_ok in Hv. destruct m; destruct Hv as [Hv _]; exact (Hv p U b Hm'). }
    intros E. split; [intros [[id c] p] H; apply m_must_in in H|intros [[id c] p] H; apply m_kmust_in in H]; destruct H as (H1 & H2 & H3); rewrite (G c p H1 H2 H3) in E; discriminate.
Qed.

Lemma mesh_down id od kids b m (f : nat -> st C (cell * nat) -> st C (cell * nat) * bool) : (free < od)%Z \/ (forall i, In i eight -> forall c, ~ gap_at free (kids i) (child_box b i) c) ->
  (forall i, In i eight -> visits C _ _ max top cost mg (f i) (m_must (kids i) (child_box b i) m) (m_may (kids i) (child_box b i) m) (m_kmust (kids i) (child_box b i) m) (m_kmay (kids i) (child_box b i) m)) ->
  visits C _ _ max top cost mg (in_turn (map f eight)) (m_must (Inner id od kids) b m) (m_may (Inner id od kids) b m) (m_kmust (Inner id od kids) b m) (m_kmay (Inner id od kids) b m).
Proof.
  intros Hfr H. eapply visits_weak; [apply (visits_turn _ _ _ _ _ _ _ _ (fun i => m_must (kids i) (child_box b i) m) (fun i => m_may (kids i) (child_box b i) m) (fun i => m_kmust (kids i) (child_box b i) m) (fun i => m_kmay (kids i) (child_box b i) m) eight H)| | | |].
  - intros [[j c] p] (l & HH & Rr). inversion HH; subst. eexists; split; [eassumption|]. exists l. split; [assumption|exact Rr].
  - intros [[j c] p] (i & Hi & l & HH & Rr). exists l. split; [econstructor; eassumption|exact Rr].
  - intros [[[j|] c] p] (U & R1 & R2 & R3 & R4 & HH); cbn in HH.
    + destruct HH as (l & HH & Hf). inversion HH; subst. eexists; split; [eassumption|]. repeat (split; [assumption|]). exists l. auto.
    + inversion HH; subst. eexists; split; [eassumption|]. repeat (split; [assumption|]). assumption.
  - intros [[[j|] c] p] (i & Hi & U & R1 & HH); (split; [exact U|split; [exact R1|]]).
    + destruct HH as (R2 & l & HH). split; [exact R2|]. exists l. econstructor; eassumption.
    + destruct Hfr as [Hfr|Hfr]; [econstructor; eassumption|]. destruct (Hfr i Hi c HH).
Qed.

Lemma mesh_spec : forall t b m, maxprop t -> vol_ok m -> mvisits t b m.
Proof.
  induction t as [|id od|id od kids IH]; intros b; induction m as [v p|v l IHl r IHr]; intros M Hv.
  - set (W := if vov b v && hitm b p then [((None, b) : cell, p)] else []).
    eapply visits_weak with (mu := none) (ma := none) (ku := fun k => In k W) (ka := fun k => In k W).
    + eapply visits_ext; [|apply visits_costs]. intros s. cbn [mesh_rec]. unfold W. destruct (vov b v && hitm b p); [reflexivity|]. unfold put. rewrite app_nil_r. destruct s; reflexivity.
    + intros [[j c] q] (l & H & _). inversion H.
    + intros ? [].
    + intros [[[j|] c] q] (U & H1 & H2 & H3 & H4 & H); [destruct H as (l & H & _); inversion H|]. cbn in H. inversion H; subst. inversion U; subst. destruct Hv as [Hv _]. cbn [vol] in Hv.
      unfold W. rewrite (Hv _ U c H3), H4. left. reflexivity.
    + intros k Hk. unfold W in Hk. destruct (vov b v && hitm b p) eqn:E; [|destruct Hk]. destruct Hk as [<-|[]]. apply andb_prop in E. cbn. split; [constructor|split; [tauto|constructor]].
  - destruct Hv as (Hv0 & Hv1 & Hv2). eapply visits_ext with (a := in_turn [mrec Absent b l; mrec Absent b r]); [intros s; reflexivity|]. apply mesh_split. apply visits_two; [apply IHl|apply IHr]; assumption.
  - cbn [mesh_rec]. destruct Hv as [Hv _]. cbn [vol] in Hv. destruct (is_occ occ od && o_occ) eqn:E1; [destruct (vov b v) eqn:E2|].
    + set (W := if hitm b p && cost then [((Some id, b) : cell, p)] else []).
      eapply visits_weak with (mu := fun y => y = (id, b, p)) (ma := fun y => y = (id, b, p)) (ku := fun k => In k W) (ka := fun k => In k W).
      * eapply visits_ext; [|apply (visits_test _ _ mg (id, b, p) W (hitm b p) (genm id b p) eq_refl)]. intros s. cbv zeta. unfold W. destruct (hitm b p); cbn [andb]; [destruct cost|]; unfold put; cbn [contacts costs]; rewrite ?app_nil_r; destruct s; reflexivity.
      * intros [[j c] q] (l & H & U & _). inversion H; subst. inversion U; subst. reflexivity.
      * intros [[j c] q] E. injection E as -> -> ->. apply andb_prop in E1. exists od. split; [constructor|split; [constructor|]]. split; [apply Z.leb_le; apply E1|tauto].
      * intros [[[j|] c] q] (U & H1 & H2 & H3 & H4 & H); cbn in H; [|inversion H]. destruct H as (l & H & _). unfold W. rewrite H1. inversion H; subst. inversion U; subst. rewrite H4. left. reflexivity.
      * intros k Hk. unfold W in Hk. destruct (hitm b p && cost) eqn:E; [|destruct Hk]. destruct Hk as [<-|[]]. apply andb_prop in E. cbn. split; [constructor|split; [tauto|split; [tauto|]]]. exists od. constructor.
    + assert (N : forall c q, box_in c b -> meets c q -> under (BLeaf v p) q -> False).
      { intros c q Hb Hm U. rewrite (Hv q U b (meets_mono _ _ _ Hb Hm)) in E2. discriminate. }
      apply visits_none; intros [[j c] q] H; [apply m_must_in in H|apply m_kmust_in in H]; destruct H as (H1 & H2 & H3); exact (N c q H1 H2 H3).
    + assert (N : forall x, ~ m_must (Leaf id od) b (BLeaf v p) x).
      { intros [[j c] q] (l & H & _ & Ho & _ & Hs & _). rewrite Hs in E1. inversion H; subst. unfold is_occ in E1. apply Z.leb_le in Ho. rewrite Ho in E1. discriminate. }
      destruct (negb (is_free free od) && negb o_free && cost) eqn:E3.
      * apply andb_prop in E3. destruct E3 as [E3 Ec]. apply andb_prop in E3. destruct E3 as [Ef Es].
        set (W := if vov b v && hitm b p then [((Some id, b) : cell, p)] else []).
        eapply visits_weak with (mu := none) (ma := none) (ku := fun k => In k W) (ka := fun k => In k W).
        -- eapply visits_ext; [|apply visits_costs]. intros s. unfold W. destruct (vov b v && hitm b p); [reflexivity|]. unfold put. rewrite app_nil_r. destruct s; reflexivity.
        -- intros x Hx. destruct (N x Hx).
        -- intros ? [].
        -- intros [[[j|] c] q] (U & H1 & H2 & H3 & H4 & H); cbn in H; [|inversion H]. destruct H as (l & H & _). inversion H; subst. inversion U; subst. unfold W. rewrite (Hv _ U c H3), H4. left. reflexivity.
        -- intros k Hk. unfold W in Hk. destruct (vov b v && hitm b p) eqn:E; [|destruct Hk]. destruct Hk as [<-|[]]. apply andb_prop in E. cbn. split; [constructor|split; [tauto|split; [exact Ec|]]]. exists od. constructor.
      * apply visits_none; [exact N|]. intros [[[j|] c] q] (U & H1 & H2 & H3 & H4 & H); cbn in H; [|inversion H]. destruct H as (l & H & Hf). rewrite H1, H2 in E3. inversion H; subst.
        unfold is_free in E3. replace (l <=? free)%Z with false in E3 by (symmetry; apply Z.leb_gt; exact Hf). discriminate.
  - pose proof Hv as Hv'. destruct Hv' as (Hv0 & Hv1 & Hv2).
    eapply visits_ext; [|apply (mesh_prune (Leaf id od) b (BNode v l r) od (in_turn [mrec (Leaf id od) b l; mrec (Leaf id od) b r]) M Hv)].
    + intros s. reflexivity.
    + cbn. lia.
    + intros [j|] c H; cbn in H; [destruct H as (l' & H & Hf)|]; inversion H; subst; assumption.
    + apply mesh_split. apply visits_two; [apply IHl|apply IHr]; assumption.
  - eapply visits_ext; [|apply (mesh_prune (Inner id od kids) b (BLeaf v p) od (fun s => if (od <=? free)%Z then (s, false) else in_turn (map (fun i s => match kids i with
                                             | Absent => if negb o_free && cost then mrec (kids i) (child_box b i) (BLeaf v p) s else (s, false)
                                             | _ => mrec (kids i) (child_box b i) (BLeaf v p) s
                                             end) eight) s) M Hv)].
    + intros s. cbn [mesh_rec vol]. unfold is_free. destruct (od <=? free)%Z; reflexivity.
    + cbn. lia.
    + intros [j|] c H; cbn in H.
      * destruct H as (l' & H & Hf). assert (l' <= od)%Z by (apply (maxprop_leaf _ _ _ _ _ H M); cbn; lia). lia.
      * inversion H; subst; assumption.
    + destruct (od <=? free)%Z eqn:Ef.
      * apply Z.leb_le in Ef. apply visits_none.
        -- intros [[j c] q] (l' & H & U & H1 & H2 & _). assert (l' <= od)%Z by (apply (maxprop_leaf _ _ _ _ _ H M); cbn; lia). lia.
        -- intros [[[j|] c] q] (U & H1 & H2 & H3 & H4 & H); cbn in H; [|inversion H; subst; lia]. destruct H as (l' & H & Hf). assert (l' <= od)%Z by (apply (maxprop_leaf _ _ _ _ _ H M); cbn; lia). lia.
      * apply mesh_down; [left; apply Z.leb_gt; exact Ef|]. intros i Hi. destruct (M i Hi) as [_ Mi]. specialize (IH i (child_box b i) (BLeaf v p) Mi Hv).
        destruct (kids i) eqn:Ek; [|exact IH|exact IH]. destruct (negb o_free && cost) eqn:Eg; [exact IH|].
        apply visits_none; [intros [[j c] q] (l' & H & _); inversion H|]. intros [[o c] q] (U & H1 & H2 & _). rewrite H1, H2 in Eg. discriminate.
  - pose proof Hv as Hv'. destruct Hv' as (Hv0 & Hv1 & Hv2).
    eapply visits_ext; [|apply (mesh_prune (Inner id od kids) b (BNode v l r) od (fun s => if (od <=? free)%Z then (s, false) else if bigger b (vsize v) then in_turn (map (fun i s => match kids i with
                                             | Absent => if negb o_free && cost then mrec (kids i) (child_box b i) (BNode v l r) s else (s, false)
                                             | _ => mrec (kids i) (child_box b i) (BNode v l r) s
                                             end) eight) s else in_turn [mrec (Inner id od kids) b l; mrec (Inner id od kids) b r] s) M Hv)].
    + intros s. cbn [mesh_rec vol]. unfold is_free. destruct (od <=? free)%Z; reflexivity.
    + cbn. lia.
    + intros [j|] c H; cbn in H.
      * destruct H as (l' & H & Hf). assert (l' <= od)%Z by (apply (maxprop_leaf _ _ _ _ _ H M); cbn; lia). lia.
      * inversion H; subst; assumption.
    + destruct (od <=? free)%Z eqn:Ef; [|destruct (bigger b (vsize v))].
      * apply Z.leb_le in Ef. apply visits_none.
        -- intros [[j c] q] (l' & H & U & H1 & H2 & _). assert (l' <= od)%Z by (apply (maxprop_leaf _ _ _ _ _ H M); cbn; lia). lia.
        -- intros [[[j|] c] q] (U & H1 & H2 & H3 & H4 & H); cbn in H; [|inversion H; subst; lia]. destruct H as (l' & H & Hf). assert (l' <= od)%Z by (apply (maxprop_leaf _ _ _ _ _ H M); cbn; lia). lia.
      * apply mesh_down; [left; apply Z.leb_gt; exact Ef|]. intros i Hi. destruct (M i Hi) as [_ Mi]. specialize (IH i (child_box b i) (BNode v l r) Mi Hv).
        destruct (kids i) eqn:Ek; [|exact IH|exact IH]. destruct (negb o_free && cost) eqn:Eg; [exact IH|].
        apply visits_none; [intros [[j c] q] (l' & H & _); inversion H|]. intros [[o c] q] (U & H1 & H2 & _). rewrite H1, H2 in Eg. discriminate.
      * apply mesh_split. apply visits_two; [apply IHl|apply IHr]; assumption.
Qed.
End Mesh.

(** *** Two octrees *)
Section Pair.
Variables (occ2 free2 : Z) (ov2 hit2 : boxR -> boxR -> bool) (gen2 : nat -> boxR -> nat -> boxR -> list C) (meets : boxR -> boxR -> Prop).
Hypothesis meets_mono : forall a b a' b', box_in a b -> box_in a' b' -> meets a a' -> meets b b'.
Hypothesis meets_ov : forall a b, meets a b -> ov2 a b = true.
Definition pitem := (nat * boxR * (nat * boxR))%type.
Definition pg (x : pitem) : list C := let '((i, c), (j, e)) := x in if hit2 c e then gen2 i c j e else [].
Definition p_must t b u d (x : pitem) : Prop := let '((i, c), (j, e)) := x in
  exists l k, leaf_at t b i l c /\ leaf_at u d j k e /\ (occ <= l)%Z /\ (free < l)%Z /\ (occ2 <= k)%Z /\ (free2 < k)%Z /\ meets c e.
Definition p_may t b u d (x : pitem) : Prop := let '((i, c), (j, e)) := x in
  exists l k, leaf_at t b i l c /\ leaf_at u d j k e /\ (occ <= l)%Z /\ (occ2 <= k)%Z.
(** a leaf that is not free, or a gap *)
Definition nonfree (f : Z) t b c : Prop := gap_at f t b c \/ exists i l, leaf_at t b i l c /\ (f < l)%Z.
Definition gap t b c : Prop := exists f, gap_at f t b c.
Definition anycell t b c : Prop := gap t b c \/ exists i l, leaf_at t b i l c.
Definition p_kmust t b u d (x : cell * cell) : Prop := cost = true /\
  match x with
  | ((Some i, c), (Some j, e)) => exists l k, leaf_at t b i l c /\ leaf_at u d j k e /\ (free < l)%Z /\ (free2 < k)%Z /\ meets c e /\ ((occ <= l)%Z -> (occ2 <= k)%Z -> hit2 c e = true)
  | ((None, c), (None, e)) => meets c e /\ nonfree free t b c /\ nonfree free2 u d e /\ (gap_at free t b c \/ gap_at free2 u d e)
  | _ => False
  end.
Definition p_kmay t b u d (x : cell * cell) : Prop :=
  match x with
  | ((Some i, c), (Some j, e)) => cost = true /\ exists l k, leaf_at t b i l c /\ leaf_at u d j k e
  | ((None, c), (None, e)) => anycell t b c /\ anycell u d e /\ (gap t b c \/ gap u d e)
  | _ => False
  end.
Notation prec := (pair_rec occ free max top cost occ2 free2 ov2 hit2 gen2).
Notation pvis a t b u d := (visits C pitem (cell * cell) max top cost pg a (p_must t b u d) (p_may t b u d) (p_kmust t b u d) (p_kmay t b u d)).

Lemma gap_at_mono f f' t b c : (f' <= f)%Z -> gap_at f t b c -> gap_at f' t b c.
Proof. intros Hf H. induction H; [constructor|]. econstructor; [eassumption|lia|assumption]. Qed.
Lemma gap_kid id od kids b i c : In i eight -> gap (kids i) (child_box b i) c -> gap (Inner id od kids) b c.
Proof. intros Hi [f H]. exists (Z.min f (od - 1)). econstructor; [exact Hi|lia|]. apply (gap_at_mono f); [lia|exact H]. Qed.
Lemma any_kid id od kids b i c : In i eight -> anycell (kids i) (child_box b i) c -> anycell (Inner id od kids) b c.
Proof. intros Hi [H|(j & l & H)]; [left; eapply gap_kid; eassumption|right]. exists j, l. econstructor; eassumption. Qed.
Lemma nonfree_kid f id od kids b c : nonfree f (Inner id od kids) b c -> exists i, In i eight /\ nonfree f (kids i) (child_box b i) c.
Proof. intros [H|(j & l & H & Hf)]; inversion H; subst; eexists; (split; [eassumption|]); [left; assumption|right; eauto]. Qed.
Lemma nonfree_in f t b c : nonfree f t b c -> box_in c b.
Proof. intros [H|(j & l & H & Hf)]; [exact (gap_in _ _ _ _ H)|exact (leaf_in _ _ _ _ _ H)]. Qed.
Lemma nonfree_odds f t b c od : maxprop t -> odds_le t od -> (t = Absent -> False) -> nonfree f t b c -> (f < od)%Z.
Proof.
  intros M O N [H|(j & l & H & Hf)].
  - inversion H; subst; [destruct (N eq_refl)|]. cbn in O. lia.
  - pose proof (maxprop_leaf _ _ _ _ _ H M _ O). lia.
Qed.

(** going down on one side: the same child for the gap and the cell *)
Lemma pair_left id od kids b u d (f : nat -> st C (cell * cell) -> st C (cell * cell) * bool) :
  (forall i, In i eight -> pvis (f i) (kids i) (child_box b i) u d) -> pvis (in_turn (map f eight)) (Inner id od kids) b u d.
Proof.
  intros H. eapply visits_weak; [apply (visits_turn _ _ _ _ _ _ _ _ (fun i => p_must (kids i) (child_box b i) u d) (fun i => p_may (kids i) (child_box b i) u d) (fun i => p_kmust (kids i) (child_box b i) u d) (fun i => p_kmay (kids i) (child_box b i) u d) eight H)| | | |].
  - intros [[i c] [j e]] (l & k & HH & Rr). inversion HH; subst. eexists; split; [eassumption|]. exists l, k. split; [assumption|exact Rr].
  - intros [[i c] [j e]] (n & Hn & l & k & HH & Rr). exists l, k. split; [econstructor; eassumption|exact Rr].
  - intros [[[i|] c] [[j|] e]] [Hc HH]; try contradiction.
    + destruct HH as (l & k & HH & Rr). inversion HH; subst. eexists; split; [eassumption|]. split; [exact Hc|]. exists l, k. split; [assumption|exact Rr].
    + destruct HH as (Hm & H1 & H2 & H3). destruct H3 as [H3|H3].
      * inversion H3; subst. eexists; split; [eassumption|]. split; [exact Hc|split; [exact Hm|]]. split; [left; assumption|split; [exact H2|left; assumption]].
      * apply nonfree_kid in H1. destruct H1 as (n & Hn & H1). exists n. split; [exact Hn|]. split; [exact Hc|split; [exact Hm|]]. split; [exact H1|split; [exact H2|right; exact H3]].
  - intros [[[i|] c] [[j|] e]] (n & Hn & HH); try contradiction.
    + destruct HH as (Hc & l & k & HH & Rr). split; [exact Hc|]. exists l, k. split; [econstructor; eassumption|exact Rr].
    + destruct HH as (H1 & H2 & H3). split; [eapply any_kid; eassumption|split; [exact H2|]]. destruct H3 as [H3|H3]; [left; eapply gap_kid; eassumption|right; exact H3].
Qed.
Lemma pair_right t b id od kids d (f : nat -> st C (cell * cell) -> st C (cell * cell) * bool) :
  (forall i, In i eight -> pvis (f i) t b (kids i) (child_box d i)) -> pvis (in_turn (map f eight)) t b (Inner id od kids) d.
Proof.
  intros H. eapply visits_weak; [apply (visits_turn _ _ _ _ _ _ _ _ (fun i => p_must t b (kids i) (child_box d i)) (fun i => p_may t b (kids i) (child_box d i)) (fun i => p_kmust t b (kids i) (child_box d i)) (fun i => p_kmay t b (kids i) (child_box d i)) eight H)| | | |].
  - intros [[i c] [j e]] (l & k & H1 & HH & Rr). inversion HH; subst. eexists; split; [eassumption|]. exists l, k. split; [exact H1|split; [assumption|exact Rr]].
  - intros [[i c] [j e]] (n & Hn & l & k & H1 & HH & Rr). exists l, k. split; [exact H1|split; [econstructor; eassumption|exact Rr]].
  - intros [[[i|] c] [[j|] e]] [Hc HH]; try contradiction.
    + destruct HH as (l & k & H1 & HH & Rr). inversion HH; subst. eexists; split; [eassumption|]. split; [exact Hc|]. exists l, k. split; [exact H1|split; [assumption|exact Rr]].
    + destruct HH as (Hm & H1 & H2 & H3). destruct H3 as [H3|H3].
      * apply nonfree_kid in H2. destruct H2 as (n & Hn & H2). exists n. split; [exact Hn|]. split; [exact Hc|split; [exact Hm|]]. split; [exact H1|split; [exact H2|left; exact H3]].
      * inversion H3; subst. eexists; split; [eassumption|]. split; [exact Hc|split; [exact Hm|]]. split; [exact H1|split; [left; assumption|right; assumption]].
  - intros [[[i|] c] [[j|] e]] (n & Hn & HH); try contradiction.
    + destruct HH as (Hc & l & k & H1 & HH). split; [exact Hc|]. exists l, k. split; [exact H1|econstructor; eassumption].
    + destruct HH as (H1 & H2 & H3). split; [exact H1|split; [eapply any_kid; eassumption|]]. destruct H3 as [H3|H3]; [left; exact H3|right; eapply gap_kid; eassumption].
Qed.
(** a cost event for two cells of which one is missing *)
Lemma pair_null t b u d : (forall i l c, ~ (leaf_at t b i l c /\ exists j k e, leaf_at u d j k e)) ->
  (forall f c, nonfree f t b c -> c = b) -> (forall f c, nonfree f u d c -> c = d) -> anycell t b b -> anycell u d d -> (gap t b b \/ gap u d d) ->
  pvis (fun s => (if ov2 b d then put [((None, b), (None, d))] s else s, false)) t b u d.
Proof.
  intros N F1 F2 A1 A2 G. set (W := if ov2 b d then [((None, b) : cell, (None, d) : cell)] else []).
  eapply visits_weak with (mu := none) (ma := none) (ku := fun k => In k W) (ka := fun k => In k W).
  - eapply visits_ext; [|apply visits_costs]. intros s. unfold W. destruct (ov2 b d); [reflexivity|]. unfold put. rewrite app_nil_r. destruct s; reflexivity.
  - intros [[i c] [j e]] (l & k & H1 & H2 & _). apply (N i l c). split; [exact H1|eauto].
  - intros ? [].
  - intros [[[i|] c] [[j|] e]] [Hc HH]; try contradiction.
    + destruct HH as (l & k & H1 & H2 & _). destruct (N i l c). split; [exact H1|eauto].
    + destruct HH as (Hm & H1 & H2 & _). apply F1 in H1. apply F2 in H2. subst. unfold W. rewrite (meets_ov _ _ Hm). left. reflexivity.
  - intros k Hk. unfold W in Hk. destruct (ov2 b d); [|destruct Hk]. destruct Hk as [<-|[]]. cbn. auto.
Qed.
Lemma pair_prune t b u d od od2 a : maxprop t -> maxprop u -> odds_le t od -> odds_le u od2 -> (t = Absent -> False) -> (u = Absent -> False) ->
  pvis a t b u d ->
  pvis (fun s => if is_free free od || is_free2 free2 od2 then (s, false) else if (is_unc occ free od || is_unc2 occ2 free2 od2) && negb cost then (s, false)
     else if negb (ov2 b d) then (s, false) else a s) t b u d.
Proof.
  intros M1 M2 O1 O2 N1 N2 Ha.
  assert (Hx : forall x, p_must t b u d x -> (occ <= od)%Z /\ (free < od)%Z /\ (occ2 <= od2)%Z /\ (free2 < od2)%Z /\ ov2 b d = true).
  { intros [[i c] [j e]] (l & k & H1 & H2 & A & B & D & E & Hm). pose proof (maxprop_leaf _ _ _ _ _ H1 M1 _ O1). pose proof (maxprop_leaf _ _ _ _ _ H2 M2 _ O2).
    split; [lia|split; [lia|split; [lia|split; [lia|]]]]. apply meets_ov. exact (meets_mono _ _ _ _ (leaf_in _ _ _ _ _ H1) (leaf_in _ _ _ _ _ H2) Hm). }
  assert (Hk : forall x, p_kmust t b u d x -> cost = true /\ (free < od)%Z /\ (free2 < od2)%Z /\ ov2 b d = true).
  { intros [[[i|] c] [[j|] e]] [Hc HH]; try contradiction; (split; [exact Hc|]).
    - destruct HH as (l & k & H1 & H2 & A & B & Hm & _). pose proof (maxprop_leaf _ _ _ _ _ H1 M1 _ O1). pose proof (maxprop_leaf _ _ _ _ _ H2 M2 _ O2).
      split; [lia|split; [lia|]]. apply meets_ov. exact (meets_mono _ _ _ _ (leaf_in _ _ _ _ _ H1) (leaf_in _ _ _ _ _ H2) Hm).
    - destruct HH as (Hm & H1 & H2 & _). split; [exact (nonfree_odds _ _ _ _ _ M1 O1 N1 H1)|split; [exact (nonfree_odds _ _ _ _ _ M2 O2 N2 H2)|]].
      apply meets_ov. exact (meets_mono _ _ _ _ (nonfree_in _ _ _ _ H1) (nonfree_in _ _ _ _ H2) Hm). }
  apply visits_prune; [| | | |exact Ha].
  - intros E. apply orb_prop in E. unfold is_free, is_free2 in E. rewrite !Z.leb_le in E. split; [intros x H; specialize (Hx x H); lia|intros x H; specialize (Hk x H); lia].
  - intros E _ x H. specialize (Hx x H). destruct Hx as (H1 & _ & H2 & _). unfold is_unc, is_unc2, is_occ, is_occ2 in E. apply Z.leb_le in H1, H2. rewrite H1, H2 in E. discriminate.
  - intros x H. apply (Hk x H).
  - intros E. split; [intros x H; destruct (Hx x H) as (_ & _ & _ & _ & H1)|intros x H; destruct (Hk x H) as (_ & _ & _ & H1)]; congruence.
Qed.
(** a missing child that is skipped had nothing to give *)
Lemma pair_skip_left b u d : cost = false -> pvis (fun s => (s, false)) Absent b u d.
Proof. intros Hc. apply visits_none; [intros [[i c] [j e]] (l & k & H & _); inversion H|]. intros x [H _]. congruence. Qed.
Lemma pair_skip_right t b d : cost = false -> pvis (fun s => (s, false)) t b Absent d.
Proof. intros Hc. apply visits_none; [intros [[i c] [j e]] (l & k & _ & H & _); inversion H|]. intros x [H _]. congruence. Qed.
Lemma nonfree_absent f b c : nonfree f Absent b c -> c = b.
Proof. intros [H|(i & l & H & _)]; inversion H; reflexivity. Qed.
Lemma nonfree_leaf f id od b c : nonfree f (Leaf id od) b c -> c = b.
Proof. intros [H|(i & l & H & _)]; inversion H; reflexivity. Qed.
Lemma gap_absent b : gap Absent b b. Proof. exists 0%Z. constructor. Qed.
Lemma any_absent b : anycell Absent b b. Proof. left. apply gap_absent. Qed.
Lemma any_leaf id od b : anycell (Leaf id od) b b. Proof. right. exists id, od. constructor. Qed.

(** the choice made when the tests are passed is only ever made when neither node is free *)
Lemma pair_guard t b u d od od2 a : maxprop t -> maxprop u -> odds_le t od -> odds_le u od2 -> (t = Absent -> False) -> (u = Absent -> False) ->
  ((free < od)%Z -> (free2 < od2)%Z -> pvis a t b u d) ->
  pvis (fun s => if is_free free od || is_free2 free2 od2 then (s, false) else if (is_unc occ free od || is_unc2 occ2 free2 od2) && negb cost then (s, false)
     else if negb (ov2 b d) then (s, false) else a s) t b u d.
Proof.
  intros M1 M2 O1 O2 N1 N2 Ha. destruct (is_free free od || is_free2 free2 od2) eqn:E.
  - assert (P := pair_prune t b u d od od2 (fun s => (s, true)) M1 M2 O1 O2 N1 N2). rewrite E in P.
    apply visits_none.
    + intros [[i c] [j e]] (l & k & H1 & H2 & A & B & D & F & Hm). pose proof (maxprop_leaf _ _ _ _ _ H1 M1 _ O1). pose proof (maxprop_leaf _ _ _ _ _ H2 M2 _ O2).
      apply orb_prop in E. unfold is_free, is_free2 in E. rewrite !Z.leb_le in E. lia.
    + apply orb_prop in E. unfold is_free, is_free2 in E. rewrite !Z.leb_le in E. intros [[[i|] c] [[j|] e]] [Hc HH]; try contradiction.
      * destruct HH as (l & k & H1 & H2 & A & B & _). pose proof (maxprop_leaf _ _ _ _ _ H1 M1 _ O1). pose proof (maxprop_leaf _ _ _ _ _ H2 M2 _ O2). lia.
      * destruct HH as (Hm & H1 & H2 & _). pose proof (nonfree_odds _ _ _ _ _ M1 O1 N1 H1). pose proof (nonfree_odds _ _ _ _ _ M2 O2 N2 H2). lia.
  - pose proof E as E'. apply orb_false_elim in E'. destruct E' as [E1 E2]. unfold is_free in E1. unfold is_free2 in E2. apply Z.leb_gt in E1, E2.
    pose proof (pair_prune t b u d od od2 a M1 M2 O1 O2 N1 N2 (Ha E1 E2)) as P. rewrite E in P. exact P.
Qed.

Lemma pair_spec : forall t b u d, maxprop t -> maxprop u -> pvis (prec t b u d) t b u d.
Proof.
  induction t as [|id od|id od kids IH]; intros b; induction u as [|id2 od2|id2 od2 kids2 IH2]; intros d M1 M2.
  - cbn [pair_rec]. apply pair_null; [intros i l c [H _]; inversion H|intros f c; apply nonfree_absent|intros f c; apply nonfree_absent|apply any_absent|apply any_absent|left; apply gap_absent].
  - cbn [pair_rec]. apply pair_null; [intros i l c [H _]; inversion H|intros f c; apply nonfree_absent|intros f c; apply nonfree_leaf|apply any_absent|apply any_leaf|left; apply gap_absent].
  - eapply visits_ext with (a := in_turn (map (fun j => prec Absent b (kids2 j) (child_box d j)) eight)); [intros s; reflexivity|].
    apply pair_right. intros i Hi. destruct (M2 i Hi) as [_ Mi]. exact (IH2 i (child_box d i) M1 Mi).
  - cbn [pair_rec]. apply pair_null; [intros i l c (_ & j & k & e & H); inversion H|intros f c; apply nonfree_leaf|intros f c; apply nonfree_absent|apply any_leaf|apply any_absent|right; apply gap_absent].
  - cbn [pair_rec]. destruct (is_occ occ od && is_occ2 occ2 od2) eqn:E1.
    + apply andb_prop in E1. destruct E1 as [E1 E2]. unfold is_occ in E1. unfold is_occ2 in E2. apply Z.leb_le in E1, E2.
      set (W := if hit2 b d && cost then [((Some id, b) : cell, (Some id2, d) : cell)] else []).
      eapply visits_weak with (mu := fun y => y = ((id, b), (id2, d))) (ma := fun y => y = ((id, b), (id2, d))) (ku := fun k => In k W) (ka := fun k => In k W).
      * eapply visits_ext; [|apply (visits_test _ _ pg ((id, b), (id2, d)) W (hit2 b d) (gen2 id b id2 d) eq_refl)]. intros s. cbv zeta. unfold W. destruct (hit2 b d); cbn [andb]; [destruct cost|]; unfold put; cbn [contacts costs]; rewrite ?app_nil_r; destruct s; reflexivity.
      * intros [[i c] [j e]] (l & k & H1 & H2 & _). inversion H1; subst. inversion H2; subst. reflexivity.
      * intros x ->. exists od, od2. split; [constructor|split; [constructor|auto]].
      * intros [[[i|] c] [[j|] e]] [Hc HH]; try contradiction.
        -- destruct HH as (l & k & H1 & H2 & A & B & Hm & Hh). unfold W. rewrite Hc. inversion H1; subst. inversion H2; subst. rewrite (Hh E1 E2). left. reflexivity.
        -- destruct HH as (_ & _ & _ & [H|H]); inversion H.
      * intros k Hk. unfold W in Hk. destruct (hit2 b d && cost) eqn:E; [|destruct Hk]. destruct Hk as [<-|[]]. apply andb_prop in E. cbn. split; [tauto|]. exists od, od2. split; constructor.
    + assert (N : forall x, ~ p_must (Leaf id od) b (Leaf id2 od2) d x).
      { intros [[i c] [j e]] (l & k & H1 & H2 & A & _ & B & _). inversion H1; subst. inversion H2; subst. unfold is_occ, is_occ2 in E1. apply Z.leb_le in A, B. rewrite A, B in E1. discriminate. }
      destruct (negb (is_free free od) && negb (is_free2 free2 od2) && cost) eqn:E3.
      * apply andb_prop in E3. destruct E3 as [_ Ec]. set (W := if ov2 b d then [((Some id, b) : cell, (Some id2, d) : cell)] else []).
        eapply visits_weak with (mu := none) (ma := none) (ku := fun k => In k W) (ka := fun k => In k W).
        -- eapply visits_ext; [|apply visits_costs]. intros s. unfold W. destruct (ov2 b d); [reflexivity|]. unfold put. rewrite app_nil_r. destruct s; reflexivity.
        -- intros x Hx. destruct (N x Hx).
        -- intros ? [].
        -- intros [[[i|] c] [[j|] e]] [Hc HH]; try contradiction.
           ++ destruct HH as (l & k & H1 & H2 & A & B & Hm & Hh). inversion H1; subst. inversion H2; subst. unfold W. rewrite (meets_ov _ _ Hm). left. reflexivity.
           ++ destruct HH as (_ & _ & _ & [H|H]); inversion H.
        -- intros k Hk. unfold W in Hk. destruct (ov2 b d); [|destruct Hk]. destruct Hk as [<-|[]]. cbn. split; [exact Ec|]. exists od, od2. split; constructor.
      * apply visits_none; [exact N|]. intros [[[i|] c] [[j|] e]] [Hc HH]; try contradiction.
        -- destruct HH as (l & k & H1 & H2 & A & B & _). rewrite Hc in E3. inversion H1; subst. inversion H2; subst. unfold is_free, is_free2 in E3.
           replace (l <=? free)%Z with false in E3 by (symmetry; apply Z.leb_gt; exact A). replace (k <=? free2)%Z with false in E3 by (symmetry; apply Z.leb_gt; exact B). discriminate.
        -- destruct HH as (_ & _ & _ & [H|H]); inversion H.
  - eapply visits_ext; [|apply (pair_guard (Leaf id od) b (Inner id2 od2 kids2) d od od2 (in_turn (map (fun j s => match kids2 j with
                                        | Absent => if negb (is_free free od) && cost then prec (Leaf id od) b (kids2 j) (child_box d j) s else (s, false)
                                        | _ => prec (Leaf id od) b (kids2 j) (child_box d j) s
                                        end) eight)) M1 M2); [cbn; lia|cbn; lia|discriminate|discriminate|]].
    + intros s. reflexivity.
    + intros F1 F2. apply pair_right. intros i Hi. destruct (M2 i Hi) as [_ Mi]. specialize (IH2 i (child_box d i) M1 Mi). destruct (kids2 i) eqn:Ek; [|exact IH2|exact IH2].
      unfold is_free. replace (od <=? free)%Z with false by (symmetry; apply Z.leb_gt; exact F1). cbn [negb andb]. apply visits_ifcost; [exact IH2|apply pair_skip_right].
  - eapply visits_ext with (a := in_turn (map (fun i s => match kids i with
                                        | Absent => if true then prec (kids i) (child_box b i) Absent d s else (s, false)
                                        | _ => prec (kids i) (child_box b i) Absent d s
                                        end) eight)); [intros s; reflexivity|].
    apply pair_left. intros i Hi. destruct (M1 i Hi) as [_ Mi]. specialize (IH i (child_box b i) Absent d Mi M2). destruct (kids i); exact IH.
  - eapply visits_ext; [|apply (pair_guard (Inner id od kids) b (Leaf id2 od2) d od od2 (in_turn (map (fun i s => match kids i with
                                        | Absent => if negb (is_free2 free2 od2) && cost then prec (kids i) (child_box b i) (Leaf id2 od2) d s else (s, false)
                                        | _ => prec (kids i) (child_box b i) (Leaf id2 od2) d s
                                        end) eight)) M1 M2); [cbn; lia|cbn; lia|discriminate|discriminate|]].
    + intros s. reflexivity.
    + intros F1 F2. apply pair_left. intros i Hi. destruct (M1 i Hi) as [_ Mi]. specialize (IH i (child_box b i) (Leaf id2 od2) d Mi M2). destruct (kids i) eqn:Ek; [|exact IH|exact IH].
      unfold is_free2. replace (od2 <=? free2)%Z with false by (symmetry; apply Z.leb_gt; exact F2). cbn [negb andb]. apply visits_ifcost; [exact IH|apply pair_skip_left].
  - eapply visits_ext; [|apply (pair_guard (Inner id od kids) b (Inner id2 od2 kids2) d od od2 (fun s => if bigger b (box_size d) then in_turn (map (fun i s => match kids i with
                                        | Absent => if negb (is_free2 free2 od2) && cost then prec (kids i) (child_box b i) (Inner id2 od2 kids2) d s else (s, false)
                                        | _ => prec (kids i) (child_box b i) (Inner id2 od2 kids2) d s
                                        end) eight) s else in_turn (map (fun j s => match kids2 j with
                                        | Absent => if negb (is_free free od) && cost then prec (Inner id od kids) b (kids2 j) (child_box d j) s else (s, false)
                                        | _ => prec (Inner id od kids) b (kids2 j) (child_box d j) s
                                        end) eight) s) M1 M2); [cbn; lia|cbn; lia|discriminate|discriminate|]].
    + intros s. reflexivity.
    + intros F1 F2. destruct (bigger b (box_size d)).
      * apply pair_left. intros i Hi. destruct (M1 i Hi) as [_ Mi]. specialize (IH i (child_box b i) (Inner id2 od2 kids2) d Mi M2). destruct (kids i) eqn:Ek; [|exact IH|exact IH].
        unfold is_free2. replace (od2 <=? free2)%Z with false by (symmetry; apply Z.leb_gt; exact F2). cbn [negb andb]. apply visits_ifcost; [exact IH|apply pair_skip_left].
      * apply pair_right. intros i Hi. destruct (M2 i Hi) as [_ Mi]. specialize (IH2 i (child_box d i) M1 Mi). destruct (kids2 i) eqn:Ek; [|exact IH2|exact IH2].
        unfold is_free. replace (od <=? free)%Z with false by (symmetry; apply Z.leb_gt; exact F1). cbn [negb andb]. apply visits_ifcost; [exact IH2|apply pair_skip_right].
Qed.
End Pair.

(** *** Distances *)
Lemma child_nonempty b i : nonemptyR b -> nonemptyR (child_box b i).
Proof.
  intros H. apply nonemptyR_ineq in H. apply nonemptyR_ineq. unfold child_box. cbn [lo hi c0 c1 c2].
  destruct (Nat.testbit i 0), (Nat.testbit i 1), (Nat.testbit i 2); unfold half_lo, half_hi; lra.
Qed.
Lemma leaf_nonempty t b id l c : leaf_at t b id l c -> nonemptyR b -> nonemptyR c.
Proof. intros H. induction H; intros N; [exact N|]. apply IHleaf_at, child_nonempty, N. Qed.
Lemma dvisits_none (I : Type) (val : I -> R) (mu ma : I -> Prop) : (forall x, ~ mu x) -> dvisits I val (fun x => (x, false)) mu ma.
Proof. intros H. eapply dvisits_weak; [apply (dvisits_skip I val ma)|intros x Hx; exact (H x Hx)|auto]. Qed.
Lemma dvisits_two (I : Type) (val : I -> R) a1 a2 (mu1 ma1 mu2 ma2 : I -> Prop) : dvisits I val a1 mu1 ma1 -> dvisits I val a2 mu2 ma2 ->
  dvisits I val (in_turn [a1; a2]) (fun x => mu1 x \/ mu2 x) (fun x => ma1 x \/ ma2 x).
Proof.
  intros H1 H2. eapply dvisits_weak.
  - change [a1; a2] with (map (fun b : bool => if b then a1 else a2) [true; false]).
    apply (dvisits_turn I val _ (fun b : bool => if b then mu1 else mu2) (fun b : bool => if b then ma1 else ma2)). intros [] _; assumption.
  - intros x [H|H]; [exists true|exists false]; cbn; auto.
  - intros x ([] & _ & H); auto.
Qed.
Definition occupied t b (c : boxR) : Prop := exists id l, leaf_at t b id l c /\ (occ <= l)%Z.
Lemma occupied_root t b c od : maxprop t -> odds_le t od -> occupied t b c -> is_occ occ od = true.
Proof. intros M O (id & l & H & Ho). pose proof (maxprop_leaf _ _ _ _ _ H M _ O). apply Z.leb_le. lia. Qed.
Lemma occupied_kid id od kids b c : occupied (Inner id od kids) b c <-> exists i, In i eight /\ occupied (kids i) (child_box b i) c.
Proof.
  split; [intros (j & l & H & Ho); inversion H; subst; eexists; (split; [eassumption|]); exists j, l; auto|].
  intros (i & Hi & j & l & H & Ho). exists j, l. split; [econstructor; eassumption|exact Ho].
Qed.
Lemma occupied_in t b c : occupied t b c -> box_in c b. Proof. intros (i & l & H & _). exact (leaf_in _ _ _ _ _ H). Qed.
Lemma occupied_nonempty t b c : occupied t b c -> nonemptyR b -> nonemptyR c. Proof. intros (i & l & H & _). exact (leaf_nonempty _ _ _ _ _ H). Qed.
Lemma not_occupied_absent b c : ~ occupied Absent b c. Proof. intros (i & l & H & _). inversion H. Qed.

Lemma shape_dist_spec (ds lows : boxR -> R) : (forall e c, nonemptyR c -> box_in c e -> lows e <= Rmax 0 (ds c)) ->
  forall t b, maxprop t -> nonemptyR b -> dvisits boxR ds (shape_dist occ ds lows t b) (occupied t b) (occupied t b).
Proof.
  intros Hlow. induction t as [|id od|id od kids IH]; intros b M N.
  - apply dvisits_none. apply not_occupied_absent.
  - cbn [shape_dist]. destruct (is_occ occ od) eqn:E.
    + eapply dvisits_weak; [apply (dvisits_upd _ ds b)| |].
      * intros c (i & l & H & _). inversion H; reflexivity.
      * intros c ->. exists id, od. split; [constructor|apply Z.leb_le, E].
    + apply dvisits_none. intros c H. rewrite (occupied_root (Leaf id od) b c od M) in E; [discriminate|cbn; lia|exact H].
  - cbn [shape_dist]. destruct (is_occ occ od) eqn:E.
    + eapply dvisits_weak.
      * apply (dvisits_turn _ ds _ (fun i => occupied (kids i) (child_box b i)) (fun i => occupied (kids i) (child_box b i)) eight).
        intros i Hi. destruct (M i Hi) as [_ Mi]. specialize (IH i (child_box b i) Mi (child_nonempty b i N)).
        assert (Low : forall c, occupied (kids i) (child_box b i) c -> lows (child_box b i) <= Rmax 0 (ds c)).
        { intros c Hc. apply Hlow; [exact (occupied_nonempty _ _ _ Hc (child_nonempty b i N))|exact (occupied_in _ _ _ Hc)]. }
        destruct (kids i) eqn:Ek; [apply dvisits_none, not_occupied_absent| |]; apply dvisits_guard; assumption.
      * intros c H. apply occupied_kid in H. exact H.
      * intros c H. apply occupied_kid. exact H.
    + apply dvisits_none. intros c H. rewrite (occupied_root (Inner id od kids) b c od M) in E; [discriminate|cbn; lia|exact H].
Qed.

Section MeshDist.
Variables (V : Type) (vsize : V -> R) (dm : boxR -> nat -> R) (lowm : boxR -> V -> R).
Definition low_ok (m : bvh V) : Prop := each (fun v p => forall e c, nonemptyR c -> box_in c e -> lowm e v <= Rmax 0 (dm c p)) m.
Definition mocc t b (m : bvh V) (x : boxR * nat) : Prop := occupied t b (fst x) /\ under m (snd x).
Notation val := (fun x : boxR * nat => dm (fst x) (snd x)).
Notation mdist := (mesh_dist occ vsize dm lowm).
Lemma low_ok_top m : low_ok m -> forall p, under m p -> forall e c, nonemptyR c -> box_in c e -> lowm e (vol m) <= Rmax 0 (dm c p).
Proof. intros H. unfold low_ok in H. destruct m; destruct H as [H _]; exact H. Qed.
Lemma mesh_dist_split t b v l r : nonemptyR b -> low_ok (BNode v l r) -> dvisits _ val (mdist t b l) (mocc t b l) (mocc t b l) -> dvisits _ val (mdist t b r) (mocc t b r) (mocc t b r) ->
  dvisits _ val (in_turn [guard (lowm b (vol l)) (mdist t b l); guard (lowm b (vol r)) (mdist t b r)]) (mocc t b (BNode v l r)) (mocc t b (BNode v l r)).
Proof.
  intros N (_ & L1 & L2) H1 H2. eapply dvisits_weak; [apply dvisits_two; apply dvisits_guard; [exact H1| |exact H2|]| |].
  - intros [c p] [Ho U]. apply (low_ok_top l L1 p U); [exact (occupied_nonempty _ _ _ Ho N)|exact (occupied_in _ _ _ Ho)].
  - intros [c p] [Ho U]. apply (low_ok_top r L2 p U); [exact (occupied_nonempty _ _ _ Ho N)|exact (occupied_in _ _ _ Ho)].
  - intros [c p] [Ho U]. inversion U; subst; [left|right]; split; assumption.
  - intros [c p] [[Ho U]|[Ho U]]; split; try assumption; constructor; assumption.
Qed.
Lemma mesh_dist_down id od kids b m : nonemptyR b -> low_ok m -> (forall i, In i eight -> dvisits _ val (mdist (kids i) (child_box b i) m) (mocc (kids i) (child_box b i) m) (mocc (kids i) (child_box b i) m)) ->
  dvisits _ val (in_turn (map (fun i => match kids i with
                                           | Absent => fun x => (x, false)
                                           | _ => guard (lowm (child_box b i) (vol m)) (mdist (kids i) (child_box b i) m)
                                           end) eight)) (mocc (Inner id od kids) b m) (mocc (Inner id od kids) b m).
Proof.
  intros N L H. eapply dvisits_weak; [apply (dvisits_turn _ val _ (fun i => mocc (kids i) (child_box b i) m) (fun i => mocc (kids i) (child_box b i) m) eight)| |].
  - intros i Hi. specialize (H i Hi).
    assert (Low : forall x, mocc (kids i) (child_box b i) m x -> lowm (child_box b i) (vol m) <= Rmax 0 (dm (fst x) (snd x))).
    { intros [c p] [Ho U]. apply (low_ok_top m L p U); [exact (occupied_nonempty _ _ _ Ho (child_nonempty b i N))|exact (occupied_in _ _ _ Ho)]. }
    destruct (kids i); [apply dvisits_none; intros x [Ho _]; exact (not_occupied_absent _ _ Ho)| |]; apply dvisits_guard; assumption.
  - intros [c p] [Ho U]. apply occupied_kid in Ho. destruct Ho as (i & Hi & Ho). exists i. split; [exact Hi|split; assumption].
  - intros [c p] (i & Hi & Ho & U). split; [apply occupied_kid; eauto|exact U].
Qed.
Lemma mesh_dist_spec : forall t b m, maxprop t -> nonemptyR b -> low_ok m -> dvisits _ val (mdist t b m) (mocc t b m) (mocc t b m).
Proof.
  induction t as [|id od|id od kids IH]; intros b; induction m as [v p|v l IHl r IHr]; intros M N L.
  - apply dvisits_none. intros x [Ho _]. exact (not_occupied_absent _ _ Ho).
  - apply dvisits_none. intros x [Ho _]. exact (not_occupied_absent _ _ Ho).
  - cbn [mesh_dist]. destruct (is_occ occ od) eqn:E.
    + eapply dvisits_weak; [apply (dvisits_upd _ val (b, p))| |].
      * intros [c q] [(i & l & H & _) U]. cbn in *. inversion H; subst. inversion U; subst. reflexivity.
      * intros x ->. split; [exists id, od; split; [constructor|apply Z.leb_le, E]|constructor].
    + apply dvisits_none. intros x [H _]. rewrite (occupied_root (Leaf id od) b (fst x) od M) in E; [discriminate|cbn; lia|exact H].
  - pose proof L as (_ & L1 & L2). specialize (IHl M N L1). specialize (IHr M N L2).
    assert (G : dvisits _ val (fun x => if is_occ occ od then in_turn [guard (lowm b (vol l)) (mdist (Leaf id od) b l); guard (lowm b (vol r)) (mdist (Leaf id od) b r)] x else (x, false)) (mocc (Leaf id od) b (BNode v l r)) (mocc (Leaf id od) b (BNode v l r))); [|exact G].
    destruct (is_occ occ od) eqn:E; [exact (mesh_dist_split _ b v l r N L IHl IHr)|].
    apply dvisits_none. intros x [H _]. rewrite (occupied_root (Leaf id od) b (fst x) od M) in E; [discriminate|cbn; lia|exact H].
  - assert (G : dvisits _ val (fun x => if is_occ occ od then in_turn (map (fun i => match kids i with
                                           | Absent => fun x => (x, false)
                                           | _ => guard (lowm (child_box b i) (vol (BLeaf v p))) (mdist (kids i) (child_box b i) (BLeaf v p))
                                           end) eight) x else (x, false)) (mocc (Inner id od kids) b (BLeaf v p)) (mocc (Inner id od kids) b (BLeaf v p))); [|exact G].
    destruct (is_occ occ od) eqn:E.
    + apply mesh_dist_down; [exact N|exact L|]. intros i Hi. destruct (M i Hi) as [_ Mi]. exact (IH i (child_box b i) (BLeaf v p) Mi (child_nonempty b i N) L).
    + apply dvisits_none. intros x [H _]. rewrite (occupied_root (Inner id od kids) b (fst x) od M) in E; [discriminate|cbn; lia|exact H].
  - pose proof L as (_ & L1 & L2). specialize (IHl M N L1). specialize (IHr M N L2).
    assert (G : dvisits _ val (fun x => if is_occ occ od then if bigger b (vsize v) then in_turn (map (fun i => match kids i with
                                           | Absent => fun x => (x, false)
                                           | _ => guard (lowm (child_box b i) (vol (BNode v l r))) (mdist (kids i) (child_box b i) (BNode v l r))
                                           end) eight) x else in_turn [guard (lowm b (vol l)) (mdist (Inner id od kids) b l); guard (lowm b (vol r)) (mdist (Inner id od kids) b r)] x else (x, false)) (mocc (Inner id od kids) b (BNode v l r)) (mocc (Inner id od kids) b (BNode v l r))); [|exact G].
    destruct (is_occ occ od) eqn:E; [destruct (bigger b (vsize v))|].
    + apply mesh_dist_down; [exact N|exact L|]. intros i Hi. destruct (M i Hi) as [_ Mi]. exact (IH i (child_box b i) (BNode v l r) Mi (child_nonempty b i N) L).
    + exact (mesh_dist_split _ b v l r N L IHl IHr).
    + apply dvisits_none. intros x [H _]. rewrite (occupied_root (Inner id od kids) b (fst x) od M) in E; [discriminate|cbn; lia|exact H].
Qed.
End MeshDist.
End Trav.

(** two octrees *)
Section PairDist.
Variables (occ occ2 : Z) (d2 low2 : boxR -> boxR -> R).
Hypothesis low2_ok : forall e c f k, nonemptyR c -> nonemptyR k -> box_in c e -> box_in k f -> low2 e f <= Rmax 0 (d2 c k).
Definition pocc t b u d (x : boxR * boxR) : Prop := occupied occ t b (fst x) /\ occupied occ2 u d (snd x).
Notation val := (fun x : boxR * boxR => d2 (fst x) (snd x)).
Notation pdist := (pair_dist occ occ2 d2 low2).
Lemma pair_dist_left id od kids b u d : nonemptyR b -> nonemptyR d -> (forall i, In i eight -> dvisits _ val (pdist (kids i) (child_box b i) u d) (pocc (kids i) (child_box b i) u d) (pocc (kids i) (child_box b i) u d)) ->
  dvisits _ val (in_turn (map (fun i => match kids i with Absent => fun x => (x, false) | _ => guard (low2 b d) (pdist (kids i) (child_box b i) u d) end) eight)) (pocc (Inner id od kids) b u d) (pocc (Inner id od kids) b u d).
Proof.
  intros N N2 H. eapply dvisits_weak; [apply (dvisits_turn _ val _ (fun i => pocc (kids i) (child_box b i) u d) (fun i => pocc (kids i) (child_box b i) u d) eight)| |].
  - intros i Hi. specialize (H i Hi).
    assert (Low : forall x, pocc (kids i) (child_box b i) u d x -> low2 b d <= Rmax 0 (d2 (fst x) (snd x))).
    { intros [c k] [Ho Hk]. apply low2_ok; [exact (occupied_nonempty _ _ _ _ Ho (child_nonempty b i N))|exact (occupied_nonempty _ _ _ _ Hk N2)| |exact (occupied_in _ _ _ _ Hk)].
      exact (box_in_trans _ _ _ (occupied_in _ _ _ _ Ho) (child_in b i)). }
    destruct (kids i); [apply dvisits_none; intros x [Ho _]; exact (not_occupied_absent _ _ _ Ho)| |]; apply dvisits_guard; assumption.
  - intros [c p] [Ho U]. apply occupied_kid in Ho. destruct Ho as (i & Hi & Ho). exists i. split; [exact Hi|split; assumption].
  - intros [c p] (i & Hi & Ho & U). split; [apply occupied_kid; eauto|exact U].
Qed.
Lemma pair_dist_right t b id od kids d : nonemptyR b -> nonemptyR d -> (forall i, In i eight -> dvisits _ val (pdist t b (kids i) (child_box d i)) (pocc t b (kids i) (child_box d i)) (pocc t b (kids i) (child_box d i))) ->
  dvisits _ val (in_turn (map (fun i => match kids i with Absent => fun x => (x, false) | _ => guard (low2 b d) (pdist t b (kids i) (child_box d i)) end) eight)) (pocc t b (Inner id od kids) d) (pocc t b (Inner id od kids) d).
Proof.
  intros N N2 H. eapply dvisits_weak; [apply (dvisits_turn _ val _ (fun i => pocc t b (kids i) (child_box d i)) (fun i => pocc t b (kids i) (child_box d i)) eight)| |].
  - intros i Hi. specialize (H i Hi).
    assert (Low : forall x, pocc t b (kids i) (child_box d i) x -> low2 b d <= Rmax 0 (d2 (fst x) (snd x))).
    { intros [c k] [Ho Hk]. apply low2_ok; [exact (occupied_nonempty _ _ _ _ Ho N)|exact (occupied_nonempty _ _ _ _ Hk (child_nonempty d i N2))|exact (occupied_in _ _ _ _ Ho)|].
      exact (box_in_trans _ _ _ (occupied_in _ _ _ _ Hk) (child_in d i)). }
    destruct (kids i); [apply dvisits_none; intros x [_ Ho]; exact (not_occupied_absent _ _ _ Ho)| |]; apply dvisits_guard; assumption.
  - intros [c p] [Ho U]. apply occupied_kid in U. destruct U as (i & Hi & U). exists i. split; [exact Hi|split; assumption].
  - intros [c p] (i & Hi & Ho & U). split; [exact Ho|apply occupied_kid; eauto].
Qed.
Lemma pocc_roots t b u d od od2 x : maxprop t -> maxprop u -> odds_le t od -> odds_le u od2 -> pocc t b u d x -> is_occ occ od && is_occ2 occ2 od2 = true.
Proof. intros M1 M2 O1 O2 [H1 H2]. rewrite (occupied_root occ _ _ _ _ M1 O1 H1). exact (occupied_root occ2 _ _ _ _ M2 O2 H2). Qed.
Lemma pair_dist_spec : forall t b u d, maxprop t -> maxprop u -> nonemptyR b -> nonemptyR d -> dvisits _ val (pdist t b u d) (pocc t b u d) (pocc t b u d).
Proof.
  assert (Skip : forall t b u d od od2, maxprop t -> maxprop u -> odds_le t od -> odds_le u od2 -> is_occ occ od && is_occ2 occ2 od2 = false -> dvisits _ val (fun x => (x, false)) (pocc t b u d) (pocc t b u d)).
  { intros t b u d od od2 M1 M2 O1 O2 E. apply dvisits_none. intros x H. rewrite (pocc_roots _ _ _ _ od od2 x M1 M2 O1 O2 H) in E. discriminate. }
  assert (NoL : forall b u d x, ~ pocc Absent b u d x) by (intros b u d x [H _]; exact (not_occupied_absent _ _ _ H)).
  assert (NoR : forall t b d x, ~ pocc t b Absent d x) by (intros t b d x [_ H]; exact (not_occupied_absent _ _ _ H)).
  induction t as [|id od|id od kids IH]; intros b; induction u as [|id2 od2|id2 od2 kids2 IH2]; intros d M1 M2 N1 N2.
  - apply dvisits_none, NoL.
  - apply dvisits_none, NoL.
  - apply dvisits_none, NoL.
  - apply dvisits_none, NoR.
  - cbn [pair_dist]. destruct (is_occ occ od && is_occ2 occ2 od2) eqn:E; [|apply (Skip _ _ _ _ od od2); cbn; auto; lia].
    eapply dvisits_weak; [apply (dvisits_upd _ val (b, d))| |].
    + intros [c k] [(i & l & H & _) (j & m & H2 & _)]. cbn in *. inversion H; subst. inversion H2; subst. reflexivity.
    + intros x ->. apply andb_prop in E. destruct E as [E1 E2]. split; [exists id, od|exists id2, od2]; (split; [constructor|apply Z.leb_le; assumption]).
  - assert (G : dvisits _ val (fun x => if is_occ occ od && is_occ2 occ2 od2 then in_turn (map (fun j => match kids2 j with Absent => fun x => (x, false) | _ => guard (low2 b d) (pdist (Leaf id od) b (kids2 j) (child_box d j)) end) eight) x else (x, false)) (pocc (Leaf id od) b (Inner id2 od2 kids2) d) (pocc (Leaf id od) b (Inner id2 od2 kids2) d)); [|exact G].
    destruct (is_occ occ od && is_occ2 occ2 od2) eqn:E; [|apply (Skip _ _ _ _ od od2); cbn; auto; lia].
    apply pair_dist_right; [exact N1|exact N2|]. intros i Hi. destruct (M2 i Hi) as [_ Mi]. exact (IH2 i (child_box d i) M1 Mi N1 (child_nonempty d i N2)).
  - apply dvisits_none, NoR.
  - assert (G : dvisits _ val (fun x => if is_occ occ od && is_occ2 occ2 od2 then in_turn (map (fun i => match kids i with Absent => fun x => (x, false) | _ => guard (low2 b d) (pdist (kids i) (child_box b i) (Leaf id2 od2) d) end) eight) x else (x, false)) (pocc (Inner id od kids) b (Leaf id2 od2) d) (pocc (Inner id od kids) b (Leaf id2 od2) d)); [|exact G].
    destruct (is_occ occ od && is_occ2 occ2 od2) eqn:E; [|apply (Skip _ _ _ _ od od2); cbn; auto; lia].
    apply pair_dist_left; [exact N1|exact N2|]. intros i Hi. destruct (M1 i Hi) as [_ Mi]. exact (IH i (child_box b i) (Leaf id2 od2) d Mi M2 (child_nonempty b i N1) N2).
  - assert (G : dvisits _ val (fun x => if is_occ occ od && is_occ2 occ2 od2 then if bigger b (box_size d) then in_turn (map (fun i => match kids i with Absent => fun x => (x, false) | _ => guard (low2 b d) (pdist (kids i) (child_box b i) (Inner id2 od2 kids2) d) end) eight) x
        else in_turn (map (fun j => match kids2 j with Absent => fun x => (x, false) | _ => guard (low2 b d) (pdist (Inner id od kids) b (kids2 j) (child_box d j)) end) eight) x else (x, false)) (pocc (Inner id od kids) b (Inner id2 od2 kids2) d) (pocc (Inner id od kids) b (Inner id2 od2 kids2) d)); [|exact G].
    destruct (is_occ occ od && is_occ2 occ2 od2) eqn:E; [|apply (Skip _ _ _ _ od od2); cbn; auto; lia]. destruct (bigger b (box_size d)).
    + apply pair_dist_left; [exact N1|exact N2|]. intros i Hi. destruct (M1 i Hi) as [_ Mi]. exact (IH i (child_box b i) (Inner id2 od2 kids2) d Mi M2 (child_nonempty b i N1) N2).
    + apply pair_dist_right; [exact N1|exact N2|]. intros i Hi. destruct (M2 i Hi) as [_ Mi]. exact (IH2 i (child_box d i) M1 Mi N1 (child_nonempty d i N2)).
Qed.
End PairDist.

(** ** The queries *)
(** the sort keeps as many as asked for, out of the given ones *)
Definition top_ok {C} (top : nat -> list C -> list C) : Prop :=
  (forall k l, (k <= length l)%nat -> length (top k l) = k) /\ (forall k l x, In x (top k l) -> In x l).
(** a cell, and a body given by its points in its own frame, have a common point *)
Definition touch (X1 X2 : tf) (S : v3 -> Prop) (c : boxR) : Prop := exists p q, in_boxR p c /\ S q /\ tf_apply X1 p = tf_apply X2 q.
Lemma touch_mono X1 X2 S a b : box_in a b -> touch X1 X2 S a -> touch X1 X2 S b.
Proof. intros H (p & q & P & Q & E). exists p, q. auto. Qed.
Lemma touch_ov X1 X2 (S : v3 -> Prop) o c : ortho (tf_rot X1) -> ortho (ax o) -> (forall q, S q -> inobb o (tf_apply X2 q)) ->
  touch X1 X2 S c -> obb_overlap (aabb_obb c X1) o = true.
Proof.
  intros O1 O2 H (p & q & P & Q & E). apply (obb_overlap_sound _ _ (tf_apply X1 p)); [exact O1|exact O2| |].
  - apply aabb_obb_exact. eauto.
  - rewrite E. auto.
Qed.

(** Octree and shape: at most max contacts are reported, each from an occupied leaf; if there is room
    left, every contact the narrow phase gives for an occupied leaf (that is not free as well) which
    has a common point with the shape is among them. *)
Theorem octree_shape_collide : forall occ free o_occ o_free C max (top : nat -> list C -> list C) cost hit gen (S : v3 -> Prop) bv2 X1 X2 t b,
  top_ok top -> ortho (tf_rot X1) -> ortho (tf_rot X2) -> (forall q, S q -> in_boxR q bv2) -> maxprop t ->
  let r := contacts (fst (shape_rec occ free o_occ o_free max top cost (fun c => obb_overlap (aabb_obb c X1) (aabb_obb bv2 X2)) hit gen t b (St [] []))) in
  (length r <= max)%nat /\
  (forall x, In x r -> exists id l c, leaf_at t b id l c /\ (occ <= l)%Z /\ o_occ = true /\ hit c = true /\ In x (gen id c)) /\
  ((length r < max)%nat -> o_occ = true -> o_free = false ->
   forall id l c, leaf_at t b id l c -> (occ <= l)%Z -> (free < l)%Z -> touch X1 X2 S c -> hit c = true -> forall x, In x (gen id c) -> In x r).
Proof.
  intros occ free o_occ o_free C max top cost hit gen S bv2 X1 X2 t b [T1 T2] O1 O2 HS M r.
  set (ov := fun c => obb_overlap (aabb_obb c X1) (aabb_obb bv2 X2)) in *.
  assert (Hov : forall c, touch X1 X2 S c -> ov c = true).
  { intros c. apply touch_ov; [exact O1|exact O2|]. intros q Hq. apply aabb_obb_exact. eauto. }
  pose proof (shape_spec occ free o_occ o_free C max top cost ov hit gen (touch X1 X2 S) (touch_mono X1 X2 S) Hov t b M) as V.
  apply visits_result in V; [|exact T1|exact T2]. fold r in V. destruct V as (V1 & V2 & V3 & _). split; [exact V1|split].
  - intros x Hx. destruct (V2 x Hx) as ([id c] & (l & H & Ho & Hs & _) & Hg). cbn [fst snd] in *. unfold sg in Hg. cbn [fst snd] in Hg. destruct (hit c) eqn:E; [|destruct Hg]. exists id, l, c. auto.
  - intros L Ho Hf id l c H H1 H2 Ht Hh x Hx. apply (V3 L (id, c)); [exists l; auto 10|]. unfold sg. cbn [fst snd]. rewrite Hh. exact Hx.
Qed.
Print Assumptions octree_shape_collide.

(** ... and the calls of addCostSource: only ever for missing cells, never for existing ones; with
    costs enabled all those that touch the shape get one. *)
Theorem octree_shape_costs : forall occ free o_occ o_free C max (top : nat -> list C -> list C) cost hit gen (S : v3 -> Prop) bv2 X1 X2 t b,
  top_ok top -> ortho (tf_rot X1) -> ortho (tf_rot X2) -> (forall q, S q -> in_boxR q bv2) -> maxprop t ->
  let w := costs (fst (shape_rec occ free o_occ o_free max top cost (fun c => obb_overlap (aabb_obb c X1) (aabb_obb bv2 X2)) hit gen t b (St [] []))) in
  (forall o c, In (o, c) w -> o = None /\ gap_at free t b c /\ hit c = true) /\
  (cost = true -> o_free = false -> forall c, gap_at free t b c -> touch X1 X2 S c -> hit c = true -> In (None, c) w).
Proof.
  intros occ free o_occ o_free C max top cost hit gen S bv2 X1 X2 t b [T1 T2] O1 O2 HS M w.
  set (ov := fun c => obb_overlap (aabb_obb c X1) (aabb_obb bv2 X2)) in *.
  assert (Hov : forall c, touch X1 X2 S c -> ov c = true).
  { intros c. apply touch_ov; [exact O1|exact O2|]. intros q Hq. apply aabb_obb_exact. eauto. }
  pose proof (shape_spec occ free o_occ o_free C max top cost ov hit gen (touch X1 X2 S) (touch_mono X1 X2 S) Hov t b M) as V.
  apply visits_result in V; [|exact T1|exact T2]. fold w in V. destruct V as (_ & _ & _ & V4 & V5). split.
  - intros o c H. exact (V4 _ H).
  - intros Hc Hf c Hg Ht Hh. apply V5; [exact Hc|]. cbn. auto 10.
Qed.
Print Assumptions octree_shape_costs.

(** Octree and mesh.  [wobb v] is the OBB convertBV makes of the volume v in the mesh's pose, [tri p]
    the points of primitive p in the mesh's frame. *)
Definition mesh_obbs {V} (wobb : V -> obb) (X2 : tf) (tri : nat -> v3 -> Prop) (m : bvh V) : Prop :=
  (forall v, ortho (ax (wobb v))) /\ each (fun v p => forall q, tri p q -> inobb (wobb v) (tf_apply X2 q)) m.
Lemma each_impl {V} (P Q : V -> nat -> Prop) m : (forall v p, P v p -> Q v p) -> each P m -> each Q m.
Proof. intros H. induction m; cbn; intros [A B]; (split; [auto|]); [exact I|]. destruct B; split; auto. Qed.
Theorem octree_mesh_collide : forall occ free o_occ o_free C max (top : nat -> list C -> list C) cost V (wobb : V -> obb) vsize hitm genm tri X1 X2 t b m,
  top_ok top -> ortho (tf_rot X1) -> mesh_obbs wobb X2 tri m -> maxprop t ->
  let r := contacts (fst (mesh_rec occ free o_occ o_free max top cost (fun c v => obb_overlap (aabb_obb c X1) (wobb v)) vsize hitm genm t b m (St [] []))) in
  (length r <= max)%nat /\
  (forall x, In x r -> exists id l c p, leaf_at t b id l c /\ under m p /\ (occ <= l)%Z /\ o_occ = true /\ hitm c p = true /\ In x (genm id c p)) /\
  ((length r < max)%nat -> o_occ = true -> o_free = false ->
   forall id l c p, leaf_at t b id l c -> under m p -> (occ <= l)%Z -> (free < l)%Z -> touch X1 X2 (tri p) c -> hitm c p = true -> forall x, In x (genm id c p) -> In x r).
Proof.
  intros occ free o_occ o_free C max top cost W wobb vsize hitm genm tri X1 X2 t b m [T1 T2] O1 [OB E] M r.
  set (vov := fun c v => obb_overlap (aabb_obb c X1) (wobb v)) in *.
  assert (Hv : vol_ok W vov (fun c p => touch X1 X2 (tri p) c) m).
  { unfold vol_ok. eapply each_impl; [|exact E]. intros v p H c. apply touch_ov; auto. }
  pose proof (mesh_spec occ free o_occ o_free C max top cost W vov vsize hitm genm (fun c p => touch X1 X2 (tri p) c) (fun a b p => touch_mono X1 X2 (tri p) a b) t b m M Hv) as V.
  apply visits_result in V; [|exact T1|exact T2]. fold r in V. destruct V as (V1 & V2 & V3 & _). split; [exact V1|split].
  - intros x Hx. destruct (V2 x Hx) as ([[id c] p] & (l & H & U & Ho & Hs) & Hg). cbn in Hg. destruct (hitm c p) eqn:Eh; [|destruct Hg]. exists id, l, c, p. auto 10.
  - intros L Ho Hf id l c p H U H1 H2 Ht Hh x Hx. apply (V3 L (id, c, p)); [exists l; auto 10|]. cbn. rewrite Hh. exact Hx.
Qed.
Print Assumptions octree_mesh_collide.
Theorem octree_mesh_costs : forall occ free o_occ o_free C max (top : nat -> list C -> list C) cost V (wobb : V -> obb) vsize hitm genm tri X1 X2 t b m,
  top_ok top -> ortho (tf_rot X1) -> mesh_obbs wobb X2 tri m -> maxprop t ->
  let w := costs (fst (mesh_rec occ free o_occ o_free max top cost (fun c v => obb_overlap (aabb_obb c X1) (wobb v)) vsize hitm genm t b m (St [] []))) in
  (forall o c p, In (o, c, p) w -> under m p /\ hitm c p = true /\ match o with Some id => cost = true /\ exists l, leaf_at t b id l c | None => gap_at free t b c end) /\
  (cost = true -> o_free = false -> forall c p, under m p -> touch X1 X2 (tri p) c -> hitm c p = true ->
     (forall id l, leaf_at t b id l c -> (free < l)%Z -> In (Some id, c, p) w) /\ (gap_at free t b c -> In (None, c, p) w)).
Proof.
  intros occ free o_occ o_free C max top cost W wobb vsize hitm genm tri X1 X2 t b m [T1 T2] O1 [OB E] M w.
  set (vov := fun c v => obb_overlap (aabb_obb c X1) (wobb v)) in *.
  assert (Hv : vol_ok W vov (fun c p => touch X1 X2 (tri p) c) m).
  { unfold vol_ok. eapply each_impl; [|exact E]. intros v p H c. apply touch_ov; auto. }
  pose proof (mesh_spec occ free o_occ o_free C max top cost W vov vsize hitm genm (fun c p => touch X1 X2 (tri p) c) (fun a b p => touch_mono X1 X2 (tri p) a b) t b m M Hv) as V.
  apply visits_result in V; [|exact T1|exact T2]. fold w in V. destruct V as (_ & _ & _ & V4 & V5). split.
  - intros o c p H. exact (V4 _ H).
  - intros Hc Hf c p U Ht Hh. split; [intros id l H Hl|intros H]; apply V5; try exact Hc; cbn; repeat (split; [assumption|]); [exists l; auto|exact H].
Qed.
Print Assumptions octree_mesh_costs.

(** Two octrees. *)
Definition touch2 (X1 X2 : tf) (c e : boxR) : Prop := touch X1 X2 (fun q => in_boxR q e) c.
Lemma touch2_mono X1 X2 a b a' b' : box_in a b -> box_in a' b' -> touch2 X1 X2 a a' -> touch2 X1 X2 b b'.
Proof. intros H H' (p & q & P & Q & E). exists p, q. auto. Qed.
Theorem octree_octree_collide : forall occ free C max (top : nat -> list C -> list C) cost occ2 free2 contact hit gen2 X1 X2 t b u d,
  top_ok top -> ortho (tf_rot X1) -> ortho (tf_rot X2) -> maxprop t -> maxprop u ->
  let ov2 := fun c e => obb_overlap (aabb_obb c X1) (aabb_obb e X2) in
  let hit2 := fun c e => if contact : bool then hit c e else ov2 c e in
  let r := contacts (fst (pair_rec occ free max top cost occ2 free2 ov2 hit2 gen2 t b u d (St [] []))) in
  (length r <= max)%nat /\
  (forall x, In x r -> exists i l c j k e, leaf_at t b i l c /\ leaf_at u d j k e /\ (occ <= l)%Z /\ (occ2 <= k)%Z /\ hit2 c e = true /\ In x (gen2 i c j e)) /\
  ((length r < max)%nat -> forall i l c j k e, leaf_at t b i l c -> leaf_at u d j k e -> (occ <= l)%Z -> (free < l)%Z -> (occ2 <= k)%Z -> (free2 < k)%Z ->
     touch2 X1 X2 c e -> (contact = true -> hit c e = true) -> forall x, In x (gen2 i c j e) -> In x r).
Proof.
  intros occ free C max top cost occ2 free2 contact hit gen2 X1 X2 t b u d [T1 T2] O1 O2 M1 M2 ov2 hit2 r.
  assert (Hov : forall c e, touch2 X1 X2 c e -> ov2 c e = true).
  { intros c e. apply touch_ov; [exact O1|exact O2|]. intros q Hq. apply aabb_obb_exact. eauto. }
  pose proof (pair_spec occ free C max top cost occ2 free2 ov2 hit2 gen2 (touch2 X1 X2) (touch2_mono X1 X2) Hov t b u d M1 M2) as V.
  apply visits_result in V; [|exact T1|exact T2]. fold r in V. destruct V as (V1 & V2 & V3 & _). split; [exact V1|split].
  - intros x Hx. destruct (V2 x Hx) as ([[i c] [j e]] & (l & k & H1 & H2 & A & B) & Hg). cbn in Hg. destruct (hit2 c e) eqn:Eh; [|destruct Hg]. exists i, l, c, j, k, e. auto 10.
  - intros L i l c j k e H1 H2 A B D E Ht Hh x Hx. apply (V3 L ((i, c), (j, e))); [exists l, k; auto 10|]. cbn. replace (hit2 c e) with true; [exact Hx|].
    unfold hit2. destruct contact; [symmetry; auto|symmetry; apply Hov, Ht].
Qed.
Print Assumptions octree_octree_collide.
Theorem octree_octree_costs : forall occ free C max (top : nat -> list C -> list C) cost occ2 free2 contact hit gen2 X1 X2 t b u d,
  top_ok top -> ortho (tf_rot X1) -> ortho (tf_rot X2) -> maxprop t -> maxprop u ->
  let ov2 := fun c e => obb_overlap (aabb_obb c X1) (aabb_obb e X2) in
  let hit2 := fun c e => if contact : bool then hit c e else ov2 c e in
  let w := costs (fst (pair_rec occ free max top cost occ2 free2 ov2 hit2 gen2 t b u d (St [] []))) in
  (forall k, In k w -> p_kmay cost t b u d k) /\
  (cost = true -> forall c e, touch2 X1 X2 c e ->
    (forall i l j k, leaf_at t b i l c -> leaf_at u d j k e -> (free < l)%Z -> (free2 < k)%Z -> (contact = true -> hit c e = true) -> In ((Some i, c), (Some j, e)) w) /\
    (gap_at free t b c -> nonfree free2 u d e -> In ((None, c), (None, e)) w) /\
    (nonfree free t b c -> gap_at free2 u d e -> In ((None, c), (None, e)) w)).
Proof.
  intros occ free C max top cost occ2 free2 contact hit gen2 X1 X2 t b u d [T1 T2] O1 O2 M1 M2 ov2 hit2 w.
  assert (Hov : forall c e, touch2 X1 X2 c e -> ov2 c e = true).
  { intros c e. apply touch_ov; [exact O1|exact O2|]. intros q Hq. apply aabb_obb_exact. eauto. }
  pose proof (pair_spec occ free C max top cost occ2 free2 ov2 hit2 gen2 (touch2 X1 X2) (touch2_mono X1 X2) Hov t b u d M1 M2) as V.
  apply visits_result in V; [|exact T1|exact T2]. fold w in V. destruct V as (_ & _ & _ & V4 & V5). split; [exact V4|].
  intros Hc c e Ht. split; [|split].
  - intros i l j k H1 H2 A B Hh. apply V5; [exact Hc|]. split; [exact Hc|]. exists l, k. repeat (split; [assumption|]). intros _ _. unfold hit2. destruct contact; [auto|apply Hov, Ht].
  - intros H1 H2. apply V5; [exact Hc|]. split; [exact Hc|]. split; [exact Ht|split; [left; exact H1|split; [exact H2|left; exact H1]]].
  - intros H1 H2. apply V5; [exact Hc|]. split; [exact Hc|]. split; [exact Ht|split; [exact H1|split; [left; exact H2|right; exact H2]]].
Qed.
Print Assumptions octree_octree_costs.

(** Without costs enabled no cost source is added, provided neither root is missing. *)
Lemma turn_costs {C K} (l : list (st C K -> st C K * bool)) : (forall a, In a l -> forall s, costs (fst (a s)) = costs s) -> forall s, costs (fst (in_turn l s)) = costs s.
Proof.
  induction l as [|a l IH]; intros H s; [reflexivity|]. cbn [in_turn]. pose proof (H a (or_introl eq_refl) s) as Ha. destruct (a s) as [s' []]; cbn [fst] in *; [exact Ha|].
  rewrite (IH (fun x Hx => H x (or_intror Hx))). exact Ha.
Qed.
Theorem octree_shape_no_costs : forall occ free o_occ o_free C max (top : nat -> list C -> list C) ov hit gen t b s, t <> Absent ->
  costs (fst (shape_rec occ free o_occ o_free max top false ov hit gen t b s)) = costs s.
Proof.
  intros occ free o_occ o_free C max top ov hit gen. induction t as [|id l|id l kids IH]; intros b s N; [congruence| |].
  - cbn [shape_rec]. destruct (is_occ occ l && o_occ); [destruct (ov b)|]; [destruct (hit b)| |]; reflexivity.
  - cbn [shape_rec]. destruct (is_free free l || o_free); [reflexivity|]. destruct ((is_unc occ free l || o_unc o_occ o_free) && negb false); [reflexivity|]. destruct (ov b); [|reflexivity]. cbn [negb].
    apply turn_costs. intros a Ha. apply in_map_iff in Ha. destruct Ha as (i & <- & Hi). intros s'. rewrite andb_false_r. specialize (IH i (child_box b i) s'). destruct (kids i); [reflexivity| |]; apply IH; discriminate.
Qed.
Print Assumptions octree_shape_no_costs.

(** Distances.  [ds], [dm], [d2] are the narrow-phase answers: not below the true distance of the two
    bodies if that is positive, i.e. their positive part is at least the distance of some two points. *)
Lemma placed_low (X1 : tf) (A : boxR) (S : v3 -> Prop) (val : R) e c : ortho (tf_rot X1) -> box_in c e -> (forall q, S q -> in_boxR q A) ->
  (exists p q, in_boxR p c /\ S q /\ dist (tf_apply X1 p) q <= Rmax 0 val) -> box_distance (aabb_aabb e X1) A <= Rmax 0 val.
Proof.
  intros O Hb HS (p & q & P & Q & D). eapply Rle_trans; [|exact D].
  assert (Hp : in_boxR (tf_apply X1 p) (aabb_aabb e X1)) by (apply aabb_aabb_encloses; [exact O|apply Hb, P]).
  assert (N1 : nonemptyR (aabb_aabb e X1)) by (exists (tf_apply X1 p); exact Hp). assert (N2 : nonemptyR A) by (exists q; exact (HS q Q)).
  apply (proj1 (aabb_distance_is_min (aabb_aabb e X1) A N1 N2)); [exact Hp|apply HS, Q].
Qed.
(** what a distance query answers: the start value or the value of an occupied item; if positive, it is
    the least over all items; if any item has a value not above zero, it is not above zero *)
Definition dist_answer {I : Type} (val : I -> R) (item : I -> Prop) (m0 r : R) : Prop :=
  (r = m0 \/ exists x, item x /\ r = val x) /\ (0 < r -> forall x, item x -> r <= val x) /\ (forall x, item x -> val x <= 0 -> r <= 0) /\ r <= m0.
Theorem octree_shape_distance : forall occ (S : v3 -> Prop) A X1 ds t b m0 r, ortho (tf_rot X1) -> (forall q, S q -> in_boxR q A) ->
  (forall c, nonemptyR c -> exists p q, in_boxR p c /\ S q /\ dist (tf_apply X1 p) q <= Rmax 0 (ds c)) -> maxprop t -> nonemptyR b -> 0 < m0 ->
  on_root t (fst (shape_dist occ ds (fun c => box_distance (aabb_aabb c X1) A) t b m0)) = Some r ->
  dist_answer ds (occupied occ t b) m0 r.
Proof.
  intros occ S A X1 ds t b m0 r O HS Hd M N Hm Hr.
  assert (D : dvisits boxR ds (shape_dist occ ds (fun c => box_distance (aabb_aabb c X1) A) t b) (occupied occ t b) (occupied occ t b)).
  { apply shape_dist_spec; [|exact M|exact N]. intros e c Nc Hb. apply (placed_low X1 A S (ds c) e c O Hb HS (Hd c Nc)). }
  apply dvisits_query with (m := m0) in D; [|exact Hm]. cbv zeta in D. unfold on_root in Hr. destruct t; [discriminate| |]; injection Hr as <-; exact D.
Qed.
Print Assumptions octree_shape_distance.
Theorem octree_mesh_distance : forall occ V (waabb : V -> boxR) vsize (tri : nat -> v3 -> Prop) X1 dm t b m m0 r, ortho (tf_rot X1) ->
  each (fun v p => forall q, tri p q -> in_boxR q (waabb v)) m ->
  (forall c p, nonemptyR c -> exists x q, in_boxR x c /\ tri p q /\ dist (tf_apply X1 x) q <= Rmax 0 (dm c p)) -> maxprop t -> nonemptyR b -> 0 < m0 ->
  on_root t (fst (mesh_dist occ vsize dm (fun c v => box_distance (aabb_aabb c X1) (waabb v)) t b m m0)) = Some r ->
  dist_answer (fun x : boxR * nat => dm (fst x) (snd x)) (fun x => occupied occ t b (fst x) /\ under m (snd x)) m0 r.
Proof.
  intros occ V waabb vsize tri X1 dm t b m m0 r O E Hd M N Hm Hr.
  assert (L : low_ok V dm (fun c v => box_distance (aabb_aabb c X1) (waabb v)) m).
  { unfold low_ok. eapply each_impl; [|exact E]. intros v p H e c Nc Hb. exact (placed_low X1 (waabb v) (tri p) (dm c p) e c O Hb H (Hd c p Nc)). }
  pose proof (mesh_dist_spec occ V vsize dm _ t b m M N L) as D.
  apply dvisits_query with (m := m0) in D; [|exact Hm]. cbv zeta in D. unfold on_root in Hr. destruct t; [discriminate| |]; injection Hr as <-; exact D.
Qed.
Print Assumptions octree_mesh_distance.
Theorem octree_octree_distance : forall occ occ2 X1 X2 d2 t b u d m0 r, ortho (tf_rot X1) -> ortho (tf_rot X2) ->
  (forall c e, nonemptyR c -> nonemptyR e -> exists p q, in_boxR p c /\ in_boxR q e /\ dist (tf_apply X1 p) (tf_apply X2 q) <= Rmax 0 (d2 c e)) ->
  maxprop t -> maxprop u -> nonemptyR b -> nonemptyR d -> 0 < m0 ->
  on_root t (on_root u (fst (pair_dist occ occ2 d2 (fun c e => box_distance (aabb_aabb c X1) (aabb_aabb e X2)) t b u d m0))) = Some (Some r) ->
  dist_answer (fun x : boxR * boxR => d2 (fst x) (snd x)) (fun x => occupied occ t b (fst x) /\ occupied occ2 u d (snd x)) m0 r.
Proof.
  intros occ occ2 X1 X2 d2 t b u d m0 r O1 O2 Hd M1 M2 N1 N2 Hm Hr.
  assert (L : forall e c f k, nonemptyR c -> nonemptyR k -> box_in c e -> box_in k f -> box_distance (aabb_aabb e X1) (aabb_aabb f X2) <= Rmax 0 (d2 c k)).
  { intros e c f k Nc Nk Hb Hk. apply (placed_low X1 (aabb_aabb f X2) (fun y => exists q, in_boxR q k /\ y = tf_apply X2 q) (d2 c k) e c O1 Hb).
    - intros y (q & Q & ->). apply aabb_aabb_encloses; [exact O2|apply Hk, Q].
    - destruct (Hd c k Nc Nk) as (p & q & P & Q & D). exists p, (tf_apply X2 q). split; [exact P|split; [eauto|exact D]]. }
  pose proof (pair_dist_spec occ occ2 d2 (fun c e => box_distance (aabb_aabb c X1) (aabb_aabb e X2)) L t b u d M1 M2 N1 N2) as D.
  apply dvisits_query with (m := m0) in D; [|exact Hm]. cbv zeta in D. unfold on_root in Hr. destruct t; [discriminate| |]; (destruct u; [discriminate| |]); injection Hr as <-; exact D.
Qed.
Print Assumptions octree_octree_distance.

(** *** Where it fails *)
(** Both thresholds are 0 by default: a cell with log-odds 0 is occupied and free.  Below a node with
    log-odds 0 it is never reached by collide, though distance does measure it. *)
Theorem octree_threshold_refuted : forall C max (top : nat -> list C -> list C) cost ov hit gen b s ds lows m0,
  lows (child_box b 0) < m0 -> ds (child_box b 0) < m0 ->
  let t := Inner 0 0 (fun i => if (i =? 0)%nat then Leaf 1 0 else Absent) in
  maxprop t /\ leaf_at t b 1 0 (child_box b 0) /\ is_occ 0 0 = true /\
  shape_rec 0 0 true false max top cost ov hit gen t b s = (s, false) /\ fst (shape_dist 0 ds lows t b m0) = ds (child_box b 0).
Proof.
  intros C max top cost ov hit gen b s ds lows m0 L D t. split; [|split; [|split; [reflexivity|split; [reflexivity|]]]].
  - intros i Hi. destruct (i =? 0)%nat; cbn; split; auto; lia.
  - apply (la_kid 0 0 _ b 0); [left; reflexivity|]. cbn. constructor.
  - cbn [t shape_dist is_occ Z.leb Z.compare map eight Nat.eqb in_turn]. unfold guard, dupd. destruct (Rlt_dec (lows (child_box b 0)) m0); [|contradiction].
    destruct (Rlt_dec (ds (child_box b 0)) m0); [|contradiction]. destruct (Rle_dec (ds (child_box b 0)) 0); reflexivity.
Qed.
Print Assumptions octree_threshold_refuted.

(** Without max-propagation an occupied leaf below a free node is missed by both. *)
Theorem octree_maxprop_refuted : forall occ free C max (top : nat -> list C -> list C) cost ov hit gen kids id od b s ds lows m0, (od <= free)%Z -> (free < occ)%Z ->
  shape_rec occ free true false max top cost ov hit gen (Inner id od kids) b s = (s, false) /\ shape_dist occ ds lows (Inner id od kids) b m0 = (m0, false).
Proof.
  intros occ free C max top cost ov hit gen kids id od b s ds lows m0 H1 H2. cbn [shape_rec shape_dist]. unfold is_free, is_occ.
  replace (od <=? free)%Z with true by (symmetry; apply Z.leb_le; exact H1). replace (occ <=? od)%Z with false by (symmetry; apply Z.leb_gt; lia). split; reflexivity.
Qed.
Print Assumptions octree_maxprop_refuted.

(** An empty tree: the collision query with costs disabled still adds a cost source for the whole root
    box, and the distance query dereferences the null root. *)
Theorem octree_null_refuted : forall occ free o_occ o_free C max (top : nat -> list C -> list C) ov hit gen b ds lows m0, ov b = true -> hit b = true ->
  shape_rec occ free o_occ o_free max top false ov hit gen Absent b (St [] []) = (St [] [(None, b)], false) /\ on_root Absent (fst (shape_dist occ ds lows Absent b m0)) = None.
Proof. intros occ free o_occ o_free C max top ov hit gen b ds lows m0 H1 H2. cbn. rewrite H1, H2. split; reflexivity. Qed.
Print Assumptions octree_null_refuted.

(** A root with one occupied child (box [0,1]^3), one uncertain and six missing: a point-like body at
    (1/2,1/2,1/2) gets one contact. *)
Example octree_case : let t := Inner 0 5 (fun i => if (i =? 7)%nat then Leaf 7 5 else if (i =? 0)%nat then Leaf 8 1 else Absent) in
  let b := BoxR (mk3 (-1) (-1) (-1)) (mk3 1 1 1) in
  maxprop t /\ contacts (fst (shape_rec 3 0 true false 4 (@firstn nat) false (fun _ => true) (fun _ => true) (fun id _ => [id]) t b (St [] []))) = [7%nat] /\
  length (costs (fst (shape_rec 3 0 true false 4 (@firstn nat) true (fun _ => true) (fun _ => true) (fun id _ => [id]) t b (St [] [])))) = 6%nat.
Proof. split; [|split; reflexivity]. intros i Hi. destruct (i =? 7)%nat; [|destruct (i =? 0)%nat]; cbn; split; auto; lia. Qed.
