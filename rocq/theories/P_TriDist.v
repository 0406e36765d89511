(** C71: TriangleDistance::triDistance returns the distance of the triangles
    (include/fcl/narrowphase/detail/primitive_shape_algorithm/triangle_distance-inl.h). *)
From Coq Require Import Reals Lra Lia Psatz List Bool.
From Verif Require Import VecR Motion TriDist TriGeom.
Import ListNotations.
Open Scope R_scope.

(** d is the distance of two sets, and it is attained *)
Definition set_dist (A B : v3 -> Prop) (d : R) : Prop :=
  (exists a b, A a /\ B b /\ dist a b = d) /\ forall a b, A a -> B b -> d <= dist a b.
Definition meet (A B : v3 -> Prop) : Prop := exists x, A x /\ B x.
(** a plane strictly between the triangles *)
Definition parted (T1 T2 : triangle) : Prop := exists n, forall a b, tri_set T1 a -> tri_set T2 b -> 0 < dot (vsub b a) n.

Lemma sep_pt : forall V w, norm2 V <= dot w V -> norm2 V <= norm2 w.
Proof.
  intros V w H. pose proof (norm2_nonneg (vsub w V)) as N. replace (norm2 (vsub w V)) with (norm2 w - 2 * dot w V + norm2 V) in N by vring. lra.
Qed.
Lemma tri_le : forall T i V c x, (i < 3)%nat -> dot (T i) V <= c -> dot (T (nx i)) V <= c -> dot (T (nx (nx i))) V <= c -> tri_set T x -> dot x V <= c.
Proof.
  intros T i V c x Hi A B D (u & v & w & Hu & Hv & Hw & S & ->). rewrite !dot_add_l, !dot_scale_l.
  assert (E : u * c + v * c + w * c = c) by (rewrite <- !Rmult_plus_distr_r, S; ring).
  rewrite <- E. destruct i as [|[|[|i]]]; [| | |lia]; cbn [nx] in *; repeat apply Rplus_le_compat; apply Rmult_le_compat_l; auto.
Qed.
Lemma closest_dist : forall K1 K2 p q, closest K1 K2 p q -> set_dist K1 K2 (dist p q).
Proof.
  intros K1 K2 p q (A & B & H). split; [exists p, q; auto|]. intros a b Ha Hb. rewrite (dist_sym p q), (dist_sym a b). apply norm_mono. auto.
Qed.
Lemma parted_disjoint : forall T1 T2, parted T1 T2 -> meet (tri_set T1) (tri_set T2) -> False.
Proof. intros T1 T2 (n & H) (x & A & B). specialize (H x x A B). rewrite vsub_self, dot_vzero_l in H. lra. Qed.
Lemma parted_sym : forall T1 T2, parted T1 T2 -> parted T2 T1.
Proof. intros T1 T2 (n & H). exists (vneg n). intros a b Ha Hb. specialize (H b a Hb Ha). replace (dot (vsub b a) (vneg n)) with (dot (vsub a b) n) by vring. auto. Qed.

(** * One edge pair *)
Lemma edge_ends : forall (T : triangle) i, on_edge T i (T i) /\ on_edge T i (T (nx i)).
Proof.
  intros T k. split; [exists 0|exists 1]; (split; [lra|]); unfold side; generalize (T k) (T (nx k)); clear; vring.
Qed.
Section Pair.
Variables (T1 T2 : triangle) (i j : nat).
Hypothesis Hi : (i < 3)%nat.
Hypothesis Hj : (j < 3)%nat.
Variables (VEC X Y : v3).
Hypothesis E : seg_points (T1 i) (side T1 i) (T2 j) (side T2 j) = (VEC, X, Y).

Lemma pair_facts : on_edge T1 i X /\ on_edge T2 j Y /\ (exists k, 0 <= k /\ vsub Y X = vscale k VEC) /\
  (forall x, on_edge T1 i x -> dot (vsub x X) VEC <= 0) /\ (forall y, on_edge T2 j y -> 0 <= dot (vsub y Y) VEC).
Proof.
  pose proof (seg_points_ok (T1 i) (side T1 i) (T2 j) (side T2 j)) as H. rewrite E in H.
  destruct H as (t & u & k & Ht & Hu & EX & EY & Hk & EV & HA & HB). repeat split.
  - exists t. auto.
  - exists u. auto.
  - exists k. auto.
  - intros x (s & Hs & ->). rewrite EX. rewrite dot_sub_l, !dot_add_l, !dot_scale_l. specialize (HA s Hs). lra.
  - intros y (s & Hs & ->). rewrite EY. rewrite dot_sub_l, !dot_add_l, !dot_scale_l. specialize (HB s Hs). lra.
Qed.
Lemma pair_in : tri_set T1 X /\ tri_set T2 Y.
Proof. destruct pair_facts as (A & B & _). split; [apply (on_edge_tri T1 i)|apply (on_edge_tri T2 j)]; auto. Qed.
Lemma pair_range1 : forall x c, tri_set T1 x -> 0 <= c -> dot (vsub (T1 (nx (nx i))) X) VEC <= c -> dot (vsub x X) VEC <= c.
Proof.
  intros x c Hx Hc H. destruct pair_facts as (_ & _ & _ & A & _). destruct (edge_ends T1 i) as [E1 E2].
  pose proof (A _ E1) as A1. pose proof (A _ E2) as A2. rewrite dot_sub_l in *.
  pose proof (tri_le T1 i VEC (dot X VEC + c) x Hi) as K. lapply K; [|lra]. intros K1. lapply K1; [|lra]. intros K2. lapply K2; [|lra]. intros K3. specialize (K3 Hx). lra.
Qed.
Lemma pair_range2 : forall y c, tri_set T2 y -> c <= 0 -> c <= dot (vsub (T2 (nx (nx j))) Y) VEC -> c <= dot (vsub y Y) VEC.
Proof.
  intros y c Hy Hc H. destruct pair_facts as (_ & _ & _ & _ & A). destruct (edge_ends T2 j) as [E1 E2].
  pose proof (A _ E1) as A1. pose proof (A _ E2) as A2. rewrite dot_sub_l in *.
  pose proof (tri_le T2 j (vneg VEC) (- (dot Y VEC + c)) y Hj) as K. rewrite !dot_neg_r in K.
  lapply K; [|lra]. intros K1. lapply K1; [|lra]. intros K2. lapply K2; [|lra]. intros K3. specialize (K3 Hy). lra.
Qed.
Lemma pair_seg_min : forall x y, on_edge T1 i x -> on_edge T2 j y -> norm2 (vsub Y X) <= norm2 (vsub y x).
Proof.
  intros x y Hx Hy. destruct pair_facts as (_ & _ & (k & Hk & EV) & A & B). specialize (A x Hx). specialize (B y Hy).
  apply sep_pt. unfold norm2. rewrite EV. rewrite !dot_scale_r. apply Rmult_le_compat_l; auto. rewrite <- EV.
  rewrite dot_sub_l in *. rewrite dot_sub_l. lra.
Qed.
Lemma pair_return : dot (vsub (T1 (nx (nx i))) X) VEC <= 0 -> 0 <= dot (vsub (T2 (nx (nx j))) Y) VEC ->
  closest (tri_set T1) (tri_set T2) X Y.
Proof.
  intros Ha Hb. destruct pair_in as [PX PY]. split; auto. split; auto. intros x y Hx Hy.
  destruct pair_facts as (_ & _ & (k & Hk & EV) & _ & _).
  pose proof (pair_range1 x 0 Hx ltac:(lra) Ha) as A. pose proof (pair_range2 y 0 Hy ltac:(lra) Hb) as B.
  apply sep_pt. unfold norm2. rewrite EV. rewrite !dot_scale_r. apply Rmult_le_compat_l; auto. rewrite <- EV.
  rewrite dot_sub_l in *. rewrite dot_sub_l. lra.
Qed.
Lemma pair_shown : let a := dot (vsub (T1 (nx (nx i))) X) VEC in let b := dot (vsub (T2 (nx (nx j))) Y) VEC in
  0 < dot (vsub Y X) VEC - (if Rlt_dec a 0 then 0 else a) + (if Rlt_dec 0 b then 0 else b) -> parted T1 T2.
Proof.
  intros a b H. exists VEC. intros x y Hx Hy.
  pose proof (pair_range1 x (if Rlt_dec a 0 then 0 else a) Hx) as A. pose proof (pair_range2 y (if Rlt_dec 0 b then 0 else b) Hy) as B.
  fold a in A. fold b in B. destruct (Rlt_dec a 0), (Rlt_dec 0 b);
  specialize (A ltac:(lra) ltac:(lra)); specialize (B ltac:(lra) ltac:(lra)); rewrite dot_sub_l in *; lra.
Qed.
(** an edge pair at the distance of the triangles ends the loop *)
Lemma pair_hit : forall x y, closest (tri_set T1) (tri_set T2) x y -> vsub y x <> vzero -> on_edge T1 i x -> on_edge T2 j y ->
  norm2 (vsub Y X) = norm2 (vsub y x) /\ dot (vsub (T1 (nx (nx i))) X) VEC <= 0 /\ 0 <= dot (vsub (T2 (nx (nx j))) Y) VEC.
Proof.
  intros x y C Hn Hx Hy. destruct pair_in as [PX PY]. pose proof (pair_seg_min x y Hx Hy) as Hle.
  pose proof C as (_ & _ & Cm). pose proof (Cm X Y PX PY) as Hge.
  assert (C' : closest (tri_set T1) (tri_set T2) X Y). { split; auto. split; auto. intros a b Ha Hb. specialize (Cm a b Ha Hb). lra. }
  assert (Hnx : forall k, (k < 3)%nat -> (nx (nx k) < 3)%nat) by (intros [|[|[|k]]] Hk; cbn; lia).
  pose proof (closest_support1 T1 T2 X Y _ C' (tri_vertex T1 _ (Hnx i Hi))) as S1.
  pose proof (closest_support2 T1 T2 X Y _ C' (tri_vertex T2 _ (Hnx j Hj))) as S2.
  destruct pair_facts as (_ & _ & (k & Hk & EV) & _ & _). rewrite EV, dot_scale_r in S1, S2.
  assert (0 < k).
  { destruct Hk as [|Z]; auto. exfalso. apply Hn, norm2_zero. rewrite <- Z, fv4 in EV. rewrite EV in Hge.
    pose proof (norm2_nonneg (vsub y x)). rewrite EV in Hle. replace (norm2 vzero) with 0 in * by (unfold norm2; rewrite dot_vzero_l; auto). lra. }
  split; [lra|]. split; nra.
Qed.
End Pair.

(** * The nine pairs *)
Section Scan.
Variables (T1 T2 : triangle).
Definition s_inv (s : st) : Prop :=
  (exists a b, tri_set T1 a /\ tri_set T2 b /\ norm2 (vsub b a) <= mindd s) /\ (shown s = true -> parted T1 T2).
Definition s_good (s : st) : Prop :=
  tri_set T1 (sP s) /\ tri_set T2 (sQ s) /\ tri_set T1 (minP s) /\ tri_set T2 (minQ s) /\ mindd s = norm2 (vsub (minQ s) (minP s)).
Lemma scan_spec : forall l s, (forall i j, In (i, j) l -> (i < 3)%nat /\ (j < 3)%nat) -> s_inv s ->
  match scan T1 T2 l s with
  | inl (d, P, Q) => closest (tri_set T1) (tri_set T2) P Q /\ d = dist P Q /\ exists i j, (i < 3)%nat /\ (j < 3)%nat /\ on_edge T1 i P /\ on_edge T2 j Q
  | inr s' => s_inv s' /\ (s_good s -> s_good s') /\
      forall i j x y, In (i, j) l -> closest (tri_set T1) (tri_set T2) x y -> vsub y x <> vzero -> on_edge T1 i x -> on_edge T2 j y -> False
  end.
Proof.
  induction l as [|(i, j) l IH]; intros s Hl Hs; cbn [scan].
  { split; auto. }
  destruct (Hl i j (or_introl eq_refl)) as [Hi Hj].
  assert (Hl' : forall a b, In (a, b) l -> (a < 3)%nat /\ (b < 3)%nat) by (intros; apply Hl; right; auto).
  destruct (seg_points (T1 i) (side T1 i) (T2 j) (side T2 j)) as ((VEC, X), Y) eqn:E.
  destruct (pair_in T1 T2 i j Hi Hj VEC X Y E) as [PX PY].
  change (dot (vsub Y X) (vsub Y X)) with (norm2 (vsub Y X)).
  set (a := dot (vsub (T1 (nx (nx i))) X) VEC). set (b := dot (vsub (T2 (nx (nx j))) Y) VEC).
  destruct (Rle_dec (norm2 (vsub Y X)) (mindd s)) as [L|L].
  - destruct (if Rle_dec a 0 then _ else false) eqn:Eab.
    + assert (Hab : a <= 0 /\ 0 <= b). { destruct (Rle_dec a 0); [|discriminate]. destruct (Rle_dec 0 b); [auto|discriminate]. }
      split; [apply (pair_return T1 T2 i j Hi Hj VEC X Y E); apply Hab|]. split; [rewrite (dist_sym X Y); reflexivity|].
      destruct (pair_facts T1 T2 i j VEC X Y E) as (A & B & _). exists i, j. auto.
    + set (s1 := St _ _ _ _ _ _).
      assert (I1 : s_inv s1).
      { split; [exists X, Y; repeat split; auto; cbn; lra|]. cbn. destruct (Rlt_dec 0 _) as [Ls|]; [|apply Hs].
        intros _. exact (pair_shown T1 T2 i j Hi Hj VEC X Y E Ls). }
      specialize (IH s1 Hl' I1). destruct (scan T1 T2 l s1) as [((d, P), Q)|s']; auto.
      destruct IH as (A & B & D). split; auto. split.
      * intros _. apply B. cbn. split; auto.
      * intros i' j' x y [Eq|I] C Hn Hx Hy; [|eapply D; eauto]. injection Eq as <- <-.
        destruct (pair_hit T1 T2 i j Hi Hj VEC X Y E x y C Hn Hx Hy) as (_ & H1 & H2). fold a in H1. fold b in H2.
        destruct (Rle_dec a 0); [|contradiction]. destruct (Rle_dec 0 b); [discriminate|contradiction].
  - set (s1 := St _ _ _ _ _ _).
    assert (I1 : s_inv s1) by exact Hs.
    specialize (IH s1 Hl' I1). destruct (scan T1 T2 l s1) as [((d, P), Q)|s']; auto.
    destruct IH as (A & B & D). split; auto. split.
    + intros (_ & _ & G). apply B. repeat split; auto; apply G.
    + intros i' j' x y [Eq|I] C Hn Hx Hy; [|eapply D; eauto]. injection Eq as <- <-.
      destruct (pair_hit T1 T2 i j Hi Hj VEC X Y E x y C Hn Hx Hy) as (Hd & _).
      destruct Hs as ((a' & b' & Pa & Pb & Hm) & _). destruct C as (_ & _ & Cm). specialize (Cm a' b' Pa Pb). lra.
Qed.
Lemma pairs_ok : forall i j, In (i, j) pairs <-> (i < 3)%nat /\ (j < 3)%nat.
Proof.
  intros i j. unfold pairs. rewrite in_prod_iff. cbn [In].
  split; intros [A B]; split; lia.
Qed.
(** the first pair is always accepted *)
Lemma scan_start : let d0 := vsub (T1 0%nat) (T2 0%nat) in let s0 := St vzero vzero vzero vzero (dot d0 d0 + 1) false in
  match scan T1 T2 pairs s0 with
  | inl (d, P, Q) => closest (tri_set T1) (tri_set T2) P Q /\ d = dist P Q /\ exists i j, (i < 3)%nat /\ (j < 3)%nat /\ on_edge T1 i P /\ on_edge T2 j Q
  | inr s' => s_inv s' /\ s_good s' /\
      forall x y, closest (tri_set T1) (tri_set T2) x y -> vsub y x <> vzero -> ~ edge_pair T1 T2 (vsub y x)
  end.
Proof.
  intros d0 s0.
  assert (I0 : s_inv s0).
  { split; [|discriminate]. exists (T1 0%nat), (T2 0%nat). split; [apply tri_vertex; lia|]. split; [apply tri_vertex; lia|]. cbn [mindd s0].
    rewrite norm2_sub_sym. fold d0. unfold norm2. lra. }
  pose proof (scan_spec pairs s0 (fun i j => proj1 (pairs_ok i j)) I0) as H.
  assert (G : match scan T1 T2 pairs s0 with inl _ => True | inr s' => s_good s' end).
  { change pairs with ((0, 0)%nat :: tl pairs). remember (tl pairs) as l eqn:El. cbn [scan].
    destruct (seg_points (T1 0%nat) (side T1 0) (T2 0%nat) (side T2 0)) as ((VEC, X), Y) eqn:E.
    destruct (pair_in T1 T2 0 0 ltac:(lia) ltac:(lia) VEC X Y E) as [PX PY].
    assert (L : dot (vsub Y X) (vsub Y X) <= mindd s0).
    { pose proof (pair_seg_min T1 T2 0 0 VEC X Y E (T1 0%nat) (T2 0%nat) (proj1 (edge_ends T1 0)) (proj1 (edge_ends T2 0))) as M.
      rewrite (norm2_sub_sym (T2 0%nat)) in M. fold d0 in M. unfold norm2 in M. cbn [mindd s0]. lra. }
    destruct (Rle_dec _ (mindd s0)) as [_|N]; [|contradiction].
    destruct (if Rle_dec _ 0 then _ else false); auto. set (s1 := St _ _ _ _ _ _).
    assert (I1 : s_good s1) by (repeat split; auto).
    assert (Hl : forall i j, In (i, j) l -> (i < 3)%nat /\ (j < 3)%nat).
    { intros i j Hin. apply pairs_ok. rewrite El in Hin. destruct pairs as [|x r]; [destruct Hin|right; exact Hin]. }
    clearbody s1. clear - I1 Hl. revert s1 I1. induction l as [|(i, j) l IH]; intros s1 I1; cbn [scan]; auto.
    destruct (seg_points (T1 i) (side T1 i) (T2 j) (side T2 j)) as ((VEC, X), Y) eqn:E.
    destruct (Hl i j (or_introl eq_refl)) as [Hi Hj]. destruct (pair_in T1 T2 i j Hi Hj VEC X Y E) as [PX PY].
    assert (Hl' : forall a b, In (a, b) l -> (a < 3)%nat /\ (b < 3)%nat) by (intros; apply Hl; right; auto).
    destruct (Rle_dec _ _); [destruct (if Rle_dec _ 0 then _ else false); auto|]; apply IH; auto; repeat split; auto; apply I1. }
  destruct (scan T1 T2 pairs s0) as [((d, P), Q)|s']; auto.
  destruct H as (A & _ & D). split; auto. split; auto.
  intros x y C Hn (i & j & a & b & Hi & Hj & Ea & Eb & En).
  apply (D i j a b); auto.
  - apply pairs_ok; auto.
  - pose proof C as (_ & _ & Cm). split; [apply (on_edge_tri T1 i); auto|]. split; [apply (on_edge_tri T2 j); auto|]. intros a' b' Ha' Hb'. rewrite En. apply Cm; auto.
  - rewrite En. auto.
Qed.
End Scan.

(** * The face tests *)
Lemma same_sign_mix : forall (f : nat -> R) k u v w, (k < 3)%nat ->
  ((forall i, (i < 3)%nat -> 0 < f i /\ f k <= f i) \/ (forall i, (i < 3)%nat -> f i < 0 /\ f i <= f k)) ->
  0 <= u -> 0 <= v -> 0 <= w -> u + v + w = 1 -> let m := u * f 0%nat + v * f 1%nat + w * f 2%nat in
  f k * f k <= f k * m /\ (0 < f k -> 0 < m) /\ (f k < 0 -> m < 0).
Proof.
  intros f k u v w Hk H Hu Hv Hw S m.
  assert (Ek : f k = u * f k + v * f k + w * f k) by (rewrite <- !Rmult_plus_distr_r, S; ring).
  destruct H as [H|H]; pose proof (H k Hk) as [K _]; pose proof (proj2 (H 0%nat ltac:(lia))); pose proof (proj2 (H 1%nat ltac:(lia))); pose proof (proj2 (H 2%nat ltac:(lia))).
  - assert (f k <= m). { rewrite Ek. unfold m. repeat apply Rplus_le_compat; apply Rmult_le_compat_l; auto. }
    repeat split; intros; nra.
  - assert (m <= f k). { rewrite Ek. unfold m. repeat apply Rplus_le_compat; apply Rmult_le_compat_l; auto. }
    repeat split; intros; nra.
Qed.
Lemma face_spec : forall T O, (fst (face T O) = true -> parted T O) /\
  (forall p q, snd (face T O) = Some (p, q) -> closest (tri_set T) (tri_set O) p q /\ exists k, (k < 3)%nat /\ q = O k).
Proof.
  intros T O. unfold face. set (N := normal T). set (l := dot N N).
  destruct (Rlt_dec (1 / 10 ^ 15) l) as [L|L]; [|split; intros; discriminate].
  set (f := fun k => dot (vsub (T 0%nat) (O k)) N).
  destruct (pick f) as [k|] eqn:Ek; [|split; intros; discriminate].
  destruct (pick_spec f k Ek) as (Hk & Sk).
  assert (Hl : 0 < l). { eapply Rlt_trans; [|exact L]. apply Rmult_lt_0_compat; [lra|]. apply Rinv_0_lt_compat, pow_lt. lra. }
  assert (Mix : forall a b, tri_set T a -> tri_set O b -> let m := - dot (vsub b a) N in f k * f k <= f k * m /\ (0 < f k -> 0 < m) /\ (f k < 0 -> m < 0)).
  { intros a b Ha (u & v & w & Hu & Hv & Hw & S & Eb).
    pose proof (same_sign_mix f k u v w Hk Sk Hu Hv Hw S) as M. cbv zeta in M |- *.
    replace (- dot (vsub b a) N) with (u * f 0%nat + v * f 1%nat + w * f 2%nat); auto.
    pose proof (tri_plane T a Ha) as Pa. fold N in Pa. rewrite dot_sub_l in *. rewrite Eb. unfold f.
    rewrite !dot_sub_l, !dot_add_l, !dot_scale_l. assert (u = 1 - v - w) by lra. subst u. lra. }
  cbn [fst snd]. split.
  - intros _. assert (D : 0 < f k \/ f k < 0) by (destruct Sk as [S|S]; destruct (S k Hk); auto).
    destruct D as [D|D]; [exists (vneg N)|exists N]; intros a b Ha Hb; destruct (Mix a b Ha Hb) as (_ & M1 & M2).
    + rewrite dot_neg_r. auto.
    + specialize (M2 D). lra.
  - intros p q. destruct (pos3 _) eqn:Ep; [|discriminate]. intros H. injection H as <- <-. rewrite pos3_iff in Ep.
    split; [|eauto].
    change (dot (vsub (T 0%nat) (O k)) N) with (f k). set (foot := vadd (O k) (vscale (f k / l) N)).
    assert (Ht : tri_set T foot).
    { refine (proj1 (tri_of_edges T foot _ _ _)).
      - fold N l. lra.
      - unfold foot. fold N. rewrite dot_sub_l, dot_add_l, dot_scale_l. fold l. unfold f. rewrite dot_sub_l. field. lra.
      - intros i Hi. left. specialize (Ep i Hi). unfold foot. rewrite edge_fun_add. fold N.
        replace (dot (vscale (f k / l) N) (cross N (side T i))) with 0 by (generalize (side T i) N; clear; vring). rewrite Rplus_0_r. exact Ep. }
    split; auto. split; [apply tri_vertex; auto|]. intros a b Ha Hb. apply sep_pt.
    destruct (Mix a b Ha Hb) as (M & _).
    assert (EV : vsub (O k) foot = vscale (- (f k / l)) N) by (unfold foot; generalize (O k) N; clear; vring).
    unfold norm2. rewrite EV. rewrite !dot_scale_r, dot_scale_l. fold l.
    apply Rmult_le_reg_r with l; auto.
    replace (- (f k / l) * (- (f k / l) * l) * l) with (f k * f k) by (field; lra).
    replace (- (f k / l) * dot (vsub b a) N * l) with (f k * - dot (vsub b a) N) by (field; lra). exact M.
Qed.

(** * The distance *)
(** In all cases: the points returned belong to the triangles; a positive result is their distance. *)
Theorem tri_distance_points : forall T1 T2 d P Q, tri_distance T1 T2 = (d, P, Q) ->
  tri_set T1 P /\ tri_set T2 Q /\ 0 <= d /\ (d = 0 \/ d = dist P Q).
Proof.
  intros T1 T2 d P Q. unfold tri_distance. pose proof (scan_start T1 T2) as S. cbv zeta in S |- *.
  destruct (scan T1 T2 pairs _) as [((d', P'), Q')|s].
  { intros H. injection H as -> -> ->. destruct S as ((A & B & _) & -> & _). repeat split; auto using dist_nonneg. }
  destruct S as (Iv & (G1 & G2 & G3 & G4 & G5) & _).
  pose proof (proj2 (face_spec T1 T2)) as F1. pose proof (proj2 (face_spec T2 T1)) as F2.
  destruct (face T1 T2) as (sh1, [(p, q)|]).
  { intros H. injection H as <- <- <-. destruct (F1 p q eq_refl) as ((A & B & _) & _). repeat split; auto using norm_nonneg. }
  destruct (face T2 T1) as (sh2, [(p, q)|]).
  { intros H. injection H as <- <- <-. destruct (F2 p q eq_refl) as ((A & B & _) & _). repeat split; auto using norm_nonneg. }
  destruct (_ || _); intros H; injection H as <- <- <-; repeat split; auto; try lra; [apply sqrt_pos|].
  right. rewrite G5, norm2_sub_sym. reflexivity.
Qed.
Print Assumptions tri_distance_points.

(** Triangles that share a point are reported at distance 0. *)
Theorem tri_distance_meet : forall T1 T2, meet (tri_set T1) (tri_set T2) -> fst (fst (tri_distance T1 T2)) = 0.
Proof.
  intros T1 T2 (x & Hx1 & Hx2).
  assert (Z : forall P Q, closest (tri_set T1) (tri_set T2) P Q -> dist P Q = 0).
  { intros P Q C. destruct (closest_dist _ _ _ _ C) as [_ H]. specialize (H x x Hx1 Hx2). rewrite dist_refl in H. pose proof (dist_nonneg P Q). lra. }
  assert (NP : parted T1 T2 -> False). { intros H. apply (parted_disjoint T1 T2 H). exists x. auto. }
  unfold tri_distance. pose proof (scan_start T1 T2) as S. cbv zeta in S |- *.
  destruct (scan T1 T2 pairs _) as [((d', P'), Q')|s].
  { destruct S as (C & -> & _). cbn. auto. }
  destruct S as (Iv & _ & _).
  pose proof (face_spec T1 T2) as (S1 & F1). pose proof (face_spec T2 T1) as (S2 & F2).
  destruct (face T1 T2) as (sh1, [(p, q)|]).
  { cbn. destruct (F1 p q eq_refl) as (C & _). apply (Z p q C). }
  destruct (face T2 T1) as (sh2, [(p, q)|]).
  { cbn. destruct (F2 p q eq_refl) as (C & _). apply (Z q p (closest_sym _ _ _ _ C)). }
  destruct (shown s || sh1 || sh2) eqn:E; auto. exfalso. cbn in *.
  apply orb_true_iff in E. destruct E as [E| ->]; [apply orb_true_iff in E; destruct E as [E| ->]|].
  - apply NP. apply Iv; auto.
  - auto.
  - apply NP, parted_sym. auto.
Qed.
Print Assumptions tri_distance_meet.

(** The distance is exact, and the points are a closest pair unless the triangles overlap, when
    each triangle is flat or its normal passes the threshold 1e-15 of the face test. *)
Theorem tri_distance_exact : forall T1 T2 d P Q, proper T1 -> proper T2 -> tri_distance T1 T2 = (d, P, Q) ->
  set_dist (tri_set T1) (tri_set T2) d /\ tri_set T1 P /\ tri_set T2 Q /\ (0 < d -> dist P Q = d).
Proof.
  intros T1 T2 d P Q P1 P2 H. destruct (tri_distance_points T1 T2 d P Q H) as (A & B & D & Q4).
  split; [|repeat split; auto; intros; destruct Q4; lra].
  revert H. unfold tri_distance. pose proof (scan_start T1 T2) as S. cbv zeta in S |- *.
  destruct (scan T1 T2 pairs _) as [((d', P'), Q')|s].
  { intros H. injection H as -> -> ->. destruct S as (C & -> & _). apply closest_dist; auto. }
  destruct S as (Iv & _ & NE).
  destruct (closest_exists T1 T2) as (p0 & q0 & C0). pose proof (found T1 T2 p0 q0 P1 P2 C0) as F0.
  pose proof (face_spec T1 T2) as (S1 & F1). pose proof (face_spec T2 T1) as (S2 & F2).
  destruct (face T1 T2) as (sh1, [(p, q)|]).
  { intros H. injection H as <- <- <-. destruct (F1 p q eq_refl) as (C & _). apply (closest_dist _ _ p q C). }
  destruct (face T2 T1) as (sh2, [(p, q)|]).
  { intros H. injection H as <- <- <-. destruct (F2 p q eq_refl) as (C & _). apply (closest_dist _ _ q p (closest_sym _ _ _ _ C)). }
  assert (Z : vsub q0 p0 = vzero).
  { destruct (Req_EM_T (norm2 (vsub q0 p0)) 0) as [Z|Z]; [apply norm2_zero; auto|]. exfalso.
    assert (Hn : vsub q0 p0 <> vzero). { intros W. apply Z. rewrite W. unfold norm2. apply dot_vzero_l. }
    destruct (F0 Hn) as [E|[(r & E)|(r & E)]]; [|discriminate|discriminate]. exact (NE p0 q0 C0 Hn E). }
  assert (M : meet (tri_set T1) (tri_set T2)).
  { destruct C0 as (Hp & Hq & _). exists p0. split; auto. replace p0 with q0; auto.
    apply dist_zero. unfold dist. rewrite Z. apply norm_vzero. }
  assert (Ed : set_dist (tri_set T1) (tri_set T2) 0).
  { replace 0 with (dist p0 q0); [apply closest_dist; auto|]. rewrite dist_sym. unfold dist. rewrite Z. apply norm_vzero. }
  assert (NP : parted T1 T2 -> False) by (intros N; exact (parted_disjoint T1 T2 N M)).
  destruct (shown s || sh1 || sh2) eqn:E; intros H; injection H as <- <- <-; auto. exfalso. cbn in *.
  apply orb_true_iff in E. destruct E as [E| ->]; [apply orb_true_iff in E; destruct E as [E| ->]|].
  - apply NP. apply Iv; auto.
  - auto.
  - apply NP, parted_sym. auto.
Qed.
Print Assumptions tri_distance_exact.

(** The threshold matters: whenever the only closest pair has a point strictly inside a triangle
    whose normal is below it, the distance returned is wrong. *)
Theorem tri_distance_small_refuted : forall T1 T2 p q,
  dot (normal T1) (normal T1) <= 1 / 10 ^ 15 -> dot (normal T1) (normal T1) <> 0 ->
  closest (tri_set T1) (tri_set T2) p q -> p <> q -> inside T1 p ->
  (forall a b, closest (tri_set T1) (tri_set T2) a b -> a = p /\ b = q) ->
  fst (fst (tri_distance T1 T2)) <> dist p q.
Proof.
  intros T1 T2 p q Hl HN C Hpq Hin U E.
  assert (Hd : 0 < dist p q). { destruct (dist_nonneg p q) as [|Z]; auto. exfalso. apply Hpq, dist_zero. auto. }
  assert (NE : forall i, (i < 3)%nat -> on_edge T1 i p -> False).
  { intros i Hi (s & Hs & Ep). specialize (Hin i Hi). rewrite Ep, edge_fun_add in Hin. unfold edge_fun in Hin.
    rewrite vsub_self, dot_vzero_l in Hin.
    replace (dot (vscale s (side T1 i)) (cross (normal T1) (side T1 i))) with 0 in Hin by (generalize (side T1 i) (normal T1); clear; vring). lra. }
  assert (NV : forall i, (i < 3)%nat -> T1 i = p -> False).
  { intros i Hi Ep. apply (NE i Hi). rewrite <- Ep. apply edge_ends. }
  assert (SC : forall P Q, tri_set T1 P -> tri_set T2 Q -> dist P Q = dist p q -> P = p).
  { intros P Q HP HQ ED. apply (U P Q). split; auto. split; auto. intros a b Ha Hb. destruct C as (_ & _ & Cm). specialize (Cm a b Ha Hb).
    replace (norm2 (vsub Q P)) with (norm2 (vsub q p)); auto. rewrite <- !norm_sq.
    change (norm (vsub q p)) with (dist q p). change (norm (vsub Q P)) with (dist Q P). rewrite (dist_sym q p), (dist_sym Q P), ED. auto. }
  revert E. unfold tri_distance. pose proof (scan_start T1 T2) as S. cbv zeta in S |- *.
  destruct (scan T1 T2 pairs _) as [((d', P'), Q')|s] eqn:Es.
  { cbn. destruct S as (C' & -> & i & j & Hi & Hj & E1 & E2). intros _. destruct (U P' Q' C') as [-> _]. exact (NE i Hi E1). }
  destruct S as (_ & (G1 & G2 & G3 & G4 & G5) & _).
  pose proof (proj2 (face_spec T2 T1)) as F2.
  assert (F1 : face T1 T2 = (false, None)). { unfold face. destruct (Rlt_dec _ _); [lra|reflexivity]. }
  rewrite F1.
  destruct (face T2 T1) as (sh2, [(q', p')|]).
  { cbn. intros _. destruct (F2 q' p' eq_refl) as (C' & k & Hk & ->). destruct (U _ _ (closest_sym _ _ _ _ C')) as [Ep _]. exact (NV k Hk Ep). }
  destruct (shown s || false || sh2); cbn; intros E; [|lra].
  assert (Ep : minP s = p). { apply (SC _ (minQ s) G3 G4). rewrite <- E, G5, norm2_sub_sym. reflexivity. }
  assert (Hm : exists i, (i < 3)%nat /\ on_edge T1 i (minP s)).
  { clear - Es Hd E. assert (GG : forall l s0, (forall i j, In (i, j) l -> (i < 3)%nat /\ (j < 3)%nat) -> (l = [] -> exists i, (i < 3)%nat /\ on_edge T1 i (minP s0)) ->
      (exists i, (i < 3)%nat /\ on_edge T1 i (minP s0)) \/ (exists l', l = (0, 0)%nat :: l' /\ mindd s0 = dot (vsub (T1 0%nat) (T2 0%nat)) (vsub (T1 0%nat) (T2 0%nat)) + 1) ->
      scan T1 T2 l s0 = inr s -> exists i, (i < 3)%nat /\ on_edge T1 i (minP s)).
    { induction l as [|(i, j) l IH]; intros s0 Hl H0 Hg; cbn [scan]; [intros H; injection H as <-; auto|].
      destruct (Hl i j (or_introl eq_refl)) as [Hi Hj].
      assert (Hl' : forall a b, In (a, b) l -> (a < 3)%nat /\ (b < 3)%nat) by (intros; apply Hl; right; auto).
      destruct (seg_points (T1 i) (side T1 i) (T2 j) (side T2 j)) as ((VEC, X), Y) eqn:EE.
      destruct (pair_facts T1 T2 i j VEC X Y EE) as (A & _).
      destruct (Rle_dec _ (mindd s0)) as [L|L].
      - destruct (if Rle_dec _ 0 then _ else false); [discriminate|]. intros H. eapply IH; [exact Hl'| | |exact H]; cbn; eauto.
      - destruct Hg as [Hg|(l' & El & Em)].
        + intros H. eapply IH; [exact Hl'| | |exact H]; cbn; eauto.
        + exfalso. injection El as -> -> ->. apply L. rewrite Em.
          pose proof (pair_seg_min T1 T2 0 0 VEC X Y EE (T1 0%nat) (T2 0%nat) (proj1 (edge_ends T1 0)) (proj1 (edge_ends T2 0))) as M.
          rewrite (norm2_sub_sym (T2 0%nat)) in M. unfold norm2 in M. lra. }
    refine (GG pairs _ (fun i j => proj1 (pairs_ok i j)) _ _ Es); [discriminate|].
    right. exists (tl pairs). split; reflexivity. }
  destruct Hm as (i & Hi & Hm). rewrite Ep in Hm. exact (NE i Hi Hm).
Qed.
Print Assumptions tri_distance_small_refuted.

(** * A pair of small separate triangles reported at distance 0 *)
Lemma qdiv_fin : forall a b c, 0 < b /\ a = c * b -> qdiv a b = Fin c.
Proof. intros a b c (Hb & ->). unfold qdiv. destruct (Req_EM_T b 0); [lra|]. f_equal. field. lra. Qed.
Lemma qdiv_nan : forall a b, a = 0 /\ b = 0 -> qdiv a b = Nan.
Proof. intros a b (-> & ->). unfold qdiv. destruct (Req_EM_T 0 0); [|contradiction]. auto. Qed.
Ltac rw_dec := match goal with
  | |- context [if Rle_dec ?a ?b then _ else _] => let H := fresh "Hd" in destruct (Rle_dec a b) as [H|H]; [|]; try (exfalso; clear - H; vunf; lra)
  | |- context [if Rlt_dec ?a ?b then _ else _] => let H := fresh "Hd" in destruct (Rlt_dec a b) as [H|H]; [|]; try (exfalso; clear - H; vunf; lra)
  end.
Ltac hd_if := lazymatch goal with
  | |- (if Rle_dec _ _ then _ else _) = _ => rw_dec
  | |- (if Rlt_dec _ _ then _ else _) = _ => rw_dec
  | |- (if ?c then _ else _) = _ =>
      lazymatch c with context [qdiv] => fail | _ => idtac end;
      first [let H := fresh in assert (H : c = true) by (cbn; repeat rw_dec; reflexivity); rewrite H; clear H
            |let H := fresh in assert (H : c = false) by (cbn; repeat rw_dec; reflexivity); rewrite H; clear H]
  end.
Ltac q_t c v := match goal with |- context [if below0 (Fin c) then 0 else ?r] => replace (if below0 (Fin c) then 0 else r) with v by (cbn; repeat rw_dec; lra) end.
Ltac q_t_nan := match goal with |- context [if below0 Nan then 0 else ?r] => change (if below0 Nan then 0 else r) with 0 end.
Ltac vlra := vunf; lra.
(** side 0.0001: *)
Definition tiny1 (i : nat) : v3 := match i with 0%nat => mk3 0 0 0 | 1%nat => mk3 (1/10000) 0 0 | _ => mk3 0 (1/10000) 0 end.
(** a triangle standing above it on one corner *)
Definition tiny2 (i : nat) : v3 := match i with 0%nat => mk3 (1/40000) (1/40000) (1/40000) | 1%nat => mk3 0 (1/40000) (3/40000) | _ => mk3 (2/40000) (1/40000) (3/40000) end.
Ltac q_t0 c := match goal with |- context [qdiv ?a (?x - ?y)] => rewrite (qdiv_fin a (x - y) c) by (split; vlra) end.
Ltac q_t0_nan := match goal with |- context [qdiv ?a (?x - ?y)] => rewrite (qdiv_nan a (x - y)) by (split; vlra) end.
Ltac q_u c := match goal with |- context [qdiv (?x - ?y) ?b] => rewrite (qdiv_fin (x - y) b c) by (split; vlra) end.
Ltac q_u_nan := match goal with |- context [qdiv (?x - ?y) ?b] => rewrite (qdiv_nan (x - y) b) by (split; vlra) end.
Ltac q_t1 c := match goal with |- context [qdiv ?a ?b] => rewrite (qdiv_fin a b c) by (split; vlra) end.
Ltac q_t1_nan := match goal with |- context [qdiv ?a ?b] => rewrite (qdiv_nan a b) by (split; vlra) end.
Lemma tiny_00 : seg_points (tiny1 0) (side tiny1 0) (tiny2 0) (side tiny2 0) = ((mk3 0 (1/4000000000000) (1/4000000000000)), (mk3 (1/40000) 0 0), (mk3 (1/40000) (1/40000) (1/40000))).
Proof. unfold side. cbn [tiny1 tiny2 nx]. unfold seg_points. cbv zeta. q_t0 (3/8). q_t (3/8) (3/8). q_u (-1/2). repeat hd_if. cbn [qval]. q_t1 (1/4). repeat hd_if. cbn [qval].   apply f_equal2; [apply f_equal2|]; apply v3_ext; vlra. Qed.
Lemma tiny_01 : seg_points (tiny1 0) (side tiny1 0) (tiny2 1) (side tiny2 1) = ((mk3 0 (1/40000) (3/40000)), (mk3 0 0 0), (mk3 0 (1/40000) (3/40000))).
Proof. unfold side. cbn [tiny1 tiny2 nx]. unfold seg_points. cbv zeta. q_t0_nan. q_t_nan. q_u 0. repeat hd_if. cbn [qval]. q_t1 0. repeat hd_if. cbn [qval].   apply f_equal2; [apply f_equal2|]; apply v3_ext; vlra. Qed.
Lemma tiny_02 : seg_points (tiny1 0) (side tiny1 0) (tiny2 2) (side tiny2 2) = ((mk3 0 (1/4000000000000) (1/4000000000000)), (mk3 (1/40000) 0 0), (mk3 (1/40000) (1/40000) (1/40000))).
Proof. unfold side. cbn [tiny1 tiny2 nx]. unfold seg_points. cbv zeta. q_t0 (1/8). q_t (1/8) (1/8). q_u (3/2). repeat hd_if. cbn [qval]. q_t1 (1/4). repeat hd_if. cbn [qval].   apply f_equal2; [apply f_equal2|]; apply v3_ext; vlra. Qed.
Lemma tiny_10 : seg_points (tiny1 1) (side tiny1 1) (tiny2 0) (side tiny2 0) = ((mk3 (-1/2000000000000) (-1/2000000000000) (1/2000000000000)), (mk3 (1/20000) (1/20000) 0), (mk3 (1/40000) (1/40000) (1/40000))).
Proof. unfold side. cbn [tiny1 tiny2 nx]. unfold seg_points. cbv zeta. q_t0 (5/12). q_t (5/12) (5/12). q_u (-2/3). repeat hd_if. cbn [qval]. q_t1 (1/2). repeat hd_if. cbn [qval].   apply f_equal2; [apply f_equal2|]; apply v3_ext; vlra. Qed.
Lemma tiny_11 : seg_points (tiny1 1) (side tiny1 1) (tiny2 1) (side tiny2 1) = ((mk3 (-1/4000000000000) (-1/4000000000000) (3/2000000000000)), (mk3 (1/16000) (3/80000) 0), (mk3 (1/20000) (1/40000) (3/40000))).
Proof. unfold side. cbn [tiny1 tiny2 nx]. unfold seg_points. cbv zeta. q_t0 (1/4). q_t (1/4) (1/4). q_u (3/2). repeat hd_if. cbn [qval]. q_t1 (3/8). repeat hd_if. cbn [qval].   apply f_equal2; [apply f_equal2|]; apply v3_ext; vlra. Qed.
Lemma tiny_12 : seg_points (tiny1 1) (side tiny1 1) (tiny2 2) (side tiny2 2) = ((mk3 (-1/2000000000000) (-1/2000000000000) (1/2000000000000)), (mk3 (1/20000) (1/20000) 0), (mk3 (1/40000) (1/40000) (1/40000))).
Proof. unfold side. cbn [tiny1 tiny2 nx]. unfold seg_points. cbv zeta. q_t0 (19/36). q_t (19/36) (19/36). q_u (11/9). repeat hd_if. cbn [qval]. q_t1 (1/2). repeat hd_if. cbn [qval].   apply f_equal2; [apply f_equal2|]; apply v3_ext; vlra. Qed.
Lemma tiny_20 : seg_points (tiny1 2) (side tiny1 2) (tiny2 0) (side tiny2 0) = ((mk3 (1/4000000000000) 0 (1/4000000000000)), (mk3 0 (1/40000) 0), (mk3 (1/40000) (1/40000) (1/40000))).
Proof. unfold side. cbn [tiny1 tiny2 nx]. unfold seg_points. cbv zeta. q_t0 (3/4). q_t (3/4) (3/4). q_u (-1/5). repeat hd_if. cbn [qval]. q_t1 (3/4). repeat hd_if. cbn [qval].   apply f_equal2; [apply f_equal2|]; apply v3_ext; vlra. Qed.
Lemma tiny_21 : seg_points (tiny1 2) (side tiny1 2) (tiny2 1) (side tiny2 1) = ((mk3 0 0 (3/4000000000000)), (mk3 0 (1/40000) 0), (mk3 0 (1/40000) (3/40000))).
Proof. unfold side. cbn [tiny1 tiny2 nx]. unfold seg_points. cbv zeta. q_t0 (3/4). q_t (3/4) (3/4). q_u 0. repeat hd_if. cbn [qval]. q_t1 (3/4). repeat hd_if. cbn [qval].   apply f_equal2; [apply f_equal2|]; apply v3_ext; vlra. Qed.
Lemma tiny_22 : seg_points (tiny1 2) (side tiny1 2) (tiny2 2) (side tiny2 2) = ((mk3 (1/4000000000000) 0 (1/4000000000000)), (mk3 0 (1/40000) 0), (mk3 (1/40000) (1/40000) (1/40000))).
Proof. unfold side. cbn [tiny1 tiny2 nx]. unfold seg_points. cbv zeta. q_t0 (3/4). q_t (3/4) (3/4). q_u (8/5). repeat hd_if. cbn [qval]. q_t1 (3/4). repeat hd_if. cbn [qval].   apply f_equal2; [apply f_equal2|]; apply v3_ext; vlra. Qed.
Lemma tiny_normal1 : normal tiny1 = mk3 0 0 (1 / 100000000).
Proof. unfold normal, side, nx, tiny1. apply v3_ext; vlra. Qed.
Lemma tiny_normal2 : normal tiny2 = mk3 0 (1 / 400000000) 0.
Proof. unfold normal, side, nx, tiny2. apply v3_ext; vlra. Qed.
Lemma face_small : forall T O, dot (normal T) (normal T) <= 1 / 10 ^ 15 -> face T O = (false, None).
Proof. intros T O H. unfold face. destruct (Rlt_dec _ _); [lra|reflexivity]. Qed.
Lemma scan_skip : forall T1 T2 i j l VEC X Y s, seg_points (T1 i) (side T1 i) (T2 j) (side T2 j) = (VEC, X, Y) ->
  mindd s < dot (vsub Y X) (vsub Y X) -> scan T1 T2 ((i, j) :: l) s = scan T1 T2 l (St X Y (minP s) (minQ s) (mindd s) (shown s)).
Proof. intros T1 T2 i j l VEC X Y s E H. cbn [scan]. rewrite E. destruct (Rle_dec _ _); [lra|]. reflexivity. Qed.
Lemma scan_take : forall T1 T2 i j l VEC X Y s, seg_points (T1 i) (side T1 i) (T2 j) (side T2 j) = (VEC, X, Y) ->
  let a := dot (vsub (T1 (nx (nx i))) X) VEC in let b := dot (vsub (T2 (nx (nx j))) Y) VEC in
  dot (vsub Y X) (vsub Y X) <= mindd s -> 0 < a -> 0 < b -> dot (vsub Y X) VEC <= a ->
  scan T1 T2 ((i, j) :: l) s = scan T1 T2 l (St X Y X Y (dot (vsub Y X) (vsub Y X)) (shown s)).
Proof.
  intros T1 T2 i j l VEC X Y s E a b H Ha Hb Hp. cbn [scan]. rewrite E. fold a b. destruct (Rle_dec _ (mindd s)); [|lra].
  destruct (Rle_dec a 0); [lra|]. destruct (Rlt_dec a 0); [lra|]. destruct (Rlt_dec 0 b); [|lra]. destruct (Rlt_dec 0 _); [lra|]. reflexivity.
Qed.
Ltac take E := erewrite (scan_take _ _ _ _ _ _ _ _ _ E) by (cbn [mindd nx tiny1 tiny2]; vlra); cbn [shown].
Ltac skip E := erewrite (scan_skip _ _ _ _ _ _ _ _ _ E) by (cbn [mindd nx tiny1 tiny2]; vlra); cbn [shown minP minQ mindd].
Theorem tri_distance_zero_refuted : exists T1 T2,
  set_dist (tri_set T1) (tri_set T2) (1 / 40000) /\ fst (fst (tri_distance T1 T2)) = 0.
Proof.
  exists tiny1, tiny2. split.
  - split.
    + exists (mk3 (1/40000) (1/40000) 0), (mk3 (1/40000) (1/40000) (1/40000)). split; [|split].
      * exists (1/2), (1/4), (1/4). repeat split; try lra. apply v3_ext; cbn [tiny1]; vlra.
      * exists 1, 0, 0. repeat split; try lra. apply v3_ext; cbn [tiny2]; vlra.
      * unfold dist, norm, norm2, dot, vsub. cbn [c0 c1 c2].
        match goal with |- sqrt ?x = _ => replace x with ((1 / 40000) * (1 / 40000)) by lra end. apply sqrt_square. lra.
    + intros a b (u & v & w & Hu & Hv & Hw & S & ->) (u' & v' & w' & Hu' & Hv' & Hw' & S' & ->).
      unfold dist. apply norm_ge_sq; [lra|]. cbn [tiny1 tiny2]. unfold norm2, dot, vsub, vadd, vscale. cbn [c0 c1 c2].
      match goal with |- _ <= ?x * ?x + ?y * ?y + ?z * ?z => assert (0 <= x * x) by apply Rle_0_sqr; assert (0 <= y * y) by apply Rle_0_sqr; assert (Hz : z <= - (1 / 40000)) by lra; assert (1 / 40000 * (1 / 40000) <= z * z) by nra end. lra.
  - unfold tri_distance.
    rewrite !face_small by (rewrite ?tiny_normal1, ?tiny_normal2; unfold dot; cbn [c0 c1 c2]; lra).
    unfold pairs. cbn [list_prod map app].
    assert (H : exists s, scan tiny1 tiny2 [(0, 0); (0, 1); (0, 2); (1, 0); (1, 1); (1, 2); (2, 0); (2, 1); (2, 2)]%nat
       (St vzero vzero vzero vzero (dot (vsub (tiny1 0%nat) (tiny2 0%nat)) (vsub (tiny1 0%nat) (tiny2 0%nat)) + 1) false) = inr s /\ shown s = false).
    { cbn [tiny1 tiny2].
      take tiny_00. skip tiny_01. take tiny_02. skip tiny_10. skip tiny_11. skip tiny_12. take tiny_20. skip tiny_21. take tiny_22. cbn [scan].
      eexists. split; reflexivity. }
    destruct H as (s & -> & Hs). rewrite Hs. reflexivity.
Qed.
Print Assumptions tri_distance_zero_refuted.

(** * Segments, order of the triangles, placed triangles *)
(** segPoints: a closest pair of the segments, also for parallel segments and segments of length 0;
    the vector between the points is a non-negative multiple of VEC. *)
Definition segment (P A x : v3) : Prop := exists s, 0 <= s <= 1 /\ x = vadd P (vscale s A).
Theorem seg_points_closest : forall P A Q B VEC X Y, seg_points P A Q B = (VEC, X, Y) ->
  closest (segment P A) (segment Q B) X Y /\ exists k, 0 <= k /\ vsub Y X = vscale k VEC.
Proof.
  intros P A Q B VEC X Y E. pose proof (seg_points_ok P A Q B) as H. rewrite E in H.
  destruct H as (t & u & k & Ht & Hu & EX & EY & Hk & EV & HA & HB). split; [|eauto].
  split; [exists t; auto|]. split; [exists u; auto|]. intros x y (s & Hs & ->) (r & Hr & ->). apply sep_pt.
  specialize (HA s Hs). specialize (HB r Hr). unfold norm2. rewrite EV, !dot_scale_r. apply Rmult_le_compat_l; auto.
  rewrite <- EV, EX, EY. rewrite !dot_sub_l, !dot_add_l, !dot_scale_l. lra.
Qed.
Print Assumptions seg_points_closest.
(** triangle_distance.h 58: "VEC is the vector between X and Y" *)
Theorem seg_points_vec_refuted : exists P A Q B VEC X Y, seg_points P A Q B = (VEC, X, Y) /\ X = Y /\ VEC <> vzero.
Proof.
  exists (mk3 0 0 0), (mk3 2 0 0), (mk3 1 (-1) 0), (mk3 0 2 0), (mk3 0 0 4), (mk3 1 0 0), (mk3 1 0 0). split; [|split; auto].
  - unfold seg_points. cbv zeta. q_t0 (1/2). q_t (1/2) (1/2). q_u (1/2). repeat hd_if. cbn [qval].
    destruct (Rlt_dec _ 0) as [L|L]; [exfalso; vlra|]. cbn [qval]. apply f_equal2; [apply f_equal2|]; apply v3_ext; vlra.
  - intros E. pose proof (f_equal c2 E) as F. cbn in F. lra.
Qed.
Print Assumptions seg_points_vec_refuted.

Lemma set_dist_unique : forall A B d d', set_dist A B d -> set_dist A B d' -> d = d'.
Proof.
  intros A B d d' ((a & b & Ha & Hb & E) & H) ((a' & b' & Ha' & Hb' & E') & H').
  specialize (H a' b' Ha' Hb'). specialize (H' a b Ha Hb). lra.
Qed.
Theorem tri_distance_sym : forall T1 T2, proper T1 -> proper T2 -> fst (fst (tri_distance T1 T2)) = fst (fst (tri_distance T2 T1)).
Proof.
  intros T1 T2 P1 P2. destruct (tri_distance T1 T2) as ((d, P), Q) eqn:E. destruct (tri_distance T2 T1) as ((d', P'), Q') eqn:E'. cbn.
  destruct (tri_distance_exact T1 T2 d P Q P1 P2 E) as (D & _). destruct (tri_distance_exact T2 T1 d' P' Q' P2 P1 E') as (D' & _).
  apply (set_dist_unique (tri_set T1) (tri_set T2)); auto. destruct D' as ((a & b & Ha & Hb & Ed) & H).
  split; [exists b, a; rewrite dist_sym; auto|]. intros x y Hx Hy. rewrite dist_sym. auto.
Qed.
Print Assumptions tri_distance_sym.

Definition placed_tri (T : triangle) (X : tf) (x : v3) : Prop := exists y, tri_set T y /\ x = tf_apply X y.
Lemma placed_tri_set : forall T X x, tri_set (fun i => tf_apply X (T i)) x <-> placed_tri T X x.
Proof.
  intros T X x. split.
  - intros (u & v & w & Hu & Hv & Hw & S & ->). exists (vadd (vadd (vscale u (T 0%nat)) (vscale v (T 1%nat))) (vscale w (T 2%nat))).
    split; [exists u, v, w; auto|]. assert (u = 1 - v - w) by lra. subst u. generalize (T 0%nat) (T 1%nat) (T 2%nat). vring.
  - intros (y & (u & v & w & Hu & Hv & Hw & S & ->) & ->). exists u, v, w. repeat split; auto.
    assert (u = 1 - v - w) by lra. subst u. generalize (T 0%nat) (T 1%nat) (T 2%nat). vring.
Qed.
Lemma cross_norm2_ortho : forall m a b, ortho m -> norm2 (cross (mapply m a) (mapply m b)) = norm2 (cross a b).
Proof.
  intros m a b H. pose proof (lagrange (mapply m a) (mapply m b)) as L. pose proof (lagrange a b) as L'.
  rewrite !(mapply_norm2 m) in L by auto. rewrite mapply_dot in L by auto. lra.
Qed.
(** The overloads taking the pose of the second triangle. *)
Theorem tri_distance_tf_exact : forall T1 T2 X d P Q, ortho (tf_rot X) -> proper T1 -> proper T2 -> tri_distance_tf T1 T2 X = (d, P, Q) ->
  set_dist (tri_set T1) (placed_tri T2 X) d /\ tri_set T1 P /\ placed_tri T2 X Q /\ (0 < d -> dist P Q = d).
Proof.
  intros T1 T2 X d P Q HX P1 P2 E. unfold tri_distance_tf in E.
  assert (P2' : proper (fun i => tf_apply X (T2 i))).
  { unfold proper in *. replace (dot (normal (fun i => tf_apply X (T2 i))) (normal (fun i => tf_apply X (T2 i)))) with (dot (normal T2) (normal T2)); auto.
    unfold normal, side, nx. assert (ES : forall a b, vsub (tf_apply X a) (tf_apply X b) = mapply (tf_rot X) (vsub a b)) by (clear; vring).
    rewrite !ES. symmetry. apply (cross_norm2_ortho (tf_rot X)); auto. }
  destruct (tri_distance_exact _ _ _ _ _ P1 P2' E) as (((a & b & Ha & Hb & Ed) & H) & A & B & D).
  split; [|repeat split; auto; apply placed_tri_set; auto].
  split; [exists a, b; repeat split; auto; apply placed_tri_set; auto|]. intros x y Hx Hy. apply H; auto. apply placed_tri_set; auto.
Qed.
Print Assumptions tri_distance_tf_exact.

(** * Examples *)
Definition ex1 (i : nat) : v3 := match i with 0%nat => mk3 0 0 0 | 1%nat => mk3 4 0 0 | _ => mk3 0 4 0 end.
Definition ex2 (i : nat) : v3 := match i with 0%nat => mk3 1 1 2 | 1%nat => mk3 0 5 7 | _ => mk3 9 (-3) 4 end.
Lemma ex1_normal : normal ex1 = mk3 0 0 16. Proof. unfold normal, side, nx, ex1. apply v3_ext; vlra. Qed.
Lemma ex2_normal : normal ex2 = mk3 28 42 (-28). Proof. unfold normal, side, nx, ex2. apply v3_ext; vlra. Qed.
Lemma ex_proper : proper ex1 /\ proper ex2.
Proof. split; right; rewrite ?ex1_normal, ?ex2_normal; unfold dot; cbn [c0 c1 c2]; lra. Qed.
(** a corner above the face *)
Example ex_corner_over_face : fst (fst (tri_distance ex1 ex2)) = 2.
Proof.
  destruct (tri_distance ex1 ex2) as ((d, P), Q) eqn:E. cbn. destruct ex_proper as [P1 P2].
  destruct (tri_distance_exact _ _ _ _ _ P1 P2 E) as (D & _). apply (set_dist_unique _ _ _ _ D). split.
  - exists (mk3 1 1 0), (mk3 1 1 2). split; [exists (1/2), (1/4), (1/4)|split; [exists 1, 0, 0|]]; try (repeat split; try lra; apply v3_ext; cbn [ex1 ex2]; vlra).
    unfold dist, norm, norm2, dot, vsub. cbn [c0 c1 c2]. match goal with |- sqrt ?x = _ => replace x with (2 * 2) by lra end. apply sqrt_square. lra.
  - intros a b (u & v & w & Hu & Hv & Hw & S & ->) (u' & v' & w' & Hu' & Hv' & Hw' & S' & ->).
    unfold dist. apply norm_ge_sq; [lra|]. cbn [ex1 ex2]. unfold norm2, dot, vsub, vadd, vscale. cbn [c0 c1 c2].
    match goal with |- _ <= ?x * ?x + ?y * ?y + ?z * ?z => assert (0 <= x * x) by apply Rle_0_sqr; assert (0 <= y * y) by apply Rle_0_sqr; assert (Hz : z <= -2) by lra; assert (2 * 2 <= z * z) by nra end. lra.
Qed.
(** the triangles of tri_distance_zero_refuted are an instance of tri_distance_small_refuted *)
Example ex_small : exists p q, dot (normal tiny1) (normal tiny1) <= 1 / 10 ^ 15 /\ dot (normal tiny1) (normal tiny1) <> 0 /\
  closest (tri_set tiny1) (tri_set tiny2) p q /\ p <> q /\ inside tiny1 p /\ forall a b, closest (tri_set tiny1) (tri_set tiny2) a b -> a = p /\ b = q.
Proof.
  set (p := mk3 (1/40000) (1/40000) 0). set (q := mk3 (1/40000) (1/40000) (1/40000)).
  assert (Hp : tri_set tiny1 p). { exists (1/2), (1/4), (1/4). repeat split; try lra. apply v3_ext; cbn [tiny1]; unfold p; vlra. }
  assert (Hq : tri_set tiny2 q). { exists 1, 0, 0. repeat split; try lra. apply v3_ext; cbn [tiny2]; unfold q; vlra. }
  assert (Hpq : norm2 (vsub q p) = 1 / 40000 * (1 / 40000)) by (unfold p, q; vlra).
  assert (G : forall a b, tri_set tiny1 a -> tri_set tiny2 b -> 1 / 40000 * (1 / 40000) <= norm2 (vsub b a) /\ (norm2 (vsub b a) <= 1 / 40000 * (1 / 40000) -> a = p /\ b = q)).
  { intros a b Ha Hb. destruct a as [ax ay az]. pose proof (tri_plane tiny1 _ Ha) as Pa. rewrite tiny_normal1 in Pa. cbn [tiny1] in Pa.
    assert (Za : az = 0) by vlra. destruct Hb as (u' & v' & w' & Hu' & Hv' & Hw' & S' & ->). cbn [tiny2]. unfold norm2, dot, vsub, vadd, vscale. cbn [c0 c1 c2]. subst az.
    match goal with |- context [?x * ?x + ?y * ?y + ?z * ?z] => set (X := x); set (Y := y); set (Z := z) end.
    assert (0 <= X * X) by apply Rle_0_sqr. assert (0 <= Y * Y) by apply Rle_0_sqr.
    assert (EZ : Z = 1 / 40000 + (v' + w') * (2 / 40000)) by (unfold Z; lra).
    assert (HZ : 1 / 40000 * (1 / 40000) <= Z * Z) by (rewrite EZ; nra). split; [lra|]. intros L.
    assert (Z * Z <= 1 / 40000 * (1 / 40000)) by lra. assert (v' + w' = 0) by (rewrite EZ in *; nra).
    assert (v' = 0) by lra. assert (w' = 0) by lra. assert (u' = 1) by lra. subst u' v' w'.
    assert (X = 0) by nra. assert (Y = 0) by nra. unfold p, q. unfold X, Y in *. split; f_equal; lra. }
  exists p, q. repeat split; auto.
  - rewrite tiny_normal1. unfold dot. cbn [c0 c1 c2]. lra.
  - rewrite tiny_normal1. unfold dot. cbn [c0 c1 c2]. lra.
  - intros a b Ha Hb. rewrite Hpq. apply G; auto.
  - unfold p, q. intros E. pose proof (f_equal c2 E) as F. cbn in F. lra.
  - intros i Hi. unfold edge_fun. rewrite tiny_normal1. destruct i as [|[|[|i]]]; [| | |lia]; unfold side, nx, tiny1, p; vlra.
  - destruct H as (Ha & Hb & Hm). apply (G a b Ha Hb). rewrite <- Hpq. auto.
  - destruct H as (Ha & Hb & Hm). apply (G a b Ha Hb). rewrite <- Hpq. auto.
Qed.
