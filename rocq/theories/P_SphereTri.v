(** Sphere against triangle (C84). *)
From Coq Require Import Nsatz Reals Lra Psatz Lia Arith List Bool.
From Verif Require Import VecR Project P_Project Prim SphereTri.
Import ListNotations.
Open Scope R_scope.

(** ** Distance *)
Lemma nearest_gap : forall a b c o q d2 r, 0 <= r -> nearest (tri_pt a b c) o q d2 ->
  0 <= d2 /\ dist q o = sqrt d2 /\ (r * r < d2 <-> r < sqrt d2) /\ (forall q', tri_pt a b c q' -> sqrt d2 <= dist q' o) /\
  (forall y q', ball o r y -> tri_pt a b c q' -> sqrt d2 - r <= dist y q').
Proof.
  intros a b c o q d2 r Hr (Hq & E & M).
  assert (D : 0 <= d2) by (rewrite E; apply VecR.norm2_nonneg).
  assert (A : forall q', tri_pt a b c q' -> sqrt d2 <= dist q' o) by (intros q' H; unfold dist, norm; apply sqrt_le_1_alt, M, H).
  split; [exact D|]. split; [unfold dist, norm; rewrite E; reflexivity|]. split; [|split; [exact A|]].
  - pose proof (sqrt_sqrt d2 D) as Q. pose proof (sqrt_pos d2). split; intros; nra.
  - intros y q' Y H. pose proof (A q' H) as A'. pose proof (dist_triangle q' y o) as T. unfold ball in Y. rewrite (dist_sym q' y) in T. lra.
Qed.

(** the point of the ball towards a point outside *)
Lemma toward : forall o q r, 0 <= r -> r < dist q o -> let dir := unitize (vsub o q) in
  dist (vsub o (vscale r dir)) o = r /\ dist (vsub o (vscale r dir)) q = dist q o - r.
Proof.
  intros o q r Hr L dir. assert (Dp : 0 < norm2 (vsub o q)).
  { destruct (Rle_lt_or_eq_dec 0 _ (VecR.norm2_nonneg (vsub o q))) as [|E]; [assumption|]. exfalso.
    unfold dist, norm in L. rewrite norm2_sub_sym, <- E, sqrt_0 in L. lra. }
  unfold dir, unitize. destruct (Rlt_dec 0 (norm2 (vsub o q))) as [_|]; [|lra].
  assert (Nm : norm (vsub o q) = dist q o) by (unfold dist, norm; rewrite norm2_sub_sym; reflexivity).
  rewrite Nm. set (m := dist q o) in *. assert (Mp : 0 < m) by lra.
  assert (E1 : vsub (vsub o (vscale r (vscale (/ m) (vsub o q)))) o = vscale (- r / m) (vsub o q)) by (destruct o, q; unfold vsub, vscale; cbn; f_equal; field; lra).
  assert (E2 : vsub (vsub o (vscale r (vscale (/ m) (vsub o q)))) q = vscale ((m - r) / m) (vsub o q)) by (destruct o, q; unfold vsub, vscale; cbn; f_equal; field; lra).
  unfold dist. rewrite E1, E2, !norm_scale, Nm. split.
  - replace (- r / m) with (- (r / m)) by (field; lra). rewrite Rabs_Ropp, Rabs_right; [field; lra|]. apply Rle_ge, pos_div; lra.
  - rewrite Rabs_right; [field; lra|]. apply Rle_ge, pos_div; lra.
Qed.

(** The query without points decides whether ball and triangle have a common point and returns
    their distance, for a triangle that is not flat. *)
Theorem st_distance_exact : forall r X P1 P2 P3, 0 <= r -> cross (vsub P2 P1) (vsub P3 P1) <> vzero ->
  let o := tf_tr X in
  (fst (st_distance r X P1 P2 P3) = false <-> exists q, tri_pt P1 P2 P3 q /\ ball o r q) /\
  (fst (st_distance r X P1 P2 P3) = false -> snd (st_distance r X P1 P2 P3) = -1) /\
  (fst (st_distance r X P1 P2 P3) = true -> let d := snd (st_distance r X P1 P2 P3) in
     0 < d /\ (forall y q, ball o r y -> tri_pt P1 P2 P3 q -> d <= dist y q) /\
     exists y q, ball o r y /\ tri_pt P1 P2 P3 q /\ dist y q = d).
Proof.
  intros r X P1 P2 P3 Hr Hn o. unfold st_distance. cbv zeta. fold o.
  destruct (tri_sqr_nearest P1 P2 P3 o Hn) as (d2 & q & -> & Nq). destruct (nearest_gap _ _ _ _ _ _ r Hr Nq) as (D0 & Dq & Iff & All & Gap).
  destruct (Rlt_dec d2 0); [lra|]. destruct Nq as (Tq & _ & _).
  destruct (Rlt_dec (r * r) d2) as [L|L]; cbn [fst snd].
  - apply Iff in L. split; [split; [discriminate|]|split; [discriminate|]].
    + intros (q' & T' & B'). specialize (All q' T'). unfold ball in B'. lra.
    + intros _. split; [lra|]. split; [exact Gap|]. rewrite <- Dq in L. destruct (toward o q r Hr L) as [Y1 Y2].
      exists (vsub o (vscale r (unitize (vsub o q)))), q. split; [unfold ball; lra|]. split; [exact Tq|]. rewrite Y2, Dq. reflexivity.
  - split; [split; [intros _|reflexivity]|split; [reflexivity|discriminate]].
    exists q. split; [exact Tq|]. unfold ball. rewrite Dq. destruct (Rle_lt_dec (sqrt d2) r); [assumption|]. exfalso. apply L, Iff. assumption.
Qed.
Print Assumptions st_distance_exact.

(** A flat triangle (collinear corners) is reported to be in contact wherever it is. *)
Theorem st_distance_flat : forall r X P1 P2 P3, cross (vsub P2 P1) (vsub P3 P1) = vzero -> st_distance r X P1 P2 P3 = (false, -1).
Proof. intros r X P1 P2 P3 H. unfold st_distance. cbv zeta. rewrite tri_sqr_flat by exact H. reflexivity. Qed.
Print Assumptions st_distance_flat.

Lemma far_flat : exists r X P1 P2 P3, 0 < r /\ (forall q, tri_pt P1 P2 P3 q -> r + 9 <= dist q (tf_tr X)) /\ st_distance r X P1 P2 P3 = (false, -1).
Proof.
  exists 1, (mktf mid vzero), (mk3 10 0 0), (mk3 11 0 0), (mk3 12 0 0). split; [lra|]. split.
  - intros q (x & y & z & X & Y & Z & S & ->). cbn [tf_tr]. unfold dist. apply norm_ge_sq; [lra|].
    unfold norm2, dot, vsub, bary3, vadd, vscale, vzero. cbn. nra.
  - apply st_distance_flat. unfold cross, vsub, vzero. cbn. f_equal; ring.
Qed.
(** The claim that a reported contact means a common point is false for flat triangles. *)
Theorem st_distance_refuted : exists r X P1 P2 P3, 0 < r /\ ~ (exists q, tri_pt P1 P2 P3 q /\ ball (tf_tr X) r q) /\ fst (st_distance r X P1 P2 P3) = false.
Proof.
  destruct far_flat as (r & X & P1 & P2 & P3 & Hr & F & E). exists r, X, P1, P2, P3. split; [exact Hr|]. split; [|rewrite E; reflexivity].
  intros (q & T & B). specialize (F q T). unfold ball in B. lra.
Qed.
Print Assumptions st_distance_refuted.

(** The query with points: the same answer and distance; p1 (in the frame of the sphere) lies on
    the sphere and p2 is the nearest point of the triangle. *)
Theorem st_points_exact : forall r X P1 P2 P3, 0 <= r -> ortho (tf_rot X) -> cross (vsub P2 P1) (vsub P3 P1) <> vzero ->
  let o := tf_tr X in
  match st_points r X P1 P2 P3 with
  | None => fst (st_distance r X P1 P2 P3) = false /\ exists q, tri_pt P1 P2 P3 q /\ ball o r q
  | Some (d, p1, p2) => st_distance r X P1 P2 P3 = (true, d) /\ norm p1 = r /\ tri_pt P1 P2 P3 p2 /\ dist (tf_apply X p1) p2 = d /\
      (forall q, tri_pt P1 P2 P3 q -> dist p2 o <= dist q o) /\ (forall y q, ball o r y -> tri_pt P1 P2 P3 q -> d <= dist y q)
  end.
Proof.
  intros r X P1 P2 P3 Hr HX Hn o. unfold st_points. cbv zeta. fold o.
  destruct (triangle_nearest P1 P2 P3 o) as (Nq & _ & _ & _); [rewrite <- cross_shift; exact Hn|].
  set (res := project_triangle P1 P2 P3 o) in *.
  destruct (nearest_gap _ _ _ _ _ _ r Hr Nq) as (D0 & Dq & Iff & All & Gap).
  destruct (tri_sqr_nearest P1 P2 P3 o Hn) as (d2 & q2 & Et & Nq2).
  assert (Ed : d2 = sd res). { destruct Nq as (A1 & B1 & C1), Nq2 as (A2 & B2 & C2). apply Rle_antisym; [rewrite B1; apply C2, A1|rewrite B2; apply C1, A2]. }
  assert (Es : st_distance r X P1 P2 P3 = if Rlt_dec (r * r) (sd res) then (true, sqrt (sd res) - r) else (false, -1)).
  { unfold st_distance. cbv zeta. fold o. rewrite Et, Ed. destruct (Rlt_dec (sd res) 0); [lra|reflexivity]. }
  rewrite Es. set (pp := bary3 P1 P2 P3 (par res 0) (par res 1) (par res 2)) in *.
  assert (Ep : vadd (vadd (vscale (par res 0) P1) (vscale (par res 1) P2)) (vscale (par res 2) P3) = pp)
    by (unfold pp, bary3; destruct P1, P2, P3; unfold vadd, vscale; cbn; f_equal; ring).
  rewrite Ep. destruct (Rlt_dec (r * r) (sd res)) as [L|L].
  - split; [reflexivity|]. apply Iff in L. rewrite <- Dq in L. destruct (toward o pp r Hr L) as [Y1 Y2]. rewrite tf_inv_right by exact HX.
    split. { unfold tf_inv_apply. rewrite mt_norm by exact HX. exact Y1. }
    split; [apply Nq|]. split; [rewrite Y2, Dq; reflexivity|]. split; [intros q Hq; rewrite Dq; apply All, Hq|exact Gap].
  - split; [reflexivity|]. exists pp. split; [apply Nq|]. unfold ball. rewrite Dq. destruct (Rle_lt_dec (sqrt (sd res)) r); [assumption|]. exfalso. apply L, Iff. assumption.
Qed.
Print Assumptions st_points_exact.

Theorem st_points_flat : forall r X P1 P2 P3, cross (vsub P2 P1) (vsub P3 P1) = vzero -> st_points r X P1 P2 P3 = None.
Proof.
  intros r X P1 P2 P3 H. unfold st_points. cbv zeta. rewrite triangle_degenerate by (rewrite <- cross_shift; exact H).
  destruct (Rlt_dec (r * r) (-1)); [pose proof (Rle_0_sqr r) as Q; unfold Rsqr in Q; lra|reflexivity].
Qed.
Print Assumptions st_points_flat.

Lemma tf_bary : forall X a b c x y z, x + y + z = 1 -> tf_apply X (bary3 a b c x y z) = bary3 (tf_apply X a) (tf_apply X b) (tf_apply X c) x y z.
Proof.
  intros X a b c x y z S. replace x with (1 - y - z) by lra. unfold tf_apply, bary3. rewrite !mapply_add, !mapply_scale.
  set (A := mapply _ a). set (B := mapply _ b). set (C := mapply _ c). set (t := tf_tr X). clearbody A B C t. destruct A, B, C, t. unfold vadd, vscale. cbn. f_equal; ring.
Qed.
Lemma tf_tri : forall X a b c q, ortho (tf_rot X) -> (tri_pt (tf_apply X a) (tf_apply X b) (tf_apply X c) q <-> placed X (tri_pt a b c) q).
Proof.
  intros X a b c q HX. split.
  - intros (x & y & z & A & B & C & S & ->). exists (bary3 a b c x y z). split; [exists x, y, z; tauto|]. symmetry. apply tf_bary, S.
  - intros (q0 & (x & y & z & A & B & C & S & ->) & ->). exists x, y, z. rewrite <- tf_bary by exact S. tauto.
Qed.
Lemma tf_cross : forall X a b c, ortho (tf_rot X) -> cross (vsub b a) (vsub c a) <> vzero ->
  cross (vsub (tf_apply X b) (tf_apply X a)) (vsub (tf_apply X c) (tf_apply X a)) <> vzero.
Proof.
  intros X a b c HX H E. apply H. apply norm2_zero.
  assert (Sb : forall u v, vsub (tf_apply X u) (tf_apply X v) = mapply (tf_rot X) (vsub u v)).
  { intros u v. unfold tf_apply. rewrite mapply_sub. set (A := mapply _ u). set (B := mapply _ v). set (t := tf_tr X). clearbody A B t. destruct A, B, t. unfold vadd, vsub. cbn. f_equal; ring. }
  rewrite !Sb in E. pose proof (lagrange (mapply (tf_rot X) (vsub b a)) (mapply (tf_rot X) (vsub c a))) as L. rewrite E in L.
  rewrite mapply_dot, !mapply_norm2 in L by exact HX. pose proof (lagrange (vsub b a) (vsub c a)) as L'.
  replace (norm2 vzero) with 0 in L by (unfold norm2, dot, vzero; cbn; ring). lra.
Qed.

(** With a transform of the triangle: p2 comes back in the frame of the triangle. *)
Theorem st_placed_exact : forall r X1 P1 P2 P3 X2, 0 <= r -> ortho (tf_rot X1) -> ortho (tf_rot X2) -> cross (vsub P2 P1) (vsub P3 P1) <> vzero ->
  let o := tf_tr X1 in let K := placed X2 (tri_pt P1 P2 P3) in
  match st_placed r X1 P1 P2 P3 X2 with
  | None => exists q, K q /\ ball o r q
  | Some (d, p1, p2) => 0 < d /\ norm p1 = r /\ tri_pt P1 P2 P3 p2 /\ dist (tf_apply X1 p1) (tf_apply X2 p2) = d /\
      (forall y q, ball o r y -> K q -> d <= dist y q)
  end.
Proof.
  intros r X1 P1 P2 P3 X2 Hr H1 H2 Hn o K. unfold st_placed.
  pose proof (tf_cross X2 P1 P2 P3 H2 Hn) as Hn'.
  pose proof (st_points_exact r X1 (tf_apply X2 P1) (tf_apply X2 P2) (tf_apply X2 P3) Hr H1 Hn') as Q. cbv zeta in Q. fold o in Q.
  pose proof (st_distance_exact r X1 (tf_apply X2 P1) (tf_apply X2 P2) (tf_apply X2 P3) Hr Hn') as (_ & _ & D).
  destruct (st_points _ _ _ _ _) as [[[d p1] p2]|].
  - destruct Q as (E & Np & T & Dd & _ & Gap). rewrite E in D. cbn [fst snd] in D. destruct (D eq_refl) as (D0 & _).
    apply tf_tri in T; [|exact H2]. destruct T as (q0 & T & E2). rewrite E2 in *. rewrite tf_inv_left by exact H2.
    split; [exact D0|]. split; [exact Np|]. split; [exact T|]. split; [exact Dd|]. intros y q Y Hq. apply Gap; [exact Y|]. apply tf_tri; assumption.
  - destruct Q as (_ & q & T & B). exists q. split; [apply tf_tri; assumption|exact B].
Qed.
Print Assumptions st_placed_exact.

(** ** Intersection *)
(** an edge has a point within rt *)
Definition reach (rt : R) (a b o : v3) : Prop := exists q, seg_pt a b q /\ dist q o < rt.

Lemma dist_lt_sq : forall q o k, 0 < k -> (dist q o < k <-> norm2 (vsub q o) < k * k).
Proof. intros q o k Hk. unfold dist. pose proof (norm_sq (vsub q o)). pose proof (norm_nonneg (vsub q o)). split; intros; nra. Qed.

Lemma edge_test_spec : forall rt a b o f, 0 < rt ->
  (reach rt a b o -> exists q, edge_test (rt * rt) a b o f = Some q /\ seg_pt a b q /\ dist q o < rt /\ forall q', seg_pt a b q' -> dist q o <= dist q' o) /\
  (~ reach rt a b o -> edge_test (rt * rt) a b o f = f).
Proof.
  intros rt a b o f Hk. unfold edge_test. destruct (seg_sqr a b o) as [d q] eqn:E. apply seg_sqr_spec in E. destruct E as (Hq & Ed & M).
  split.
  - intros (q0 & H0 & L0). apply dist_lt_sq in L0; [|exact Hk]. specialize (M q0 H0) as M0. destruct (Rlt_dec d (rt * rt)); [|lra].
    exists q. split; [reflexivity|]. split; [exact Hq|]. split; [apply dist_lt_sq; [exact Hk|lra]|]. intros q' H'. unfold dist. apply norm_mono. rewrite <- Ed. apply M, H'.
  - intros N. destruct (Rlt_dec d (rt * rt)) as [L|]; [|reflexivity]. exfalso. apply N. exists q. split; [exact Hq|]. apply dist_lt_sq; [exact Hk|lra].
Qed.

Lemma reach_dec : forall rt a b o, 0 < rt -> reach rt a b o \/ ~ reach rt a b o.
Proof.
  intros rt a b o Hk. destruct (seg_sqr a b o) as [d q] eqn:E. apply seg_sqr_spec in E. destruct E as (Hq & Ed & M).
  destruct (Rlt_dec d (rt * rt)) as [L|L]; [left; exists q; split; [exact Hq|apply dist_lt_sq; [exact Hk|lra]]|right].
  intros (q0 & H0 & L0). apply dist_lt_sq in L0; [|exact Hk]. specialize (M q0 H0). lra.
Qed.

Lemma edge_in_tri : forall a b c i q, (i < 3)%nat -> seg_pt (tri a b c i) (tri a b c (nexti i)) q -> tri_pt a b c q.
Proof.
  intros a b c [|[|[|i]]] q Hi (s & Hs & ->); try lia; cbn [tri nexti]; unfold tri_pt, segp, bary3.
  - exists (1 - s), s, 0. repeat split; try lra. destruct a, b, c. unfold vadd, vscale. cbn. f_equal; ring.
  - exists 0, (1 - s), s. repeat split; try lra. destruct a, b, c. unfold vadd, vscale. cbn. f_equal; ring.
  - exists s, 0, (1 - s). repeat split; try lra. destruct a, b, c. unfold vadd, vscale. cbn. f_equal; ring.
Qed.

(** the value of the query: contact point [cp], normal of the plane turned to the center *)
Definition finish (eps r : R) (o normal cp : v3) : option contact :=
  let rt := r + eps in
  if Rlt_dec (norm2 (vsub cp o)) (rt * rt) then
    if Rlt_dec 0 (norm2 (vsub cp o)) then Some (mkct (unitize (vsub cp o)) cp (- (r - sqrt (norm2 (vsub cp o))))) else Some (mkct (vneg normal) cp (- r))
  else None.

Lemma st_cases : forall eps r X P1 P2 P3, 0 < r + eps -> cross (vsub P2 P1) (vsub P3 P1) <> vzero ->
  let o := tf_tr X in let n := cross (vsub P2 P1) (vsub P3 P1) in let rt := r + eps in
  exists normal, (normal = vscale (/ norm n) n \/ normal = vscale (- / norm n) n) /\ 0 <= dot (vsub o P1) normal /\
   ((st_intersect eps r X P1 P2 P3 = None /\ forall q, tri_pt P1 P2 P3 q -> rt <= dist q o) \/
    exists cp, st_intersect eps r X P1 P2 P3 = finish eps r o normal cp /\ tri_pt P1 P2 P3 cp /\ dist cp o < rt /\
     ((forall q, tri_pt P1 P2 P3 q -> dist cp o <= dist q o) \/
      exists i j, (i < j < 3)%nat /\ reach rt (tri P1 P2 P3 i) (tri P1 P2 P3 (nexti i)) o /\ reach rt (tri P1 P2 P3 j) (tri P1 P2 P3 (nexti j)) o)).
Proof.
  intros eps r X P1 P2 P3 Hrt Hn o n rt. fold rt in Hrt.
  assert (Np : 0 < norm n) by (apply norm_pos, Hn). assert (Nl : 0 < norm2 n) by (rewrite <- norm_sq; apply Rmult_lt_0_compat; assumption).
  assert (Hn' : cross (vsub P1 P2) (vsub P2 P3) <> vzero) by (rewrite <- cross_shift; exact Hn).
  set (n0 := vscale (/ norm n) n). set (d0 := dot (vsub o P1) n0).
  assert (U : unitize n = n0) by (unfold unitize; destruct (Rlt_dec 0 (norm2 n)); [reflexivity|lra]).
  unfold st_intersect. cbv zeta. fold o n rt. rewrite U. fold d0.
  assert (Core : forall k d normal, (k = / norm n \/ k = - / norm n) -> normal = vscale k n -> d = dot (vsub o P1) normal -> 0 <= d ->
     let found := if Rlt_dec d rt then if proj_in_tri P1 P2 P3 normal o then Some (vsub o (vscale d normal))
        else edge_test (rt * rt) P3 P1 o (edge_test (rt * rt) P2 P3 o (edge_test (rt * rt) P1 P2 o None)) else None in
     let out := match found with None => None | Some cp => finish eps r o normal cp end in
     (out = None /\ forall q, tri_pt P1 P2 P3 q -> rt <= dist q o) \/
     exists cp, out = finish eps r o normal cp /\ tri_pt P1 P2 P3 cp /\ dist cp o < rt /\
     ((forall q, tri_pt P1 P2 P3 q -> dist cp o <= dist q o) \/
      exists i j, (i < j < 3)%nat /\ reach rt (tri P1 P2 P3 i) (tri P1 P2 P3 (nexti i)) o /\ reach rt (tri P1 P2 P3 j) (tri P1 P2 P3 (nexti j)) o)).
  { intros k d normal Hk En Ed D0. cbv zeta.
    assert (Kn : k <> 0). { pose proof (Rinv_0_lt_compat _ Np). destruct Hk; lra. }
    assert (Kk : k * k * norm2 n = 1). { rewrite <- norm_sq. destruct Hk as [ -> | -> ]; field; lra. }
    assert (Pl : forall q, tri_pt P1 P2 P3 q -> d <= dist q o).
    { intros q (x & y & z & _ & _ & _ & S & ->). rewrite dist_sym. unfold dist.
      assert (Un : norm normal = 1). { rewrite En, norm_scale. pose proof (Rinv_0_lt_compat _ Np). destruct Hk as [ -> | -> ]; [rewrite Rabs_right by lra|rewrite Rabs_Ropp, Rabs_right by lra]; field; lra. }
      pose proof (cauchy_schwarz (vsub o (bary3 P1 P2 P3 x y z)) normal) as C. rewrite Un, Rmult_1_r in C.
      replace d with (dot (vsub o (bary3 P1 P2 P3 x y z)) normal); [exact C|]. rewrite Ed, En, !dot_scale_r. f_equal.
      replace x with (1 - y - z) by lra. unfold n, bary3. destruct o, P1, P2, P3. unfold dot, cross, vsub, vadd, vscale. cbn. ring. }
    destruct (Rlt_dec d rt) as [Lt|Lt]; [|left; split; [reflexivity|intros q Hq; specialize (Pl q Hq); lra]].
    assert (En' : normal = vscale k (cross (vsub P1 P2) (vsub P2 P3))) by (rewrite <- cross_shift; exact En).
    destruct (proj_in_tri P1 P2 P3 normal o) eqn:Pj.
    - right. exists (vsub o (vscale d normal)). split; [reflexivity|].
      pose proof (proj_true P1 P2 P3 o k normal En' Kn Hn' Pj) as Sd. destruct (foot_nearest P1 P2 P3 o Hn' Sd) as [Nr _].
      assert (Ef : vsub o (vscale (dot (vsub o P1) (cross (vsub P1 P2) (vsub P2 P3)) / norm2 (cross (vsub P1 P2) (vsub P2 P3))) (cross (vsub P1 P2) (vsub P2 P3))) = vsub o (vscale d normal)).
      { f_equal. rewrite Ed, En, <- cross_shift. fold n. rewrite dot_scale_r. set (e := dot (vsub o P1) n). replace (e / norm2 n) with (k * e * k).
        - destruct n. unfold vscale. cbn. f_equal; ring.
        - apply Rmult_eq_reg_r with (norm2 n); [|lra]. replace (k * e * k * norm2 n) with (e * (k * k * norm2 n)) by ring. rewrite Kk. field. lra. }
      rewrite Ef in Nr. destruct Nr as (T & _ & M). split; [exact T|].
      assert (Dd : dist (vsub o (vscale d normal)) o = d).
      { unfold dist. replace (vsub (vsub o (vscale d normal)) o) with (vscale (- d) normal) by (destruct o, normal; unfold vsub, vscale; cbn; f_equal; ring).
        rewrite norm_scale, Rabs_Ropp, Rabs_right by lra. rewrite En, norm_scale. pose proof (Rinv_0_lt_compat _ Np). destruct Hk as [ -> | -> ]; [rewrite Rabs_right by lra|rewrite Rabs_Ropp, Rabs_right by lra]; field; lra. }
      split; [lra|]. left. intros q Hq. rewrite Dd. apply Pl, Hq.
    - destruct (proj_false P1 P2 P3 o k normal En' Kn Pj) as (i0 & Hi0 & S0).
      assert (Ed' : forall q, tri_pt P1 P2 P3 q -> exists i, (i < 3)%nat /\ exists q', seg_pt (tri P1 P2 P3 i) (tri P1 P2 P3 (nexti i)) q' /\ dist q' o <= dist q o).
      { intros q Hq. destruct (edge_nearest P1 P2 P3 o Hn' (ex_intro _ i0 (conj Hi0 S0)) q Hq) as (i & s & Hi & Hs & L).
        exists i. split; [exact Hi|]. eexists. split; [exists s; split; [exact Hs|reflexivity]|]. unfold dist. apply norm_mono, L. }
      set (E := fun i => reach rt (tri P1 P2 P3 i) (tri P1 P2 P3 (nexti i)) o).
      assert (Only : forall i q, (i < 3)%nat -> (forall j, (j < 3)%nat -> j <> i -> ~ E j) -> dist q o < rt -> (forall q', seg_pt (tri P1 P2 P3 i) (tri P1 P2 P3 (nexti i)) q' -> dist q o <= dist q' o) ->
         forall q', tri_pt P1 P2 P3 q' -> dist q o <= dist q' o).
      { intros i q Hi Ho Lq Mq q' Hq'. destruct (Ed' q' Hq') as (j & Hj & q2 & S2 & L2). destruct (Nat.eq_dec j i) as [->|N].
        - specialize (Mq q2 S2). lra.
        - destruct (Rle_lt_dec rt (dist q2 o)); [lra|]. exfalso. apply (Ho j Hj N). exists q2. auto. }
      destruct (edge_test_spec rt P1 P2 o None Hrt) as [A1 A0].
      destruct (edge_test_spec rt P2 P3 o (edge_test (rt * rt) P1 P2 o None) Hrt) as [B1 B0].
      destruct (edge_test_spec rt P3 P1 o (edge_test (rt * rt) P2 P3 o (edge_test (rt * rt) P1 P2 o None)) Hrt) as [C1 C0].
      destruct (reach_dec rt P3 P1 o Hrt) as [R2|R2].
      + destruct (C1 R2) as (q & Eq & Sq & Lq & Mq). rewrite Eq. right. exists q. split; [reflexivity|]. split; [apply (edge_in_tri P1 P2 P3 2 q); [lia|exact Sq]|]. split; [exact Lq|].
        destruct (reach_dec rt P1 P2 o Hrt) as [R0|R0]; [right; exists 0%nat, 2%nat; split; [lia|split; assumption]|].
        destruct (reach_dec rt P2 P3 o Hrt) as [R1|R1]; [right; exists 1%nat, 2%nat; split; [lia|split; assumption]|].
        left. apply (Only 2%nat); auto. intros [|[|[|j]]] Hj N; try lia; assumption.
      + rewrite (C0 R2). destruct (reach_dec rt P2 P3 o Hrt) as [R1|R1].
        * destruct (B1 R1) as (q & Eq & Sq & Lq & Mq). rewrite Eq. right. exists q. split; [reflexivity|]. split; [apply (edge_in_tri P1 P2 P3 1 q); [lia|exact Sq]|]. split; [exact Lq|].
          destruct (reach_dec rt P1 P2 o Hrt) as [R0|R0]; [right; exists 0%nat, 1%nat; split; [lia|split; assumption]|].
          left. apply (Only 1%nat); auto. intros [|[|[|j]]] Hj N; try lia; assumption.
        * rewrite (B0 R1). destruct (reach_dec rt P1 P2 o Hrt) as [R0|R0].
          -- destruct (A1 R0) as (q & Eq & Sq & Lq & Mq). rewrite Eq. right. exists q. split; [reflexivity|]. split; [apply (edge_in_tri P1 P2 P3 0 q); [lia|exact Sq]|]. split; [exact Lq|].
             left. apply (Only 0%nat); auto. intros [|[|[|j]]] Hj N; try lia; assumption.
          -- rewrite (A0 R0). left. split; [reflexivity|]. intros q Hq. destruct (Ed' q Hq) as (j & Hj & q2 & S2 & L2).
             destruct (Rle_lt_dec rt (dist q2 o)); [lra|]. exfalso. destruct j as [|[|[|j]]]; try lia; [apply R0|apply R1|apply R2]; exists q2; auto. }
  destruct (Rlt_dec d0 0) as [Neg|Neg].
  - exists (vscale (-1) n0). assert (E1 : vscale (-1) n0 = vscale (- / norm n) n) by (unfold n0; destruct n; unfold vscale; cbn; f_equal; ring).
    assert (E2 : d0 * -1 = dot (vsub o P1) (vscale (-1) n0)) by (unfold d0; rewrite (dot_scale_r (-1)); ring).
    split; [right; exact E1|]. split; [rewrite <- E2; lra|]. apply (Core (- / norm n) (d0 * -1)); [right; reflexivity|exact E1|exact E2|lra].
  - exists n0. split; [left; reflexivity|]. split; [fold d0; lra|]. apply (Core (/ norm n) d0); [left; reflexivity|reflexivity|reflexivity|lra].
Qed.

(** The intersection query answers whether a point of the triangle is nearer to the center than
    the radius plus eps, for a triangle that is not flat. *)
Theorem st_intersect_exact : forall eps r X P1 P2 P3, 0 < r + eps -> cross (vsub P2 P1) (vsub P3 P1) <> vzero ->
  (st_intersect eps r X P1 P2 P3 <> None <-> exists q, tri_pt P1 P2 P3 q /\ dist q (tf_tr X) < r + eps).
Proof.
  intros eps r X P1 P2 P3 Hr Hn. destruct (st_cases eps r X P1 P2 P3 Hr Hn) as (normal & _ & _ & [[E F]|(cp & E & T & L & _)]).
  - rewrite E. split; [congruence|]. intros (q & Hq & Lq). specialize (F q Hq). lra.
  - split; [intros _; exists cp; auto|]. intros _. rewrite E. unfold finish. cbv zeta.
    apply dist_lt_sq in L; [|exact Hr]. destruct (Rlt_dec _ _); [|lra]. destruct (Rlt_dec _ _); discriminate.
Qed.
Print Assumptions st_intersect_exact.

Lemma unitize_scale : forall v, 0 < norm2 v -> norm (unitize v) = 1 /\ vscale (norm v) (unitize v) = v.
Proof.
  intros v H. unfold unitize. destruct (Rlt_dec 0 (norm2 v)); [|lra].
  assert (0 < norm v) by (apply norm_pos; intros ->; unfold norm2, dot, vzero in H; cbn in H; lra).
  split; [rewrite norm_scale, Rabs_right by (apply Rle_ge; left; apply Rinv_0_lt_compat; lra); field; lra|].
  destruct v. unfold vscale in *. cbn. f_equal; field; lra.
Qed.

(** The contact: a point of the triangle within reach, a unit normal that points from the center
    to it (perpendicular to the triangle if they coincide), and as depth the distance minus the
    radius, which is negative for a ball that overlaps the triangle. *)
Theorem st_contact : forall eps r X P1 P2 P3 ct, 0 < r + eps -> cross (vsub P2 P1) (vsub P3 P1) <> vzero ->
  st_intersect eps r X P1 P2 P3 = Some ct -> let o := tf_tr X in
  tri_pt P1 P2 P3 (cpos ct) /\ dist (cpos ct) o < r + eps /\ cdepth ct = dist (cpos ct) o - r /\ norm (cnorm ct) = 1 /\
  vsub (cpos ct) o = vscale (dist (cpos ct) o) (cnorm ct) /\
  (cpos ct = o -> dot (cnorm ct) (vsub P2 P1) = 0 /\ dot (cnorm ct) (vsub P3 P1) = 0).
Proof.
  intros eps r X P1 P2 P3 ct Hr Hn H o. destruct (st_cases eps r X P1 P2 P3 Hr Hn) as (normal & Hnorm & _ & [[E _]|(cp & E & T & L & _)]); [congruence|]. fold o in E, L.
  rewrite E in H. unfold finish in H. cbv zeta in H. pose proof L as L2. apply dist_lt_sq in L2; [|exact Hr]. destruct (Rlt_dec (norm2 (vsub cp o)) _) as [_|]; [|lra].
  destruct (Rlt_dec 0 (norm2 (vsub cp o))) as [Pd|Pd]; injection H as <-; cbn [cpos cdepth cnorm].
  - destruct (unitize_scale _ Pd) as [U1 U2]. split; [exact T|]. split; [exact L|]. split; [unfold dist, norm; ring|]. split; [exact U1|]. split; [symmetry; exact U2|].
    intros ->. rewrite vsub_self in Pd. unfold norm2, dot, vzero in Pd. cbn in Pd. lra.
  - assert (Z : norm2 (vsub cp o) = 0) by (pose proof (VecR.norm2_nonneg (vsub cp o)); lra).
    assert (Dz : dist cp o = 0) by (unfold dist, norm; rewrite Z; apply sqrt_0).
    apply norm2_zero in Z. split; [exact T|]. split; [exact L|]. split; [lra|].
    set (n := cross (vsub P2 P1) (vsub P3 P1)) in *. assert (Np : 0 < norm n) by (apply norm_pos, Hn). pose proof (Rinv_0_lt_compat _ Np) as Ip.
    split. { rewrite norm_neg. destruct Hnorm as [ -> | -> ]; rewrite norm_scale; [rewrite Rabs_right by lra|rewrite Rabs_Ropp, Rabs_right by lra]; field; lra. }
    split. { rewrite Z, Dz. destruct normal. unfold vscale, vneg, vzero. cbn. f_equal; ring. }
    intros _. assert (N1 : dot n (vsub P2 P1) = 0) by (unfold n; destruct P1, P2, P3; unfold dot, cross, vsub; cbn; ring).
    assert (N2 : dot n (vsub P3 P1) = 0) by (unfold n; destruct P1, P2, P3; unfold dot, cross, vsub; cbn; ring).
    rewrite !dot_neg_l. destruct Hnorm as [ -> | -> ]; rewrite !dot_scale_l, N1, N2; split; ring.
Qed.
Print Assumptions st_contact.

(** The contact is the nearest point of the triangle unless two edges are within reach. *)
Theorem st_contact_nearest : forall eps r X P1 P2 P3 ct, 0 < r + eps -> cross (vsub P2 P1) (vsub P3 P1) <> vzero ->
  st_intersect eps r X P1 P2 P3 = Some ct -> let o := tf_tr X in
  ~ (exists i j, (i < j < 3)%nat /\ reach (r + eps) (tri P1 P2 P3 i) (tri P1 P2 P3 (nexti i)) o /\ reach (r + eps) (tri P1 P2 P3 j) (tri P1 P2 P3 (nexti j)) o) ->
  forall q, tri_pt P1 P2 P3 q -> dist (cpos ct) o <= dist q o.
Proof.
  intros eps r X P1 P2 P3 ct Hr Hn H o Two. destruct (st_cases eps r X P1 P2 P3 Hr Hn) as (normal & _ & _ & [[E _]|(cp & E & T & L & [Nr|N2])]); [congruence| |contradiction].
  fold o in E, L, Nr. rewrite E in H. unfold finish in H. cbv zeta in H. apply dist_lt_sq in L; [|exact Hr]. destruct (Rlt_dec (norm2 (vsub cp o)) _) as [_|]; [|lra].
  destruct (Rlt_dec 0 (norm2 (vsub cp o))); injection H as <-; exact Nr.
Qed.
Print Assumptions st_contact_nearest.

(** For a center over the inside of the triangle it is the nearest point whatever the radius. *)
Theorem st_contact_over : forall eps r X P1 P2 P3 ct, 0 < r + eps -> cross (vsub P2 P1) (vsub P3 P1) <> vzero ->
  st_intersect eps r X P1 P2 P3 = Some ct -> let o := tf_tr X in let n := cross (vsub P2 P1) (vsub P3 P1) in
  (exists x y z h, 0 < x /\ 0 < y /\ 0 < z /\ x + y + z = 1 /\ o = vadd (bary3 P1 P2 P3 x y z) (vscale h n)) ->
  forall q, tri_pt P1 P2 P3 q -> dist (cpos ct) o <= dist q o.
Proof.
  intros eps r X P1 P2 P3 ct Hr Hn H o n (x & y & z & h & Px & Py & Pz & Sm & Eo) q Hq.
  assert (Np : 0 < norm n) by (apply norm_pos, Hn). pose proof (Rinv_0_lt_compat _ Np) as Ip.
  assert (Nl : 0 < norm2 n) by (rewrite <- norm_sq; apply Rmult_lt_0_compat; assumption).
  assert (Nn : norm n * norm n = norm2 n) by apply norm_sq.
  assert (N1 : dot (vsub P1 P2) n = 0) by (unfold n; destruct P1, P2, P3; unfold dot, cross, vsub; cbn; ring).
  assert (N2 : dot (vsub P2 P3) n = 0) by (unfold n; destruct P1, P2, P3; unfold dot, cross, vsub; cbn; ring).
  assert (Sd : side P1 P2 P3 o 1 = - x * norm2 n /\ side P1 P2 P3 o 2 = - y * norm2 n /\ side P1 P2 P3 o 0 = - z * norm2 n).
  { unfold side. rewrite <- cross_shift. fold n. cbn [tri]. rewrite Eo.
    assert (V : forall u w m, dot (vsub u (vadd w (vscale h n))) (cross m n) = dot (vsub u w) (cross m n)) by (intros [] [] []; destruct n; unfold dot, cross, vsub, vadd, vscale; cbn; ring).
    rewrite !V. unfold n. replace x with (1 - y - z) by lra. unfold bary3. clear. destruct P1, P2, P3. unfold norm2, dot, cross, vsub, vadd, vscale. cbn. repeat split; ring. }
  destruct Sd as (S1 & S2 & S0).
  assert (Neg : forall u, 0 < u -> - u * norm2 n < 0) by (intros u Hu; assert (0 < u * norm2 n) by (apply Rmult_lt_0_compat; assumption); lra).
  unfold st_intersect in H. cbv zeta in H. fold o n in H.
  assert (U : unitize n = vscale (/ norm n) n) by (unfold unitize; destruct (Rlt_dec 0 (norm2 n)); [reflexivity|lra]). rewrite U in H. clear U.
  set (n0 := vscale (/ norm n) n) in *.
  assert (Fin : forall k d normal, (k = / norm n \/ k = - / norm n) -> normal = vscale k n -> d = dot (vsub o P1) normal -> 0 <= d ->
     match (if Rlt_dec d (r + eps) then if proj_in_tri P1 P2 P3 normal o then Some (vsub o (vscale d normal))
        else edge_test ((r + eps) * (r + eps)) P3 P1 o (edge_test ((r + eps) * (r + eps)) P2 P3 o (edge_test ((r + eps) * (r + eps)) P1 P2 o None)) else None)
     with None => None | Some cp => finish eps r o normal cp end = Some ct -> dist (cpos ct) o <= dist q o).
  { intros k d normal Hk En Ed D0 F. destruct (Rlt_dec d (r + eps)); [|discriminate].
    assert (Pj : proj_in_tri P1 P2 P3 normal o = true).
    { assert (En' : normal = vscale k (cross (vsub P1 P2) (vsub P2 P3))) by (rewrite <- cross_shift; exact En).
      unfold proj_in_tri. cbv zeta. destruct (proj_side P1 P2 P3 o k normal En') as (-> & -> & ->). rewrite S0, S1, S2.
      rewrite orb_true_iff, !andb_true_iff, !gtb_spec, !leb_spec. pose proof (Neg x Px). pose proof (Neg y Py). pose proof (Neg z Pz).
      destruct Hk as [ -> | -> ]; [right|left]; repeat split; nra. }
    rewrite Pj in F. set (cp := vsub o (vscale d normal)) in *.
    assert (Un : norm normal = 1). { rewrite En, norm_scale. destruct Hk as [ -> | -> ]; [rewrite Rabs_right by lra|rewrite Rabs_Ropp, Rabs_right by lra]; field; lra. }
    assert (Dd : dist cp o = d).
    { unfold dist, cp. replace (vsub (vsub o (vscale d normal)) o) with (vscale (- d) normal) by (destruct o, normal; unfold vsub, vscale; cbn; f_equal; ring).
      rewrite norm_scale, Rabs_Ropp, Rabs_right by lra. rewrite Un. ring. }
    assert (Ec : cpos ct = cp) by (unfold finish in F; cbv zeta in F; destruct (Rlt_dec (norm2 (vsub cp o)) _); [|discriminate]; destruct (Rlt_dec 0 (norm2 (vsub cp o))); injection F as <-; reflexivity).
    rewrite Ec, Dd. destruct Hq as (x' & y' & z' & _ & _ & _ & S' & ->). rewrite dist_sym. unfold dist.
    pose proof (cauchy_schwarz (vsub o (bary3 P1 P2 P3 x' y' z')) normal) as C. rewrite Un, Rmult_1_r in C.
    replace d with (dot (vsub o (bary3 P1 P2 P3 x' y' z')) normal); [exact C|]. rewrite Ed, En, !dot_scale_r. f_equal.
    replace x' with (1 - y' - z') by lra. unfold n, bary3. clear. destruct o, P1, P2, P3. unfold dot, cross, vsub, vadd, vscale. cbn. ring. }
  destruct (Rlt_dec (dot (vsub o P1) n0) 0) as [Ng|Ng].
  - apply (Fin (- / norm n) (dot (vsub o P1) n0 * -1) (vscale (-1) n0)); [right; reflexivity| |rewrite (dot_scale_r (-1)); ring|lra|exact H].
    unfold n0. destruct n. unfold vscale. cbn. f_equal; ring.
  - apply (Fin (/ norm n) (dot (vsub o P1) n0) n0); [left; reflexivity|reflexivity|reflexivity|lra|exact H].
Qed.
Print Assumptions st_contact_over.

(** A flat triangle intersects every sphere: the contact is the center, with a zero normal. *)
Theorem st_intersect_flat : forall eps r X P1 P2 P3, 0 < r + eps -> cross (vsub P2 P1) (vsub P3 P1) = vzero ->
  st_intersect eps r X P1 P2 P3 = Some (mkct vzero (tf_tr X) (- r)).
Proof.
  intros eps r X P1 P2 P3 Hr H. unfold st_intersect. cbv zeta. rewrite H.
  assert (U : unitize vzero = vzero) by (unfold unitize; destruct (Rlt_dec 0 (norm2 vzero)); [exfalso; unfold norm2, dot, vzero in *; cbn in *; lra|reflexivity]). rewrite U.
  set (o := tf_tr X). assert (Z : forall v, dot v vzero = 0) by (intros []; unfold dot, vzero; cbn; ring). rewrite Z.
  destruct (Rlt_dec 0 0); [lra|]. destruct (Rlt_dec 0 (r + eps)); [|lra].
  assert (Pj : proj_in_tri P1 P2 P3 vzero o = true).
  { unfold proj_in_tri. cbv zeta. assert (Z2 : forall u v, dot (cross u vzero) v = 0) by (intros [] []; unfold dot, cross, vzero; cbn; ring).
    rewrite !Z2. rewrite orb_true_iff, !andb_true_iff, !leb_spec. right. repeat split; lra. }
  rewrite Pj. assert (Eo : vsub o (vscale 0 vzero) = o) by (destruct o; unfold vsub, vscale, vzero; cbn; f_equal; ring). rewrite Eo, vsub_self.
  replace (norm2 vzero) with 0 by (unfold norm2, dot, vzero; cbn; ring).
  destruct (Rlt_dec 0 ((r + eps) * (r + eps))); [|exfalso; assert (0 < (r + eps) * (r + eps)) by (apply Rmult_lt_0_compat; assumption); lra].
  destruct (Rlt_dec 0 0); [lra|]. replace (vneg vzero) with vzero by (unfold vneg, vzero; cbn; f_equal; ring). reflexivity.
Qed.
Print Assumptions st_intersect_flat.

(** Hence "a reported intersection means a common point" is false. *)
Theorem st_intersect_refuted : exists eps r X P1 P2 P3, 0 < eps /\ 0 < r /\
  (forall q, tri_pt P1 P2 P3 q -> r + 9 <= dist q (tf_tr X)) /\ st_intersect eps r X P1 P2 P3 <> None.
Proof.
  exists (1/1000), 1, (mktf mid vzero), (mk3 10 0 0), (mk3 11 0 0), (mk3 12 0 0). split; [lra|]. split; [lra|]. split.
  - intros q (x & y & z & X & Y & Z & S & ->). cbn [tf_tr]. unfold dist. apply norm_ge_sq; [lra|].
    unfold norm2, dot, vsub, bary3, vadd, vscale, vzero. cbn. nra.
  - rewrite st_intersect_flat; [discriminate|lra|]. unfold cross, vsub, vzero. cbn. f_equal; ring.
Qed.
Print Assumptions st_intersect_refuted.

(** A sphere before the first edge, with the third edge within reach as well: the contact is the
    corner P1, five times as far as the nearest point, and the depth is negative. *)
Definition near_edge : option contact := st_intersect (1/1000) 1 (mktf mid (mk3 (1/2) (-1/10) 0)) (mk3 0 0 0) (mk3 1 0 0) (mk3 0 1 0).
Lemma near_edge_value : exists ct, near_edge = Some ct /\ cpos ct = mk3 0 0 0 /\ cdepth ct = sqrt (26/100) - 1.
Proof.
  unfold near_edge, st_intersect. cbv zeta. cbn [tf_tr].
  assert (Ec : cross (vsub (mk3 1 0 0) (mk3 0 0 0)) (vsub (mk3 0 1 0) (mk3 0 0 0)) = mk3 0 0 1) by (unfold cross, vsub; cbn; f_equal; ring).
  rewrite Ec. assert (N2 : norm2 (mk3 0 0 1) = 1) by (unfold norm2, dot; cbn; ring).
  assert (U : unitize (mk3 0 0 1) = mk3 0 0 1).
  { unfold unitize. rewrite N2. destruct (Rlt_dec 0 1); [|lra]. unfold norm. rewrite N2, sqrt_1. unfold vscale. cbn. f_equal; field. }
  rewrite U. set (o := mk3 (1/2) (-1/10) 0).
  assert (D0 : dot (vsub o (mk3 0 0 0)) (mk3 0 0 1) = 0) by (unfold o, dot, vsub; cbn; ring). rewrite D0.
  destruct (Rlt_dec 0 0); [lra|]. destruct (Rlt_dec 0 (1 + 1/1000)); [|lra].
  assert (Pj : proj_in_tri (mk3 0 0 0) (mk3 1 0 0) (mk3 0 1 0) (mk3 0 0 1) o = false).
  { apply Bool.not_true_iff_false. unfold proj_in_tri. cbv zeta. rewrite orb_true_iff, !andb_true_iff, !gtb_spec, !leb_spec.
    unfold o, dot, cross, vsub. cbn. lra. }
  rewrite Pj.
  assert (T3 : forall f, edge_test ((1 + 1/1000) * (1 + 1/1000)) (mk3 0 1 0) (mk3 0 0 0) o f = Some (mk3 0 0 0)).
  { intros f. unfold edge_test, seg_sqr. cbv zeta.
    assert (A : dot (vsub (mk3 0 0 0) (mk3 0 1 0)) (vsub o (mk3 0 1 0)) = 11/10) by (unfold o, dot, vsub; cbn; field).
    assert (B : dot (vsub (mk3 0 0 0) (mk3 0 1 0)) (vsub (mk3 0 0 0) (mk3 0 1 0)) = 1) by (unfold dot, vsub; cbn; field).
    rewrite A, B. destruct (Rlt_dec 0 (11/10)); [|lra]. destruct (Rlt_dec (11/10) 1); [lra|].
    match goal with |- (if Rlt_dec ?d _ then _ else _) = _ => replace d with (26/100) by (unfold o, dot, vsub; cbn; field) end.
    destruct (Rlt_dec (26/100) _); [|lra]. f_equal. unfold vadd, vscale, vsub. cbn. f_equal; ring. }
  rewrite T3. assert (D2 : norm2 (vsub (mk3 0 0 0) o) = 26/100) by (unfold o, norm2, dot, vsub; cbn; field). rewrite D2.
  destruct (Rlt_dec (26/100) _); [|lra]. destruct (Rlt_dec 0 (26/100)); [|lra].
  eexists. split; [reflexivity|]. split; [reflexivity|]. cbn [cdepth]. ring.
Qed.

Theorem st_nearest_refuted : exists eps r X P1 P2 P3 ct q, 0 < eps /\ 0 < r /\ cross (vsub P2 P1) (vsub P3 P1) <> vzero /\
  st_intersect eps r X P1 P2 P3 = Some ct /\ tri_pt P1 P2 P3 q /\ 5 * dist q (tf_tr X) < dist (cpos ct) (tf_tr X) /\ dist q (tf_tr X) < r /\ cdepth ct < 0.
Proof.
  destruct near_edge_value as (ct & E & Ep & Ed).
  exists (1/1000), 1, (mktf mid (mk3 (1/2) (-1/10) 0)), (mk3 0 0 0), (mk3 1 0 0), (mk3 0 1 0), ct, (mk3 (1/2) 0 0).
  split; [lra|]. split; [lra|]. split. { unfold cross, vsub, vzero. cbn. intros H. injection H. lra. }
  split; [exact E|]. split. { exists (1/2), (1/2), 0. repeat split; try lra. unfold bary3, vadd, vscale. cbn. f_equal; field. }
  cbn [tf_tr]. rewrite Ep, Ed.
  assert (D1 : dist (mk3 (1/2) 0 0) (mk3 (1/2) (-1/10) 0) = 1/10).
  { unfold dist, norm. replace (norm2 _) with ((1/10) * (1/10)) by (unfold norm2, dot, vsub; cbn; field). apply sqrt_square. lra. }
  assert (D2 : dist (mk3 0 0 0) (mk3 (1/2) (-1/10) 0) = sqrt (26/100)).
  { unfold dist, norm. f_equal. unfold norm2, dot, vsub. cbn. field. }
  rewrite D1, D2. pose proof (sqrt_sqrt (26/100) ltac:(lra)). pose proof (sqrt_pos (26/100)). repeat split; nra.
Qed.
Print Assumptions st_nearest_refuted.

(** A ball over the middle of a triangle: the hypotheses of the theorems above are met. *)
Example over_middle : exists q, tri_pt (mk3 0 0 0) (mk3 4 0 0) (mk3 0 4 0) q /\ ball (mk3 1 1 (1/2)) 1 q /\
  st_intersect (1/1000) 1 (mktf mid (mk3 1 1 (1/2))) (mk3 0 0 0) (mk3 4 0 0) (mk3 0 4 0) <> None /\
  fst (st_distance 1 (mktf mid (mk3 1 1 (1/2))) (mk3 0 0 0) (mk3 4 0 0) (mk3 0 4 0)) = false.
Proof.
  assert (Hn : cross (vsub (mk3 4 0 0) (mk3 0 0 0)) (vsub (mk3 0 4 0) (mk3 0 0 0)) <> vzero) by (unfold cross, vsub, vzero; cbn; intros H; injection H; lra).
  assert (T : tri_pt (mk3 0 0 0) (mk3 4 0 0) (mk3 0 4 0) (mk3 1 1 0)) by (exists (1/2), (1/4), (1/4); repeat split; try lra; unfold bary3, vadd, vscale; cbn; f_equal; field).
  assert (D : dist (mk3 1 1 0) (mk3 1 1 (1/2)) = 1/2).
  { unfold dist, norm. replace (norm2 _) with ((1/2) * (1/2)) by (unfold norm2, dot, vsub; cbn; field). apply sqrt_square. lra. }
  exists (mk3 1 1 0). split; [exact T|]. split; [unfold ball; lra|]. split.
  - apply st_intersect_exact; [lra|exact Hn|]. exists (mk3 1 1 0). split; [exact T|]. cbn [tf_tr]. lra.
  - apply st_distance_exact; [lra|exact Hn|]. exists (mk3 1 1 0). split; [exact T|]. unfold ball. cbn [tf_tr]. lra.
Qed.

(** and one two above it, at distance 1 *)
Example above : st_distance 1 (mktf mid (mk3 1 1 2)) (mk3 0 0 0) (mk3 4 0 0) (mk3 0 4 0) = (true, 1).
Proof.
  assert (Hn : cross (vsub (mk3 4 0 0) (mk3 0 0 0)) (vsub (mk3 0 4 0) (mk3 0 0 0)) <> vzero) by (unfold cross, vsub, vzero; cbn; intros H; injection H; lra).
  unfold st_distance. cbv zeta. cbn [tf_tr]. destruct (tri_sqr_nearest _ _ _ (mk3 1 1 2) Hn) as (d & q & -> & (Tq & Ed & M)).
  assert (E : d = 4).
  { apply Rle_antisym.
    - replace 4 with (norm2 (vsub (mk3 1 1 0) (mk3 1 1 2))) by (unfold norm2, dot, vsub; cbn; field). apply M. exists (1/2), (1/4), (1/4). repeat split; try lra. unfold bary3, vadd, vscale. cbn. f_equal; field.
    - rewrite Ed. destruct Tq as (x & y & z & _ & _ & _ & _ & ->). unfold norm2, dot, vsub, bary3, vadd, vscale. cbn.
      replace (x * 0 + (y * 0 + z * 0) - 2) with (-2) by ring. match goal with |- 4 <= ?u * ?u + ?v * ?v + _ => pose proof (Rle_0_sqr u); pose proof (Rle_0_sqr v); unfold Rsqr in * end. lra. }
  rewrite E. destruct (Rlt_dec 4 0); [lra|]. destruct (Rlt_dec (1 * 1) 4); [|lra]. f_equal. replace 4 with (2 * 2) by ring. rewrite sqrt_square; lra.
Qed.
