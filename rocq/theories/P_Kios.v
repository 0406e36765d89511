(** C93: the kIOS bounding volume. *)
From Coq Require Import Reals Lra Psatz Lia List Bool Arith.
From Verif Require Import VecR Motion Obb P_Obb Eigen3 Fit P_Fit Kios.
From Verif Require P_HalfBV P_HalfQuery P_Eigen3.
Import ListNotations.
Open Scope R_scope.

(** The points of a volume *)
Definition in_ball (s : sph) (p : v3) : Prop := dist p (so s) <= sr s.
Definition in_balls (l : list sph) (p : v3) : Prop := forall s, In s l -> in_ball s p.
Definition in_kios (a : kios) (p : v3) : Prop := in_balls (ks a) p /\ inobb (kb a) p.
Definition radii_ok (a : kios) : Prop := forall s, In s (ks a) -> 0 <= sr s.

Lemma sqrt_le_r : forall x r, 0 <= r -> (sqrt x <= r <-> x <= r * r).
Proof.
  intros x r H. destruct (Rle_dec 0 x) as [P|P].
  - pose proof (sqrt_sqrt x P). pose proof (sqrt_pos x). split; intros; nra.
  - rewrite (sqrt_neg_0 x) by lra. split; intros; nra.
Qed.
Lemma dist_le : forall p q r, 0 <= r -> (dist p q <= r <-> norm2 (vsub p q) <= r * r).
Proof. intros p q r H. apply sqrt_le_r, H. Qed.
Lemma dist_pos : forall p q, 0 <= dist p q. Proof. intros. apply sqrt_pos. Qed.
Lemma norm2_sub : forall a b, norm2 (vsub a b) = norm2 (vsub b a). Proof. vring. Qed.

(** ** Overlap, contain *)
Lemma balls_apart_iff : forall s t, 0 <= sr s -> 0 <= sr t -> (balls_apart s t = true <-> sr s + sr t < dist (so s) (so t)).
Proof.
  intros s t Hs Ht. unfold balls_apart. cbv zeta. pose proof (dist_le (so s) (so t) (sr s + sr t) ltac:(lra)) as D. destruct (Rlt_dec _ _) as [L|L]; split; intros H; try reflexivity; try discriminate H.
  - apply Rnot_le_lt. intros K. apply D in K. lra.
  - exfalso. apply L. apply Rnot_le_lt. intros K. apply D in K. lra.
Qed.
Lemma ball_common : forall s t, 0 <= sr s -> 0 <= sr t -> (exists q, in_ball s q /\ in_ball t q) <-> dist (so s) (so t) <= sr s + sr t.
Proof.
  intros s t Hs Ht. unfold in_ball. split.
  - intros (q & A & B). pose proof (dist_triangle (so s) q (so t)). rewrite (dist_sym (so s) q) in H. lra.
  - intros H. destruct (Rle_dec (dist (so s) (so t)) (sr s)) as [L|L].
    + exists (so t). split; [rewrite dist_sym; exact L|]. unfold dist. rewrite vsub_self, norm_vzero. exact Ht.
    + set (d := dist (so s) (so t)) in *. assert (P : 0 < d) by lra. exists (vadd (so s) (vscale (sr s / d) (vsub (so t) (so s)))).
      assert (K : forall k v, norm (vscale k v) = Rabs k * norm v). { intros k v. unfold norm. rewrite norm2_scale, sqrt_mult, <- (sqrt_Rsqr_abs k); [reflexivity|nra|apply norm2_nonneg]. }
      assert (F : 0 <= sr s / d) by (apply Rmult_le_pos; [lra|apply Rlt_le, Rinv_0_lt_compat; lra]).
      assert (Nd : norm (vsub (so t) (so s)) = d) by apply (dist_sym (so t) (so s)).
      split; unfold dist.
      * replace (vsub (vadd (so s) (vscale (sr s / d) (vsub (so t) (so s)))) (so s)) with (vscale (sr s / d) (vsub (so t) (so s))) by vring. rewrite K, Nd, Rabs_pos_eq by exact F. right. field. lra.
      * replace (vsub (vadd (so s) (vscale (sr s / d) (vsub (so t) (so s)))) (so t)) with (vscale (sr s / d - 1) (vsub (so t) (so s))) by vring. rewrite K, Nd.
        assert (G : sr s / d < 1) by (apply Rmult_lt_reg_r with d; [exact P|]; unfold Rdiv; rewrite Rmult_assoc, Rinv_l; lra). rewrite Rabs_left by lra. replace (- (sr s / d - 1) * d) with (d - sr s) by (field; lra). lra.
Qed.

(** The overlap test says true exactly if each two balls have a common point and the box test says true; so volumes with a common point are
    never missed, also with the second one moved *)
Theorem kios_overlap_iff : forall a b, radii_ok a -> radii_ok b ->
  (kios_overlap a b = true <-> (forall s t, In s (ks a) -> In t (ks b) -> exists q, in_ball s q /\ in_ball t q) /\ obb_overlap (kb a) (kb b) = true).
Proof.
  intros a b Ra Rb. unfold kios_overlap. destruct (existsb (fun s => existsb (balls_apart s) (ks b)) (ks a)) eqn:E.
  - split; [discriminate|]. intros (H & _). exfalso. apply existsb_exists in E. destruct E as (s & Hs & E). apply existsb_exists in E. destruct E as (t & Ht & E).
    apply balls_apart_iff in E; [|apply Ra, Hs|apply Rb, Ht]. pose proof (proj1 (ball_common s t (Ra s Hs) (Rb t Ht)) (H s t Hs Ht)). lra.
  - split; [|tauto]. intros O. split; [|exact O]. intros s t Hs Ht. apply ball_common; [apply Ra, Hs|apply Rb, Ht|]. apply Rnot_lt_le. intros L.
    apply balls_apart_iff in L; [|apply Ra, Hs|apply Rb, Ht]. assert (X : existsb (fun s => existsb (balls_apart s) (ks b)) (ks a) = true); [|congruence].
    apply existsb_exists. exists s. split; [exact Hs|]. apply existsb_exists. exists t. auto.
Qed.
Lemma in_radii : forall a p, in_kios a p -> radii_ok a.
Proof. intros a p (H & _) s Hs. specialize (H s Hs). unfold in_ball in H. pose proof (dist_pos p (so s)). lra. Qed.
Theorem kios_overlap_sound : forall R0 T0 a b p, ortho R0 -> ortho (ax (kb a)) -> ortho (ax (kb b)) ->
  (in_kios a p -> in_kios b p -> kios_overlap a b = true) /\
  (in_kios b p -> in_kios a (vadd (mapply R0 p) T0) -> kios_overlap_rt R0 T0 a b = true).
Proof.
  intros R0 T0 a b p OR Oa Ob. assert (G : forall a b p, ortho (ax (kb a)) -> ortho (ax (kb b)) -> in_kios a p -> in_kios b p -> kios_overlap a b = true).
  { clear. intros a b p Oa Ob Ha Hb. apply kios_overlap_iff; [apply (in_radii a p Ha)|apply (in_radii b p Hb)|]. destruct Ha as (Ha & Ba), Hb as (Hb & Bb). split; [intros s t Hs Ht; exists p; split; [apply Ha, Hs|apply Hb, Ht]|].
    apply (obb_overlap_sound (kb a) (kb b) p); assumption. }
  split; [apply G; assumption|]. intros (Hb & Bb) Ha. unfold kios_overlap_rt. apply (G _ _ (vadd (mapply R0 p) T0)); [exact Oa| |exact Ha|].
  - cbn [kb ax]. unfold ortho, mmul. cbn [VecR.m0 VecR.m1 VecR.m2]. rewrite !(mapply_dot R0) by exact OR. exact Ob.
  - split.
    + intros s Hs. cbn [ks] in Hs. unfold move_balls in Hs. apply in_map_iff in Hs. destruct Hs as (s0 & <- & Hs). unfold in_ball. cbn [so sr]. specialize (Hb s0 Hs). unfold in_ball in Hb.
      replace (dist (vadd (mapply R0 p) T0) (vadd (mapply R0 (so s0)) T0)) with (dist p (so s0)); [exact Hb|]. unfold dist. rewrite <- (P_HalfQuery.mapply_norm R0 (vsub p (so s0)) OR). f_equal. vring.
    + cbn [kb]. destruct Bb as (u0 & u1 & u2 & U0 & U1 & U2 & ->). exists u0, u1, u2. cbn [ext oc ax]. split; [exact U0|split; [exact U1|split; [exact U2|]]]. generalize (kb b). intros [A c e]. cbn [oc ax]. clear. vdestr. vunf. vunf. f_equal; ring.
Qed.
(** contain: exact for the balls; the box is not looked at *)
Theorem kios_contain_iff : forall a p, radii_ok a -> (kios_contain a p = true <-> in_balls (ks a) p).
Proof.
  intros a p Ra. unfold kios_contain. rewrite forallb_forall. assert (D : forall s, In s (ks a) -> (in_ball s p <-> norm2 (vsub (so s) p) <= sr s * sr s)) by (intros s Hs; unfold in_ball; rewrite (norm2_sub (so s) p); apply dist_le, Ra, Hs).
  split; intros H s Hs; specialize (H s Hs); [apply D; [exact Hs|]|apply D in H; [|exact Hs]]; destruct (Rlt_dec _ _); try discriminate; try reflexivity; lra.
Qed.
Print Assumptions kios_overlap_iff.
Print Assumptions kios_overlap_sound.
Print Assumptions kios_contain_iff.

(** ** Sums *)
Lemma norm_vscale : forall k v, norm (vscale k v) = Rabs k * norm v.
Proof. intros k v. unfold norm. rewrite norm2_scale, sqrt_mult, <- (sqrt_Rsqr_abs k); [reflexivity|nra|apply norm2_nonneg]. Qed.
Lemma dist_along : forall o k v, dist o (vadd o (vscale k v)) = Rabs k * norm v.
Proof. intros o k v. rewrite dist_sym. unfold dist. replace (vsub (vadd o (vscale k v)) o) with (vscale k v) by vring. apply norm_vscale. Qed.

(** The sphere around two spheres contains both.  If none of the two contains the other, a ball of half the radius does so too. *)
Theorem enclose_sphere_encloses : forall s t, 0 <= sr s -> 0 <= sr t -> let e := enclose_sphere s t in
  (0 <= sr e /\ forall p, in_ball s p \/ in_ball t p -> in_ball e p) /\
  (Rabs (sr t - sr s) < dist (so s) (so t) -> exists c, forall p, in_ball s p \/ in_ball t p -> dist p c <= sr e / 2).
Proof.
  intros s t Hs Ht. cbv zeta. unfold enclose_sphere. cbv zeta. set (d := vsub (so t) (so s)). fold (norm d). assert (E : norm d = dist (so s) (so t)) by apply (dist_sym (so t) (so s)).
  pose proof (norm_sq d) as N. pose proof (norm_nonneg d) as P. destruct (Rle_dec (norm2 d) ((sr t - sr s) * (sr t - sr s))) as [L|L].
  - split.
    + assert (K : norm d <= Rabs (sr t - sr s)) by (apply sqrt_le_r; [apply Rabs_pos|]; rewrite <- Rabs_mult, Rabs_pos_eq by nra; exact L).
      destruct (Rlt_dec (sr s) (sr t)) as [Q|Q]; (split; [assumption|]); intros p [H|H]; try exact H; unfold in_ball in *.
      * rewrite Rabs_pos_eq in K by lra. pose proof (dist_triangle p (so s) (so t)). lra.
      * rewrite Rabs_left1 in K by lra. pose proof (dist_triangle p (so t) (so s)) as D0. rewrite (dist_sym (so t) (so s)) in D0. lra.
    + intros H. exfalso. rewrite <- E in H. pose proof (Rabs_pos (sr t - sr s)). assert (Rabs (sr t - sr s) * Rabs (sr t - sr s) = (sr t - sr s) * (sr t - sr s)) by (rewrite <- Rabs_mult; apply Rabs_pos_eq; nra). nra.
  - assert (L' : Rabs (sr t - sr s) < norm d).
    { apply Rnot_le_lt. intros H. apply L. rewrite <- N. replace ((sr t - sr s) * (sr t - sr s)) with (Rabs (sr t - sr s) * Rabs (sr t - sr s)) by (rewrite <- Rabs_mult; apply Rabs_pos_eq, Rle_0_sqr). apply Rmult_le_compat; assumption. }
    pose proof (Rabs_pos (sr t - sr s)) as RP. pose proof (Rle_abs (sr t - sr s)) as A1. pose proof (Rle_abs (- (sr t - sr s))) as A2. rewrite Rabs_Ropp in A2. set (l := norm d) in *.
    destruct (Rlt_dec 0 l) as [Z|Z]; [|lra]. cbn [sr so].
    assert (G : forall k p, 0 <= k <= l -> in_ball s p \/ in_ball t p -> dist p (vadd (so s) (vscale (k / l) d)) <= Rmax (sr s + k) (sr t + (l - k))).
    { intros k p Hk Hp. assert (Fk : 0 <= k / l) by (apply Rmult_le_pos; [lra|apply Rlt_le, Rinv_0_lt_compat; lra]).
      assert (D1 : dist (so s) (vadd (so s) (vscale (k / l) d)) = k) by (rewrite dist_along; fold l; rewrite Rabs_pos_eq by exact Fk; field; lra).
      assert (D2 : dist (so t) (vadd (so s) (vscale (k / l) d)) = l - k).
      { unfold dist. replace (vsub (so t) (vadd (so s) (vscale (k / l) d))) with (vscale (1 - k / l) d) by (unfold d; vring). rewrite norm_vscale. fold l.
        assert (k / l <= 1) by (apply Rmult_le_reg_r with l; [lra|]; unfold Rdiv; rewrite Rmult_assoc, Rinv_l; lra). rewrite Rabs_pos_eq by lra. field. lra. }
      destruct Hp as [Hp|Hp]; unfold in_ball in Hp.
      - pose proof (dist_triangle p (so s) (vadd (so s) (vscale (k / l) d))). pose proof (Rmax_l (sr s + k) (sr t + (l - k))). lra.
      - pose proof (dist_triangle p (so t) (vadd (so s) (vscale (k / l) d))). pose proof (Rmax_r (sr s + k) (sr t + (l - k))). lra. }
    split.
    + split; [lra|]. intros p Hp. unfold in_ball. cbn [so sr]. set (c := vadd (so s) (vscale ((l + sr s + sr t - sr s) / l) d)).
      assert (F1 : 0 <= (l + sr s + sr t - sr s) / l) by (apply Rmult_le_pos; [lra|apply Rlt_le, Rinv_0_lt_compat; lra]).
      assert (D1 : dist (so s) c = l + sr t) by (unfold c; rewrite dist_along; fold l; rewrite Rabs_pos_eq by exact F1; field; lra).
      assert (D2 : dist (so t) c = sr t).
      { unfold dist, c. replace (vsub (so t) (vadd (so s) (vscale ((l + sr s + sr t - sr s) / l) d))) with (vscale (- (sr t / l)) d).
        - rewrite norm_vscale. fold l. rewrite Rabs_Ropp, Rabs_pos_eq by (apply Rmult_le_pos; [lra|apply Rlt_le, Rinv_0_lt_compat; lra]). field. lra.
        - replace ((l + sr s + sr t - sr s) / l) with (1 + sr t / l) by (field; lra). unfold d. vring. }
      destruct Hp as [Hp|Hp]; unfold in_ball in Hp; [pose proof (dist_triangle p (so s) c)|pose proof (dist_triangle p (so t) c)]; lra.
    + intros _. exists (vadd (so s) (vscale ((l + sr t - sr s) / 2 / l) d)). intros p Hp. eapply Rle_trans; [apply G; [lra|exact Hp]|]. apply Rmax_lub; lra.
Qed.
Print Assumptions enclose_sphere_encloses.

(** The sum of two volumes and the sum with a point: the balls contain both operands; the whole volume does if the sum of the boxes does (C42, C60) *)
Theorem kios_plus_encloses : forall plus a b c p, radii_ok a -> radii_ok b -> kios_plus plus a b = Some c -> in_kios a p \/ in_kios b p ->
  in_balls (ks c) p /\ length (ks c) = min (length (ks a)) (length (ks b)) /\ plus (kb a) (kb b) = Some (kb c) /\ (inobb (kb c) p -> in_kios c p).
Proof.
  intros plus a b c p Ra Rb E H. unfold kios_plus in E. destruct (plus (kb a) (kb b)) as [o|]; [|discriminate E]. injection E as <-. cbn [ks kb].
  assert (I : in_balls (map (fun st => enclose_sphere (fst st) (snd st)) (combine (ks a) (ks b))) p).
  { intros e He. apply in_map_iff in He. destruct He as ((s & t) & <- & He). cbn [fst snd]. pose proof (in_combine_l _ _ _ _ He) as Hs. pose proof (in_combine_r _ _ _ _ He) as Ht.
    apply (enclose_sphere_encloses s t (Ra s Hs) (Rb t Ht)). destruct H as [(H & _)|(H & _)]; [left; apply H, Hs|right; apply H, Ht]. }
  split; [exact I|]. split; [rewrite map_length; apply combine_length|]. split; [reflexivity|]. intros B. split; [exact I|exact B].
Qed.
Theorem kios_add_encloses : forall plus a q c p, radii_ok a -> kios_add plus a q = Some c -> in_kios a p \/ p = q ->
  in_balls (ks c) p /\ length (ks c) = length (ks a) /\ plus (kb a) (mkobb (ax (kb a)) q vzero) = Some (kb c) /\ (inobb (kb c) p -> in_kios c p).
Proof.
  intros plus a q c p Ra E H. unfold kios_add in E. destruct (plus (kb a) (mkobb (ax (kb a)) q vzero)) as [o|]; [|discriminate E]. injection E as <-. cbn [ks kb].
  assert (I : in_balls (map (grow_ball q) (ks a)) p).
  { intros e He. apply in_map_iff in He. destruct He as (s & <- & Hs). unfold grow_ball, in_ball. pose proof (Ra s Hs) as P. destruct (Rlt_dec _ _) as [L|L]; cbn [so sr].
    - destruct H as [(H & _)| -> ]; [|apply Rle_refl]. specialize (H s Hs). unfold in_ball in H. apply Rle_trans with (sr s); [exact H|]. change (sr s <= dist q (so s)). apply Rlt_le, Rnot_le_lt. intros K. apply dist_le in K; [lra|exact P].
    - destruct H as [(H & _)| -> ]; [apply H, Hs|]. apply dist_le; [exact P|lra]. }
  split; [exact I|]. split; [apply map_length|]. split; [reflexivity|]. intros B. split; [exact I|exact B].
Qed.
Print Assumptions kios_plus_encloses.
Print Assumptions kios_add_encloses.

(** ** Distance *)
Lemma gap_fold : forall a b l st, 0 <= fst st -> let s := fold_left (gap_step a b) l st in
  fst st <= fst s /\ (forall i j, In (i, j) l -> norm (vsub (so (nth i a no_sphere)) (so (nth j b no_sphere))) - (sr (nth i a no_sphere) + sr (nth j b no_sphere)) <= fst s) /\
  (s = st \/ exists i j, In (i, j) l /\ snd s = Some (i, j) /\ fst s = norm (vsub (so (nth i a no_sphere)) (so (nth j b no_sphere))) - (sr (nth i a no_sphere) + sr (nth j b no_sphere)) /\ fst st < fst s).
Proof.
  intros a b l. induction l as [|(i & j) l IH]; intros st P; cbn [fold_left].
  - cbv zeta. split; [lra|]. split; [intros i j []|left; reflexivity].
  - cbv zeta. set (d := norm (vsub (so (nth i a no_sphere)) (so (nth j b no_sphere))) - (sr (nth i a no_sphere) + sr (nth j b no_sphere))).
    assert (S : gap_step a b st (i, j) = if Rlt_dec (fst st) d then (d, Some (i, j)) else st) by reflexivity. rewrite S. clear S.
    destruct (Rlt_dec (fst st) d) as [L|L].
    + destruct (IH (d, Some (i, j)) ltac:(cbn; lra)) as (I1 & I2 & I3). cbn [fst] in I1. split; [lra|]. split.
      * intros i' j' [H|H]; [injection H as <- <-; exact I1|apply I2, H].
      * right. destruct I3 as [I3|(i' & j' & H1 & H2 & H3 & H4)]; [exists i, j; rewrite I3; cbn; auto|]. exists i', j'. cbn [fst] in H4. split; [right; exact H1|]. split; [exact H2|]. split; [exact H3|lra].
    + destruct (IH st P) as (I1 & I2 & I3). split; [exact I1|]. split.
      * intros i' j' [H|H]; [injection H as <- <-; fold d; lra|apply I2, H].
      * destruct I3 as [I3|(i' & j' & H1 & H2 & H3 & H4)]; [left; exact I3|]. right. exists i', j'. split; [right; exact H1|]. auto.
Qed.
Lemma gap_spec : forall a b, let s := kios_gap a b in 0 <= fst s /\
  (forall x y, In x (ks a) -> In y (ks b) -> dist (so x) (so y) - sr x - sr y <= fst s) /\
  (s = (0, None) \/ exists i j, (i < length (ks a))%nat /\ (j < length (ks b))%nat /\ snd s = Some (i, j) /\
     fst s = dist (so (nth i (ks a) no_sphere)) (so (nth j (ks b) no_sphere)) - sr (nth i (ks a) no_sphere) - sr (nth j (ks b) no_sphere) /\ 0 < fst s).
Proof.
  intros a b. cbv zeta. unfold kios_gap. destruct (gap_fold (ks a) (ks b) (index_pairs (ks a) (ks b)) (0, None) ltac:(cbn; lra)) as (I1 & I2 & I3). cbn [fst] in I1, I3. split; [exact I1|]. split.
  - intros x y Hx Hy. destruct (In_nth _ _ no_sphere Hx) as (i & Hi & Ei). destruct (In_nth _ _ no_sphere Hy) as (j & Hj & Ej). specialize (I2 i j). rewrite Ei, Ej in I2. unfold dist.
    assert (In (i, j) (index_pairs (ks a) (ks b))) by (apply in_prod; apply in_seq; lia). specialize (I2 H). lra.
  - destruct I3 as [I3|(i & j & H1 & H2 & H3 & H4)]; [left; exact I3|]. right. exists i, j. apply in_prod_iff in H1. rewrite !in_seq in H1. unfold dist. split; [lia|]. split; [lia|]. split; [exact H2|]. split; [lra|exact H4].
Qed.
(** The distance is at most that of any two points, and it is the largest distance of two balls, or zero if all pairs touch *)
Theorem kios_distance_bound : forall a b,
  (forall p q, in_kios a p -> in_kios b q -> kios_distance a b <= dist p q) /\
  0 <= kios_distance a b /\ (forall s t, In s (ks a) -> In t (ks b) -> dist (so s) (so t) - sr s - sr t <= kios_distance a b) /\
  (kios_distance a b = 0 \/ exists s t, In s (ks a) /\ In t (ks b) /\ kios_distance a b = dist (so s) (so t) - sr s - sr t).
Proof.
  intros a b. unfold kios_distance. destruct (gap_spec a b) as (I1 & I2 & I3).
  assert (J : fst (kios_gap a b) = 0 \/ exists s t, In s (ks a) /\ In t (ks b) /\ fst (kios_gap a b) = dist (so s) (so t) - sr s - sr t).
  { destruct I3 as [I3|(i & j & H1 & H2 & _ & H3 & _)]; [left; rewrite I3; reflexivity|]. right. eexists _, _. split; [apply nth_In, H1|]. split; [apply nth_In, H2|exact H3]. }
  split; [|auto]. intros p q (Hp & _) (Hq & _). destruct J as [J|(s & t & Hs & Ht & J)]; [rewrite J; apply dist_pos|].
  specialize (Hp s Hs). specialize (Hq t Ht). unfold in_ball in Hp, Hq. rewrite J. pose proof (dist_triangle (so s) p (so t)). pose proof (dist_triangle p q (so t)). rewrite (dist_sym (so s) p) in H. lra.
Qed.
(** With the second volume moved *)
Theorem kios_distance_moved : forall R0 T0 a b p q, ortho R0 -> in_kios a p -> in_kios b q -> kios_distance_rt R0 T0 a b <= dist p (vadd (mapply R0 q) T0).
Proof.
  intros R0 T0 a b p q OR Hp (Hq & _). unfold kios_distance_rt. destruct (kios_distance_bound (Kios (ks a) (mkobb mid p vzero)) (Kios (move_balls R0 T0 (ks b)) (mkobb mid (vadd (mapply R0 q) T0) vzero))) as (B & _).
  assert (Z : forall c, inobb (mkobb mid c vzero) c) by (intros c; exists 0, 0, 0; cbn; repeat (split; [lra|]); destruct c; unfold vadd, mapply, vadd, vscale, mid; cbn; f_equal; ring).
  apply (B p (vadd (mapply R0 q) T0)); split; [exact (proj1 Hp)|apply Z| |apply Z].
  intros s Hs. cbn [ks] in Hs. unfold move_balls in Hs. apply in_map_iff in Hs. destruct Hs as (s0 & <- & Hs). unfold in_ball. cbn [so sr]. specialize (Hq s0 Hs). unfold in_ball in Hq.
  replace (dist (vadd (mapply R0 q) T0) (vadd (mapply R0 (so s0)) T0)) with (dist q (so s0)); [exact Hq|]. unfold dist. rewrite <- (P_HalfQuery.mapply_norm R0 (vsub q (so s0)) OR). f_equal. vring.
Qed.
Print Assumptions kios_distance_bound.
Print Assumptions kios_distance_moved.
(** The points P and Q are made from two spheres of the first volume, so they do not depend on where the second one is: for volumes with one ball
    each that are apart there is always a division by zero; otherwise P and Q are undefined or both are computed from balls of the first volume *)
Theorem kios_points_refuted : forall a b, (0 < kios_distance a b -> length (ks a) = 1%nat -> length (ks b) = 1%nat -> kios_points a b = Undef) /\
  forall p q, kios_points a b = At p q -> exists s t, In s (ks a) /\ In t (ks b) /\ dist (so s) (so t) - sr s - sr t = kios_distance a b /\
    exists t', In t' (ks a) /\ p = vsub (so s) (vscale (sr s / dist (so s) (so t')) (vsub (so s) (so t'))) /\ q = vadd (so t') (vscale (sr t' / dist (so s) (so t')) (vsub (so s) (so t'))).
Proof.
  intros a b. unfold kios_points, kios_distance. destruct (gap_spec a b) as (I1 & I2 & I3). destruct I3 as [I3|(i & j & H1 & H2 & H3 & H4 & H5)].
  - rewrite I3. cbn. split; [lra|discriminate].
  - rewrite H3. cbv zeta. split.
    + intros _ La Lb. replace i with 0%nat by lia. replace j with 0%nat by lia. rewrite vsub_self, norm_vzero. destruct (Rlt_dec 0 0); [lra|]. destruct (negb _); reflexivity.
    + intros p q. destruct (Nat.ltb j (length (ks a))) eqn:J; cbn [negb]; [|discriminate]. apply Nat.ltb_lt in J. destruct (Rlt_dec _ _) as [L|L]; [|discriminate]. intros E. injection E as <- <-. exists (nth i (ks a) no_sphere), (nth j (ks b) no_sphere). split; [apply nth_In, H1|]. split; [apply nth_In, H2|]. split; [symmetry; exact H4|].
      exists (nth j (ks a) no_sphere). split; [apply nth_In, J|]. split; reflexivity.
Qed.
Print Assumptions kios_points_refuted.

(** ** Translation *)
(** The balls are moved, the box is not: a moved point is in the result exactly if it is in the box where that was, so none is if the
    displacement along an axis is more than the size of the box *)
Theorem kios_translate_refuted : forall a t p, in_kios a p ->
  (in_kios (kios_translate a t) (vadd p t) <-> inobb (kb a) (vadd p t)) /\
  (ortho (ax (kb a)) -> 2 * c0 (ext (kb a)) < Rabs (dot (m0 (ax (kb a))) t) \/ 2 * c1 (ext (kb a)) < Rabs (dot (m1 (ax (kb a))) t) \/ 2 * c2 (ext (kb a)) < Rabs (dot (m2 (ax (kb a))) t) ->
   ~ in_kios (kios_translate a t) (vadd p t)).
Proof.
  intros a t p (H & B). assert (I : in_kios (kios_translate a t) (vadd p t) <-> inobb (kb a) (vadd p t)).
  { unfold in_kios, kios_translate. cbn [ks kb]. split; [tauto|]. intros K. split; [|exact K]. intros s Hs. apply in_map_iff in Hs. destruct Hs as (s0 & <- & Hs). specialize (H s0 Hs). unfold in_ball in *. cbn [so sr].
    replace (dist (vadd p t) (vadd (so s0) t)) with (dist p (so s0)); [exact H|]. unfold dist. f_equal. vring. }
  split; [exact I|]. intros O D K. apply I in K. apply inobb_iff in K; [|exact O]. apply inobb_iff in B; [|exact O].
  assert (E : forall x, dot x (vsub (vadd p t) (oc (kb a))) = dot x (vsub p (oc (kb a))) + dot x t) by (intros x; generalize (oc (kb a)); intros; vring).
  assert (E' : forall x, dot (vsub (vadd p t) (oc (kb a))) x = dot (vsub p (oc (kb a))) x + dot x t) by (intros x; generalize (oc (kb a)); intros; vring).
  rewrite ?E, ?E' in K. destruct D as [D|[D|D]]; revert D; unfold Rabs; destruct (Rcase_abs _); intros; lra.
Qed.
Print Assumptions kios_translate_refuted.

(** ** Fitting *)
Lemma max_fold : forall q ps m, 0 <= m -> let M := fold_left (fun m p => let d := norm2 (vsub p q) in if Rlt_dec m d then d else m) ps m in
  m <= M /\ (forall p, In p ps -> norm2 (vsub p q) <= M) /\ (M = m \/ exists p, In p ps /\ M = norm2 (vsub p q)).
Proof.
  intros q ps. induction ps as [|p ps IH]; intros m P; cbn [fold_left]; cbv zeta.
  - split; [lra|]. split; [intros p []|left; reflexivity].
  - set (m' := if Rlt_dec m (norm2 (vsub p q)) then norm2 (vsub p q) else m). assert (Q : m <= m' /\ norm2 (vsub p q) <= m' /\ (m' = m \/ m' = norm2 (vsub p q))) by (unfold m'; destruct (Rlt_dec m (norm2 (vsub p q))); (split; [lra|split; [lra|auto]])).
    destruct (IH m' ltac:(lra)) as (I1 & I2 & I3). cbv zeta in I1, I2, I3. split; [lra|]. split; [intros p' [<-|H]; [lra|apply I2, H]|].
    destruct I3 as [I3|(p' & H & I3)]; [|right; exists p'; split; [right; exact H|exact I3]]. destruct Q as (_ & _ & [Q|Q]); [left; lra|right; exists p; split; [left; reflexivity|lra]].
Qed.
Lemma max_dist_spec : forall ps q, 0 <= max_dist ps q /\ (forall p, In p ps -> dist p q <= max_dist ps q) /\ (forall r, 0 <= r -> (forall p, In p ps -> dist p q <= r) -> max_dist ps q <= r).
Proof.
  intros ps q. unfold max_dist. destruct (max_fold q ps 0 ltac:(lra)) as (I1 & I2 & I3). cbv zeta in I1, I2, I3. set (M := fold_left _ ps 0) in *.
  split; [apply sqrt_pos|]. split; [intros p H; apply sqrt_le_1_alt, I2, H|]. intros r Hr H. apply sqrt_le_r; [exact Hr|]. destruct I3 as [->|(p & Hp & ->)]; [nra|]. apply dist_le; [exact Hr|apply H, Hp].
Qed.

(** a ball moved outwards along a unit vector still holds the points *)
Lemma side_balls_hold : forall ps c a t r p, dot a a = 1 -> 0 <= r -> In p ps -> (forall q, In q ps -> dist q (vsub c (vscale t a)) <= r) -> (forall q, In q ps -> dist q (vadd c (vscale t a)) <= r) ->
  in_balls (side_balls ps c a t r) p.
Proof.
  intros ps c a t r p U Hr Hp H1 H2 s Hs. assert (N : norm a = 1) by (unfold norm, norm2; rewrite U; apply sqrt_1).
  destruct (max_dist_spec ps (vsub c (vscale t a))) as (_ & A1 & A2). destruct (max_dist_spec ps (vadd c (vscale t a))) as (_ & B1 & B2). specialize (A2 r Hr H1). specialize (B2 r Hr H2). specialize (A1 p Hp). specialize (B1 p Hp).
  unfold side_balls in Hs. cbv zeta in Hs. set (o1 := vsub c (vscale t a)) in *. set (o2 := vadd c (vscale t a)) in *. destruct Hs as [<-|[<-|[]]]; unfold in_ball; cbn [so sr].
  - pose proof (dist_triangle p o1 (vadd o1 (vscale (- r + max_dist ps o1) a))) as T. rewrite dist_along, N, Rabs_left1 in T by lra. lra.
  - pose proof (dist_triangle p o2 (vadd o2 (vscale (r - max_dist ps o2) a))) as T. rewrite dist_along, N, Rabs_pos_eq in T by lra. lra.
Qed.

Lemma ec_attained : forall xs mn mx, snd (fold_left ecstep xs (mn, mx)) = mx \/ In (snd (fold_left ecstep xs (mn, mx))) xs.
Proof.
  induction xs as [|x xs IH]; intros mn mx; cbn [fold_left]; [left; reflexivity|]. unfold ecstep at 2 4. cbn [fst snd].
  destruct (IH (if Rlt_dec x mn then x else mn) (if Rlt_dec mx x then x else mx)) as [H|H]; [|right; right; exact H]. rewrite H. destruct (Rlt_dec mx x); [right; left; reflexivity|left; reflexivity].
Qed.
Lemma local_norm2 : forall A u0 u1 u2, ortho A -> norm2 (mapply A (mk3 u0 u1 u2)) = u0 * u0 + u1 * u1 + u2 * u2.
Proof.
  intros A u0 u1 u2 (O00 & O11 & O22 & O01 & O02 & O12).
  replace (norm2 (mapply A (mk3 u0 u1 u2))) with (u0 * u0 * dot (VecR.m0 A) (VecR.m0 A) + u1 * u1 * dot (VecR.m1 A) (VecR.m1 A) + u2 * u2 * dot (VecR.m2 A) (VecR.m2 A) + 2 * (u0 * u1) * dot (VecR.m0 A) (VecR.m1 A) + 2 * (u0 * u2) * dot (VecR.m0 A) (VecR.m2 A) + 2 * (u1 * u2) * dot (VecR.m1 A) (VecR.m2 A)) by vring.
  rewrite O00, O11, O22, O01, O02, O12. ring.
Qed.
(** The first half-length of the box is reached by a point *)
Lemma extent_reached : forall big A ps p0, ortho A -> In p0 ps -> (forall p, In p ps -> - big < dot (VecR.m0 A) p) -> c0 (ext (extent_center big A ps)) <= max_dist ps (oc (extent_center big A ps)).
Proof.
  intros big A ps p0 O Hp Hb. set (b := extent_center big A ps). pose proof (ec_fold (map (fun p => dot (col 0 A) p) ps) big (- big)) as F. cbv zeta in F. destruct F as (_ & _ & F).
  pose proof (ec_attained (map (fun p => dot (col 0 A) p) ps) big (- big)) as T. set (s := fold_left ecstep (map (fun p => dot (col 0 A) p) ps) (big, - big)) in *.
  assert (E : exists p, In p ps /\ dot (VecR.m0 A) p = snd s).
  { destruct T as [T|T]; [|apply in_map_iff in T; destruct T as (p & E & H); exists p; auto]. exfalso. specialize (F (dot (col 0 A) p0)). pose proof (Hb p0 Hp) as B. change (col 0 A) with (VecR.m0 A) in F. destruct F as (_ & F); [|lra]. apply in_map_iff. exists p0. split; [reflexivity|exact Hp]. }
  destruct E as (p & Hpp & E). destruct (max_dist_spec ps (oc b)) as (_ & M & _). apply Rle_trans with (dist p (oc b)); [|apply M, Hpp].
  destruct (extent_center_in big A ps p O Hpp) as (u0 & u1 & u2 & _ & _ & _ & Ep). fold b in Ep. change (ax b) with A in Ep.
  assert (U : u0 = c0 (ext b)).
  { assert (D : dot (VecR.m0 A) p = dot (VecR.m0 A) (oc b) + u0).
    { rewrite Ep at 1. destruct O as (O00 & O11 & O22 & O01 & O02 & O12). generalize (oc b). intros c.
      replace (dot (VecR.m0 A) (vadd c (mapply A (mk3 u0 u1 u2)))) with (dot (VecR.m0 A) c + u0 * dot (VecR.m0 A) (VecR.m0 A) + u1 * dot (VecR.m0 A) (VecR.m1 A) + u2 * dot (VecR.m0 A) (VecR.m2 A)) by (clear; vring). rewrite O00, O01, O02. ring. }
    assert (C : dot (VecR.m0 A) (oc b) = (snd s + fst s) / 2).
    { unfold b, extent_center. cbv zeta. cbn [oc]. fold s. destruct O as (O00 & O11 & O22 & O01 & O02 & O12). match goal with |- dot _ (mapply A (mk3 ?x ?y ?z)) = _ => generalize x y z end. intros x y z.
      replace (dot (VecR.m0 A) (mapply A (mk3 x y z))) with (x * dot (VecR.m0 A) (VecR.m0 A) + y * dot (VecR.m0 A) (VecR.m1 A) + z * dot (VecR.m0 A) (VecR.m2 A)) by (clear; vring). rewrite O00, O01, O02. ring. }
    assert (X : c0 (ext b) = (snd s - fst s) / 2) by reflexivity. rewrite E, C in D. lra. }
  unfold dist. replace (vsub p (oc b)) with (mapply A (mk3 u0 u1 u2)) by (rewrite Ep; generalize (mapply A (mk3 u0 u1 u2)) (oc b); clear; vring).
  apply Rnot_lt_le. intros L. assert (P : 0 <= norm (mapply A (mk3 u0 u1 u2))) by apply sqrt_pos. pose proof (norm_sq (mapply A (mk3 u0 u1 u2))) as Q. rewrite local_norm2 in Q by exact O. nra.
Qed.

Lemma dist_local : forall A c p u0 u1 u2 x0 x1 x2, ortho A -> p = vadd c (mapply A (mk3 u0 u1 u2)) ->
  norm2 (vsub p (vadd c (mapply A (mk3 x0 x1 x2)))) = (u0 - x0) * (u0 - x0) + (u1 - x1) * (u1 - x1) + (u2 - x2) * (u2 - x2).
Proof.
  intros A c p u0 u1 u2 x0 x1 x2 O ->. rewrite <- (local_norm2 A (u0 - x0) (u1 - x1) (u2 - x2) O). f_equal. clear. vdestr. vunf. vunf. f_equal; ring.
Qed.
Lemma axis2 : forall A t, vscale t (VecR.m2 A) = mapply A (mk3 0 0 t).
Proof. intros A t. vdestr. vunf. vunf. f_equal; ring. Qed.
Lemma axis1 : forall A t, vscale t (VecR.m1 A) = mapply A (mk3 0 t 0).
Proof. intros A t. vdestr. vunf. vunf. f_equal; ring. Qed.
Lemma sub_axis : forall c t a, vsub c (vscale t a) = vadd c (vscale (- t) a).
Proof. intros c t a. vdestr. vunf. vunf. f_equal; ring. Qed.

Lemma dist_le_sq : forall p q r, 0 <= r -> norm2 (vsub p q) <= r * r -> dist p q <= r.
Proof. intros p q r Hr H. apply dist_le; assumption. Qed.

Lemma around_hold : forall ps b, ortho (ax b) -> (forall p, In p ps -> inobb b p) -> c0 (ext b) <= max_dist ps (oc b) ->
  0 <= c1 (ext b) -> 0 <= c2 (ext b) -> forall p, In p ps -> in_balls (ks (kios_around ps b)) p.
Proof.
  intros ps b O In_b Re E1 E2 p Hp s Hs. unfold kios_around in Hs. cbv zeta in Hs. cbn [ks] in Hs.
  destruct (max_dist_spec ps (oc b)) as (M0 & M1 & _). set (r0 := max_dist ps (oc b)) in *. set (e0 := c0 (ext b)) in *. set (e1 := c1 (ext b)) in *. set (e2 := c2 (ext b)) in *.
  destruct Hs as [<-|Hs]; [unfold in_ball; cbn [so sr]; apply M1, Hp|].
  destruct (Rlt_dec (3 / 2 * e2) e0) as [L2|_]; [|destruct Hs].
  set (rho2 := r0 * r0 - e2 * e2) in *. assert (P2 : 5 / 4 * (e2 * e2) <= rho2 /\ e0 * e0 - e2 * e2 <= rho2) by (unfold rho2; split; nra).
  set (rho := sqrt rho2) in *. assert (R0 : 0 <= rho) by apply sqrt_pos. assert (RR : rho * rho = rho2) by (apply sqrt_def; nra).
  assert (S3 : sqrt 3 * sqrt 3 = 3) by (apply sqrt_def; lra). assert (S3p : 0 <= sqrt 3) by apply sqrt_pos.
  set (r10 := rho * 2) in *. set (K := r10 * cosA) in *. assert (KK : K * K = 3 * rho2) by (unfold K, r10, cosA; rewrite <- RR; nra). assert (K0 : 0 <= K) by (unfold K, r10, cosA; nra). assert (Ke : e2 <= K) by (apply Rnot_lt_le; intros L; nra).
  assert (Q10 : r10 * r10 = 4 * rho2) by (unfold r10; nra). assert (P10 : 0 <= r10) by (unfold r10; nra).
  assert (Lc : forall q, In q ps -> exists u0 u1 u2, - e0 <= u0 <= e0 /\ - e1 <= u1 <= e1 /\ - e2 <= u2 <= e2 /\ q = vadd (oc b) (mapply (ax b) (mk3 u0 u1 u2)) /\ u0 * u0 + u1 * u1 + u2 * u2 <= r0 * r0).
  { intros q Hq. destruct (In_b q Hq) as (u0 & u1 & u2 & B0 & B1 & B2 & E). exists u0, u1, u2. split; [exact B0|]. split; [exact B1|]. split; [exact B2|]. split; [exact E|].
    pose proof (proj1 (dist_le q (oc b) r0 M0) (M1 q Hq)) as D. rewrite E in D. replace (vsub (vadd (oc b) (mapply (ax b) (mk3 u0 u1 u2))) (oc b)) with (mapply (ax b) (mk3 u0 u1 u2)) in D by (generalize (mapply (ax b) (mk3 u0 u1 u2)) (oc b); clear; vring). rewrite local_norm2 in D by exact O. exact D. }
  destruct O as (O00 & O11 & O22 & OR) eqn:OE. assert (OO : ortho (ax b)) by exact O. clear OE.
  apply in_app_or in Hs. destruct Hs as [Hs|Hs].
  - refine (side_balls_hold ps _ _ _ r10 p O22 P10 Hp _ _ s Hs); intros q Hq; destruct (Lc q Hq) as (u0 & u1 & u2 & B0 & B1 & B2 & E & D); apply dist_le_sq; try exact P10.
    + rewrite sub_axis, axis2, (dist_local _ _ _ u0 u1 u2 _ _ _ OO E), Q10. unfold rho2 in *. nra.
    + rewrite axis2, (dist_local _ _ _ u0 u1 u2 _ _ _ OO E), Q10. unfold rho2 in *. nra.
  - destruct (Rlt_dec (3 / 2 * e1) e0) as [L1|_]; [|destruct Hs]. set (w2 := r10 * r10 - e0 * e0 - e2 * e2) in *.
    assert (W2 : e1 * e1 <= w2) by (unfold w2; rewrite Q10; nra). set (w := sqrt w2) in *. assert (W0 : 0 <= w) by apply sqrt_pos. assert (WW : w * w = w2) by (apply sqrt_def; nra). assert (We : e1 <= w) by (apply Rnot_lt_le; intros L; nra).
    refine (side_balls_hold ps _ _ _ r10 p O11 P10 Hp _ _ s Hs); intros q Hq; destruct (Lc q Hq) as (u0 & u1 & u2 & B0 & B1 & B2 & E & D); apply dist_le_sq; try exact P10.
    + rewrite sub_axis, axis1, (dist_local _ _ _ u0 u1 u2 _ _ _ OO E). unfold w2 in *. assert (u0 * u0 <= e0 * e0) by nra. assert (u2 * u2 <= e2 * e2) by nra. assert ((u1 - - (w - e1)) * (u1 - - (w - e1)) <= w * w) by nra. lra.
    + rewrite axis1, (dist_local _ _ _ u0 u1 u2 _ _ _ OO E). unfold w2 in *. assert (u0 * u0 <= e0 * e0) by nra. assert (u2 * u2 <= e2 * e2) by nra. assert ((u1 - (w - e1)) * (u1 - (w - e1)) <= w * w) by nra. lra.
Qed.

Lemma around_radii : forall ps b, radii_ok (kios_around ps b).
Proof.
  intros ps b s H. unfold kios_around in H. cbv zeta in H. cbn [ks] in H. unfold side_balls in H. cbv zeta in H.
  assert (P : forall x, 0 <= sqrt x * 2) by (intros x; pose proof (sqrt_pos x); lra).
  destruct H as [<-|H]; [apply max_dist_spec|]. destruct (Rlt_dec (3 / 2 * c2 (ext b)) (c0 (ext b))); [|destruct H]. apply in_app_or in H. destruct H as [[<-|[<-|[]]]|H]; try (cbn [sr]; apply P).
  destruct (Rlt_dec (3 / 2 * c1 (ext b)) (c0 (ext b))); [|destruct H]. destruct H as [<-|[<-|[]]]; cbn [sr]; apply P.
Qed.

Lemma around_extent : forall big A ps, ortho A -> (forall p, In p ps -> norm p < big) -> forall p, In p ps -> in_kios (kios_around ps (extent_center big A ps)) p.
Proof.
  intros big A ps O B p Hp. pose proof (extent_center_in big A ps p O Hp) as I. split; [|exact I]. destruct I as (u0 & u1 & u2 & B0 & B1 & B2 & _).
  apply around_hold; [exact O|intros q Hq; apply extent_center_in; assumption| |lra|lra|exact Hp].
  apply (extent_reached big A ps p O Hp). intros q Hq. destruct O as (O00 & _). pose proof (cauchy_schwarz_abs (VecR.m0 A) q) as C. assert (N : norm (VecR.m0 A) = 1) by (unfold norm, norm2; rewrite O00; apply sqrt_1).
  rewrite N in C. pose proof (B q Hq). unfold Rabs in C. destruct (Rcase_abs _); lra.
Qed.
Lemma around_count : forall ps b, In (length (ks (kios_around ps b))) [1; 3; 5]%nat.
Proof.
  intros ps b. unfold kios_around. cbv zeta. cbn [ks]. destruct (Rlt_dec (3 / 2 * c2 (ext b)) (c0 (ext b))); [|left; reflexivity]. destruct (Rlt_dec (3 / 2 * c1 (ext b)) (c0 (ext b))); [right; right; left; reflexivity|right; left; reflexivity].
Qed.

Lemma form_gen : forall big ps (e : option (v3 * mat3)) b, (forall s V, e = Some (s, V) -> ortho (axis_from_eigen s V)) ->
  match e with Some (s, V) => Some (extent_center big (axis_from_eigen s V) ps) | None => None end = Some b -> exists A, ortho A /\ b = extent_center big A ps.
Proof. intros big ps [[s V]|] b H E; [|discriminate E]. exists (axis_from_eigen s V). split; [apply H; reflexivity|]. injection E as <-. reflexivity. Qed.
#[local] Strategy 1000 [eigen_old].
Lemma fitn_form : forall big absorbed ps b, obb_fitn big absorbed ps = Some b -> exists A, ortho A /\ b = extent_center big A ps.
Proof.
  intros big absorbed ps b E. unfold obb_fitn in E. refine (form_gen big ps (eigen_old absorbed (covariance ps)) b _ E). intros s V H. apply P_Eigen3.eigen_old_orthonormal in H. apply H.
Qed.
(** Fitting any number of points closer to the origin than the largest number: if the eigensolver returns, there are one, three or five
    balls, and the volume encloses the points *)
Theorem kios_fitn_encloses : forall big absorbed ps k, kios_fitn big absorbed ps = Some k -> (forall p, In p ps -> norm p < big) ->
  radii_ok k /\ ortho (ax (kb k)) /\ In (length (ks k)) [1; 3; 5]%nat /\ forall p, In p ps -> in_kios k p.
Proof.
  intros big absorbed ps k E B. unfold kios_fitn in E. destruct (obb_fitn big absorbed ps) as [b|] eqn:F; [|discriminate E]. apply fitn_form in F. destruct F as (A & O & F).
  assert (K : k = kios_around ps b) by (injection E as E; symmetry; exact E). rewrite K. split; [apply around_radii|]. split; [change (ortho (ax b)); rewrite F; exact O|]. split; [apply around_count|]. rewrite F. apply around_extent; assumption.
Qed.
Print Assumptions kios_fitn_encloses.

(** One point *)
Theorem kios_fit1_exact : forall p q, in_kios (kios_fit1 p) q <-> q = p.
Proof.
  intros p q. unfold in_kios, in_balls, in_ball, kios_fit1. cbn [ks kb]. split.
  - intros (H & _). specialize (H (Sph p 0) (or_introl eq_refl)). cbn [so sr] in H. apply dist_le in H; [|lra]. destruct q as [x y z], p as [x' y' z']. unfold norm2, dot, vsub in H. cbn in H. assert (Z : forall u v w, u * u + v * v + w * w <= 0 * 0 -> u = 0) by (clear; intros; nra). pose proof (Z _ _ _ H). assert (y - y' = 0) by (apply (Z _ (x - x') (z - z')); lra). assert (z - z' = 0) by (apply (Z _ (x - x') (y - y')); lra). f_equal; lra.
  - intros ->. split.
    + intros s [<-|[]]. cbn [so sr]. unfold dist. rewrite vsub_self, norm_vzero. lra.
    + exists 0, 0, 0. unfold obb_fit1. cbn [ax oc ext c0 c1 c2 vzero]. repeat (split; [lra|]). destruct p. unfold mid, mapply, vadd, vscale. cbn. f_equal; ring.
Qed.
Print Assumptions kios_fit1_exact.

Lemma off_axis : forall c p a t r, 0 <= r -> dot a a = 1 -> dot (vsub p c) a = 0 -> norm2 (vsub p c) + t * t <= r * r -> in_ball (Sph (vadd c (vscale t a)) r) p /\ in_ball (Sph (vsub c (vscale t a)) r) p.
Proof.
  intros c p a t r Hr U D H. unfold in_ball. cbn [so sr]. split; apply dist_le; try exact Hr.
  - replace (norm2 (vsub p (vadd c (vscale t a)))) with (norm2 (vsub p c) - 2 * t * dot (vsub p c) a + t * t * dot a a) by (clear; vring). rewrite U, D. lra.
  - replace (norm2 (vsub p (vsub c (vscale t a)))) with (norm2 (vsub p c) + 2 * t * dot (vsub p c) a + t * t * dot a a) by (clear; vring). rewrite U, D. lra.
Qed.
Lemma cosA_sq : cosA * cosA = 3 / 4 /\ 0 <= cosA.
Proof. unfold cosA. pose proof (sqrt_def 3 ltac:(lra)). pose proof (sqrt_pos 3). split; nra. Qed.
Lemma coord_same : forall uo d, 0 < norm2 d -> coord_system uo d = coord_system uo (normalize d) /\ dot (normalize d) (normalize d) = 1 /\ d = vscale (norm d) (normalize d).
Proof.
  intros uo d H. assert (P : 0 < norm d) by (apply sqrt_lt_R0; exact H). assert (E : d = vscale (norm d) (normalize d)). { unfold normalize. destruct (Rlt_dec 0 (norm2 d)); [|lra]. destruct d as [x y z]. unfold vscale. cbn. f_equal; field; lra. }
  assert (U : dot (normalize d) (normalize d) = 1). { unfold normalize. destruct (Rlt_dec 0 (norm2 d)); [|lra]. pose proof (norm_sq d) as Q. replace (dot (vscale (/ norm d) d) (vscale (/ norm d) d)) with (/ norm d * / norm d * norm2 d) by (clear; vring). rewrite <- Q. field. lra. }
  split; [|split; [exact U|exact E]]. unfold coord_system. cbv zeta. rewrite (P_HalfBV.normalize_unit _ U). reflexivity.
Qed.

(** Two different points: five balls *)
Theorem kios_fit2_encloses : forall uo p1 p2, P_HalfBV.orthogonal_of uo -> p1 <> p2 -> radii_ok (kios_fit2 uo p1 p2) /\ ortho (ax (kb (kios_fit2 uo p1 p2))) /\ in_kios (kios_fit2 uo p1 p2) p1 /\ in_kios (kios_fit2 uo p1 p2) p2.
Proof.
  intros uo p1 p2 Hu Hn. set (d := vsub p1 p2).
  assert (Hd : 0 < norm2 d).
  { apply norm2_pos. intros E. apply Hn. unfold d in E. destruct p1, p2. unfold vsub, vzero in E. cbn in E. injection E as X Y Z. f_equal; lra. }
  destruct (coord_same uo d Hd) as (C1 & U & Ed). destruct (P_HalfBV.coord_system_form uo _ Hu U) as (CF & O). destruct (obb_fit2_encloses uo p1 p2 Hn) as (I1 & I2). destruct cosA_sq as (CQ & CP). assert (N0 : 0 <= norm d) by apply sqrt_pos. pose proof (norm_sq d) as NQ.
  assert (OB : ortho (coord_system uo d)) by (rewrite C1; exact O). assert (M0 : VecR.m0 (coord_system uo d) = normalize d) by reflexivity.
  split; [|split; [exact OB|]].
  { intros s H. unfold kios_fit2 in H. cbv zeta in H. cbn [ks] in H. fold d in H. destruct H as [<-|[<-|[<-|[<-|[<-|[]]]]]]; cbn [sr]; lra. }
  assert (G : forall p e, (e = 1 / 2 \/ e = - (1 / 2)) -> vsub p (vscale (1 / 2) (vadd p1 p2)) = vscale e d -> in_balls (ks (kios_fit2 uo p1 p2)) p).
  { intros p e He Ep s H. unfold kios_fit2 in H. cbv zeta in H. cbn [ks] in H. unfold obb_fit2 in H. cbn [ax oc] in H. fold d in H. set (c := vscale (1 / 2) (vadd p1 p2)) in *.
    assert (N : norm2 (vsub p c) = norm2 d / 4) by (rewrite Ep, norm2_scale; destruct He as [-> | ->]; field).
    destruct OB as (_ & O11 & O22 & O01 & O02 & _). rewrite M0 in O01, O02.
    assert (D1 : dot (vsub p c) (VecR.m1 (coord_system uo d)) = 0) by (rewrite Ep, Ed at 1; replace (dot (vscale e (vscale (norm d) (normalize d))) (VecR.m1 (coord_system uo d))) with (e * norm d * dot (normalize d) (VecR.m1 (coord_system uo d))) by (generalize (normalize d) (VecR.m1 (coord_system uo d)) (norm d); clear; vring); rewrite O01; ring).
    assert (D2 : dot (vsub p c) (VecR.m2 (coord_system uo d)) = 0) by (rewrite Ep, Ed at 1; replace (dot (vscale e (vscale (norm d) (normalize d))) (VecR.m2 (coord_system uo d))) with (e * norm d * dot (normalize d) (VecR.m2 (coord_system uo d))) by (generalize (normalize d) (VecR.m2 (coord_system uo d)) (norm d); clear; vring); rewrite O02; ring).
    assert (Q : norm2 (vsub p c) + (norm d * (1 / 2) * 2 * cosA) * (norm d * (1 / 2) * 2 * cosA) <= (norm d * (1 / 2) * 2) * (norm d * (1 / 2) * 2)).
    { rewrite N. replace ((norm d * (1 / 2) * 2 * cosA) * (norm d * (1 / 2) * 2 * cosA)) with (norm d * norm d * (cosA * cosA)) by field. rewrite CQ. nra. }
    destruct H as [<-|H]; [unfold in_ball; cbn [so sr]; apply dist_le; [lra|]; rewrite N; nra|].
    destruct H as [<-|[<-|[<-|[<-|[]]]]]; (apply off_axis; [lra| | |exact Q]); assumption. }
  split; (split; [|assumption]); [apply (G p1 (1 / 2))|apply (G p2 (- (1 / 2)))]; auto; unfold d; clear; destruct p1, p2; unfold vadd, vscale, vsub; cbn; f_equal; field.
Qed.
Print Assumptions kios_fit2_encloses.

(** The centre of the circumscribed circle has the same distance r0 to the corners, and lies in their plane *)
Lemma circum_centre : forall a b c, 0 < norm2 (cross (vsub a c) (vsub b c)) -> let '(o, r) := circum_circle a b c in
  0 <= r /\ forall p, In p [a; b; c] -> norm2 (vsub p o) = r * r /\ dot (vsub p o) (cross (vsub a c) (vsub b c)) = 0.
Proof.
  intros a b c L. unfold circum_circle. cbv zeta. set (e1 := vsub a c) in *. set (e2 := vsub b c) in *. set (l3 := norm2 (cross e1 e2)) in *.
  set (w := cross (vsub (vscale (norm2 e1) e2) (vscale (norm2 e2) e1)) (cross e1 e2)) in *. set (k := 1 / 2 * 1 / l3).
  assert (W1 : dot w e1 = norm2 e1 * l3) by (unfold w, l3; clear; vring). assert (W2 : dot w e2 = norm2 e2 * l3) by (unfold w, l3; clear; vring). assert (W3 : dot w (cross e1 e2) = 0) by (unfold w; clear; vring).
  assert (WW : norm2 w = norm2 e1 * norm2 e2 * norm2 (vsub e1 e2) * l3).
  { unfold w, l3. pose proof (lagrange (vsub (vscale (norm2 e1) e2) (vscale (norm2 e2) e1)) (cross e1 e2)) as G. replace (dot (vsub (vscale (norm2 e1) e2) (vscale (norm2 e2) e1)) (cross e1 e2)) with 0 in G by (clear; vring).
    replace (norm2 (vsub (vscale (norm2 e1) e2) (vscale (norm2 e2) e1))) with (norm2 e1 * norm2 e2 * norm2 (vsub e1 e2)) in G by (clear; vring). lra. }
  assert (KL : k * l3 = 1 / 2) by (unfold k; field; lra). pose proof (norm2_nonneg e1) as P1. pose proof (norm2_nonneg e2) as P2. pose proof (norm2_nonneg (vsub e1 e2)) as P3.
  assert (Y : 0 <= norm2 e1 * norm2 e2 * norm2 (vsub e1 e2) / l3) by (apply Rmult_le_pos; [apply Rmult_le_pos; [apply Rmult_le_pos|]; assumption|apply Rlt_le, Rinv_0_lt_compat, L]).
  set (y := norm2 e1 * norm2 e2 * norm2 (vsub e1 e2) / l3) in *. assert (RR : sqrt y * (1 / 2) * (sqrt y * (1 / 2)) = y / 4) by (pose proof (sqrt_def y Y); nra).
  assert (OO : k * k * norm2 w = y / 4) by (rewrite WW; unfold k, y; field; lra).
  split; [pose proof (sqrt_pos y); lra|]. intros p H. rewrite RR.
  assert (Q : exists e, vsub p (vadd c (vscale k w)) = vsub e (vscale k w) /\ norm2 e = 2 * k * dot w e /\ dot e (cross e1 e2) = 0).
  { destruct H as [<-|[<-|[<-|[]]]].
    - exists e1. split; [unfold e1; generalize (vscale k w); clear; vring|]. split; [rewrite W1; replace (2 * k * (norm2 e1 * l3)) with (2 * (k * l3) * norm2 e1) by ring; rewrite KL; field|clear; vring].
    - exists e2. split; [unfold e2; generalize (vscale k w); clear; vring|]. split; [rewrite W2; replace (2 * k * (norm2 e2 * l3)) with (2 * (k * l3) * norm2 e2) by ring; rewrite KL; field|clear; vring].
    - exists vzero. split; [generalize (vscale k w); clear; vring|]. split; generalize w; clear; vring. }
  destruct Q as (e & -> & Q1 & Q2). split.
  - replace (norm2 (vsub e (vscale k w))) with (norm2 e - 2 * k * dot w e + k * k * norm2 w) by (generalize w; clear; vring). lra.
  - replace (dot (vsub e (vscale k w)) (cross e1 e2)) with (dot e (cross e1 e2) - k * dot w (cross e1 e2)) by (generalize w (cross e1 e2); clear; vring). rewrite Q2, W3. ring.
Qed.

(** Three points that are not on a line: three balls *)
Theorem kios_fit3_encloses : forall big p1 p2 p3, cross (vsub p1 p2) (vsub p2 p3) <> vzero ->
  radii_ok (kios_fit3 big p1 p2 p3) /\ ortho (ax (kb (kios_fit3 big p1 p2 p3))) /\ forall p, In p [p1; p2; p3] -> in_kios (kios_fit3 big p1 p2 p3) p.
Proof.
  intros big p1 p2 p3 H. pose proof (obb_fit3_encloses big p1 p2 p3 H) as I. pose proof (fit3_ortho p1 p2 p3 H) as O.
  assert (E : cross (vsub p1 p2) (vsub p2 p3) = cross (vsub p1 p3) (vsub p2 p3)) by (clear; vring).
  assert (L : 0 < norm2 (cross (vsub p1 p3) (vsub p2 p3))) by (apply norm2_pos; rewrite <- E; exact H).
  pose proof (circum_centre p1 p2 p3 L) as C. unfold kios_fit3. cbv zeta. destruct (circum_circle p1 p2 p3) as [c r0]. destruct C as (R0 & C). destruct cosA_sq as (CQ & CP).
  change (ax (obb_fit3 big p1 p2 p3)) with (fit3_axis p1 p2 p3). cbn [ks kb].
  split; [intros s [<-|[<-|[<-|[]]]]; cbn [sr]; lra|]. split; [exact O|]. intros p Hp. split; [|apply I, Hp]. destruct (C p Hp) as (D & D3).
  assert (M2 : exists m, VecR.m2 (fit3_axis p1 p2 p3) = vscale m (cross (vsub p1 p3) (vsub p2 p3))).
  { rewrite <- E. unfold fit3_axis. cbv zeta. destruct (if Rlt_dec (norm2 (vsub p1 p2)) (norm2 (vsub p2 p3)) then _ else _) as [em lm]. cbn [VecR.m2]. unfold normalize at 1. rewrite <- E in L. destruct (Rlt_dec 0 _); [|lra]. eexists. reflexivity. }
  destruct M2 as (m & M2). destruct O as (_ & _ & O22 & _).
  assert (DA : dot (vsub p c) (VecR.m2 (fit3_axis p1 p2 p3)) = 0) by (rewrite M2; replace (dot (vsub p c) (vscale m (cross (vsub p1 p3) (vsub p2 p3)))) with (m * dot (vsub p c) (cross (vsub p1 p3) (vsub p2 p3))) by (generalize (cross (vsub p1 p3) (vsub p2 p3)); clear; vring); rewrite D3; ring).
  assert (Q : norm2 (vsub p c) + (r0 * 2 * cosA) * (r0 * 2 * cosA) <= (r0 * 2) * (r0 * 2)).
  { rewrite D. replace ((r0 * 2 * cosA) * (r0 * 2 * cosA)) with (r0 * r0 * 4 * (cosA * cosA)) by ring. rewrite CQ. lra. }
  intros s [<-|[<-|[<-|[]]]]; [unfold in_ball; cbn [so sr]; apply dist_le; [exact R0|lra]| |]; (apply off_axis; [lra|exact O22|exact DA|exact Q]).
Qed.
Print Assumptions kios_fit3_encloses.

(** ** Examples *)
(** A ball of radius 2 around a cube of half-size 1: (3/2, 0, 0) is said to be contained though it is outside the cube *)
Definition cube_ball : kios := Kios [Sph vzero 2] (mkobb mid vzero (mk3 1 1 1)).
Example contain_outside : kios_contain cube_ball (mk3 (3 / 2) 0 0) = true /\ ~ in_kios cube_ball (mk3 (3 / 2) 0 0).
Proof.
  split.
  - unfold kios_contain, cube_ball. cbn [forallb ks so sr]. destruct (Rlt_dec _ _) as [L|L]; [|reflexivity]. unfold norm2, dot, vsub, vzero in L. cbn in L. lra.
  - intros (_ & u0 & u1 & u2 & B0 & B1 & B2 & E). unfold cube_ball, mid, mapply, vadd, vscale, vzero in *. cbn in *. injection E as E0 E1 E2. lra.
Qed.
(** Two unit balls with centres 4 apart: the ball returned has radius 6, the smallest one has radius 3 *)
Example enclose_two : enclose_sphere (Sph vzero 1) (Sph (mk3 4 0 0) 1) = Sph (mk3 5 0 0) 6.
Proof.
  unfold enclose_sphere. cbn [so sr]. cbv zeta. replace (norm2 (vsub (mk3 4 0 0) vzero)) with (4 * 4) by (unfold norm2, dot, vsub, vzero; cbn; ring). destruct (Rle_dec _ _) as [L|_]; [lra|]. rewrite sqrt_square by lra.
  destruct (Rlt_dec 0 4) as [_|L]; [|lra]. f_equal; [|lra]. unfold vadd, vscale, vsub, vzero. cbn. f_equal; field.
Qed.
(** One ball each, 2 apart: the distance 2 is right, the points are not defined *)
Definition far_ball : kios := Kios [Sph (mk3 4 0 0) 1] (mkobb mid (mk3 4 0 0) (mk3 1 1 1)).
Definition unit_ball : kios := Kios [Sph vzero 1] (mkobb mid vzero (mk3 1 1 1)).
Example balls_points : kios_distance unit_ball far_ball = 2 /\ kios_points unit_ball far_ball = Undef.
Proof.
  assert (D : kios_distance unit_ball far_ball = 2).
  { unfold kios_distance, kios_gap, unit_ball, far_ball. cbn [ks length index_pairs seq list_prod map app fold_left]. unfold gap_step. cbn [fst snd nth so sr]. unfold norm. replace (norm2 (vsub vzero (mk3 4 0 0))) with (4 * 4) by (unfold norm2, dot, vsub, vzero; cbn; ring). rewrite sqrt_square by lra. cbv zeta. destruct (Rlt_dec _ _) as [L|L]; cbn [fst]; lra. }
  split; [exact D|]. apply kios_points_refuted; [rewrite D; lra|reflexivity|reflexivity].
Qed.
(** Translating by (5, 0, 0) loses the centre *)
Example translate_lost : in_kios unit_ball vzero /\ ~ in_kios (kios_translate unit_ball (mk3 5 0 0)) (mk3 5 0 0).
Proof.
  split.
  - split.
    + intros s [<-|[]]. unfold in_ball. cbn [so sr]. unfold dist. rewrite vsub_self, norm_vzero. lra.
    + exists 0, 0, 0. unfold unit_ball. cbn. repeat (split; [lra|]). unfold mid, mapply, vadd, vscale, vzero. cbn. f_equal; ring.
  - intros (_ & u0 & u1 & u2 & B0 & B1 & B2 & E). unfold kios_translate, unit_ball, mid, mapply, vadd, vscale, vzero in *. cbn in *. injection E as E0 E1 E2. lra.
Qed.
(** A right triangle *)
Example triangle_fit : forall big p, In p [vzero; mk3 2 0 0; mk3 0 2 0] -> in_kios (kios_fit3 big vzero (mk3 2 0 0) (mk3 0 2 0)) p.
Proof. intros big. apply kios_fit3_encloses. unfold cross, vsub, vzero. cbn. intros E. injection E as _ _ E. lra. Qed.
