(** C80: the polytope of the libccd extension stays convex, its normals point outward; C81: EPA and the signed distance. *)
From Coq Require Import Reals Lra Lia List Bool Arith Permutation.
From Verif Require Import VecR Motion Prim P_PlaneQuery ShapeBV P_BoundVerts Support P_Support Gjk P_Gjk CcdGjk P_CcdGjk P_CcdDist CcdPoly P_CcdPoly CcdEpa.
Import ListNotations.
Open Scope R_scope.

Definition corners (P : pt) : list v3 := map (pos P) (vs P).
Definition anchor (P : pt) (f : nat) : v3 := from P (side P f 0).
(** The signed height of a point over the plane of a face, times the length of the normal *)
Definition height (big : R) (P : pt) (f : nat) (x : v3) : R := dot (normal big P f) (vsub x (anchor P f)).
(** A convex polytope whose normals point outward: no vertex is above the plane of a face, some vertex is below it *)
Definition solid (big : R) (P : pt) : Prop := forall f, In f (fs P) ->
  (forall v, In v (vs P) -> height big P f (pos P v) <= 0) /\ exists v, In v (vs P) /\ height big P f (pos P v) < 0.

(** ** The direction of a normal *)
Lemma hull_some : forall l n, hull l vzero -> exists v, In v l /\ 0 <= dot n v.
Proof.
  intros l n H. assert (D : (exists v, In v l /\ 0 <= dot n v) \/ exists h, h < 0 /\ forall v, In v l -> dot n v <= h).
  { clear H. induction l as [|a l [(v & I & L)|(h & Hh & A)]].
    - right. exists (-1). split; [lra|intros v []].
    - left. exists v. split; [right; exact I|exact L].
    - destruct (Rle_dec 0 (dot n a)) as [L|L]; [left; exists a; split; [left; reflexivity|exact L]|]. right. exists (Rmax h (dot n a)). split; [apply Rmax_lub_lt; lra|]. intros v [ <- |I]; [apply Rmax_r|apply Rle_trans with h; [auto|apply Rmax_l]]. }
  destruct D as [D|(h & Hh & A)]; [exact D|]. exfalso. pose proof (H n h A) as B. replace (dot n vzero) with 0 in B by coords. lra.
Qed.
Lemma scan_false : forall u od ps mx mn, (forall p, In p ps -> dot u p - od <= 0) -> mx <= 0 -> flip_scan u od ps mx mn = false.
Proof.
  intros u od ps. induction ps as [|p ps IH]; intros mx mn H M; cbn [flip_scan].
  - destruct (Rlt_dec _ _) as [L|]; [|reflexivity]. pose proof (Rabs_pos mn). lra.
  - pose proof (H p (or_introl eq_refl)) as Hp. unfold dist_tol. destruct (Rlt_dec _ _); [lra|]. destruct (Rlt_dec _ _); [reflexivity|]. apply IH; [intros; apply H; right; assumption|apply Rmax_lub; assumption].
Qed.
Lemma scan_true : forall u od ps mx mn, (forall p, In p ps -> 0 <= dot u p - od) -> 0 <= mn -> (mn = 0 \/ exists p, In p ps /\ dot u p - od = 0) -> flip_scan u od ps mx mn = false -> mx <= 0 /\ forall p, In p ps -> dot u p - od = 0.
Proof.
  intros u od ps. induction ps as [|p ps IH]; intros mx mn H M Z E; cbn [flip_scan] in E.
  - destruct Z as [ -> |(p & [] & _)]. rewrite Rabs_R0 in E. destruct (Rlt_dec 0 mx); [discriminate|]. split; [lra|intros p []].
  - pose proof (H p (or_introl eq_refl)) as Hp. unfold dist_tol in E. destruct (Rlt_dec _ _) in E; [discriminate|]. destruct (Rlt_dec _ _) in E; [lra|]. destruct (IH (Rmax mx (dot u p - od)) (Rmin mn (dot u p - od))) as (A & B); auto.
    + intros; apply H; right; assumption.
    + apply Rmin_glb; assumption.
    + destruct Z as [ -> |(q & [ <- |I] & Q)]; [left; apply Rmin_left; assumption|left; rewrite Q; apply Rmin_right; assumption|right; exists q; auto].
    + pose proof (Rmax_l mx (dot u p - od)). pose proof (Rmax_r mx (dot u p - od)). split; [lra|]. intros q [ <- |I]; [lra|auto].
Qed.

Section Convex.
Variable big : R.
Hypothesis Hb : 0 <= big.

Lemma normal_cases : forall P f, normal big P f = raw_normal P f \/ normal big P f = vneg (raw_normal P f).
Proof. intros P f. unfold normal. cbv zeta. destruct (Rlt_dec _ _); [auto|]. destruct (Rle_dec _ _); [destruct (flip_scan _ _ _ _ _)|]; auto. Qed.
(** C80: faceNormalPointingOutward finds the outward direction: if the polytope contains the origin and all its
    vertices are on one side of the plane of the face, they are not above the face seen along the normal
    returned.  The tolerance in the code does not matter. *)
Theorem normal_outward : forall P f, hull (corners P) vzero -> In (anchor P f) (corners P) ->
  ((forall v, In v (vs P) -> 0 <= dot (raw_normal P f) (vsub (pos P v) (anchor P f))) \/ (forall v, In v (vs P) -> dot (raw_normal P f) (vsub (pos P v) (anchor P f)) <= 0)) ->
  forall v, In v (vs P) -> height big P f (pos P v) <= 0.
Proof.
  intros P f H Ia Sd v Iv. set (n := raw_normal P f) in *. set (a := anchor P f) in *. unfold height. fold a. set (k := 1 / sqrt (norm2 n)).
  assert (K0 : norm2 n = 0 \/ 0 < k). { destruct (Rle_lt_or_eq_dec 0 (norm2 n) (norm2_nonneg n)) as [L|E]; [right; unfold k, Rdiv; rewrite Rmult_1_l; apply Rinv_0_lt_compat, sqrt_lt_R0, L|auto]. }
  destruct K0 as [K0|K0].
  { apply norm2_zero in K0. destruct (normal_cases P f) as [ -> | -> ]; fold n; rewrite K0; [|]; apply Req_le; coords. }
  assert (Sx : forall w, In w (vs P) -> dot (vscale k n) (pos P w) - dot (vscale k n) a = k * dot n (vsub (pos P w) a)) by (intros; coords).
  assert (Ng : forall w, dot (vneg n) w = - dot n w) by (intros; coords).
  unfold normal. cbv zeta. fold n. fold (anchor P f). fold a. fold k. destruct (Rlt_dec (dot (vscale k n) a) (- dist_tol)) as [L|L].
  - rewrite Ng. destruct Sd as [Sd|Sd]; [pose proof (Sd v Iv); lra|]. exfalso. destruct (hull_some _ n H) as (w & Iw & Lw). apply in_map_iff in Iw. destruct Iw as (z & <- & Iz). pose proof (Sd z Iz) as Z.
    assert (D : dot n (vsub (pos P z) a) = dot n (pos P z) - dot n a) by coords. rewrite D in Z. assert (Q : dot (vscale k n) a = k * dot n a) by coords. rewrite Q in L. unfold dist_tol in L. assert (0 <= k * dot n a) by (apply Rmult_le_pos; lra). lra.
  - destruct (Rle_dec (dot (vscale k n) a) dist_tol) as [L2|L2].
    + destruct (flip_scan _ _ _ _ _) eqn:E.
      * rewrite Ng. destruct Sd as [Sd|Sd]; [pose proof (Sd v Iv); lra|]. rewrite scan_false in E; [discriminate| |lra]. intros p Ip. apply in_map_iff in Ip. destruct Ip as (w & <- & Iw). rewrite Sx by auto. pose proof (Sd w Iw). assert (0 <= k * - dot n (vsub (pos P w) a)) by (apply Rmult_le_pos; lra). lra.
      * destruct Sd as [Sd|Sd]; [|apply Sd, Iv]. apply scan_true in E.
        -- destruct E as (_ & A). assert (Z := A (pos P v) (in_map _ _ _ Iv)). rewrite Sx in Z by auto. apply Rmult_integral in Z. lra.
        -- intros p Ip. apply in_map_iff in Ip. destruct Ip as (w & <- & Iw). rewrite Sx by auto. apply Rmult_le_pos; [lra|auto].
        -- exact Hb.
        -- right. exists a. split; [exact Ia|ring].
    + destruct Sd as [Sd|Sd]; [|apply Sd, Iv]. exfalso. destruct (hull_some _ (vneg n) H) as (w & Iw & Lw). apply in_map_iff in Iw. destruct Iw as (z & <- & Iz). pose proof (Sd z Iz) as Z. rewrite Ng in Lw.
      assert (D : dot n (vsub (pos P z) a) = dot n (pos P z) - dot n a) by coords. rewrite D in Z. assert (Q : dot (vscale k n) a = k * dot n a) by coords. rewrite Q in L2. unfold dist_tol in L2. assert (0 <= k * - dot n a) by (apply Rmult_le_pos; lra). lra.
Qed.
(** With a strict vertex *)
Lemma one_side : forall P f s, hull (corners P) vzero -> In (anchor P f) (corners P) -> s <> 0 ->
  (forall v, In v (vs P) -> s * dot (raw_normal P f) (vsub (pos P v) (anchor P f)) <= 0) -> (exists v, In v (vs P) /\ s * dot (raw_normal P f) (vsub (pos P v) (anchor P f)) < 0) ->
  (forall v, In v (vs P) -> height big P f (pos P v) <= 0) /\ exists v, In v (vs P) /\ height big P f (pos P v) < 0.
Proof.
  intros P f s H Ia Ns A (v & Iv & Lv). assert (N : forall w, In w (vs P) -> height big P f (pos P w) <= 0).
  { apply normal_outward; auto. destruct (Rlt_dec 0 s) as [S|S]; [right|left]; intros w Iw; pose proof (A w Iw) as Aw; set (x := dot (raw_normal P f) (vsub (pos P w) (anchor P f))) in *.
    - destruct (Rle_dec x 0) as [|G]; [assumption|]. assert (0 < s * x) by (apply Rmult_lt_0_compat; lra). lra.
    - destruct (Rle_dec 0 x) as [|G]; [assumption|]. assert (0 < - s * - x) by (apply Rmult_lt_0_compat; lra). lra. }
  split; [exact N|]. exists v. split; [exact Iv|]. destruct (Rle_lt_or_eq_dec _ _ (N v Iv)) as [|E]; [assumption|]. exfalso. unfold height in E. destruct (normal_cases P f) as [C|C]; rewrite C in E.
  - rewrite E in Lv. lra.
  - replace (dot (vneg (raw_normal P f)) (vsub (pos P v) (anchor P f))) with (- dot (raw_normal P f) (vsub (pos P v) (anchor P f))) in E by coords. assert (Z : dot (raw_normal P f) (vsub (pos P v) (anchor P f)) = 0) by lra. rewrite Z in Lv. lra.
Qed.

(** ** Expansion *)
(** A face seen from one of its edges *)
Lemma face_shape : forall P f e, triangle P f -> has P f e -> exists c, (raw_normal P f = cross (vsub (into P e) (from P e)) (vsub c (from P e)) \/ raw_normal P f = vneg (cross (vsub (into P e) (from P e)) (vsub c (from P e)))) /\
  (anchor P f = from P e \/ anchor P f = into P e \/ anchor P f = c).
Proof.
  intros P f e (a & b & c & _ & _ & _ & J0 & J1 & J2) (i & Li & <-). unfold raw_normal, anchor, from, into, joins in *.
  assert (Hi : i = 0%nat \/ i = 1%nat \/ i = 2%nat) by lia.
  destruct Hi as [ -> |[ -> | -> ]]; [exists (pos P c)|exists (pos P a)|exists (pos P b)];
  destruct J0 as [(E0 & F0)|(E0 & F0)], J1 as [(E1 & F1)|(E1 & F1)], J2 as [(E2 & F2)|(E2 & F2)];
  rewrite ?E0, ?F0, ?E1, ?F1, ?E2, ?F2; generalize (pos P a) (pos P b) (pos P c); intros; (split; [|auto]); first [left; vcoords; fail|right; vcoords].
Qed.
(** The edges of a face are orthogonal to its normal, and not zero if the normal is not. *)
Lemma face_flat : forall P f e, triangle P f -> has P f e -> let n := normal big P f in
  dot n (vsub (into P e) (from P e)) = 0 /\ (forall x, height big P f x = dot n (vsub x (from P e))) /\ (vsub (into P e) (from P e) = vzero -> n = vzero).
Proof.
  intros P f e T H n. destruct (face_shape P f e T H) as (c & R & A). set (u := into P e) in *. set (w := from P e) in *.
  assert (N : n = cross (vsub u w) (vsub c w) \/ n = vneg (cross (vsub u w) (vsub c w))).
  { unfold n. destruct (normal_cases P f) as [ -> | -> ]; destruct R as [ -> | -> ]; auto. left. vcoords. }
  split; [destruct N as [ -> | -> ]; coords|]. split.
  - intros x. unfold height. fold n. destruct N as [ -> | -> ], A as [ -> |[ -> | -> ]]; coords.
  - intros Z. rewrite Z in N. destruct N as [ -> | -> ]; vcoords.
Qed.
Lemma anchor_in : forall P f, closed P -> In f (fs P) -> In (anchor P f) (corners P).
Proof.
  intros P f C F. destruct (face_edge P C f 0 F ltac:(lia)) as (E & _). destruct C as (_ & _ & _ & A & _). unfold anchor, from, corners. apply in_map, (A _ E).
Qed.
(** Two vectors orthogonal to two independent ones are parallel. *)
Lemma parallel : forall r e n, dot n r = 0 -> dot n e = 0 -> cross r e <> vzero -> exists k, n = vscale k (cross r e).
Proof.
  intros r e n A B N. set (c := cross r e) in *. assert (P : 0 < norm2 c). { destruct (Rle_lt_or_eq_dec 0 (norm2 c) (norm2_nonneg c)) as [|Z]; [assumption|]. exfalso. apply N, norm2_zero. auto. }
  assert (Z : cross c n = vzero). { transitivity (vsub (vscale (dot n r) e) (vscale (dot n e) r)); [unfold c; vcoords|]. rewrite A, B. vcoords. }
  exists (dot n c / norm2 c). assert (J : vsub (vscale (norm2 c) n) (vscale (dot n c) c) = cross (cross c n) c) by vcoords. rewrite Z in J. replace (cross vzero c) with vzero in J by vcoords.
  assert (W : vscale (norm2 c) n = vscale (dot n c) c). { apply v3_ext; [apply (f_equal c0) in J|apply (f_equal c1) in J|apply (f_equal c2) in J]; unfold vsub, vscale, vzero in *; cbn [c0 c1 c2] in *; lra. }
  transitivity (vscale (/ norm2 c) (vscale (norm2 c) n)); [apply v3_ext; unfold vscale; cbn [c0 c1 c2]; field; lra|]. rewrite W. apply v3_ext; unfold vscale; cbn [c0 c1 c2]; field; lra.
Qed.

Variable ord : list nat -> list nat.
Hypothesis HO : forall l, Permutation (ord l) l.
(** C80: adding a point to a convex polytope around the origin that has its normals outward, where the patch
    replaced is the set of faces the point is outside of, gives a convex polytope around the origin that has
    its normals outward; the new point is not above any of its faces. *)
Theorem expand_solid : forall P s q, closed P -> fresh P -> patch_of P s -> solid big P -> hull (corners P) vzero ->
  (forall f, In f (fs P) -> (In f (vis s) <-> outside big P f (sv q) = true)) ->
  let Q := patch_in ord P s q in solid big Q /\ hull (corners Q) vzero.
Proof.
  intros P s q C FR PO SP H V Q. destruct (new_faces ord P s q HO C FR PO) as (EV & EP & NF). fold Q in EV, EP, NF.
  assert (Out : forall f, outside big P f (sv q) = true <-> 0 < height big P f (sv q)). { intros f. unfold outside, height, anchor. destruct (Rlt_dec _ _); split; intros; auto; try discriminate; contradiction. }
  assert (Pold : forall v, (v < nx P)%nat -> pos Q v = pos P v) by (intros v L; unfold pos; rewrite EP, upd_other by lia; reflexivity).
  assert (Pnew : pos Q (nx P) = sv q) by (unfold pos; rewrite EP, upd_same; reflexivity).
  assert (Lv : forall v, In v (vs P) -> (v < nx P)%nat) by (intros; apply FR; auto).
  assert (Cor : corners Q = corners P ++ [sv q]). { unfold corners. rewrite EV, map_app. cbn [map]. rewrite Pnew. f_equal. apply map_ext_in. intros v Iv. apply Pold; auto. }
  assert (HQ : hull (corners Q) vzero). { rewrite Cor. apply hull_more with (corners P); auto. intros v Iv. apply in_app_iff. auto. }
  split; [|exact HQ]. intros f F.
  assert (Vert : forall v, In v (vs Q) -> In v (vs P) \/ v = nx P) by (intros v Iv; rewrite EV in Iv; apply in_app_iff in Iv; destruct Iv as [|[ <- |[]]]; auto).
  assert (Vin : forall v, In v (vs P) -> In v (vs Q)) by (intros v Iv; rewrite EV; apply in_app_iff; auto).
  destruct (NF f F) as [(FP & Nv & Ef & Ee)|(b & x & y & Ib & Ef & Eb1 & Eb2 & Ex1 & Ex2 & _)].
  - assert (Es : forall i, side Q f i = side P f i) by (intros i; unfold side; rewrite Ef; reflexivity).
    assert (Ends : forall i, (i < 3)%nat -> from Q (side Q f i) = from P (side P f i) /\ into Q (side Q f i) = into P (side P f i)).
    { intros i Li. destruct (face_edge P C f i FP Li) as (E & _). rewrite Es. unfold from, into. destruct (Ee _ E) as (-> & ->). pose proof C as (_ & _ & _ & A & _). destruct (A _ E) as (A1 & A2). rewrite !Pold by auto. auto. }
    assert (En : raw_normal Q f = raw_normal P f). { unfold raw_normal. destruct (Ends 0%nat ltac:(lia)) as (-> & ->). destruct (Ends 1%nat ltac:(lia)) as (-> & ->). reflexivity. }
    assert (Ea : anchor Q f = anchor P f) by (apply (Ends 0%nat); lia).
    destruct (SP f FP) as (S1 & v0 & Iv0 & S2). assert (S3 : height big P f (sv q) <= 0). { destruct (Rlt_dec 0 (height big P f (sv q))) as [L|L]; [|lra]. apply Out in L. apply V in L; [contradiction|auto]. }
    assert (W : exists k, k <> 0 /\ normal big P f = vscale k (raw_normal P f)). { destruct (normal_cases P f) as [ -> | -> ]; [exists 1|exists (-1)]; (split; [lra|vcoords]). } destruct W as (k & Nk & Ek).
    assert (Hh : forall z, height big P f z = k * dot (raw_normal P f) (vsub z (anchor P f))) by (intros z; unfold height; rewrite Ek; coords).
    apply one_side with k; auto.
    + rewrite Ea, Cor. apply in_app_iff. left. apply anchor_in; auto.
    + intros v Iv. rewrite En, Ea, <- Hh. destruct (Vert v Iv) as [I| -> ]; [rewrite Pold by auto; auto|rewrite Pnew; exact S3].
    + exists v0. split; [auto|]. rewrite En, Ea, <- Hh, Pold by auto. exact S2.
  - pose proof PO as (VI & _ & _ & _ & _ & BOR). destruct (proj1 (BOR b) Ib) as (IbE & g & h & Og & Oh & Vg & Nh). clear BOR. pose proof C as (_ & _ & _ & EndsP & _ & Tri & _ & Back). destruct (Back b g IbE Og) as (Fg & Hg). destruct (Back b h IbE Oh) as (Fh & Hh). destruct (EndsP b IbE) as (A1 & A2).
    destruct (face_flat P g b (Tri g Fg) Hg) as (G1 & G2 & G3). destruct (face_flat P h b (Tri h Fh) Hh) as (K1 & K2 & K3). set (ng := normal big P g) in *. set (nh := normal big P h) in *. set (B0 := from P b) in *. set (B1 := into P b) in *. set (e := vsub B1 B0) in *. set (r := vsub (sv q) B0).
    assert (Pg : 0 < dot ng r) by (unfold r; rewrite <- G2; apply Out, V; auto). assert (Ph : dot nh r <= 0). { unfold r. rewrite <- K2. destruct (Rlt_dec 0 (height big P h (sv q))) as [L|L]; [|lra]. apply Out in L. apply V in L; [contradiction|auto]. }
    destruct (SP g Fg) as (Sg & _). destruct (SP h Fh) as (Sh & v0 & Iv0 & Sh0). set (n := vsub (vscale (dot ng r) nh) (vscale (dot nh r) ng)).
    assert (Nr : dot n r = 0) by (unfold n; coords). assert (Ne : dot n e = 0). { replace (dot n e) with (dot ng r * dot nh e - dot nh r * dot ng e) by (unfold n; coords). rewrite G1, K1. ring. }
    assert (En : forall v, In v (vs P) -> dot n (vsub (pos P v) B0) <= dot ng r * height big P h (pos P v)).
    { intros v Iv. replace (dot n (vsub (pos P v) B0)) with (dot ng r * dot nh (vsub (pos P v) B0) - dot nh r * dot ng (vsub (pos P v) B0)) by (unfold n; coords). rewrite <- G2, <- K2. pose proof (Sg v Iv). assert (0 <= (- dot nh r) * (- height big P g (pos P v))) by (apply Rmult_le_pos; lra). lra. }
    assert (Fs : from Q (side Q f 0) = B0 /\ into Q (side Q f 0) = B1 /\ from Q (side Q f 1) = sv q /\ into Q (side Q f 1) = B0).
    { unfold side. rewrite Ef. unfold from, into. rewrite Eb1, Eb2, Ex1, Ex2, Pnew, !Pold by auto. auto. } destruct Fs as (F0 & F1 & F2 & F3).
    assert (Rw : raw_normal Q f = cross r e). { unfold raw_normal. rewrite F0, F1, F2, F3. unfold r, e. vcoords. }
    assert (Nc : cross r e <> vzero).
    { intros Z. assert (Ne0 : e <> vzero). { intros E. apply G3 in E. rewrite E in Pg. replace (dot vzero r) with 0 in Pg by coords. lra. }
      assert (Pe : 0 < norm2 e). { destruct (Rle_lt_or_eq_dec 0 (norm2 e) (norm2_nonneg e)) as [|E]; [assumption|]. exfalso. apply Ne0, norm2_zero. auto. }
      assert (J : vsub (vscale (norm2 e) r) (vscale (dot r e) e) = cross e (cross r e)) by vcoords. rewrite Z in J. apply (f_equal (dot ng)) in J. replace (dot ng (cross e vzero)) with 0 in J by coords. replace (dot ng (vsub (vscale (norm2 e) r) (vscale (dot r e) e))) with (norm2 e * dot ng r - dot r e * dot ng e) in J by coords. rewrite G1 in J. assert (0 < norm2 e * dot ng r) by (apply Rmult_lt_0_compat; auto). lra. }
    destruct (parallel r e n Nr Ne Nc) as (k & Ek). assert (Ea : anchor Q f = B0) by exact F0.
    assert (Hk : forall z, k * dot (raw_normal Q f) (vsub z (anchor Q f)) = dot n (vsub z B0)) by (intros z; rewrite Rw, Ea, Ek; coords).
    assert (Strict : dot n (vsub (pos P v0) B0) < 0). { pose proof (En v0 Iv0). assert (0 < dot ng r * - height big P h (pos P v0)) by (apply Rmult_lt_0_compat; lra). lra. }
    apply one_side with k; auto.
    + rewrite Ea, Cor. apply in_app_iff. left. unfold B0, from, corners. apply in_map, A1.
    + intros Z. rewrite Z in Ek. rewrite Ek in Strict. revert Strict. replace (dot (vscale 0 (cross r e)) (vsub (pos P v0) B0)) with 0 by coords. lra.
    + intros v Iv. rewrite Hk. destruct (Vert v Iv) as [I| -> ].
      * rewrite Pold by auto. pose proof (En v I). pose proof (Sh v I). assert (0 <= dot ng r * - height big P h (pos P v)) by (apply Rmult_le_pos; lra). lra.
      * rewrite Pnew. fold r. lra.
    + exists v0. split; [auto|]. rewrite Hk, Pold by auto. exact Strict.
Qed.
End Convex.
Print Assumptions normal_outward.
Print Assumptions expand_solid.

(** ** Steps on a convex polytope *)
Lemma hull_height : forall big P f, (forall v, In v (vs P) -> height big P f (pos P v) <= 0) -> hull (corners P) vzero -> 0 <= dot (normal big P f) (anchor P f).
Proof.
  intros big P f A H. assert (B : dot (normal big P f) vzero <= dot (normal big P f) (anchor P f)).
  { apply H. intros x Ix. apply in_map_iff in Ix. destruct Ix as (v & <- & Iv). pose proof (A v Iv) as Z. unfold height in Z. replace (dot (normal big P f) (vsub (pos P v) (anchor P f))) with (dot (normal big P f) (pos P v) - dot (normal big P f) (anchor P f)) in Z by coords. lra. }
  replace (dot (normal big P f) vzero) with 0 in B by coords. exact B.
Qed.
Lemma solid_normal : forall big P f, solid big P -> In f (fs P) -> 0 < norm2 (normal big P f).
Proof.
  intros big P f S F. destruct (S f F) as (_ & v & _ & L). destruct (Rle_lt_or_eq_dec 0 (norm2 (normal big P f)) (norm2_nonneg _)) as [|Z]; [assumption|]. exfalso. symmetry in Z. apply norm2_zero in Z. unfold height in L. rewrite Z in L. revert L. replace (dot vzero (vsub (pos P v) (anchor P f))) with 0 by coords. lra.
Qed.
Lemma unit_scaled : forall v, 0 < norm2 v -> normalized v = vscale (/ norm v) v /\ 0 < / norm v.
Proof. intros v L. unfold normalized. destruct (Rlt_dec _ _); [|contradiction]. split; [reflexivity|apply Rinv_0_lt_compat, sqrt_lt_R0, L]. Qed.
(** C80: on a convex polytope around the origin validateNearestFeatureOfPolytopeBeingEdge does not fail: it keeps
    the edge if the origin is on it, and otherwise answers the face beside the edge whose plane is nearer to
    the origin (the planes at distance n.v0 / |n|). *)
Theorem validate_solid : forall feps big seg tri P e, 0 < feps -> closed P -> solid big P -> hull (corners P) vzero -> In e (es P) ->
  (validate feps big tri seg P e = Ok (EE e) /\ el_dist tri seg P (EE e) < 4 * (feps * feps)) \/
  (exists f g, f <> g /\ on_edge P e f /\ on_edge P e g /\ validate feps big tri seg P e = Ok (EF f) /\
     0 <= dot (normalized (normal big P f)) (from P e) <= dot (normalized (normal big P g)) (from P e)).
Proof.
  intros feps big seg tri P e Hf C S H E. destruct (edge_two P C e E) as (f & g & N & F0 & G0 & Ff & Fg & Hef & Heg). unfold validate. rewrite F0, G0. cbv zeta.
  pose proof (solid_normal big P f S Ff) as Nf. pose proof (solid_normal big P g S Fg) as Ng. destruct (Req_EM_T _ _); [lra|]. destruct (Req_EM_T _ _); [lra|].
  assert (D : forall h, In h (fs P) -> has P h e -> 0 <= dot (normalized (normal big P h)) (from P e)).
  { intros h Fh Hh. destruct (unit_scaled _ (solid_normal big P h S Fh)) as (-> & Pk). replace (dot (vscale (/ norm (normal big P h)) (normal big P h)) (from P e)) with (/ norm (normal big P h) * dot (normal big P h) (from P e)) by coords. apply Rmult_le_pos; [lra|].
    pose proof (hull_height big P h (proj1 (S h Fh)) H) as Z. pose proof C as (_ & _ & _ & _ & _ & T & _). destruct (face_flat big P h e (T h Fh) Hh) as (_ & Hx & _). specialize (Hx vzero). unfold height in Hx.
    replace (dot (normal big P h) (vsub vzero (anchor P h))) with (- dot (normal big P h) (anchor P h)) in Hx by coords. replace (dot (normal big P h) (vsub vzero (from P e))) with (- dot (normal big P h) (from P e)) in Hx by coords. lra. }
  pose proof (D f Ff Hef) as Df. pose proof (D g Fg Heg) as Dg. assert (T : 0 <= 2 * feps * Rmax 1 (sqrt (norm2 (from P e)))) by (apply Rmult_le_pos; [lra|]; apply Rle_trans with 1; [lra|apply Rmax_l]).
  destruct (Rlt_dec _ (- dot (normalized (normal big P f)) _)); [lra|]. destruct (Rlt_dec _ (- dot (normalized (normal big P g)) _)); [lra|]. destruct (Rlt_dec _ (2 * feps * (2 * feps))) as [L|L]; [left; split; [reflexivity|lra]|right].
  destruct (Rlt_dec _ _) as [L2|L2].
  - exists g, f. split; [auto|]. split; [right; exact G0|]. split; [left; exact F0|]. split; [reflexivity|lra].
  - exists f, g. split; [auto|]. split; [left; exact F0|]. split; [right; exact G0|]. split; [reflexivity|lra].
Qed.
Print Assumptions validate_solid.

(** x is one of the elements of the polytope *)
Definition element (P : pt) (x : el) : Prop := match x with EV v => In v (vs P) | EE e => In e (es P) | EF f => In f (fs P) end.
(** C80: a point that nextSupport asks to add for a face of a convex polytope around the origin, whose point
    nearest to the origin is the foot of the perpendicular on its plane, is outside of that face; the face
    itself is part of the patch without a test (1346-1373). *)
Theorem start_outside : forall ceps big tri seg sup tol P f q, 0 < ceps -> 0 < tol -> tri_ok tri -> closed P -> solid big P -> hull (corners P) vzero -> In f (fs P) ->
  cross (witness tri seg P (EF f)) (normal big P f) = vzero ->
  next_support ceps big tri seg sup tol P (EF f) = Ok (Some q) -> outside big P f (sv q) = true.
Proof.
  intros ceps big tri seg sup tol P f q Hc Ht TO C S H F W E. pose proof C as (_ & _ & _ & _ & _ & Tr & _). pose proof (solid_normal big P f S F) as Pn. set (n := normal big P f) in *. set (w := witness tri seg P (EF f)) in *.
  assert (Wh : dot n w = dot n (anchor P f)).
  { destruct (face_flat big P f (side P f 0) (Tr f F) ltac:(exists 0%nat; split; [lia|reflexivity])) as (G1 & _). fold n in G1. assert (G2 : dot n (vsub (pos P (third P f)) (anchor P f)) = 0).
    { destruct (face_flat big P f (side P f 1) (Tr f F) ltac:(exists 1%nat; split; [lia|reflexivity])) as (G3 & G4 & _). fold n in G3, G4. pose proof (G4 (from P (side P f 1))) as G5. pose proof (G4 (into P (side P f 1))) as G6. unfold height in G5, G6. fold n in G5, G6. rewrite G3 in G6. replace (dot n (vsub (from P (side P f 1)) (from P (side P f 1)))) with 0 in G5 by coords.
      unfold third. cbv zeta. destruct (_ || _)%bool; [exact G6|exact G5]. }
    fold (anchor P f) in G1. unfold w, witness, el_pair. destruct (TO vzero (anchor P f) (into P (side P f 0)) (pos P (third P f))) as ((u & v & z & _ & _ & _ & Sm & Ex) & _). fold (anchor P f). rewrite Ex. clear Ex.
    replace (dot n (vadd (vadd (vscale u (anchor P f)) (vscale v (into P (side P f 0)))) (vscale z (pos P (third P f))))) with ((u + v + z) * dot n (anchor P f) + v * dot n (vsub (into P (side P f 0)) (anchor P f)) + z * dot n (vsub (pos P (third P f)) (anchor P f))) by coords. rewrite G1, G2, Sm. ring. }
  assert (Dw : el_dist tri seg P (EF f) = norm2 w). { unfold el_dist, w, witness, el_pair. destruct (TO vzero (from P (side P f 0)) (into P (side P f 0)) (pos P (third P f))) as (_ & ->). coords. }
  pose proof (hull_height big P f (proj1 (S f F)) H) as Ha. fold n in Ha. destruct (unit_scaled n Pn) as (En & Pk). set (k := / norm n) in *.
  (* the direction is the unit normal *)
  assert (Dir : exists d, support_dir ceps big tri seg P (EF f) = Ok d /\ d = normalized n).
  { unfold support_dir. destruct (ccd_zero ceps _) eqn:Z.
    - fold n. destruct (Req_EM_T _ _); [lra|]. eauto.
    - fold w. rewrite Dw in Z. unfold ccd_zero in Z. destruct (Rlt_dec _ _) as [|L] in Z; [discriminate|]. rewrite Rabs_right in L by (apply Rle_ge, norm2_nonneg). destruct (Req_EM_T _ _); [lra|]. eexists. split; [reflexivity|].
      assert (Pw : 0 < norm2 w) by lra. destruct (unit_scaled w Pw) as (Ew & Pm). pose proof (lagrange w n) as L2. rewrite W in L2. replace (norm2 vzero) with 0 in L2 by coords.
      assert (Dn : dot w n = norm w * norm n). { apply Rsqr_inj; [replace (dot w n) with (dot n w) by coords; rewrite Wh; exact Ha|apply Rmult_le_pos; apply norm_nonneg|]. unfold Rsqr. replace (norm w * norm n * (norm w * norm n)) with (norm w * norm w * (norm n * norm n)) by ring. rewrite !norm_sq. lra. }
      assert (Nw : 0 < norm w) by (apply sqrt_lt_R0, Pw). assert (Nn : 0 < norm n) by (apply sqrt_lt_R0, Pn).
      rewrite Ew, En. assert (J : vsub (vscale (norm2 n) w) (vscale (dot w n) n) = cross n (cross w n)) by vcoords. rewrite W in J. replace (cross n vzero) with vzero in J by vcoords. rewrite Dn, <- (norm_sq n) in J.
      apply v3_ext; [apply (f_equal c0) in J|apply (f_equal c1) in J|apply (f_equal c2) in J]; unfold vsub, vscale, vzero, k in *; cbn [c0 c1 c2] in *;
      (apply Rmult_eq_reg_l with (norm w * (norm n * norm n)); [|apply Rgt_not_eq; repeat apply Rmult_lt_0_compat; assumption]); field_simplify; lra. }
  destruct Dir as (d & Ed & ->). cbn [next_support] in E. rewrite Ed in E. cbv zeta in E. destruct (Rlt_dec _ tol) as [|L1] in E; [discriminate|]. destruct (Rlt_dec _ tol) in E; [discriminate|].
  assert (Eq : sup (normalized n) = q) by congruence. rewrite Eq, Dw in L1. fold (norm w) in L1. unfold outside. fold (anchor P f). fold n. destruct (Rlt_dec _ _) as [|L3]; [reflexivity|]. exfalso. apply L3. clear L3.
  rewrite En in L1. replace (dot (sv q) (vscale k n)) with (k * dot n (sv q)) in L1 by coords. replace (dot n (vsub (sv q) (anchor P f))) with (dot n (sv q) - dot n (anchor P f)) by coords. rewrite <- Wh.
  pose proof (cauchy_schwarz n w) as CS. assert (A1 : k * dot n w <= norm w).
  { unfold k. apply Rmult_le_reg_l with (norm n); [apply sqrt_lt_R0, Pn|]. rewrite <- Rmult_assoc, Rinv_r by (apply Rgt_not_eq, sqrt_lt_R0, Pn). rewrite Rmult_1_l. exact CS. }
  assert (A2 : 0 < k * (dot n (sv q) - dot n w)) by lra. destruct (Rlt_dec 0 (dot n (sv q) - dot n w)) as [|L]; [assumption|]. exfalso. assert (0 <= k * - (dot n (sv q) - dot n w)) by (apply Rmult_le_pos; lra). lra.
Qed.
Print Assumptions start_outside.

(** ** The first polytope *)
Lemma tetra_parts : forall flip a b c d, let P := tetra flip a b c d in vs P = [0; 1; 2; 3]%nat /\ fs P = [10; 11; 12; 13]%nat /\
  pv P 0%nat = a /\ pv P 1%nat = b /\ pv P 2%nat = c /\ pv P 3%nat = d.
Proof. intros [|] a b c d; vm_compute; repeat split. Qed.
Lemma tetra_normals : forall flip a b c d, let P := tetra flip a b c d in
  (raw_normal P 10 = cross (vsub (sv b) (sv a)) (vsub (sv c) (sv b)) /\ anchor P 10 = sv a) /\
  (raw_normal P 11 = cross (vsub (sv d) (sv a)) (vsub (sv d) (sv b)) /\ (anchor P 11 = sv a \/ anchor P 11 = sv d)) /\
  (raw_normal P 12 = cross (vsub (sv d) (sv b)) (vsub (sv d) (sv c)) /\ (anchor P 12 = sv b \/ anchor P 12 = sv d)) /\
  (raw_normal P 13 = cross (vsub (sv d) (sv c)) (vsub (sv d) (sv a)) /\ (anchor P 13 = sv c \/ anchor P 13 = sv d)).
Proof.
  intros flip a b c d P. assert (Nf : forall u v w : v3, cross (vsub u w) (vsub v w) = cross (vsub w u) (vsub w v)) by (intros; vcoords).
  unfold P. destruct flip; unfold raw_normal, anchor, from, into, pos.
  - split; [split; reflexivity|]. split; [split; [apply Nf|right; reflexivity]|]. split; [split; [apply Nf|right; reflexivity]|]. split; [apply Nf|right; reflexivity].
  - split; [split; reflexivity|]. split; [split; [reflexivity|left; reflexivity]|]. split; [split; [reflexivity|left; reflexivity]|]. split; [reflexivity|left; reflexivity].
Qed.
(** C80: the tetrahedron is convex with its normals outward, if it has a volume and contains the origin. *)
Theorem tetra_solid : forall big flip a b c d, 0 <= big -> vol (sv a) (sv b) (sv c) (sv d) <> 0 -> hull [sv a; sv b; sv c; sv d] vzero ->
  let P := tetra flip a b c d in solid big P /\ hull (corners P) vzero.
Proof.
  intros big flip a b c d Hb V H P. destruct (tetra_parts flip a b c d) as (EV & EF & E0 & E1 & E2 & E3). fold P in EV, EF, E0, E1, E2, E3.
  assert (Cor : corners P = [sv a; sv b; sv c; sv d]) by (unfold corners, pos; rewrite EV; cbn [map]; rewrite E0, E1, E2, E3; reflexivity). assert (H' : hull (corners P) vzero) by (rewrite Cor; exact H). split; [|exact H'].
  destruct (tetra_closed flip a b c d) as (C & _). fold P in C. unfold vol in V. intros f F. set (t := dot (cross (vsub (sv c) (sv a)) (vsub (sv d) (sv a))) (vsub (sv b) (sv a))) in *.
  destruct (tetra_normals flip a b c d) as ((R0 & A0) & (R1 & A1) & (R2 & A2) & R3 & A3). fold P in R0, A0, R1, A1, R2, A2, R3, A3.
  assert (Q : exists w k, (k = 1 \/ k = -1) /\ In w (vs P) /\ dot (raw_normal P f) (vsub (pos P w) (anchor P f)) = k * t /\ forall v, In v (vs P) -> v = w \/ dot (raw_normal P f) (vsub (pos P v) (anchor P f)) = 0).
  { unfold t. rewrite EV. unfold pos. rewrite EF in F. destruct F as [ <- |[ <- |[ <- |[ <- |[]]]]].
    - exists 3%nat, 1. split; [auto|]. split; [cbn; auto|]. rewrite R0, A0, E3. split; [coords|]. intros v [ <- |[ <- |[ <- |[ <- |[]]]]]; auto; right; rewrite ?E0, ?E1, ?E2; coords.
    - exists 2%nat, (-1). split; [auto|]. split; [cbn; auto|]. rewrite R1, E2. destruct A1 as [A1|A1]; rewrite A1; (split; [coords|]); intros v [ <- |[ <- |[ <- |[ <- |[]]]]]; auto; right; rewrite ?E0, ?E1, ?E3; coords.
    - exists 0%nat, (-1). split; [auto|]. split; [cbn; auto|]. rewrite R2, E0. destruct A2 as [A2|A2]; rewrite A2; (split; [coords|]); intros v [ <- |[ <- |[ <- |[ <- |[]]]]]; auto; right; rewrite ?E1, ?E2, ?E3; coords.
    - exists 1%nat, (-1). split; [auto|]. split; [cbn; auto|]. rewrite R3, E1. destruct A3 as [A3|A3]; rewrite A3; (split; [coords|]); intros v [ <- |[ <- |[ <- |[ <- |[]]]]]; auto; right; rewrite ?E0, ?E2, ?E3; coords. }
  destruct Q as (w & k & Hk & Iw & Ew & A). assert (T : 0 < t * t) by (apply Rlt_0_sqr; exact V). assert (K2 : k * k = 1) by (destruct Hk as [ -> | -> ]; ring). apply one_side with (- (k * t)); auto.
  - apply anchor_in; [exact C|]. rewrite EF. rewrite EF in F. exact F.
  - intros Z. assert (Z2 : k * t = 0) by lra. apply Rmult_integral in Z2. destruct Hk as [ -> | -> ]; lra.
  - intros v Iv. destruct (A v Iv) as [ -> | -> ]; [rewrite Ew; replace (- (k * t) * (k * t)) with (- (k * k * (t * t))) by ring; rewrite K2|]; lra.
  - exists w. split; [exact Iw|]. rewrite Ew. replace (- (k * t) * (k * t)) with (- (k * k * (t * t))) by ring. rewrite K2. lra.
Qed.
Print Assumptions tetra_solid.

(** ** The result of EPA *)
Section Result.
Variables ceps meps feps big tol : R.
Hypothesis Hc : 0 < ceps.
Hypothesis Hf : 0 < feps.
Variable tri : v3 -> v3 -> v3 -> v3 -> R * v3.
Hypothesis TO : tri_ok tri.
Variable seg : v3 -> v3 -> v3 -> R * v3.
Hypothesis SO : seg_ok seg.
Variable veq : v3 -> v3 -> bool.
Variable sup : v3 -> sp.
Variables K1 K2 : v3 -> Prop.
Hypothesis C1 : convex K1.
Hypothesis C2 : convex K2.
Hypothesis SK : forall d, d <> vzero -> pair_of K1 K2 (sup d).
Let K := mink K1 K2.
Hypothesis SX : forall d y, d <> vzero -> K y -> dot y d <= dot (sv (sup d)) d.
Variable ord : list nat -> list nat.
Hypothesis HO : forall l, Permutation (ord l) l.
(** ccdPtNearest returns an element of a polytope that has one *)
Variable near : nat -> pt -> el.
Hypothesis NE : forall k P, vs P <> [] -> element P (near k P).
Variable dirs : list v3.
Hypothesis DN : forall d, In d dirs -> d <> vzero.
Notation from_sup := (P_CcdDist.from_sup sup).
Notation witness := (witness tri seg).
Notation next_support := (next_support ceps big tri seg sup tol).
Notation validate := (validate feps big tri seg).
Notation expand := (expand feps big ord).
Notation epa_loop := (epa_loop ceps feps big tri seg sup tol ord near).

Definition good (P : pt) : Prop := closed P /\ fresh P /\ vs P <> [] /\ forall v, In v (vs P) -> from_sup (pv P v).
Lemma third_in : forall P f, closed P -> In f (fs P) -> In (third P f) (vs P).
Proof.
  intros P f C F. destruct (face_edge P C f 1 F ltac:(lia)) as (E & _). pose proof C as (_ & _ & _ & A & _). destruct (A _ E) as (A1 & A2). unfold third. cbv zeta. destruct (_ || _)%bool; assumption.
Qed.
Lemma element_on : forall P x, good P -> element P x -> (forall p, In p (el_simplex P x) -> from_sup p) /\ on (el_simplex P x) (witness P x) /\ el_dist tri seg P x = norm2 (witness P x).
Proof.
  intros P x (C & _ & _ & G) E. pose proof C as (_ & _ & _ & A & _). destruct x as [v|e|f]; cbn [element] in E; cbn [el_simplex on].
  - split; [intros p [ <- |[]]; auto|]. split; reflexivity.
  - destruct (A e E) as (A1 & A2). split; [intros p [ <- |[ <- |[]]]; auto|]. destruct (SO vzero (from P e) (into P e)) as (S1 & S2). split; [exact S1|]. unfold el_dist, CcdEpa.witness, el_pair. rewrite S2. coords.
  - destruct (face_edge P C f 0 E ltac:(lia)) as (E0 & _). destruct (A _ E0) as (A1 & A2). pose proof (third_in P f C E) as T. split; [intros p [ <- |[ <- |[ <- |[]]]]; auto|].
    destruct (TO vzero (from P (side P f 0)) (into P (side P f 0)) (pos P (third P f))) as (S1 & S2). split; [exact S1|]. unfold el_dist, CcdEpa.witness, el_pair. rewrite S2. coords.
Qed.
Lemma validate_in : forall P e x, closed P -> In e (es P) -> validate P e = Ok x -> element P x.
Proof.
  intros P e x C E V. destruct (edge_two P C e E) as (f & g & N & F0 & G0 & Ff & Fg & _). unfold CcdEpa.validate in V. rewrite F0, G0 in V. cbv zeta in V.
  repeat (destruct (Req_EM_T _ _) in V; [discriminate|]). destruct (Rlt_dec _ _) in V; [discriminate|]. destruct (Rlt_dec _ _) in V; [discriminate|]. destruct (Rlt_dec _ _) in V; [injection V as <-; exact E|]. injection V as <-. cbn [element]. destruct (Rlt_dec _ _); assumption.
Qed.
Lemma unit_ok : forall v, norm2 v <> 0 -> norm (normalized v) = 1 /\ normalized v <> vzero.
Proof.
  intros v N. assert (U : norm2 (normalized v) = 1) by (apply normalized_norm2; intros ->; apply N; coords). split; [unfold norm; rewrite U; apply sqrt_1|]. intros Z. rewrite Z in U. revert U. replace (norm2 vzero) with 0 by coords. lra.
Qed.
Lemma dir_ok : forall P x d, support_dir ceps big tri seg P x = Ok d -> norm d = 1 /\ d <> vzero.
Proof.
  intros P x d E. unfold support_dir in E. destruct (ccd_zero _ _); [destruct x as [|e|f]; [discriminate|destruct (l0 (pe P e)) as [f|]; [|discriminate]|]|]; destruct (Req_EM_T _ _) in E; try discriminate; injection E as <-; apply unit_ok; assumption.
Qed.
(** When the search ends at x: x is a vertex, or the difference of the objects is below a plane at the depth of
    x plus the tolerance, or the support point in the search direction is within the tolerance of x. *)
Definition ends (P : pt) (x : el) : Prop :=
  (exists v, x = EV v) \/ exists u, norm u = 1 /\ ((forall y, K y -> dot y u < norm (witness P x) + tol) \/
    exists z, on (el_simplex P x) z /\ norm (vsub (sv (sup u)) z) < tol).
Lemma next_ok : forall P x r, good P -> element P x -> next_support P x = Ok r -> match r with None => ends P x | Some q => from_sup q end.
Proof.
  intros P x r G E N. destruct (element_on P x G E) as (_ & _ & D). unfold CcdEpa.next_support in N. destruct x as [v|e|f].
  1: injection N as <-; left; eauto.
  all: destruct (support_dir _ _ _ _ _ _) as [d| |] eqn:SD in N; try discriminate; destruct (dir_ok _ _ _ SD) as (U & Z); cbv zeta in N; rewrite D in N; destruct (Rlt_dec _ tol) as [L|L] in N;
    [injection N as <-; right; exists d; split; [exact U|left]; intros y Ky; pose proof (SX d y Z Ky); unfold norm at 1; lra|].
  all: destruct (Rlt_dec _ tol) as [L2|L2] in N; injection N as <-; [|exists d; auto]; right; exists d; split; [exact U|right].
  - destruct (SO (sv (sup d)) (from P e) (into P e)) as (S1 & S2). exists (snd (seg (sv (sup d)) (from P e) (into P e))). split; [exact S1|]. rewrite S2 in L2. set (z := snd _) in *. unfold norm. replace (norm2 (vsub (sv (sup d)) z)) with (norm2 (vsub z (sv (sup d)))) by coords. exact L2.
  - destruct (TO (sv (sup d)) (from P (side P f 0)) (into P (side P f 0)) (pos P (third P f))) as (S1 & S2). exists (snd (tri (sv (sup d)) (from P (side P f 0)) (into P (side P f 0)) (pos P (third P f)))). split; [exact S1|]. rewrite S2 in L2. set (z := snd _) in *. unfold norm. replace (norm2 (vsub (sv (sup d)) z)) with (norm2 (vsub z (sv (sup d)))) by coords. exact L2.
Qed.
Lemma start_in : forall P x q f, closed P -> element P x -> start_face big P x q = Ok f -> In f (fs P).
Proof.
  intros P x q f C E S. destruct x as [v|e|g]; cbn [start_face] in S; [discriminate| |injection S as <-; exact E]. destruct (edge_two P C e E) as (a & b & N & F0 & G0 & Ff & Fg & _). rewrite F0, G0 in S. destruct (outside big P a q); [injection S as <-; exact Ff|]. destruct (outside big P b q); [injection S as <-; exact Fg|discriminate].
Qed.
(** The border of the patch passes through a vertex more than once (see C79). *)
Definition pinch (P : pt) (x : el) (q : sp) : Prop := exists f s u, start_face big P x (sv q) = Ok f /\ visible_patch P (seen feps big P (sv q)) f = Seen s /\ ends_at P (border s) u <> 0%nat /\ ends_at P (border s) u <> 2%nat.
Lemma expand_good : forall P x q Q, good P -> element P x -> from_sup q -> expand P x q = Ok Q -> pinch P x q \/ good Q.
Proof.
  intros P x q Q (C & FR & NV & G) E Fq X. unfold CcdEpa.expand in X. destruct (start_face big P x (sv q)) as [f| |] eqn:SF; try discriminate. pose proof (start_in P x _ f C E SF) as F. destruct (visible_patch _ _ f) as [s| | |] eqn:VP; try discriminate. injection X as <-.
  pose proof (found_patch _ _ _ _ C F VP) as PO.
  assert (D : (forall u, ends_at P (border s) u = 0%nat \/ ends_at P (border s) u = 2%nat) \/ exists u, ends_at P (border s) u <> 0%nat /\ ends_at P (border s) u <> 2%nat).
  { destruct (Exists_dec (fun u => ends_at P (border s) u <> 0%nat /\ ends_at P (border s) u <> 2%nat) (map (fun b => ea (pe P b)) (border s) ++ map (fun b => eb (pe P b)) (border s))) as [Y|N].
    - intros u. destruct (Nat.eq_dec (ends_at P (border s) u) 0), (Nat.eq_dec (ends_at P (border s) u) 2); tauto.
    - right. apply Exists_exists in Y. destruct Y as (u & _ & Y). exists u. exact Y.
    - left. intros u. destruct (Nat.eq_dec (ends_at P (border s) u) 0) as [|N0]; [auto|]. destruct (Nat.eq_dec (ends_at P (border s) u) 2) as [|N2]; [auto|]. exfalso. apply N. apply Exists_exists. exists u. split; [|auto]. unfold ends_at in N0. destruct (filter _ _) as [|b l] eqn:Fl in N0; [contradiction N0; reflexivity|].
      assert (I : In b (filter (fun b => (ea (pe P b) =? u) || (eb (pe P b) =? u))%bool%nat (border s))) by (rewrite Fl; left; reflexivity). apply filter_In in I. destruct I as (I & J). apply orb_true_iff in J. apply in_app_iff. destruct J as [J|J]; apply Nat.eqb_eq in J; [left|right]; apply in_map_iff; exists b; auto. }
  destruct D as [D|(u & D)]; [right|left; exists f, s, u; tauto]. destruct (expand_closed ord P s q HO C FR PO D) as (C' & FR' & EV). destruct (new_faces ord P s q HO C FR PO) as (_ & EP & _). split; [exact C'|]. split; [exact FR'|]. split; [rewrite EV; destruct (vs P); discriminate|].
  intros v Iv. rewrite EV in Iv. rewrite EP. apply in_app_iff in Iv. destruct Iv as [Iv|[ <- |[]]]; [rewrite upd_other; [auto|]; assert (v < nx P)%nat by (apply FR; auto); lia|rewrite upd_same; exact Fq].
Qed.
(** C81: on a closed polytope expandPolytope always gives a polytope, except if the nearest element is a vertex,
    or an edge and the new point is outside of neither of its faces: it never throws because an edge is
    classified twice and never follows a null pointer. *)
Theorem expand_runs : forall P x q, closed P -> element P x ->
  (exists Q, expand P x q = Ok Q) \/ expand P x q = Throws /\
    ((exists v, x = EV v) \/ exists e, x = EE e /\ forall f, on_edge P e f -> outside big P f (sv q) = false).
Proof.
  intros P x q C E. unfold CcdEpa.expand. assert (R : forall f, In f (fs P) -> exists Q, match visible_patch P (seen feps big P (sv q)) f with Seen s => Ok (patch_in ord P s q) | Twice => Throws | _ => Bad end = Ok Q) by (intros f F; destruct (patch_classified P (seen feps big P (sv q)) f C F) as (s & -> & _); eauto).
  destruct x as [v|e|f]; cbn [start_face]; [right; eauto| |left; apply R, E]. destruct (edge_two P C e E) as (a & b & N & F0 & G0 & Ff & Fg & _). rewrite F0, G0. destruct (outside big P a (sv q)) eqn:Oa; [left; apply R, Ff|]. destruct (outside big P b (sv q)) eqn:Ob; [left; apply R, Fg|].
  right. split; [reflexivity|]. right. exists e. split; [reflexivity|]. unfold on_edge. rewrite F0, G0. intros f [H|H]; injection H as <-; assumption.
Qed.

(** A pinch on the way *)
Fixpoint pinches (n k : nat) (P : pt) : Prop :=
  match n with
  | O => False
  | S n' => exists x q, (match near k P with EE e => validate P e | y => Ok y end) = Ok x /\ next_support P x = Ok (Some q) /\
      (pinch P x q \/ exists Q, expand P x q = Ok Q /\ pinches n' (S k) Q)
  end.
Lemma loop_result : forall n k P x Q, good P -> epa_loop n k P = Some (Ok (x, Q)) -> pinches n k P \/ good Q /\ element Q x /\ ends Q x.
Proof.
  induction n as [|n IH]; intros k P x Q G E; [discriminate|]. cbn [CcdEpa.epa_loop] in E. destruct (match near k P with EE e => validate P e | y => Ok y end) as [y| |] eqn:EN; try discriminate.
  assert (Ey : element P y). { pose proof G as (C & _ & NV & _). pose proof (NE k P NV) as Z. destruct (near k P) as [v|e|f]; [injection EN as <-; exact Z|eapply validate_in; eauto|injection EN as <-; exact Z]. }
  destruct (next_support P y) as [[q|]| |] eqn:NS; try discriminate.
  - pose proof (next_ok P y _ G Ey NS) as Fq. cbv beta iota in Fq. destruct (expand P y q) as [P'| |] eqn:X; try discriminate. destruct (expand_good P y q P' G Ey Fq X) as [Pi|G'].
    + left. exists y, q. auto.
    + destruct (IH (S k) P' x Q G' E) as [Pi|R]; [left; exists y, q; split; [exact EN|]; split; [exact NS|right; eauto]|right; exact R].
  - injection E as <- <-. right. split; [exact G|]. split; [exact Ey|]. exact (next_ok P y _ G Ey NS).
Qed.

(** ** The first polytope and the signed distance *)
Definition start (s : list sp) : pt * option el :=
  match s with
  | [a; b] => from2 veq sup dirs a b
  | [a; b; c] => from3 ceps tri sup a b c
  | [a; b; c; d] => from4 ceps meps tri sup a b c d
  | _ => (empty, None)
  end.
(** The support function is asked in the direction zero: the three points are on a line, or among the points
    taken for a segment there is the origin or one on a line with two others *)
Definition line3 (a b c : sp) : Prop := cross (vsub (sv b) (sv a)) (vsub (sv c) (sv a)) = vzero.
Definition blind (s : list sp) : Prop :=
  match s with
  | [a; b] => exists d, In d dirs /\ let s0 := sup d in (sv s0 = vzero \/ line3 a s0 (sup (vneg (sv s0))))
  | [a; b; c] => line3 a b c
  | [a; b; c; d] => line3 a b c \/ line3 a c d \/ line3 a b d \/ line3 b c d
  | _ => False
  end.
(** The result without a search: an edge between the two points, or a face such that the difference of the objects
    is below a plane at the depth of x plus the root of eps *)
Definition touch (P : pt) (x : el) : Prop :=
  (exists e, x = EE e) \/ exists u, norm u = 1 /\ forall y, K y -> dot y u <= norm (witness P x) + sqrt ceps.
Definition fine (P : pt) (x : el) : Prop := (forall p, In p (el_simplex P x) -> from_sup p) /\ on (el_simplex P x) (witness P x) /\ el_dist tri seg P x = norm2 (witness P x).

Lemma in_tri_plane : forall a b c p n, in_tri a b c p -> dot n (vsub b a) = 0 -> dot n (vsub c a) = 0 -> dot n p = dot n a.
Proof.
  intros a b c p n (u & v & w & _ & _ & _ & Sm & ->) B C. replace (dot n (vadd (vadd (vscale u a) (vscale v b)) (vscale w c))) with ((u + v + w) * dot n a + v * dot n (vsub b a) + w * dot n (vsub c a)) by coords. rewrite B, C, Sm. ring.
Qed.
Lemma nonzero : forall v, v <> vzero -> norm2 v <> 0.
Proof. intros v N Z. apply N, norm2_zero, Z. Qed.
Lemma touch_bound : forall a b c n w, n <> vzero -> dot n (vsub (sv b) (sv a)) = 0 -> dot n (vsub (sv c) (sv a)) = 0 -> in_tri (sv a) (sv b) (sv c) w ->
  ccd_zero ceps (fst (tri (sv (sup n)) (sv a) (sv b) (sv c))) = true -> exists u, norm u = 1 /\ forall y, K y -> dot y u <= norm w + sqrt ceps.
Proof.
  intros a b c n w Nn B C Iw Z. destruct (TO (sv (sup n)) (sv a) (sv b) (sv c)) as (Iz & Ez). set (z := snd _) in *. unfold ccd_zero in Z. destruct (Rlt_dec _ _) as [L|] in Z; [|discriminate]. rewrite Ez, Rabs_right in L by (apply Rle_ge, norm2_nonneg).
  assert (L2 : norm (vsub (sv (sup n)) z) <= sqrt ceps). { unfold norm. apply sqrt_le_1_alt. replace (norm2 (vsub (sv (sup n)) z)) with (norm2 (vsub z (sv (sup n)))) by coords. lra. }
  exists (normalized n). destruct (unit_ok n (nonzero n Nn)) as (U & _). split; [exact U|]. intros y Ky. pose proof (SX n y Nn Ky) as Sy. assert (Pn : 0 < norm2 n) by (pose proof (norm2_nonneg n); pose proof (nonzero n Nn); lra). destruct (unit_scaled n Pn) as (En & Pk).
  assert (Y : dot y (normalized n) <= dot (sv (sup n)) (normalized n)). { rewrite En. replace (dot y (vscale (/ norm n) n)) with (/ norm n * dot y n) by coords. replace (dot (sv (sup n)) (vscale (/ norm n) n)) with (/ norm n * dot (sv (sup n)) n) by coords. apply Rmult_le_compat_l; lra. }
  assert (Ew : dot (normalized n) z = dot (normalized n) w). { rewrite En. replace (dot (vscale (/ norm n) n) z) with (/ norm n * dot n z) by coords. replace (dot (vscale (/ norm n) n) w) with (/ norm n * dot n w) by coords. rewrite (in_tri_plane _ _ _ z n Iz B C), (in_tri_plane _ _ _ w n Iw B C). reflexivity. }
  pose proof (cauchy_schwarz (normalized n) w) as S1. pose proof (cauchy_schwarz (normalized n) (vsub (sv (sup n)) z)) as S2. rewrite U, Rmult_1_l in S1, S2.
  replace (dot (sv (sup n)) (normalized n)) with (dot (normalized n) z + dot (normalized n) (vsub (sv (sup n)) z)) in Y by coords. lra.
Qed.
Lemma tetra_good : forall flip a b c d, from_sup a -> from_sup b -> from_sup c -> from_sup d -> good (tetra flip a b c d).
Proof.
  intros flip a b c d A B C D. destruct (tetra_closed flip a b c d) as (Cl & Fr). destruct (tetra_parts flip a b c d) as (EV & _ & E0 & E1 & E2 & E3). split; [exact Cl|]. split; [exact Fr|]. rewrite EV. split; [discriminate|]. intros v [ <- |[ <- |[ <- |[ <- |[]]]]]; congruence.
Qed.
Lemma neg_nonzero : forall v, v <> vzero -> vneg v <> vzero.
Proof. intros v N Z. apply N. replace v with (vneg (vneg v)) by vcoords. rewrite Z. vcoords. Qed.
Lemma from3_ok : forall a b c, from_sup a -> from_sup b -> from_sup c -> ~ line3 a b c ->
  match from3 ceps tri sup a b c with (P, None) => good P | (P, Some x) => fine P x /\ touch P x end.
Proof.
  intros a b c A B C N. unfold from3. unfold line3 in N. set (n := cross _ _) in *. assert (Nn : vneg n <> vzero) by (apply neg_nonzero, N).
  destruct (ccd_zero ceps _) eqn:Z1; [|destruct (ccd_zero ceps (fst (tri (sv (sup (vneg n))) _ _ _))) eqn:Z2]; cbn [orb].
  3:{ destruct (Rlt_dec _ _); apply tetra_good; auto; eexists; eauto. }
  all: cbn [add_vertex add_edge nx fst snd empty]; match goal with |- fine ?p ?x /\ _ => set (P := p); set (X := x) end; assert (Es : el_simplex P X = [a; b; c]) by reflexivity; assert (Ew : witness P X = snd (tri vzero (sv a) (sv b) (sv c))) by reflexivity; assert (Ed : el_dist tri seg P X = fst (tri vzero (sv a) (sv b) (sv c))) by reflexivity;
    destruct (TO vzero (sv a) (sv b) (sv c)) as (T1 & T2); (split; [split; [rewrite Es; intros p [ <- |[ <- |[ <- |[]]]]; assumption|split; [rewrite Es, Ew; exact T1|rewrite Ed, T2, Ew; coords]]|right]); rewrite Ew.
  - apply (touch_bound a b c n); auto; unfold n; coords.
  - apply (touch_bound a b c (vneg n)); auto; unfold n; coords.
Qed.
Lemma octa_good : forall a b c d e f, from_sup a -> from_sup b -> from_sup c -> from_sup d -> from_sup e -> from_sup f -> good (octa a b c d e f).
Proof.
  intros a b c d e f A B C D E F. destruct (octa_closed a b c d e f) as (Cl & Fr). split; [exact Cl|]. split; [exact Fr|]. assert (EV : vs (octa a b c d e f) = [0; 1; 2; 3; 4; 5]%nat) by reflexivity. rewrite EV. split; [discriminate|]. intros v [ <- |[ <- |[ <- |[ <- |[ <- |[ <- |[]]]]]]]; [change (from_sup a)|change (from_sup b)|change (from_sup c)|change (from_sup d)|change (from_sup e)|change (from_sup f)]; assumption.
Qed.
Lemma from2_ok : forall a b, from_sup a -> from_sup b -> ~ blind [a; b] ->
  match from2 veq sup dirs a b with (P, None) => good P | (P, Some x) => fine P x /\ touch P x end.
Proof.
  intros a b A B N. unfold from2. cbv zeta. match goal with |- context[match find _ _ with Some _ => _ | None => ?t end] => set (touching := t) end.
  assert (T : match touching with (P, None) => good P | (P, Some x) => fine P x /\ touch P x end).
  { unfold touching. cbn [add_vertex add_edge nx fst snd empty]. match goal with |- fine ?p ?x /\ _ => set (P := p); set (X := x) end. assert (Es : el_simplex P X = [a; b]) by reflexivity. destruct (SO vzero (sv a) (sv b)) as (T1 & T2).
    assert (Ew : witness P X = snd (seg vzero (sv a) (sv b))) by reflexivity. assert (Ed : el_dist tri seg P X = fst (seg vzero (sv a) (sv b))) by reflexivity.
    split; [|left; eexists; reflexivity]. split; [rewrite Es; intros p [ <- |[ <- |[]]]; assumption|]. split; [rewrite Es, Ew; exact T1|]. rewrite Ed, T2, Ew. coords. }
  destruct (find _ dirs) as [d|] eqn:F; [|exact T]. apply find_some in F. destruct F as (Id & _). assert (N0 : sv (sup d) <> vzero) by (intros Z; apply N; exists d; cbv zeta; auto). match goal with |- match (if ?t then _ else _) with _ => _ end => destruct t end; [|exact T].
  set (s1 := sup (vneg (sv (sup d)))). assert (N1 : cross (vsub (sv (sup d)) (sv a)) (vsub (sv s1) (sv a)) <> vzero) by (intros Z; apply N; exists d; cbv zeta; split; [exact Id|right; exact Z]). set (n := cross _ _) in *.
  match goal with |- match (if ?t then _ else _) with _ => _ end => destruct t end; [|exact T]. match goal with |- match (if ?t then _ else _) with _ => _ end => destruct t end; [|exact T]. assert (W : forall v, v <> vzero -> from_sup (sup v)) by (intros v Nv; exists v; auto). apply octa_good; auto; apply W; auto using neg_nonzero.
Qed.
Lemma from4_ok : forall a b c d, from_sup a -> from_sup b -> from_sup c -> from_sup d -> ~ blind [a; b; c; d] ->
  match from4 ceps meps tri sup a b c d with (P, None) => good P | (P, Some x) => fine P x /\ touch P x end.
Proof.
  intros a b c d A B C D N. cbn [blind] in N. unfold from4. destruct (tiny2 _ _); [apply from3_ok; tauto|]. destruct (tiny2 _ _); [apply from3_ok; tauto|]. destruct (tiny2 _ _); [apply from3_ok; tauto|]. destruct (tiny2 _ _); [apply from3_ok; tauto|]. apply tetra_good; auto.
Qed.
Lemma line_dec : forall a b c, line3 a b c \/ ~ line3 a b c.
Proof. intros a b c. unfold line3. destruct (Req_EM_T (norm2 (cross (vsub (sv b) (sv a)) (vsub (sv c) (sv a)))) 0) as [Z|N]; [left; apply norm2_zero, Z|right; intros Z; apply N; rewrite Z; coords]. Qed.
Lemma blind_dec : forall s, blind s \/ ~ blind s.
Proof.
  intros s. destruct s as [|a [|b [|c [|d [|? ?]]]]]; cbn [blind]; try (right; intros []; fail).
  - induction dirs as [|d l IH]; [right; intros (d & [] & _)|]. assert (D : (sv (sup d) = vzero \/ line3 a (sup d) (sup (vneg (sv (sup d))))) \/ ~ (sv (sup d) = vzero \/ line3 a (sup d) (sup (vneg (sv (sup d)))))).
    { destruct (line_dec a (sup d) (sup (vneg (sv (sup d))))); [auto|]. destruct (Req_EM_T (norm2 (sv (sup d))) 0) as [Z|Nz]; [left; left; apply norm2_zero, Z|]. right. intros [Z|Z]; [apply Nz; rewrite Z; coords|auto]. }
    destruct D as [D|D]; [left; exists d; split; [left; reflexivity|exact D]|]. destruct IH as [(e & I & H)|IH].
    + intros e I. apply DN. right. exact I.
    + left. exists e. split; [right; exact I|exact H].
    + right. intros (e & [ <- |I] & H); [exact (D H)|]. apply IH. exists e. auto.
  - apply line_dec.
  - destruct (line_dec a b c); [tauto|]. destruct (line_dec a c d); [tauto|]. destruct (line_dec a b d); [tauto|]. destruct (line_dec b c d); tauto.
Qed.
Lemma epa_result : forall m s x P, (forall p, In p s -> from_sup p) -> ccd_epa ceps meps feps big tri seg veq sup tol ord near dirs m s = Some (Ok (x, P)) ->
  blind s \/ pinches m 0 (fst (start s)) \/ fine P x /\ (ends P x \/ touch P x).
Proof.
  intros m s x P H E. destruct (blind_dec s) as [Y|N]; [auto|right].
  assert (G : forall st, match st with (Q, None) => good Q | (Q, Some y) => fine Q y /\ touch Q y end -> (match snd st with Some y => Some (Ok (y, fst st)) | None => epa_loop m 0 (fst st) end) = Some (Ok (x, P)) -> pinches m 0 (fst st) \/ fine P x /\ (ends P x \/ touch P x)).
  { intros (Q & [y|]) Hs Es; cbn [fst snd] in *.
    - injection Es as <- <-. tauto.
    - destruct (loop_result m 0 Q x P Hs Es) as [Pi|(G1 & G2 & G3)]; [auto|right]. split; [apply element_on; auto|auto]. }
  destruct s as [|a [|b [|c [|d [|? ?]]]]]; cbn [ccd_epa] in E; try discriminate; cbn [start].
  - apply G; [apply from2_ok; auto; apply H; cbn; auto|exact E].
  - apply G; [apply from3_ok; auto; apply H; cbn; auto|exact E].
  - apply G; [apply from4_ok; auto; apply H; cbn; auto|exact E].
Qed.
(** C81: the depth.  [depth x]: what is known of the vector x whose length is the depth. *)
Definition depth (x : v3) : Prop :=
  (exists u, norm u = 1 /\ forall y, K y -> dot y u <= norm x + Rmax tol (sqrt ceps)) \/
  (exists u s z, norm u = 1 /\ (forall p, In p s -> from_sup p) /\ on s x /\ on s z /\ norm (vsub (sv (sup u)) z) < tol) \/
  (exists p, from_sup p /\ x = sv p) \/ (exists a b, from_sup a /\ from_sup b /\ segset (sv a) (sv b) x).
Theorem signed_answer : forall dtol n m first d p1 p2, 0 < meps -> first <> vzero -> sv (sup first) <> vzero ->
  signed_dist ceps meps feps big tri seg veq sup tol ord near dirs dtol n m first = Some (Pen d p1 p2) ->
  close ceps meps feps K /\ exists s, ccd_gjk ceps meps feps tri veq sup n first = Some (Inside, s) /\ (blind s \/ pinches m 0 (fst (start s)) \/
    exists x, K x /\ d = - norm x /\ depth x /\
      (flat feps sup x \/ K1 p1 /\ K2 p2 /\ (vsub p1 p2 = x \/ pinched feps sup x /\ norm (vsub (vsub p1 p2) x) <= 2 * feps))).
Proof.
  intros dtol n m first d p1 p2 Hm N N1 E. unfold signed_dist in E. destruct (gjk_answer ceps meps feps Hc Hm (Rlt_le _ _ Hf) tri TO veq sup K) with (n := n) (first := first) as (w & s & Eg & L & F & C & _); auto; [apply mink_convex; auto|intros e Ne; apply pair_K; apply SK, Ne|].
  rewrite Eg in E. destruct w; try discriminate. split; [apply C; reflexivity|]. exists s. split; [exact Eg|]. destruct (ccd_epa _ _ _ _ _ _ _ _ _ _ _ _ m s) as [[(x & P)| |]|] eqn:EE; try discriminate. destruct (epa_result m s x P F EE) as [Y|[Y|((F1 & F2 & F3) & Y)]]; [auto|auto|right; right].
  unfold pen_points in E. destruct (points_sound feps Hf sup K1 K2 C1 C2 SK (el_simplex P x) (witness P x) F2 F1) as (q1 & q2 & X & A). rewrite X in E. rewrite F3 in E. assert (Ed : d = - norm (witness P x)) by (unfold norm; congruence). assert (E1 : q1 = p1) by congruence. assert (E2 : q2 = p2) by congruence. subst q1 q2.
  exists (witness P x). split; [apply (on_K sup K1 K2 C1 C2 SK (el_simplex P x)); auto|]. split; [exact Ed|]. split; [|exact A]. destruct Y as [[(v & ->)|(u & U & [B|(z & Oz & Lz)])]|[(e & ->)|(u & U & B)]].
  - right; right; left. cbn [el_simplex] in F1. exists (pv P v). split; [apply F1; left; reflexivity|reflexivity].
  - left. exists u. split; [exact U|]. intros y Ky. pose proof (B y Ky). pose proof (Rmax_l tol (sqrt ceps)). lra.
  - right; left. exists u, (el_simplex P x), z. auto.
  - do 3 right. cbn [el_simplex] in F1, F2. exists (pv P (ea (pe P e))), (pv P (eb (pe P e))). split; [apply F1; left; reflexivity|]. split; [apply F1; right; left; reflexivity|exact F2].
  - left. exists u. split; [exact U|]. intros y Ky. pose proof (B y Ky). pose proof (Rmax_r tol (sqrt ceps)). lra.
Qed.
End Result.
Print Assumptions expand_runs.
Print Assumptions signed_answer.

(** C81: for two shapes other than cylinders a depth is the distance of two of their points; the contact points are
    points of the shapes at that distance, up to 2 eps and unless they come from a triangle without area; and,
    unless the search ended in one of the three other ways, moving one shape along u by more than the depth
    plus the tolerance separates them. *)
Theorem shapes_depth : forall ceps meps feps big tol rmax dtol tri seg veq find ord near dirs s0 s1 X0 X1 n m first d p1 p2,
  0 < ceps -> 0 < meps -> 0 < feps -> tri_ok tri -> seg_ok seg -> callable big find s0 -> callable big find s1 -> ortho (tf_rot X0) -> ortho (tf_rot X1) ->
  (forall l, Permutation (ord l) l) -> (forall k P, vs P <> [] -> element P (near k P)) -> (forall e, In e dirs -> e <> vzero) ->
  let sup := shapes_sup big ceps find s0 s1 X0 X1 in first <> vzero -> sv (sup first) <> vzero ->
  signed_dist ceps meps feps rmax tri seg veq sup tol ord near dirs dtol n m first = Some (Pen d p1 p2) ->
  exists s, ccd_gjk ceps meps feps tri veq sup n first = Some (Inside, s) /\
   (blind sup dirs s \/ pinches ceps feps rmax tol tri seg sup ord near m 0 (fst (start ceps meps tri veq sup dirs s)) \/
    exists p q, placed X0 (points s0) p /\ placed X1 (points s1) q /\ d = - dist p q /\
      (flat feps sup (vsub p q) \/ placed X0 (points s0) p1 /\ placed X1 (points s1) p2 /\ Rabs (dist p1 p2 - dist p q) <= 2 * feps) /\
      ((exists u, norm u = 1 /\ forall t, dist p q + Rmax tol (sqrt ceps) < t -> forall a b, placed X0 (points s0) a -> placed X1 (points s1) b -> vsub a (vscale t u) <> b) \/
       (exists u l z, norm u = 1 /\ (forall w, In w l -> from_sup sup w) /\ on l (vsub p q) /\ on l z /\ norm (vsub (sv (sup u)) z) < tol) \/
       (exists w, from_sup sup w /\ vsub p q = sv w) \/ (exists v w, from_sup sup v /\ from_sup sup w /\ segset (sv v) (sv w) (vsub p q)))).
Proof.
  intros ceps meps feps big tol rmax dtol tri seg veq find ord near dirs s0 s1 X0 X1 n m first d p1 p2 Hc Hm Hf TO SO (Z0 & N0 & F0) (Z1 & N1 & F1) O0 O1 HO NE DN sup Hd SN E.
  set (A := placed X0 (points s0)) in *. set (B := placed X1 (points s1)) in *. assert (CA : convex A) by (apply placed_convex, points_convex; auto). assert (CB : convex B) by (apply placed_convex, points_convex; auto).
  assert (E0 : forall e, e <> vzero -> extreme A e (sv1 (sup e))) by (intros e He; apply ccd_support_extreme; auto; apply F0).
  assert (E1 : forall e, e <> vzero -> extreme B (vneg e) (sv2 (sup e))) by (intros e He; apply ccd_support_extreme; auto using neg_zero; apply F1).
  assert (SK : forall e, e <> vzero -> pair_of A B (sup e)) by (intros e He; split; [apply E0; auto|split; [apply E1; auto|reflexivity]]).
  assert (SX : forall e y, e <> vzero -> mink A B y -> dot y e <= dot (sv (sup e)) e).
  { intros e y Ne (a & b & Ka & Kb & ->). pose proof (proj2 (E0 e Ne) a Ka) as Qa. pose proof (proj2 (E1 e Ne) b Kb) as Qb. change (sv (sup e)) with (vsub (sv1 (sup e)) (sv2 (sup e))). revert Qa Qb. coords. intros. lra. }
  destruct (signed_answer ceps meps feps rmax tol Hc Hf tri TO seg SO veq sup A B CA CB SK SX ord HO near NE dirs DN dtol n m first d p1 p2 Hm Hd SN E) as (_ & s & Eg & R). exists s. split; [exact Eg|]. destruct R as [R|[R|(x & (p & q & Ap & Bq & Ex) & Ed & Dx & Px)]]; [auto|auto|right; right].
  exists p, q. split; [exact Ap|]. split; [exact Bq|]. unfold dist. rewrite <- Ex. split; [exact Ed|]. split.
  - destruct Px as [P|(Q1 & Q2 & Q3)]; [left; exact P|right]. split; [exact Q1|]. split; [exact Q2|]. destruct Q3 as [ -> |(_ & Q3)].
    + replace (norm x - norm x) with 0 by ring. rewrite Rabs_R0. lra.
    + apply Rle_trans with (norm (vsub (vsub p1 p2) x)); [|exact Q3]. set (y := vsub p1 p2) in *. pose proof (norm_triangle x (vsub y x)) as T1. replace (vadd x (vsub y x)) with y in T1 by vcoords. pose proof (norm_triangle y (vneg (vsub y x))) as T2. replace (vadd y (vneg (vsub y x))) with x in T2 by vcoords. rewrite norm_neg in T2. unfold Rabs. destruct (Rcase_abs _); lra.
  - destruct Dx as [(u & U & D)|D]; [left|right; exact D]. exists u. split; [exact U|]. intros t Ht a b Aa Bb Z. assert (K : mink A B (vscale t u)). { exists a, b. split; [exact Aa|]. split; [exact Bb|]. rewrite <- Z. vcoords. }
    pose proof (D _ K) as L. replace (dot (vscale t u) u) with (t * norm2 u) in L by coords. rewrite <- norm_sq, U in L. lra.
Qed.
Print Assumptions shapes_depth.

(** A convex polytope with its normals outward: a tetrahedron around the origin *)
Example tetra_around : forall flip, let p v := Sp v v vzero in let P := tetra flip (p (k0 1)) (p (k1 1)) (p (k2 1)) (p (k3 1)) in solid 1 P /\ hull (corners P) vzero.
Proof.
  intros flip p P. apply tetra_solid; [lra| |].
  - unfold p, k0, k1, k2, k3, vol. cbn [sv]. match goal with |- ?x <> 0 => replace x with (-5) by coords end. lra.
  - apply (small_inside 1); [lra|]. unfold norm. replace (norm2 vzero) with 0 by coords. rewrite sqrt_0. lra.
Qed.
(** C81: a depth does not mean that the objects overlap: a segment that passes a point at a distance of at least
    g / 3 has a negative signed distance of at most - g / 3, if g < 2 eps. *)
Theorem pen_apart_refuted : forall ceps meps feps tol big dtol tri seg veq ord near dirs n m g, 0 < g <= 1 -> g < 2 * feps -> seg_ok seg -> (forall v, veq v v = true) ->
  (forall x, segset (mk3 1 0 0) (mk3 (- (1)) g 0) x -> g / 3 <= norm x) /\
  exists d p1 p2, signed_dist ceps meps feps big tri seg veq (poly_sup (mk3 1 0 0) [mk3 (- (1)) g 0]) tol ord near dirs dtol (S n) m (mk3 1 0 0) = Some (Pen d p1 p2) /\ d <= - (g / 3).
Proof.
  intros ceps meps feps tol big dtol tri seg veq ord near dirs n m g Hg Hf SO VR. destruct (gap_refuted ceps meps feps tri veq (S n) 1 g) as (G & l & E); [lra|lra|lra|lia|]. assert (G' : forall x, segset (mk3 1 0 0) (mk3 (- (1)) g 0) x -> g / 3 <= norm x) by (intros x (t & Ht & ->); apply G, Ht). split; [exact G'|]. unfold signed_dist. rewrite E.
  set (a := mk3 1 0 0) in *. set (b := mk3 (- (1)) g 0) in *.
  assert (E0 : poly_sup a [b] a = Sp a a vzero). { unfold poly_sup, best. cbn [fold_left]. destruct (Rlt_dec _ _) as [L|_]; [exfalso; revert L; unfold a, b; coords; lra|reflexivity]. }
  assert (E1 : poly_sup a [b] (vneg a) = Sp b b vzero). { unfold poly_sup, best. cbn [fold_left]. destruct (Rlt_dec _ _) as [_|N]; [reflexivity|]. exfalso; apply N; unfold a, b; coords; lra. }
  assert (L : l = [Sp a a vzero; Sp b b vzero]).
  { revert E. unfold ccd_gjk. rewrite E0. cbn [gjk_loop sv]. rewrite E1. cbn [sv]. destruct (Rlt_dec _ 0); [discriminate|]. cbn [add length Nat.ltb Nat.leb app do_simplex]. unfold do2. cbn [sv]. destruct (Rle_dec _ _); [|discriminate]. destruct (Rlt_dec _ _) as [L|L]; [intros E; injection E as <-; reflexivity|].
    intros E. exfalso. apply L. clear L E. replace (norm2 (cross a (vsub a b))) with (g * g) by (unfold a, b; coords). replace (norm2 (vsub a b) * norm2 a * feps * feps) with ((2 * feps) * (2 * feps) + (g * feps) * (g * feps)) by (unfold a, b; coords).
    pose proof (Rle_0_sqr (g * feps)) as S. unfold Rsqr in S. assert (g * g < 2 * feps * (2 * feps)) by (apply Rmult_le_0_lt_compat; lra). lra. }
  rewrite L. cbn [ccd_epa]. unfold from2. cbv zeta.
  assert (NF : find (fun d => negb (veq (sv (Sp a a vzero)) (sv (poly_sup a [b] d)) || veq (sv (Sp b b vzero)) (sv (poly_sup a [b] d)))%bool) dirs = None).
  { clear - VR. induction dirs as [|d l IH]; [reflexivity|]. cbn [find]. unfold poly_sup at 1 2. unfold best. cbn [fold_left sv]. destruct (Rlt_dec _ _); rewrite VR, ?orb_true_r; cbn [negb orb]; exact IH. }
  rewrite NF. cbn [add_vertex add_edge nx fst snd]. unfold pen_points. cbn [el_simplex extract]. destruct (extract_segment feps _ _ _) as (p1 & p2). do 3 eexists. split; [reflexivity|].
  match goal with |- - sqrt ?x <= _ => change x with (fst (seg vzero a b)) end. destruct (SO vzero a b) as (S1 & S2). rewrite S2. pose proof (G' _ S1) as Q. set (w := snd (seg vzero a b)) in *. replace (norm2 (vsub w vzero)) with (norm2 w) by coords. unfold norm in Q. lra.
Qed.
Print Assumptions pen_apart_refuted.
