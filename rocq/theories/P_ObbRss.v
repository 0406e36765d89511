(** C95: OBBRSS, and the size and volume of RSS. *)
From Coq Require Import Reals Lra Psatz.
From Verif Require Import VecR Obb P_Obb Motion Convert P_Convert RectSeg P_RectSeg ObbRss.
Open Scope R_scope.

(** ** Size, extents, centre and volume of RSS *)
Lemma rect_gap : forall b x y x' y', ortho (rax b) -> dist (rect b x y) (rect b x' y') = sqrt (((x' - x) * rl0 b) * ((x' - x) * rl0 b) + ((y' - y) * rl1 b) * ((y' - y) * rl1 b)).
Proof.
  intros b x y x' y' O. rewrite dist_sym. unfold dist. replace (vsub (rect b x' y') (rect b x y)) with (mapply (rax b) (mk3 ((x' - x) * rl0 b) ((y' - y) * rl1 b) 0)) by (unfold rect; vring).
  rewrite mapply_norm by exact O. unfold norm, norm2, dot. cbn [c0 c1 c2]. f_equal. ring.
Qed.
Lemma diag_dir : forall a c, exists u, norm u = 1 /\ c2 u = 0 /\ mk3 a c 0 = vscale (sqrt (a * a + c * c)) u.
Proof.
  intros a c. destruct (Req_dec (a * a + c * c) 0) as [Z|Z].
  - exists (mk3 1 0 0). rewrite Z, sqrt_0. assert (a = 0) by nra. assert (c = 0) by nra. subst. split; [|split; [reflexivity|vring]]. unfold norm, norm2, dot. cbn. replace (1 * 1 + 0 * 0 + 0 * 0) with 1 by ring. apply sqrt_1.
  - set (d := sqrt (a * a + c * c)). assert (P : 0 < a * a + c * c) by (pose proof (Rle_0_sqr a); pose proof (Rle_0_sqr c); unfold Rsqr in *; lra).
    assert (D : 0 < d) by (apply sqrt_lt_R0, P). assert (DD : d * d = a * a + c * c) by (apply sqrt_sqrt; lra).
    exists (mk3 (a / d) (c / d) 0). split; [|split; [reflexivity|unfold vscale; cbn; f_equal; [field; lra|field; lra|ring]]].
    unfold norm, norm2, dot. cbn. replace (a / d * (a / d) + c / d * (c / d) + 0 * 0) with 1; [apply sqrt_1|]. replace (a / d * (a / d) + c / d * (c / d) + 0 * 0) with ((a * a + c * c) / (d * d)) by (field; lra). rewrite <- DD. field. lra.
Qed.

(** size() is the largest distance of two points of the volume *)
Theorem rss_size_diameter : forall b, ortho (rax b) -> 0 <= rl0 b -> 0 <= rl1 b -> 0 <= rr b ->
  (forall p q, in_rss b p -> in_rss b q -> dist p q <= rss_size b) /\ exists p q, in_rss b p /\ in_rss b q /\ dist p q = rss_size b.
Proof.
  intros b O L0 L1 R0. split.
  - intros p q (x & y & Hx & Hy & H) (x' & y' & Hx' & Hy' & H'). pose proof (dist_triangle p (rect b x y) q) as T1. pose proof (dist_triangle (rect b x y) (rect b x' y') q) as T2.
    rewrite (dist_sym (rect b x' y') q) in T2. rewrite rect_gap in T2 by exact O.
    assert (S : sqrt (((x' - x) * rl0 b) * ((x' - x) * rl0 b) + ((y' - y) * rl1 b) * ((y' - y) * rl1 b)) <= sqrt (rl0 b * rl0 b + rl1 b * rl1 b)).
    { apply sqrt_le_1_alt. assert (K : forall u l, -1 <= u <= 1 -> 0 <= l -> (u * l) * (u * l) <= l * l) by (intros u l Hu Hl; assert (u * u <= 1) by nra; assert (0 <= l * l) by nra; nra). pose proof (K (x' - x) (rl0 b) ltac:(lra) L0). pose proof (K (y' - y) (rl1 b) ltac:(lra) L1). lra. }
    unfold rss_size. lra.
  - destruct (diag_dir (rl0 b) (rl1 b)) as (u & U & _ & E). set (d := sqrt (rl0 b * rl0 b + rl1 b * rl1 b)) in *. assert (D : 0 <= d) by apply sqrt_pos. set (w := mapply (rax b) u).
    assert (W : norm w = 1) by (unfold w; rewrite mapply_norm by exact O; exact U).
    assert (EW : vscale d w = vsub (rect b 1 1) (rect b 0 0)). { unfold w. replace (vscale d (mapply (rax b) u)) with (mapply (rax b) (vscale d u)) by vring. rewrite <- E. unfold rect. vring. }
    exists (vsub (rect b 0 0) (vscale (rr b) w)), (vadd (rect b 1 1) (vscale (rr b) w)). split; [|split].
    + exists 0, 0. split; [lra|]. split; [lra|]. unfold dist. replace (vsub (vsub (rect b 0 0) (vscale (rr b) w)) (rect b 0 0)) with (vscale (- rr b) w) by vring. rewrite norm_scale, Rabs_Ropp, Rabs_pos_eq, W by exact R0. lra.
    + exists 1, 1. split; [lra|]. split; [lra|]. unfold dist. replace (vsub (vadd (rect b 1 1) (vscale (rr b) w)) (rect b 1 1)) with (vscale (rr b) w) by vring. rewrite norm_scale, Rabs_pos_eq, W by exact R0. lra.
    + rewrite dist_sym. unfold dist. replace (vsub (vadd (rect b 1 1) (vscale (rr b) w)) (vsub (rect b 0 0) (vscale (rr b) w))) with (vadd (vsub (rect b 1 1) (rect b 0 0)) (vscale (2 * rr b) w)) by vring.
      rewrite <- EW. replace (vadd (vscale d w) (vscale (2 * rr b) w)) with (vscale (d + 2 * rr b) w) by vring. rewrite norm_scale, Rabs_pos_eq, W by lra. unfold rss_size. fold d. lra.
Qed.
Print Assumptions rss_size_diameter.

(** The volume is symmetric about its centre, and width, height and depth are its lengths along the axes *)
Lemma rect_flip : forall b x y, rect b (1 - x) (1 - y) = vsub (vscale 2 (rss_center b)) (rect b x y).
Proof. intros b x y. unfold rect, rss_center. destruct (rax b) as [[] [] []], (To b). unfold mapply, vadd, vsub, vscale. cbn. f_equal; field. Qed.
Theorem rss_center_symmetric : forall b p, in_rss b p -> in_rss b (vsub (vscale 2 (rss_center b)) p).
Proof.
  intros b p (x & y & Hx & Hy & H). exists (1 - x), (1 - y). split; [lra|]. split; [lra|]. rewrite rect_flip. rewrite dist_sym. unfold dist in *.
  replace (vsub (vsub (vscale 2 (rss_center b)) (rect b x y)) (vsub (vscale 2 (rss_center b)) p)) with (vsub p (rect b x y)) by vring. exact H.
Qed.
Print Assumptions rss_center_symmetric.

Definition along (b : rss) (i : nat) (p : v3) : R := comp i (mtapply (rax b) (vsub p (rss_center b))).
Theorem rss_dims_exact : forall b i, ortho (rax b) -> 0 <= rl0 b -> 0 <= rl1 b -> 0 <= rr b -> (i < 3)%nat ->
  (forall p, in_rss b p -> Rabs (along b i p) <= comp i (rss_dims b) / 2) /\ exists p, in_rss b p /\ along b i p = comp i (rss_dims b) / 2.
Proof.
  intros b i O L0 L1 R0 Hi. split.
  - intros p H. apply rss_off in H; try assumption. destruct H as (u & -> & H0 & H1 & H2). unfold along. replace (vsub (vadd (rss_center b) (mapply (rax b) u)) (rss_center b)) with (mapply (rax b) u) by vring. rewrite mt_mapply by exact O.
    destruct i as [|[|[|i]]]; [| | |exfalso; Lia.lia]; cbn; lra.
  - assert (K : forall v x y, 0 <= x <= 1 -> 0 <= y <= 1 -> norm v <= rr b -> let p := vadd (rss_center b) (mapply (rax b) (vadd (mk3 ((x - 1 / 2) * rl0 b) ((y - 1 / 2) * rl1 b) 0) v)) in in_rss b p /\ mtapply (rax b) (vsub p (rss_center b)) = vadd (mk3 ((x - 1 / 2) * rl0 b) ((y - 1 / 2) * rl1 b) 0) v).
    { intros v x y Hx Hy Hv p. split.
      - exists x, y. split; [exact Hx|]. split; [exact Hy|]. unfold dist. replace (vsub p (rect b x y)) with (mapply (rax b) v); [rewrite mapply_norm by exact O; exact Hv|]. unfold p, rect, rss_center. destruct (rax b) as [[] [] []], (To b), v. unfold mapply, vadd, vsub, vscale. cbn. f_equal; field.
      - unfold p. replace (vsub (vadd (rss_center b) (mapply (rax b) (vadd (mk3 ((x - 1 / 2) * rl0 b) ((y - 1 / 2) * rl1 b) 0) v))) (rss_center b)) with (mapply (rax b) (vadd (mk3 ((x - 1 / 2) * rl0 b) ((y - 1 / 2) * rl1 b) 0) v)) by vring. apply mt_mapply, O. }
    assert (S : sqrt (rr b * rr b) = rr b) by (apply sqrt_square; exact R0).
    destruct i as [|[|[|i]]]; [| | |exfalso; Lia.lia].
    + destruct (K (mk3 (rr b) 0 0) 1 0 ltac:(lra) ltac:(lra)) as (A & B). { unfold norm, norm2, dot. cbn. replace (rr b * rr b + 0 * 0 + 0 * 0) with (rr b * rr b) by ring. lra. } eexists. split; [exact A|]. unfold along. rewrite B. cbn. lra.
    + destruct (K (mk3 0 (rr b) 0) 0 1 ltac:(lra) ltac:(lra)) as (A & B). { unfold norm, norm2, dot. cbn. replace (0 * 0 + rr b * rr b + 0 * 0) with (rr b * rr b) by ring. lra. } eexists. split; [exact A|]. unfold along. rewrite B. cbn. lra.
    + destruct (K (mk3 0 0 (rr b)) 0 1 ltac:(lra) ltac:(lra)) as (A & B). { unfold norm, norm2, dot. cbn. replace (0 * 0 + 0 * 0 + rr b * rr b) with (rr b * rr b) by ring. lra. } eexists. split; [exact A|]. unfold along. rewrite B. cbn. lra.
Qed.
Print Assumptions rss_dims_exact.

(** volume() is not the volume: a ball (both lengths zero) gets three times the volume of a ball, and a capsule (one length zero) the same number whatever its length,
    although a longer capsule contains the shorter one and points outside of it *)
Theorem rss_volume_refuted : forall o A r, 0 < r -> ortho A ->
  rss_volume (Rss o A 0 0 r) = 3 * (4 / 3 * PI * r * r * r) /\
  forall l l', 0 <= l < l' -> rss_volume (Rss o A l 0 r) = rss_volume (Rss o A l' 0 r) /\ (forall p, in_rss (Rss o A l 0 r) p -> in_rss (Rss o A l' 0 r) p) /\
    exists p, in_rss (Rss o A l' 0 r) p /\ ~ in_rss (Rss o A l 0 r) p.
Proof.
  intros o A r Hr O. split; [unfold rss_volume; cbn [rl0 rl1 rr]; field|]. intros l l' H. split; [unfold rss_volume; cbn [rl0 rl1 rr]; ring|]. split.
  - intros p (x & y & Hx & Hy & D). destruct (rect_at l' (x * l)) as (x' & Hx' & E); [split; [apply Rmult_le_pos; lra|]; assert (x * l <= 1 * l) by (apply Rmult_le_compat_r; lra); lra|].
    exists x', y. split; [exact Hx'|]. split; [exact Hy|]. cbn [rr] in *. replace (rect (Rss o A l' 0 r) x' y) with (rect (Rss o A l 0 r) x y); [exact D|]. unfold rect. cbn [To rax rl0 rl1]. rewrite E. reflexivity.
  - destruct (rss_size_diameter (Rss o A l' 0 r)) as (_ & p & q & Hp & Hq & D); cbn [rax rl0 rl1 rr]; try lra; try exact O.
    destruct (rss_size_diameter (Rss o A l 0 r)) as (B & _); cbn [rax rl0 rl1 rr]; try lra; try exact O.
    assert (S : forall z, 0 <= z -> rss_size (Rss o A z 0 r) = z + 2 * r). { intros z Hz. unfold rss_size. cbn [rl0 rl1 rr]. replace (z * z + 0 * 0) with (z * z) by ring. rewrite sqrt_square by exact Hz. reflexivity. }
    rewrite S in D by lra. rewrite S in B by lra.
    (* the far end along the first axis *)
    exists (vadd (vadd o (vscale l' (m0 A))) (vscale r (m0 A))). assert (U : norm (m0 A) = 1). { unfold norm, norm2. destruct O as (O1 & _). rewrite O1. apply sqrt_1. }
    assert (E0 : in_rss (Rss o A l 0 r) (vsub o (vscale r (m0 A)))).
    { exists 0, 0. split; [lra|]. split; [lra|]. cbn [rr]. unfold dist. replace (vsub (vsub o (vscale r (m0 A))) (rect (Rss o A l 0 r) 0 0)) with (vscale (- r) (m0 A)) by (unfold rect; cbn [To rax rl0 rl1]; vring). rewrite norm_scale, Rabs_Ropp, Rabs_pos_eq, U by lra. lra. }
    split.
    + exists 1, 0. split; [lra|]. split; [lra|]. cbn [rr]. unfold dist. replace (vsub (vadd (vadd o (vscale l' (m0 A))) (vscale r (m0 A))) (rect (Rss o A l' 0 r) 1 0)) with (vscale r (m0 A)) by (unfold rect; cbn [To rax rl0 rl1]; vring). rewrite norm_scale, Rabs_pos_eq, U by lra. lra.
    + intros F. specialize (B _ _ F E0). unfold dist in B. replace (vsub (vadd (vadd o (vscale l' (m0 A))) (vscale r (m0 A))) (vsub o (vscale r (m0 A)))) with (vscale (l' + 2 * r) (m0 A)) in B by vring. rewrite norm_scale, Rabs_pos_eq, U in B by lra. lra.
Qed.
Print Assumptions rss_volume_refuted.

(** ** OBBRSS *)
(** The points of the volume are those of both parts *)
Definition in_obbrss (a : obbrss) (p : v3) : Prop := inobb (o_box a) p /\ in_rss (o_rss a) p.
Definition good (a : obbrss) : Prop := ortho (ax (o_box a)) /\ ortho (rax (o_rss a)) /\ 0 <= rl0 (o_rss a) /\ 0 <= rl1 (o_rss a).

Theorem obbrss_prunes : forall a b, good a -> good b ->
  (forall p, in_obbrss a p -> in_obbrss b p -> obbrss_overlap a b = true) /\ (forall p, obbrss_contain a p = true <-> inobb (o_box a) p) /\
  (forall p q, in_obbrss a p -> in_obbrss b q -> 0 <= obbrss_distance a b <= dist p q) /\
  forall X, ortho (tf_rot X) -> (forall q, in_obbrss a (tf_apply X q) -> in_obbrss b q -> obbrss_overlap_rt X a b = true) /\
    (forall p q, in_obbrss a p -> in_obbrss b q -> 0 <= obbrss_distance_rt X a b <= dist p (tf_apply X q)).
Proof.
  intros a b (A1 & A2 & A3 & A4) (B1 & B2 & B3 & B4). split; [|split; [|split]].
  - intros p (H & _) (H' & _). exact (obb_overlap_sound _ _ p A1 B1 H H').
  - intros p. apply obb_contain_exact; assumption.
  - intros p q (_ & H) (_ & H'). apply rss_distance_bound; assumption.
  - intros X OX. split.
    + intros q (H & _) (H' & _). exact (obb_overlap_rt_sound _ _ _ _ q OX A1 B1 H' H).
    + intros p q (_ & H) (_ & H'). apply rss_rt_bound; assumption.
Qed.
Print Assumptions obbrss_prunes.

(** Boxes far apart along an axis of the first one are told apart *)
Lemma unit_dot : forall u v, dot u u = 1 -> dot v v = 1 -> Rabs (dot u v) <= 1.
Proof. intros u v U V. assert (A : 0 <= norm2 (vsub u v)) by apply norm2_nonneg. assert (B : 0 <= norm2 (vadd u v)) by apply norm2_nonneg. replace (norm2 (vsub u v)) with (dot u u + dot v v - 2 * dot u v) in A by vring. replace (norm2 (vadd u v)) with (dot u u + dot v v + 2 * dot u v) in B by vring. apply Rabs_le. lra. Qed.
Theorem obbrss_far : forall a b i, good a -> good b -> (i < 3)%nat -> 0 <= c0 (ext (o_box b)) -> 0 <= c1 (ext (o_box b)) -> 0 <= c2 (ext (o_box b)) ->
  comp i (ext (o_box a)) + (1 + reps) * (c0 (ext (o_box b)) + c1 (ext (o_box b)) + c2 (ext (o_box b))) < Rabs (dot (col i (ax (o_box a))) (vsub (oc (o_box b)) (oc (o_box a)))) -> obbrss_overlap a b = false.
Proof.
  intros [[A o x] ra] [[B o' y] rb] i (OA & _) (OB & _) Hi Y0 Y1 Y2 H. unfold obbrss_overlap, obb_overlap. cbn [o_box ax oc ext] in *. apply Bool.negb_false_iff. unfold obb_disjoint.
  set (T := mtapply A (vsub o' o)) in *. destruct OA as (A0 & A1 & A2 & _). destruct OB as (B0 & B1 & B2 & _).
  assert (K : forall j, (j < 3)%nat -> dot (frow (mtmul A B) j) y <= (1 + reps) * (c0 y + c1 y + c2 y)).
  { intros j Hj. assert (E : forall k, (k < 3)%nat -> Bf (mtmul A B) j k <= 1 + reps).
    { intros k Hk. unfold Bf. apply Rplus_le_compat_r. replace (ent (mtmul A B) j k) with (dot (col j A) (col k B)); [apply unit_dot|]; destruct j as [|[|[|j]]]; try (exfalso; Lia.lia); destruct k as [|[|[|k]]]; try (exfalso; Lia.lia); first [reflexivity|assumption]. }
    pose proof (E 0%nat ltac:(Lia.lia)). pose proof (E 1%nat ltac:(Lia.lia)). pose proof (E 2%nat ltac:(Lia.lia)). unfold frow, dot. cbn [c0 c1 c2]. nra. }
  assert (C : test (comp i T) (comp i x + dot (frow (mtmul A B) i) y) = true).
  { unfold test. destruct (Rlt_dec _ _) as [G|G]; [reflexivity|]. exfalso. apply G. specialize (K i Hi). replace (comp i T) with (dot (col i A) (vsub o' o)); [lra|]. destruct i as [|[|[|i]]]; [reflexivity..|exfalso; Lia.lia]. }
  destruct i as [|[|[|i]]]; [| | |exfalso; Lia.lia]; cbn [comp] in C; rewrite C; rewrite ?Bool.orb_true_r; reflexivity.
Qed.
Print Assumptions obbrss_far.

(** When a pair of sides of the rectangles is chosen, the distance is that of the swept parts *)
Theorem obbrss_distance_attained : forall X a b e, good a -> good b -> ortho (tf_rot X) -> 0 <= rr (o_rss a) -> 0 <= rr (o_rss b) ->
  rect_edges (mtmul (rax (o_rss a)) (mmul (tf_rot X) (rax (o_rss b)))) (mtapply (rax (o_rss a)) (vsub (tf_apply X (To (o_rss b))) (To (o_rss a)))) (rl0 (o_rss a)) (rl1 (o_rss a)) (rl0 (o_rss b)) (rl1 (o_rss b)) = Some e ->
  (exists p q, in_rss (o_rss a) p /\ in_rss (o_rss b) q /\ dist p (tf_apply X q) = obbrss_distance_rt X a b) /\
  (X = mktf mid vzero -> obbrss_distance a b = obbrss_distance_rt X a b).
Proof.
  intros X a b e (A1 & A2 & A3 & A4) (B1 & B2 & B3 & B4) OX R1 R2 E. split; [exact (proj1 (rss_rt_attained X _ _ e OX A2 B2 A3 A4 B3 B4 R1 R2 E))|]. intros ->.
  unfold obbrss_distance, obbrss_distance_rt, rss_distance, rss_distance_rt, rss_gap, rss_gap_rt. cbn [tf_rot tf_tr].
  replace (mmul mid (rax (o_rss b))) with (rax (o_rss b)). 2: { destruct (rax (o_rss b)) as [[] [] []]. unfold mmul, mapply, mid, vadd, vscale. cbn. f_equal; f_equal; ring. }
  replace (vadd (mapply mid (To (o_rss b))) vzero) with (To (o_rss b)). 2: { destruct (To (o_rss b)). unfold mapply, mid, vzero, vadd, vscale. cbn. f_equal; ring. } reflexivity.
Qed.
Print Assumptions obbrss_distance_attained.

(** Both parts are moved by translate *)
Theorem obbrss_translate_exact : forall a t p, good a -> (in_obbrss (obbrss_translate a t) (vadd p t) <-> in_obbrss a p).
Proof.
  intros [B S] t p (O & _). cbn [o_box] in O. unfold in_obbrss, obbrss_translate. cbn [o_box o_rss]. rewrite (inobb_iff B p O), (inobb_iff (obb_translate B t) (vadd p t) O). unfold obb_translate. cbn [ax oc ext].
  replace (vsub (vadd p t) (vadd (oc B) t)) with (vsub p (oc B)) by vring. assert (E : forall x y, dist (vadd p t) (rect (rss_translate S t) x y) = dist p (rect S x y)).
  { intros x y. unfold dist. f_equal. unfold rect, rss_translate. cbn [To rax rl0 rl1]. vring. }
  unfold in_rss. cbn [rss_translate rr]. split; (intros (H & x & y & Hx & Hy & D); split; [exact H|]; exists x, y; split; [exact Hx|split; [exact Hy|]]); [rewrite E in D|rewrite E]; exact D.
Qed.
Print Assumptions obbrss_translate_exact.

(** ** The statements are about something *)
(** A box around a swept rectangle: its centre is a point of both parts, so the volume overlaps itself *)
Example obbrss_case : let a := ObbRss (mkobb mid (mk3 1 1 0) (mk3 2 2 1)) (Rss vzero mid 2 2 1) in good a /\ in_obbrss a (mk3 1 1 0) /\ obbrss_overlap a a = true /\ obbrss_distance a a = 0.
Proof.
  intros a. assert (G : good a). { unfold good, a. cbn. repeat split; try lra; apply ortho_mid. }
  assert (I : in_obbrss a (mk3 1 1 0)).
  { split; [apply inobb_iff; [apply ortho_mid|]; unfold a, mid, dot, vsub; cbn; lra|]. exists (1 / 2), (1 / 2). split; [lra|]. split; [lra|]. unfold a. cbn [o_rss rr]. replace (rect (Rss vzero mid 2 2 1) (1 / 2) (1 / 2)) with (mk3 1 1 0); [rewrite dist_refl; lra|]. unfold rect, mid, vzero, vadd, vscale. cbn. f_equal; field. }
  split; [exact G|]. split; [exact I|]. destruct (obbrss_prunes a a G G) as (P1 & _ & P3 & _). split; [exact (P1 _ I I)|]. specialize (P3 _ _ I I). rewrite dist_refl in P3. lra.
Qed.
(** 3, 4 and radius 1: size 7 *)
Example size_case : rss_size (Rss vzero mid 3 4 1) = 7.
Proof. unfold rss_size. cbn. replace (3 * 3 + 4 * 4) with (5 * 5) by ring. rewrite sqrt_square; lra. Qed.
