(** C41: the box overlap test has no false negatives; C42 (first part): merging by
    averaged axes. *)
From Coq Require Import Nsatz Reals Lra Psatz Lia Arith List.
From Verif Require Import VecR Obb.
Import ListNotations.
Open Scope R_scope.

(** A point given in the two frames. *)
Lemma rel_sound : forall A1 A2 o1 o2 x1 x2 p, ortho A1 -> ortho A2 ->
  inobb (mkobb A1 o1 x1) p -> inobb (mkobb A2 o2 x2) p ->
  obb_disjoint (mtmul A1 A2) (mtapply A1 (vsub o2 o1)) x1 x2 = false.
Proof.
  intros A1 A2 o1 o2 x1 x2 p H1 H2 (u0 & u1 & u2 & U0 & U1 & U2 & E1) (w0 & w1 & w2 & W0 & W1 & W2 & E2).
  cbn [ax oc ext] in *.
  apply obb_disjoint_sound with (u := mk3 u0 u1 u2) (w := mk3 w0 w1 w2).
  - unfold ortho, mtmul. cbn [m0 m1 m2]. rewrite !(mt_dot A1) by exact H1. exact H2.
  - intros [|[|[|i]]] Hi; cbn [comp c0 c1 c2]; assumption.
  - intros [|[|[|i]]] Hi; cbn [comp c0 c1 c2]; assumption.
  - assert (E : mapply A1 (mk3 u0 u1 u2) = vadd (vsub o2 o1) (mapply A2 (mk3 w0 w1 w2))).
    { rewrite E2 in E1. generalize dependent (mapply A1 (mk3 u0 u1 u2)). generalize (mapply A2 (mk3 w0 w1 w2)). intros [] [] E. destruct o1, o2.
      unfold vadd, vsub in *. cbn in *. injection E as X Y Z. f_equal; lra. }
    rewrite <- (mt_mapply A1 (mk3 u0 u1 u2) H1), E.
    unfold mapply, mtapply, mtmul. cbn [m0 m1 m2 c0 c1 c2]. rewrite !dot_add_r, !dot_scale_r.
    unfold vadd at 3. unfold vadd, vscale. cbn [c0 c1 c2]. f_equal; ring.
Qed.

Lemma mmul_app : forall A B v, mapply (mmul A B) v = mapply A (mapply B v).
Proof.
  intros [[] [] []] [[] [] []] []. unfold mapply, mmul, mapply, vadd, vscale. cbn. f_equal; ring.
Qed.

(** ** C41 *)
Theorem obb_overlap_sound : forall b1 b2 p, ortho (ax b1) -> ortho (ax b2) -> inobb b1 p -> inobb b2 p ->
  obb_overlap b1 b2 = true.
Proof.
  intros [A1 o1 x1] [A2 o2 x2] p H1 H2 P1 P2. unfold obb_overlap. cbn [ax oc ext] in *. rewrite (rel_sound _ _ _ _ _ _ p); auto.
Qed.
Print Assumptions obb_overlap_sound.

(** The second box moved by a rigid motion (R0, T0). *)
Theorem obb_overlap_rt_sound : forall R0 T0 b1 b2 q, ortho R0 -> ortho (ax b1) -> ortho (ax b2) ->
  inobb b2 q -> inobb b1 (vadd (mapply R0 q) T0) -> obb_overlap_rt R0 T0 b1 b2 = true.
Proof.
  intros R0 T0 [A1 o1 x1] [A2 o2 x2] q HR H1 H2 P2 P1. unfold obb_overlap_rt. cbn [ax oc ext] in *.
  rewrite (rel_sound A1 (mmul R0 A2) o1 (vadd (mapply R0 o2) T0) x1 x2 (vadd (mapply R0 q) T0)); auto.
  - unfold ortho, mmul. cbn [m0 m1 m2]. rewrite !(mapply_dot R0) by exact HR. exact H2.
  - destruct P2 as (w0 & w1 & w2 & W0 & W1 & W2 & ->). exists w0, w1, w2. cbn [ax oc ext] in *.
    split; [exact W0|split; [exact W1|split; [exact W2|]]].
    rewrite mapply_add, mmul_app.
    generalize (mapply R0 o2) (mapply R0 (mapply A2 (mk3 w0 w1 w2))). intros [] []. destruct T0. unfold vadd. cbn. f_equal; ring.
Qed.
Print Assumptions obb_overlap_rt_sound.

Theorem obb_contain_exact : forall b p, ortho (ax b) -> (obb_contain b p = true <-> inobb b p).
Proof.
  intros b p Ho. rewrite inobb_iff by exact Ho. unfold obb_contain. cbv zeta. cbn [forallb comp col].
  split.
  - intros H. rewrite !Bool.andb_true_iff in H. destruct H as (H0 & H1 & H2 & _).
    repeat match type of H0 with context [Rlt_dec ?a ?b] => destruct (Rlt_dec a b); [discriminate|] end.
    repeat match type of H1 with context [Rlt_dec ?a ?b] => destruct (Rlt_dec a b); [discriminate|] end.
    repeat match type of H2 with context [Rlt_dec ?a ?b] => destruct (Rlt_dec a b); [discriminate|] end.
    split; [lra|split; lra].
  - intros (H0 & H1 & H2). repeat match goal with |- context [Rlt_dec ?a ?b] => destruct (Rlt_dec a b); [lra|] end. reflexivity.
Qed.
Print Assumptions obb_contain_exact.

(** The test is not exact: because of the margin 1e-6, cubes of half size h stay "overlapping"
    up to a gap of 3e-6 h, whatever h. *)
Theorem obb_overlap_exact_refuted : forall h, 0 < h ->
  let b1 := mkobb mid (mk3 0 0 0) (mk3 h h h) in
  let b2 := mkobb mid (mk3 (2 * h + 3 * reps * h) 0 0) (mk3 h h h) in
  obb_overlap b1 b2 = true /\ (forall p q, inobb b1 p -> inobb b2 q -> 3 * reps * h <= c0 q - c0 p).
Proof.
  intros h Hh b1 b2. split.
  - unfold obb_overlap. cbn [ax oc ext b1 b2].
    assert (E : obb_disjoint (mtmul mid mid) (mtapply mid (vsub (mk3 (2 * h + 3 * reps * h) 0 0) (mk3 0 0 0))) (mk3 h h h) (mk3 h h h) = false); [|rewrite E; reflexivity].
    unfold obb_disjoint.
    repeat match goal with |- (_ || _)%bool = false => apply Bool.orb_false_intro end; apply test_false;
    unfold Bf, frow, fcol, Bf, ent, mtmul, mtapply, mid, dot, vsub; cbn [comp col m0 m1 m2 c0 c1 c2]; unfold reps;
    repeat match goal with |- context [Rabs ?x] => first [replace x with 0 by field; rewrite Rabs_R0 | replace x with 1 by field; rewrite Rabs_R1 |
       rewrite (Rabs_pos_eq x) by lra | rewrite (Rabs_left x) by lra ] end; try lra.
  - intros p q (u0 & u1 & u2 & U0 & _ & _ & ->) (w0 & w1 & w2 & W0 & _ & _ & ->). cbn in *. lra.
Qed.
Print Assumptions obb_overlap_exact_refuted.

(** Concrete: crossing thin boxes, one turned by a quarter, share the origin. *)
Example obb_overlap_case :
  let b1 := mkobb mid (mk3 0 0 0) (mk3 2 1 1) in
  let b2 := mkobb (mkm (mk3 0 1 0) (mk3 (-1) 0 0) (mk3 0 0 1)) (mk3 0 1 0) (mk3 2 1 1) in
  obb_overlap b1 b2 = true.
Proof.
  apply obb_overlap_sound with (p := mk3 0 0 0).
  - apply ortho_mid.
  - unfold ortho, dot. cbn. lra.
  - exists 0, 0, 0. cbn. split; [lra|split; [lra|split; [lra|]]]. unfold vadd, mapply, vadd, vscale, mid. cbn. f_equal; ring.
  - exists (-1), 0, 0. cbn. split; [lra|split; [lra|split; [lra|]]]. unfold vadd, mapply, vadd, vscale. cbn. f_equal; ring.
Qed.

(** ** C42: merge_smalldist *)
Lemma rotm_ortho : forall q, qdot q q = 1 -> ortho (rotm q).
Proof.
  intros [w x y z] H. unfold qdot in H. cbn in H. unfold ortho, rotm, dot. cbn.
  split; [|split; [|split; [|split; [|split]]]]; nsatz.
Qed.

Lemma qnormalize : forall q, 0 < qdot q q -> qdot (qscale (/ sqrt (qdot q q)) q) (qscale (/ sqrt (qdot q q)) q) = 1.
Proof.
  intros q H. assert (E : forall k, qdot (qscale k q) (qscale k q) = k * k * qdot q q) by (intros; destruct q; unfold qdot, qscale; cbn; ring).
  rewrite E. assert (S : sqrt (qdot q q) * sqrt (qdot q q) = qdot q q) by (apply sqrt_sqrt; lra).
  assert (P : 0 < sqrt (qdot q q)) by (apply sqrt_lt_R0; exact H).
  rewrite <- S at 3. field. lra.
Qed.

Lemma avg_ortho : forall quat_of b1 b2, quat_ok quat_of -> ortho (ax b1) -> det (ax b1) = 1 -> ortho (ax b2) -> det (ax b2) = 1 ->
  ortho (avg_axis quat_of b1 b2).
Proof.
  intros quat_of b1 b2 Hq O1 D1 O2 D2. unfold avg_axis. cbv zeta. apply rotm_ortho, qnormalize.
  destruct (Hq _ O1 D1) as [N1 _]. destruct (Hq _ O2 D2) as [N2 _].
  set (q0 := quat_of (ax b1)) in *. set (q1 := quat_of (ax b2)) in *. clearbody q0 q1.
  assert (E : forall a b, qdot (qadd a b) (qadd a b) = qdot a a + 2 * qdot a b + qdot b b) by (intros; unfold qdot, qadd; cbn; ring).
  rewrite E. destruct (Rlt_dec (qdot q0 q1) 0).
  - assert (F : qdot (qscale (-1) q1) (qscale (-1) q1) = qdot q1 q1) by (unfold qdot, qscale; cbn; ring).
    assert (G : qdot q0 (qscale (-1) q1) = - qdot q0 q1) by (unfold qdot, qscale; cbn; ring).
    rewrite F, G. lra.
  - lra.
Qed.

Definition enough (A : mat3) (b1 b2 : obb) : Prop :=
  forall j, (j < 3)%nat -> exists v, In v (tl (vertices b1) ++ vertices b2) /\ dot v (col j A) <= dot (hd vzero (vertices b1)) (col j A).

(** With any orthonormal axes the merged box holds everything exactly when, on every axis,
    some vertex other than the first vertex of the first box is at least as low. *)
Lemma merge_with_iff : forall big A b1 b2, ortho A ->
  0 <= c0 (ext b1) -> 0 <= c1 (ext b1) -> 0 <= c2 (ext b1) -> 0 <= c0 (ext b2) -> 0 <= c1 (ext b2) -> 0 <= c2 (ext b2) ->
  (forall v j, In v (vertices b1 ++ vertices b2) -> (j < 3)%nat -> - big < dot (vsub v (vscale (1/2) (vadd (oc b1) (oc b2)))) (col j A) < big) ->
  ((forall p, inobb b1 p \/ inobb b2 p -> inobb (merge_with big A b1 b2) p) <-> enough A b1 b2).
Proof.
  intros big A b1 b2 HA X0 X1 X2 Y0 Y1 Y2 Hb. unfold merge_with. set (o := vscale (1 / 2) _) in *. clearbody o. cbv zeta.
  assert (V : exists v0 vs, vertices b1 = v0 :: vs) by (unfold vertices; cbv zeta; eauto).
  destruct V as (v0 & vs & V).
  assert (Sp : forall j, (j < 3)%nat -> let r := minmax big (map (fun v => dot (vsub v o) (col j A)) (vertices b1 ++ vertices b2)) in
     (forall v, In v (vertices b1 ++ vertices b2) -> dot (vsub v o) (col j A) <= snd r) /\
     ((exists v, In v (vs ++ vertices b2) /\ dot v (col j A) <= dot v0 (col j A)) -> forall v, In v (vertices b1 ++ vertices b2) -> fst r <= dot (vsub v o) (col j A)) /\
     ((forall v, In v (vs ++ vertices b2) -> dot v0 (col j A) < dot v (col j A)) -> dot (vsub v0 o) (col j A) < fst r)).
  { intros j Hj. rewrite V. cbn [app map].
    assert (M : forall f, map f vs ++ map f (vertices b2) = map f (vs ++ vertices b2) :> list R) by (intros; symmetry; apply map_app).
    destruct (minmax_spec big (dot (vsub v0 o) (col j A)) (map (fun v => dot (vsub v o) (col j A)) (vs ++ vertices b2))) as (A1 & A2 & A3).
    - apply Hb; [rewrite V; left; reflexivity|exact Hj].
    - intros x Hx. apply in_map_iff in Hx. destruct Hx as (v & <- & Hv). apply Hb; [rewrite V; right; exact Hv|exact Hj].
    - apply Hb; [rewrite V; left; reflexivity|exact Hj].
    - cbv zeta. split; [|split].
      + intros v Hv. apply A1. change (In (dot (vsub v o) (col j A)) (map (fun v => dot (vsub v o) (col j A)) (v0 :: (vs ++ vertices b2)))).
        apply in_map_iff. exists v. split; [reflexivity|exact Hv].
      + intros (v & Hv & Hle) w Hw. apply A2.
        * exists (dot (vsub v o) (col j A)). split; [apply in_map_iff; exists v; split; [reflexivity|exact Hv]|]. rewrite !dot_sub_l. lra.
        * change (In (dot (vsub w o) (col j A)) (map (fun v => dot (vsub v o) (col j A)) (v0 :: (vs ++ vertices b2)))).
          apply in_map_iff. exists w. split; [reflexivity|exact Hw].
      + intros H. apply A3. intros x Hx. apply in_map_iff in Hx. destruct Hx as (v & <- & Hv). specialize (H v Hv). rewrite !dot_sub_l. lra. }
  unfold enough. replace (tl (vertices b1)) with vs by (rewrite V; reflexivity). replace (hd vzero (vertices b1)) with v0 by (rewrite V; reflexivity).
  split.
  - intros H j Hj. destruct (Sp j Hj) as (_ & _ & S3).
    assert (I0 : inobb b1 v0) by (apply vertices_in; try assumption; rewrite V; left; reflexivity).
    pose proof (H v0 (or_introl I0)) as Hin. apply from_minmax_in in Hin; [|exact HA].
    assert (Hlo : fst (minmax big (map (fun v => dot (vsub v o) (col j A)) (vertices b1 ++ vertices b2))) <= dot (vsub v0 o) (col j A)).
    { unfold inter in Hin. destruct Hin as (I1 & I2 & I3). destruct j as [|[|[|j]]]; [exact (proj1 I1)|exact (proj1 I2)|exact (proj1 I3)|lia]. }
    destruct (Exists_dec (fun v => dot v (col j A) <= dot v0 (col j A)) (vs ++ vertices b2)) as [Ex|Nex].
    { intros x. apply Rle_dec. }
    + apply Exists_exists in Ex. exact Ex.
    + exfalso. assert (L : dot (vsub v0 o) (col j A) < fst (minmax big (map (fun v => dot (vsub v o) (col j A)) (vertices b1 ++ vertices b2)))); [|lra].
      apply S3. intros v Hv. apply Rnot_le_lt. intros Hle. apply Nex. apply Exists_exists. exists v; auto.
  - intros En p Hp. apply from_minmax_in; [exact HA|].
    assert (K : forall j, (j < 3)%nat -> fst (minmax big (map (fun v => dot (vsub v o) (col j A)) (vertices b1 ++ vertices b2))) <= dot (vsub p o) (col j A) <=
        snd (minmax big (map (fun v => dot (vsub v o) (col j A)) (vertices b1 ++ vertices b2)))).
    { intros j Hj. destruct (Sp j Hj) as (S1 & S2 & _). specialize (S2 (En j Hj)).
      assert (W : (exists v, In v (vertices b1 ++ vertices b2) /\ dot v (col j A) <= dot p (col j A)) /\ (exists v, In v (vertices b1 ++ vertices b2) /\ dot p (col j A) <= dot v (col j A))).
      { destruct Hp as [Hp|Hp]; apply box_extreme with (L := col j A) in Hp; destruct Hp as [(v & Hv & L1) (w & Hw & L2)];
        (split; [exists v|exists w]; (split; [apply in_or_app; auto|assumption])). }
      destruct W as [(v & Hv & L1) (w & Hw & L2)]. specialize (S2 v Hv). specialize (S1 w Hw). rewrite !dot_sub_l in *. lra. }
    unfold inter. split; [apply (K 0%nat); lia|split; [apply (K 1%nat); lia|apply (K 2%nat); lia]].
Qed.

(** merge_smalldist holds both boxes exactly when b1's first vertex is not strictly the lowest
    of the sixteen vertices on one of the merged axes. *)
Theorem merge_smalldist_iff : forall big quat_of b1 b2, quat_ok quat_of ->
  ortho (ax b1) -> det (ax b1) = 1 -> ortho (ax b2) -> det (ax b2) = 1 ->
  0 <= c0 (ext b1) -> 0 <= c1 (ext b1) -> 0 <= c2 (ext b1) -> 0 <= c0 (ext b2) -> 0 <= c1 (ext b2) -> 0 <= c2 (ext b2) ->
  (forall v j, In v (vertices b1 ++ vertices b2) -> (j < 3)%nat ->
     - big < dot (vsub v (vscale (1/2) (vadd (oc b1) (oc b2)))) (col j (avg_axis quat_of b1 b2)) < big) ->
  ((forall p, inobb b1 p \/ inobb b2 p -> inobb (merge_smalldist big quat_of b1 b2) p) <->
   (forall j, (j < 3)%nat -> exists v, In v (tl (vertices b1) ++ vertices b2) /\
      dot v (col j (avg_axis quat_of b1 b2)) <= dot (hd vzero (vertices b1)) (col j (avg_axis quat_of b1 b2)))).
Proof.
  intros. unfold merge_smalldist. apply merge_with_iff; try assumption. apply avg_ortho; assumption.
Qed.
Print Assumptions merge_smalldist_iff.

(** Boxes with the same axes (so also += of a nearby point): the merge is right. *)
Theorem merge_smalldist_same_axes : forall big quat_of b1 b2, quat_ok quat_of ->
  ortho (ax b1) -> det (ax b1) = 1 -> ax b2 = ax b1 ->
  0 <= c0 (ext b1) -> 0 <= c1 (ext b1) -> 0 <= c2 (ext b1) -> 0 <= c0 (ext b2) -> 0 <= c1 (ext b2) -> 0 <= c2 (ext b2) ->
  (forall v j, In v (vertices b1 ++ vertices b2) -> (j < 3)%nat ->
     - big < dot (vsub v (vscale (1/2) (vadd (oc b1) (oc b2)))) (col j (ax b1)) < big) ->
  ax (merge_smalldist big quat_of b1 b2) = ax b1 /\
  forall p, inobb b1 p \/ inobb b2 p -> inobb (merge_smalldist big quat_of b1 b2) p.
Proof.
  intros big quat_of b1 b2 Hq Ho Hd He X0 X1 X2 Y0 Y1 Y2 Hb.
  assert (EA : avg_axis quat_of b1 b2 = ax b1).
  { unfold avg_axis. cbv zeta. rewrite He. destruct (Hq _ Ho Hd) as [N M]. set (q := quat_of (ax b1)) in *. clearbody q.
    destruct (Rlt_dec (qdot q q) 0); [lra|].
    assert (E2 : qdot (qadd q q) (qadd q q) = 2 * 2) by (replace (qdot (qadd q q) (qadd q q)) with (4 * qdot q q) by (destruct q; unfold qdot, qadd; cbn; ring); lra).
    rewrite E2, sqrt_square by lra. rewrite <- M. f_equal. destruct q. unfold qscale, qadd. cbn. f_equal; field. }
  split; [exact EA|].
  apply merge_smalldist_iff; try assumption.
  - rewrite He; exact Ho.
  - rewrite He; exact Hd.
  - rewrite EA. exact Hb.
  - rewrite EA. intros j Hj. destruct Ho as (O0 & O1 & O2 & O01 & O02 & O12).
    assert (O10 : dot (m1 (ax b1)) (m0 (ax b1)) = 0) by (rewrite dot_comm; exact O01).
    assert (O20 : dot (m2 (ax b1)) (m0 (ax b1)) = 0) by (rewrite dot_comm; exact O02).
    assert (O21 : dot (m2 (ax b1)) (m1 (ax b1)) = 0) by (rewrite dot_comm; exact O12).
    exists (match j with 0%nat => nth 3%nat (vertices b1) vzero | _ => nth 1%nat (vertices b1) vzero end).
    split.
    + apply in_or_app. left. destruct j; [change (In (nth 2%nat (tl (vertices b1)) vzero) (tl (vertices b1)))|change (In (nth 0%nat (tl (vertices b1)) vzero) (tl (vertices b1)))]; apply nth_In; unfold vertices; cbv zeta; cbn; lia.
    + destruct j as [|[|[|j]]]; [| | |lia]; unfold vertices; cbv zeta; cbn [nth hd col];
      repeat first [rewrite dot_sub_l|rewrite dot_add_l|rewrite dot_scale_l];
      rewrite ?O0, ?O1, ?O2, ?O01, ?O02, ?O12, ?O10, ?O20, ?O21; lra.
Qed.
Print Assumptions merge_smalldist_same_axes.

(** In general it does not: two boxes around the same point, the second turned, and the first
    vertex of the first box is left outside, whichever quaternions Eigen picks. *)
Definition rot7 : mat3 := rotm (mkq (7/9) 0 (-4/9) (4/9)).
Definition mb1 : obb := mkobb mid vzero (mk3 1 1 1).
Definition mb2 : obb := mkobb rot7 vzero vzero.

Lemma rot7_axis : forall quat_of, quat_ok quat_of -> col 0 (avg_axis quat_of mb1 mb2) = mk3 (14/18) (8/18) (8/18).
Proof.
  intros quat_of Hq.
  assert (O : ortho rot7) by (unfold rot7; apply rotm_ortho; unfold qdot; cbn; lra).
  assert (D : det rot7 = 1) by (unfold rot7, det, rotm, dot, cross; cbn; lra).
  assert (D1 : det mid = 1) by (unfold det, mid, dot, cross; cbn; lra).
  destruct (Hq mid ortho_mid D1) as [N0 M0]. destruct (Hq rot7 O D) as [N1 M1].
  unfold avg_axis, mb1, mb2. cbn [ax]. cbv zeta.
  destruct (quat_of mid) as [w x y z]. destruct (quat_of rot7) as [w' x' y' z'].
  unfold qdot in N0, N1. cbn in N0, N1. unfold rotm, mid in M0. cbn in M0. unfold rotm, rot7, rotm in M1. cbn in M1.
  injection M0 as A1 A2 A3 A4 A5 A6 A7 A8 A9. injection M1 as B1 B2 B3 B4 B5 B6 B7 B8 B9.
  assert (Hx : x = 0) by nra. assert (Hy : y = 0) by nra. assert (Hz : z = 0) by nra. subst x y z.
  assert (Hw : w = 1 \/ w = -1). { assert (E : (w - 1) * (w + 1) = 0) by nra. apply Rmult_integral in E. lra. }
  assert (Hx' : x' = 0) by nra. subst x'.
  assert (Hw' : w' = 7/9 \/ w' = -7/9). { assert (E : (w' - 7/9) * (w' + 7/9) = 0) by nra. apply Rmult_integral in E. lra. }
  assert (Hyz : w' * z' = 28/81 /\ w' * y' = -28/81) by lra. destruct Hyz as [Hz Hy].
  clear A1 A2 A3 A4 A5 A6 A7 A8 A9 B1 B2 B3 B4 B5 B6 B7 B8 B9 N0 N1.
  assert (S : sqrt (288/81) * sqrt (288/81) = 288/81) by (apply sqrt_sqrt; lra).
  assert (P : 0 < sqrt (288/81)) by (apply sqrt_lt_R0; lra).
  assert (F : forall W Y Z, (W = 16/9 /\ Y = -4/9 /\ Z = 4/9) \/ (W = -16/9 /\ Y = 4/9 /\ Z = -4/9) ->
     col 0 (rotm (qscale (/ sqrt (qdot (mkq W 0 Y Z) (mkq W 0 Y Z))) (mkq W 0 Y Z))) = mk3 (14/18) (8/18) (8/18)).
  { intros W Y Z H. replace (qdot (mkq W 0 Y Z) (mkq W 0 Y Z)) with (288/81) by (unfold qdot; cbn; destruct H as [(-> & -> & ->)|(-> & -> & ->)]; lra).
    set (s := sqrt (288/81)) in *. assert (I : / s * / s = 81/288). { rewrite <- Rinv_mult, S. field. }
    unfold rotm, qscale, col. cbn. generalize dependent (/ s). intros i I. destruct H as [(-> & -> & ->)|(-> & -> & ->)]; f_equal; nra. }
  destruct Hw as [-> | ->], Hw' as [-> | ->].
  - assert (z' = 4/9) by lra. assert (y' = -4/9) by lra. subst y' z'. match goal with |- context [Rlt_dec (qdot ?a ?b) 0] => destruct (Rlt_dec (qdot a b) 0) as [L|L]; unfold qdot in L; cbn [qw qx qy qz] in L end; [lra|].
    unfold qadd. cbn [qw qx qy qz]. replace (0 + 0) with 0 by lra. apply F. lra.
  - assert (z' = -4/9) by lra. assert (y' = 4/9) by lra. subst y' z'. match goal with |- context [Rlt_dec (qdot ?a ?b) 0] => destruct (Rlt_dec (qdot a b) 0) as [L|L]; unfold qdot in L; cbn [qw qx qy qz] in L end; [|lra].
    unfold qadd. cbn [qw qx qy qz qscale]. replace (0 + -1 * 0) with 0 by lra. apply F. lra.
  - assert (z' = 4/9) by lra. assert (y' = -4/9) by lra. subst y' z'. match goal with |- context [Rlt_dec (qdot ?a ?b) 0] => destruct (Rlt_dec (qdot a b) 0) as [L|L]; unfold qdot in L; cbn [qw qx qy qz] in L end; [|lra].
    unfold qadd. cbn [qw qx qy qz qscale]. replace (0 + -1 * 0) with 0 by lra. apply F. lra.
  - assert (z' = -4/9) by lra. assert (y' = 4/9) by lra. subst y' z'. match goal with |- context [Rlt_dec (qdot ?a ?b) 0] => destruct (Rlt_dec (qdot a b) 0) as [L|L]; unfold qdot in L; cbn [qw qx qy qz] in L end; [lra|].
    unfold qadd. cbn [qw qx qy qz]. replace (0 + 0) with 0 by lra. apply F. lra.
Qed.

Theorem merge_smalldist_refuted : forall big quat_of, quat_ok quat_of -> 10 < big ->
  inobb mb1 (mk3 (-1) (-1) (-1)) /\ ~ inobb (merge_smalldist big quat_of mb1 mb2) (mk3 (-1) (-1) (-1)).
Proof.
  intros big quat_of Hq Hbig.
  assert (O : ortho rot7) by (unfold rot7; apply rotm_ortho; unfold qdot; cbn; lra).
  assert (D : det rot7 = 1) by (unfold rot7, det, rotm, dot, cross; cbn; lra).
  assert (D1 : det mid = 1) by (unfold det, mid, dot, cross; cbn; lra).
  pose proof (avg_ortho quat_of mb1 mb2 Hq ortho_mid D1 O D) as HA. pose proof (rot7_axis quat_of Hq) as C0.
  split.
  - exists (-1), (-1), (-1). cbn. split; [lra|split; [lra|split; [lra|]]]. unfold vadd, mapply, vadd, vscale, mid, vzero. cbn. f_equal; ring.
  - unfold merge_smalldist, merge_with. intros Hin. apply from_minmax_in in Hin; [|exact HA]. destruct Hin as [[Hin _] _]. revert Hin.
    rewrite C0. change (m0 (avg_axis quat_of mb1 mb2)) with (col 0 (avg_axis quat_of mb1 mb2)). rewrite C0.
    match goal with |- context [map ?f ?l] => set (L := map f l) end.
    assert (EL : L = -30/18 :: [-2/18; 14/18; -14/18; -14/18; 14/18; 30/18; 2/18; 0; 0; 0; 0; 0; 0; 0; 0]).
    { unfold L, vertices, mb1, mb2, mid, dot, vsub, vadd, vscale, vzero. cbn. repeat (f_equal; [lra|]). f_equal. lra. }
    rewrite EL. destruct (minmax_spec big (-30/18) [-2/18; 14/18; -14/18; -14/18; 14/18; 30/18; 2/18; 0; 0; 0; 0; 0; 0; 0; 0]) as (_ & _ & A).
    + lra.
    + cbn. intros x Hx. decompose [or] Hx; subst; try contradiction; lra.
    + lra.
    + specialize (A ltac:(cbn; intros x Hx; decompose [or] Hx; subst; try contradiction; lra)). intros Hin. revert Hin.
      unfold dot, vsub, vscale, vadd, mb1, mb2, vzero. cbn [c0 c1 c2 oc]. lra.
Qed.
Print Assumptions merge_smalldist_refuted.
