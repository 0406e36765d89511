(** C82, C83: two boxes (box_box-inl.h) *)
From Coq Require Import Reals Lra Lia List Bool Arith Psatz.
From Verif Require Import VecR Prim Obb Zonotope BoxBox.
Import ListNotations.
Open Scope R_scope.

(** ** The fifteen tests, uniformly *)
Definition ei (i : nat) : v3 := col i mid.
Definition two (i : nat) (A : v3) : R := match i with 0%nat => c1 A + c2 A | 1%nat => c0 A + c2 A | _ => c0 A + c1 A end.
Inductive axis := FA (i : nat) | FB (i : nat) | EX (i j : nat).
Definition axes : list axis :=
  [FA 0; FA 1; FA 2; FB 0; FB 1; FB 2; EX 0 0; EX 0 1; EX 0 2; EX 1 0; EX 1 1; EX 1 2; EX 2 0; EX 2 1; EX 2 2].
Section Sat.
Variables (eps far : R) (A : v3) (X1 : tf) (B : v3) (X2 : tf).
Let U := tf_rot X1.
Let V := tf_rot X2.
Let p := vsub (tf_tr X2) (tf_tr X1).
Hypothesis OU : ortho U.
Hypothesis OV : ortho V.
Hypothesis PA : positive A.
Hypothesis PB : positive B.
Definition both (n : v3) : R := reach U A n + reach V B n.
(** The cross product of two edges, in the frame of the first box and in the world *)
Definition loc (i j : nat) : v3 := cross (ei i) (mtapply U (col j V)).
Definition wor (i j : nat) : v3 := mapply U (loc i j).
Definition slack (i j : nat) : R := pad eps A B * (two i A + two j B).
Definition step (a : axis) (st : option best) : option best :=
  match a with
  | FA i => try_face (dot p (col i U)) (both (col i U)) (col i U) (1 + i) st
  | FB i => try_face (dot p (col i V)) (both (col i V)) (col i V) (4 + i) st
  | EX i j => try_edge eps U (dot p (wor i j)) (both (wor i j) + slack i j) (loc i j) (7 + 3 * i + j) st
  end.
Lemma ent_dot : forall i j, ent (mtmul U V) i j = dot (col i U) (col j V).
Proof. intros [|[|i]] [|[|j]]; reflexivity. Qed.
Lemma mapply_dot : forall M x n, dot (mapply M x) n = dot x (mtapply M n).
Proof. intros. unfold mapply, mtapply, dot, vadd, vscale. cbn [c0 c1 c2]. ring. Qed.
Lemma wor_cross : forall i j, wor i j = vscale (det U) (cross (col i U) (col j V)).
Proof.
  intros i j. unfold wor, loc. set (v := col j V). destruct (cross_cols U OU) as (C0 & C1 & C2). assert (E : v = mapply U (mtapply U v)) by (symmetry; apply mapply_mt, OU). rewrite E at 2.
  set (w := mtapply U v). clearbody w. clear E v.
  assert (L : forall x, cross x (mapply U w) = vadd (vscale (c0 w) (cross x (m0 U))) (vadd (vscale (c1 w) (cross x (m1 U))) (vscale (c2 w) (cross x (m2 U))))) by (intros; unfold mapply; ve).
  pose proof (det_sq U OU) as D.
  assert (N : forall x y, cross x y = vneg (cross y x)) by (intros; ve). assert (Z : forall x, cross x x = vzero) by (intros; ve).
  assert (G : forall k x y, k * k = 1 -> y = vscale k x -> vscale k y = x). { intros k x y K ->. replace (vscale k (vscale k x)) with (vscale (k * k) x) by ve. rewrite K. ve. }
  destruct i as [|[|i]]; cbn [col ei mid]; unfold ei; cbn [col mid m0 m1 m2]; rewrite L, Z.
  - rewrite (N (m0 U) (m2 U)), C0, C2. set (k := det U) in *. unfold mapply.
    replace (vscale k (vadd (vscale (c0 w) vzero) (vadd (vscale (c1 w) (vscale k (m2 U))) (vscale (c2 w) (vneg (vscale k (m1 U))))))) with (vscale (k * k) (vadd (vscale (c1 w) (m2 U)) (vscale (- c2 w) (m1 U)))) by ve. rewrite D. ve.
  - rewrite (N (m1 U) (m0 U)), C0, C1. set (k := det U) in *. unfold mapply.
    replace (vscale k _) with (vscale (k * k) (vadd (vscale (- c0 w) (m2 U)) (vscale (c2 w) (m0 U)))) by ve. rewrite D. ve.
  - rewrite (N (m2 U) (m1 U)), C1, C2. set (k := det U) in *. unfold mapply.
    replace (vscale k _) with (vscale (k * k) (vadd (vscale (c0 w) (m1 U)) (vscale (- c1 w) (m0 U)))) by ve. rewrite D. ve.
Qed.
Lemma det_one : Rabs (det U) = 1.
Proof. pose proof (abs_det U 1 OU) as E. rewrite Rmult_1_r, Rabs_R1 in E. exact E. Qed.
Lemma det_oneV : Rabs (det V) = 1.
Proof. pose proof (abs_det V 1 OV) as E. rewrite Rmult_1_r, Rabs_R1 in E. exact E. Qed.
Lemma wor_norm : forall i j, norm (loc i j) = norm (cross (col i U) (col j V)).
Proof.
  intros i j. pose proof (wor_cross i j) as E. unfold wor in E. assert (N : norm (mapply U (loc i j)) = norm (loc i j)). { unfold norm, norm2. rewrite mapply_dot, mt_mapply by exact OU. reflexivity. }
  rewrite <- N, E, norm_scale, det_one. ring.
Qed.
Lemma dot_wor : forall i j n, dot n (wor i j) = dot (mtapply U n) (loc i j).
Proof. intros. unfold wor. rewrite dot_comm, mapply_dot, dot_comm. reflexivity. Qed.
Lemma mt_col : forall i, mtapply U (col i U) = ei i.
Proof. destruct OU as (O0 & O1 & O2 & O3 & O4 & O5). intros [|[|i]]; unfold mtapply, ei; cbn [col mid m0 m1 m2]; rewrite ?(dot_comm (m1 U) (m0 U)), ?(dot_comm (m2 U) (m0 U)), ?(dot_comm (m2 U) (m1 U)), ?O0, ?O1, ?O2, ?O3, ?O4, ?O5; reflexivity. Qed.
Lemma reachU_wor : forall i j, reach U A (wor i j) = c0 A * Rabs (c0 (loc i j)) + c1 A * Rabs (c1 (loc i j)) + c2 A * Rabs (c2 (loc i j)).
Proof.
  intros i j. unfold reach. rewrite !dot_wor. change (m0 U) with (col 0 U). change (m1 U) with (col 1 U). change (m2 U) with (col 2 U). rewrite !mt_col. unfold ei. cbn [col mid m0 m1 m2].
  replace (dot (mk3 1 0 0) (loc i j)) with (c0 (loc i j)) by sc. replace (dot (mk3 0 1 0) (loc i j)) with (c1 (loc i j)) by sc. replace (dot (mk3 0 0 1) (loc i j)) with (c2 (loc i j)) by sc. reflexivity.
Qed.
Lemma reachV_wor : forall i j, reach V B (wor i j) =
  match j with 0%nat => c1 B * Rabs (dot (col i U) (m2 V)) + c2 B * Rabs (dot (col i U) (m1 V))
  | 1%nat => c0 B * Rabs (dot (col i U) (m2 V)) + c2 B * Rabs (dot (col i U) (m0 V))
  | _ => c0 B * Rabs (dot (col i U) (m1 V)) + c1 B * Rabs (dot (col i U) (m0 V)) end.
Proof.
  intros i j. rewrite wor_cross, reach_scale, det_one, Rmult_1_l. unfold reach. set (u := col i U).
  destruct (cross_cols V OV) as (C0 & C1 & C2). assert (T : forall a b, dot a (cross u b) = dot u (cross b a)) by (intros; sc). rewrite !T.
  assert (N : forall x y, cross x y = vneg (cross y x)) by (intros; ve). assert (Z : forall x, cross x x = vzero) by (intros; ve). assert (Z0 : dot u vzero = 0) by sc.
  destruct j as [|[|j]]; cbn [col]; rewrite ?Z, Z0, Rabs_R0.
  - rewrite (N (m0 V) (m2 V)), C0, C2, dot_neg_r, !dot_scale_r, Rabs_Ropp, !(abs_det V) by exact OV. ring.
  - rewrite (N (m1 V) (m0 V)), C0, C1, dot_neg_r, !dot_scale_r, Rabs_Ropp, !(abs_det V) by exact OV. ring.
  - rewrite (N (m2 V) (m1 V)), C1, C2, dot_neg_r, !dot_scale_r, Rabs_Ropp, !(abs_det V) by exact OV. ring.
Qed.
Lemma reach_own : forall M S i, ortho M -> reach M S (col i M) = comp i S.
Proof.
  intros M S i (O0 & O1 & O2 & O3 & O4 & O5). unfold reach. destruct i as [|[|i]]; cbn [col comp]; rewrite ?(dot_comm (m1 M) (m0 M)), ?(dot_comm (m2 M) (m0 M)), ?(dot_comm (m2 M) (m1 M)), ?O0, ?O1, ?O2, ?O3, ?O4, ?O5, ?Rabs_R0, ?Rabs_R1; ring.
Qed.
Lemma try_face_eq : forall t t' r r' n k st st', t = t' -> r = r' -> st = st' -> try_face t r n k st = try_face t' r' n k st'.
Proof. intros. subst. reflexivity. Qed.
Lemma try_edge_eq : forall t t' r r' n n' k st st', t = t' -> r = r' -> n = n' -> st = st' -> try_edge eps U t r n k st = try_edge eps U t' r' n' k st'.
Proof. intros. subst. reflexivity. Qed.
Lemma sat_steps : sat eps far A X1 B X2 = fold_left (fun st a => step a st) axes (Some (Best (- far) 0 false vzero)).
Proof.
  unfold sat, axes. fold U V p. cbv zeta. cbn [fold_left step Nat.add Nat.mul]. set (M := mtmul U V).
  assert (Ld : forall i j, loc i j = cross (ei i) (col j M)) by (intros i [|[|j]]; reflexivity).
  assert (En : forall i j, dot (col i U) (col j V) = ent M i j) by (intros; symmetry; apply ent_dot).
  assert (Edge : forall i j st st' t r n k, st = st' -> t = dot (mtapply U p) (loc i j) -> r = c0 A * Rabs (c0 (loc i j)) + c1 A * Rabs (c1 (loc i j)) + c2 A * Rabs (c2 (loc i j)) + match j with 0%nat => c1 B * Rabs (dot (col i U) (m2 V)) + c2 B * Rabs (dot (col i U) (m1 V))
     | 1%nat => c0 B * Rabs (dot (col i U) (m2 V)) + c2 B * Rabs (dot (col i U) (m0 V)) | _ => c0 B * Rabs (dot (col i U) (m1 V)) + c1 B * Rabs (dot (col i U) (m0 V)) end + slack i j -> n = loc i j ->
     try_edge eps U t r n k st = try_edge eps U (dot p (wor i j)) (both (wor i j) + slack i j) (loc i j) k st').
  { intros i j st st' t r n k -> Ht Hr ->. apply try_edge_eq; auto; [rewrite dot_wor; exact Ht|]. unfold both. rewrite reachU_wor, reachV_wor. exact Hr. }
  assert (Face : forall i, both (col i U) = comp i A + (c0 B * aq M i 0 + c1 B * aq M i 1 + c2 B * aq M i 2)).
  { intros i. unfold both. rewrite (reach_own U A i OU). unfold reach, aq. rewrite <- !En. cbn [col]. rewrite !(dot_comm (col i U)). reflexivity. }
  assert (FaceV : forall i, both (col i V) = (c0 A * aq M 0 i + c1 A * aq M 1 i + c2 A * aq M 2 i) + comp i B).
  { intros i. unfold both. rewrite (reach_own V B i OV). unfold reach, aq. rewrite <- !En. cbn [col]. reflexivity. }
  clearbody M. change (m0 U) with (col 0 U). change (m1 U) with (col 1 U). change (m2 U) with (col 2 U). change (m0 V) with (col 0 V). change (m1 V) with (col 1 V). change (m2 V) with (col 2 V).
  assert (Pp : forall i, dot p (col i U) = comp i (mtapply U p)) by (intros [|[|i]]; cbn [comp mtapply c0 c1 c2 col]; apply dot_comm).
  repeat (apply Edge; [| |cbn [col]; change (m0 V) with (col 0 V); change (m1 V) with (col 1 V); change (m2 V) with (col 2 V); change (m0 U) with (col 0 U); change (m1 U) with (col 1 U); change (m2 U) with (col 2 U); rewrite ?En|]).
  all: try (rewrite !Ld; unfold ei, ent, slack, two, pq, aq, ent; cbn [col mid m0 m1 m2 comp]; unfold dot, cross; cbn [c0 c1 c2];
    repeat match goal with |- context [Rabs (?a * ?b - ?c * ?d)] =>
      first [ replace (a * b - c * d) with 0 by ring; rewrite Rabs_R0 | replace (a * b - c * d) with b by ring | replace (a * b - c * d) with (- d) by ring; rewrite Rabs_Ropp ] end; solve [ring | apply v3_ext; cbn [c0 c1 c2]; ring]).
  repeat (apply try_face_eq; [first [rewrite Pp; reflexivity|apply dot_comm]|rewrite ?Face, ?FaceV; cbn [comp]; ring|]). reflexivity.
Qed.
(** The axis, its bound, and what is recorded for it *)
Definition vec (a : axis) : v3 := match a with FA i => col i U | FB i => col i V | EX i j => wor i j end.
Definition extra (a : axis) : R := match a with EX i j => slack i j | _ => 0 end.
Definition bound (a : axis) : R := both (vec a) + extra a.
Definition code_of (a : axis) : nat := match a with FA i => 1 + i | FB i => 4 + i | EX i j => 7 + 3 * i + j end.
Definition len (a : axis) : R := match a with EX i j => norm (loc i j) | _ => 1 end.
Definition unit_of (a : axis) : v3 := match a with EX i j => mapply U (vscale (/ norm (loc i j)) (loc i j)) | _ => vec a end.
Definition value (a : axis) : R := match a with EX _ _ => (Rabs (dot p (vec a)) - bound a) / len a | _ => Rabs (dot p (vec a)) - both (vec a) end.
Definition made (a : axis) : best := Best (value a) (code_of a) (ltb (dot p (vec a)) 0) (unit_of a).
Definition big (a : axis) : Prop := match a with EX _ _ => eps < len a | _ => True end.
Definition weight (a : axis) : R := match a with EX _ _ => fudge | _ => 1 end.
Lemma step_none : forall a b, step a (Some b) = None -> bound a < Rabs (dot p (vec a)).
Proof.
  intros a b. unfold bound, extra. destruct a as [i|i|i j]; cbn [step try_face try_edge vec]; destruct (Rlt_dec 0 _) as [L|L]; try (intros _; lra).
  - destruct (Rlt_dec _ _); discriminate.
  - destruct (Rlt_dec _ _); discriminate.
  - destruct (Rlt_dec eps _); [|discriminate]. destruct (Rlt_dec _ _); discriminate.
Qed.
Lemma step_some : 0 <= eps -> forall a b b', step a (Some b) = Some b' ->
  Rabs (dot p (vec a)) <= bound a /\ bs b <= bs b' /\ (b' = b \/ b' = made a /\ big a) /\ (big a -> value a * weight a <= bs b').
Proof.
  intros He a b b'. unfold made, big, weight, value, bound, extra. destruct a as [i|i|i j]; cbn [step try_face try_edge vec len code_of unit_of]; destruct (Rlt_dec 0 _) as [L|L]; try discriminate.
  1, 2: destruct (Rlt_dec _ _) as [L2|L2]; intros E; injection E as <-; cbn [bs]; repeat split; auto; lra.
  destruct (Rlt_dec eps _) as [Le|Le]; [|intros E; injection E as <-; repeat split; auto; try lra; intros; contradiction].
  set (v := (Rabs (dot p (wor i j)) - (both (wor i j) + slack i j)) / norm (loc i j)). assert (Vn : v <= 0). { unfold v. apply Rmult_le_reg_r with (norm (loc i j)); [lra|]. unfold Rdiv. rewrite Rmult_assoc, Rinv_l by lra. lra. }
  assert (Vf : v * fudge <= v) by (unfold fudge; nra). destruct (Rlt_dec _ _) as [L2|L2]; intros E; injection E as <-; cbn [bs]; repeat split; auto; try lra.
Qed.
Lemma fold_none : forall l b, fold_left (fun st a => step a st) l (Some b) = None -> exists a, In a l /\ bound a < Rabs (dot p (vec a)).
Proof.
  induction l as [|a l IH]; intros b; cbn [fold_left]; [discriminate|]. destruct (step a (Some b)) as [b1|] eqn:E.
  - intros H. destruct (IH b1 H) as (x & I & L). exists x. split; [right; exact I|exact L].
  - intros _. exists a. split; [left; reflexivity|]. apply step_none with b, E.
Qed.
Lemma fold_some : 0 <= eps -> forall l b b', fold_left (fun st a => step a st) l (Some b) = Some b' ->
  bs b <= bs b' /\ (forall a, In a l -> Rabs (dot p (vec a)) <= bound a /\ (big a -> value a * weight a <= bs b')) /\ (b' = b \/ exists a, In a l /\ b' = made a /\ big a).
Proof.
  intros He. induction l as [|a l IH]; intros b b'; cbn [fold_left]; [intros E; injection E as <-; repeat split; auto; try lra; contradiction|].
  destruct (step a (Some b)) as [b1|] eqn:E.
  - intros H. destruct (IH b1 b' H) as (M & Al & C). destruct (step_some He a b b1 E) as (S1 & S2 & S3 & S4). split; [lra|]. split.
    + intros x [ <- |I]; [split; [exact S1|intros Hb; specialize (S4 Hb); lra]|exact (Al x I)].
    + destruct C as [ -> |(x & I & Ex)]; [destruct S3 as [S3|(S3 & S5)]; [left; exact S3|right; exists a; split; [left; reflexivity|auto]]|right; exists x; split; [right; exact I|exact Ex]].
  - intros H. exfalso. clear -H. induction l as [|x l IH]; cbn [fold_left] in H; [discriminate|]. apply IH. destruct x; exact H.
Qed.
(** What the tests of boxBox2 amount to *)
Lemma pad_nonneg : 0 <= eps -> 0 <= pad eps A B.
Proof. intros H. unfold pad. apply Rmult_le_pos; [|exact H]. apply Rmult_le_pos; [|lra]. apply Rle_trans with 1; [lra|apply Rmax_r]. Qed.
Lemma slack_nonneg : 0 <= eps -> forall i j, 0 <= slack i j.
Proof.
  intros H i j. unfold slack. apply Rmult_le_pos; [apply pad_nonneg, H|]. destruct PA as (? & ? & ?), PB as (? & ? & ?). destruct i as [|[|i]], j as [|[|j]]; cbn [two]; lra.
Qed.
Lemma extra_nonneg : 0 <= eps -> forall a, 0 <= extra a.
Proof. intros H [i|i|i j]; cbn [extra]; try lra. apply slack_nonneg, H. Qed.
Lemma col3 : forall i (M : mat3), exists k, (k < 3)%nat /\ col i M = col k M.
Proof. intros [|[|i]] M; [exists 0%nat|exists 1%nat|exists 2%nat]; split; auto; lia. Qed.
Lemma in_axes : (forall i, (i < 3)%nat -> In (FA i) axes /\ In (FB i) axes) /\ forall i j, (i < 3)%nat -> (j < 3)%nat -> In (EX i j) axes.
Proof. split; [intros i H; destruct i as [|[|[|i]]]; [| | |lia]; split; cbn; tauto|]. intros i j Hi Hj. destruct i as [|[|[|i]]]; [| | |lia]; (destruct j as [|[|[|j]]]; [| | |lia]); cbn; tauto. Qed.
Lemma axes_in : forall a, In a axes -> match a with FA i => (i < 3)%nat | FB i => (i < 3)%nat | EX i j => (i < 3)%nat /\ (j < 3)%nat end.
Proof. intros a I. cbn in I. repeat (destruct I as [ <- |I]; [lia|]). destruct I. Qed.
Lemma axis_len : forall a, norm (vec a) = len a.
Proof.
  intros [i|i|i j]; cbn [vec len].
  - destruct OU as (O0 & O1 & O2 & _). unfold norm, norm2. destruct i as [|[|i]]; cbn [col]; rewrite ?O0, ?O1, ?O2; apply sqrt_1.
  - destruct OV as (O0 & O1 & O2 & _). unfold norm, norm2. destruct i as [|[|i]]; cbn [col]; rewrite ?O0, ?O1, ?O2; apply sqrt_1.
  - unfold wor. unfold norm, norm2. rewrite mapply_dot, mt_mapply by exact OU. reflexivity.
Qed.
(** If no axis separates, there is a common point: for any distance of the centres *)
Lemma none_splits : forall c, (forall a, In a axes -> Rabs (dot c (vec a)) <= both (vec a)) -> exists x y, within A x /\ within B y /\ c = vsub (mapply U x) (mapply V y).
Proof.
  intros c H. destruct in_axes as (IF & IE). apply fifteen; auto; unfold split_by.
  - intros i. destruct (col3 i U) as (k & Hk & -> ). pose proof (H (FA k) (proj1 (IF k Hk))) as Q. cbn [vec] in Q. unfold both in Q. lra.
  - intros i. destruct (col3 i V) as (k & Hk & -> ). pose proof (H (FB k) (proj2 (IF k Hk))) as Q. cbn [vec] in Q. unfold both in Q. lra.
  - intros i j. destruct (col3 i U) as (k & Hk & -> ). destruct (col3 j V) as (m & Hm & -> ). pose proof (H (EX k m) (IE k m Hk Hm)) as Q. cbn [vec] in Q. rewrite wor_cross in Q. unfold both in Q. rewrite !reach_scale, dot_scale_r, Rabs_mult, det_one in Q. lra.
Qed.
Lemma some_splits : forall c, (exists x y, within A x /\ within B y /\ c = vsub (mapply U x) (mapply V y)) \/ exists a, In a axes /\ both (vec a) < Rabs (dot c (vec a)).
Proof.
  intros c. destruct (Exists_dec (fun a => both (vec a) < Rabs (dot c (vec a))) axes) as [E|E]; [intros; apply Rlt_dec|right; apply Exists_exists in E; exact E|left].
  apply none_splits. intros a I. destruct (Rle_lt_dec (Rabs (dot c (vec a))) (both (vec a))) as [L|L]; [exact L|]. exfalso. apply E, Exists_exists. eauto.
Qed.
Lemma sat_none : 0 <= eps -> sat eps far A X1 B X2 = None -> exists a, In a axes /\ both (vec a) < Rabs (dot p (vec a)).
Proof. intros He. rewrite sat_steps. intros H. apply fold_none in H. destruct H as (a & I & L). exists a. split; [exact I|]. unfold bound in L. pose proof (extra_nonneg He a). lra. Qed.
Lemma both_own : both (m0 U) <= c0 A + (c0 B + c1 B + c2 B).
Proof.
  unfold both. change (m0 U) with (col 0 U). rewrite (reach_own U A 0 OU). cbn [comp]. apply Rplus_le_compat_l. unfold reach. destruct PB as (B0 & B1 & B2).
  assert (Q : forall i, Rabs (dot (col i V) (col 0 U)) <= 1). { intros i. pose proof (axis_len (FB i)) as L1. pose proof (axis_len (FA 0)) as L2. cbn [vec len] in L1, L2. pose proof (cauchy_schwarz_abs (col i V) (col 0 U)) as C. rewrite L1, L2 in C. lra. }
  pose proof (Q 0%nat). pose proof (Q 1%nat). pose proof (Q 2%nat). cbn [col] in *. assert (M : forall b t, 0 <= b -> t <= 1 -> b * t <= b) by (intros; nra).
  pose proof (M _ _ B0 H). pose proof (M _ _ B1 H0). pose proof (M _ _ B2 H1). lra.
Qed.
Lemma sat_some : 0 <= eps -> c0 A + (c0 B + c1 B + c2 B) < far -> forall b, sat eps far A X1 B X2 = Some b ->
  (forall a, In a axes -> Rabs (dot p (vec a)) <= bound a /\ (big a -> value a * weight a <= bs b)) /\ exists a, In a axes /\ b = made a /\ big a.
Proof.
  intros He Hf b H. rewrite sat_steps in H. apply (fold_some He) in H. destruct H as (_ & Al & C). split; [exact Al|]. destruct C as [ -> |C]; [exfalso|exact C].
  destruct (Al (FA 0) (proj1 (proj1 in_axes 0%nat ltac:(lia)))) as (_ & Q). cbn [big value weight vec bs] in Q. specialize (Q Logic.I). pose proof (Rabs_pos (dot p (col 0 U))). pose proof both_own. cbn [col] in *. lra.
Qed.
End Sat.

(** ** The answer *)
Definition halfs (side : v3) : v3 := vscale (1/2) side.
Definition moved (w : v3) (X : tf) : tf := mktf (tf_rot X) (vadd (tf_tr X) w).
(** The two boxes have a point in common *)
Definition meet (s1 : v3) (X1 : tf) (s2 : v3) (X2 : tf) : Prop := exists q, placed X1 (boxset s1) q /\ placed X2 (boxset s2) q.
Lemma boxset_within : forall s x, boxset s x <-> within (halfs s) x.
Proof.
  intros s x. unfold boxset, within, halfs, vscale. cbn [c0 c1 c2]. split.
  - intros H. pose proof (H 0%nat ltac:(lia)) as H0. pose proof (H 1%nat ltac:(lia)) as H1. pose proof (H 2%nat ltac:(lia)) as H2. cbn [comp] in *. lra.
  - intros (H0 & H1 & H2) i Hi. destruct i as [|[|[|i]]]; [| | |lia]; cbn [comp]; lra.
Qed.
Lemma meet_iff : forall s1 X1 s2 X2, meet s1 X1 s2 X2 <-> exists x y, within (halfs s1) x /\ within (halfs s2) y /\ vsub (tf_tr X2) (tf_tr X1) = vsub (mapply (tf_rot X1) x) (mapply (tf_rot X2) y).
Proof.
  intros s1 X1 s2 X2. unfold meet, placed. split.
  - intros (q & (x & Hx & Ex) & y & Hy & Ey). exists x, y. rewrite <- !boxset_within. split; [exact Hx|]. split; [exact Hy|]. rewrite Ex in Ey. unfold tf_apply in Ey. set (a := mapply (tf_rot X1) x) in *. set (b := mapply (tf_rot X2) y) in *.
    destruct a as [a0 a1 a2], b as [b0 b1 b2], (tf_tr X1) as [t0 t1 t2], (tf_tr X2) as [u0 u1 u2]. unfold vadd in Ey. cbn [c0 c1 c2] in Ey. injection Ey. intros. unfold vsub. cbn [c0 c1 c2]. f_equal; lra.
  - intros (x & y & Hx & Hy & E). exists (tf_apply X1 x). split; [exists x; split; [apply boxset_within; exact Hx|reflexivity]|]. exists y. split; [apply boxset_within; exact Hy|]. unfold tf_apply. set (a := mapply (tf_rot X1) x) in *. set (b := mapply (tf_rot X2) y) in *.
    destruct a as [a0 a1 a2], b as [b0 b1 b2], (tf_tr X1) as [t0 t1 t2], (tf_tr X2) as [u0 u1 u2]. unfold vsub in E. cbn [c0 c1 c2] in E. injection E. intros. unfold vadd. cbn [c0 c1 c2]. f_equal; lra.
Qed.
(** Half the extent of both boxes in direction n *)
Definition extent (s1 : v3) (X1 : tf) (s2 : v3) (X2 : tf) (n : v3) : R := reach (tf_rot X1) (halfs s1) n + reach (tf_rot X2) (halfs s2) n.
Definition edge_dir (X1 X2 : tf) (i j : nat) : v3 := cross (col i (tf_rot X1)) (col j (tf_rot X2)).
(** The amount that the padding adds to the test of an edge direction *)
Definition allow (eps : R) (s1 s2 : v3) (i j : nat) : R := pad eps (halfs s1) (halfs s2) * (two i (halfs s1) + two j (halfs s2)).
Definition finite (far : R) (s1 s2 : v3) : Prop := c0 s1 + c0 s2 + c1 s2 + c2 s2 < 2 * far.
Lemma half_pos : forall s, posside s -> positive (halfs s).
Proof. intros s (H0 & H1 & H2). unfold positive, halfs, vscale. cbn [c0 c1 c2]. lra. Qed.
Section Answer.
Variables (eps : R) (atan2 : R -> R -> R) (far : R) (maxc : nat) (s1 : v3) (X1 : tf) (s2 : v3) (X2 : tf).
Hypothesis He : 0 <= eps.
Hypothesis O1 : ortho (tf_rot X1).
Hypothesis O2 : ortho (tf_rot X2).
Hypothesis P1 : posside s1.
Hypothesis P2 : posside s2.
Hypothesis Hf : finite far s1 s2.
Let A := halfs s1.
Let B := halfs s2.
Let U := tf_rot X1.
Let V := tf_rot X2.
Let p := vsub (tf_tr X2) (tf_tr X1).
Let res := box_box eps atan2 far maxc s1 X1 s2 X2.
Lemma far_ok : c0 A + (c0 B + c1 B + c2 B) < far.
Proof. unfold finite in Hf. unfold A, B, halfs, vscale. cbn [c0 c1 c2]. lra. Qed.
Lemma code_zero : fst res = 0%nat -> sat eps far A X1 B X2 = None.
Proof.
  unfold res, box_box. fold (halfs s1) (halfs s2). fold A B. cbv zeta. destruct (sat eps far A X1 B X2) as [b|] eqn:E; [|reflexivity]. apply sat_some in E; auto; try exact (half_pos _ P1); try exact (half_pos _ P2); try exact far_ok. destruct E as (_ & a & Ia & -> & _). cbn [bcode made].
  destruct a as [i|i|i j]; cbn [code_of Nat.add Nat.eqb]; destruct (Nat.ltb 6 _); cbn [fst]; try discriminate; destruct (Nat.leb _ 3); cbn [fst]; discriminate.
Qed.
Lemma code_some : fst res <> 0%nat -> exists b, sat eps far A X1 B X2 = Some b /\ fst res = bcode b.
Proof.
  unfold res, box_box. fold (halfs s1) (halfs s2). fold A B. cbv zeta. destruct (sat eps far A X1 B X2) as [b|] eqn:E; [|intros H; exfalso; apply H; reflexivity]. intros H. exists b. split; [reflexivity|]. destruct (Nat.eqb (bcode b) 0) eqn:E0; [exfalso; apply H; reflexivity|]. destruct (Nat.ltb 6 _); [reflexivity|]. destruct (Nat.leb _ _); reflexivity.
Qed.
(** C82: code 0 is returned only for boxes without a common point. *)
Theorem box_box_apart : fst res = 0%nat -> ~ meet s1 X1 s2 X2.
Proof.
  intros E M. apply code_zero in E. apply sat_none in E; auto; try exact (half_pos _ P1); try exact (half_pos _ P2). destruct E as (a & _ & L). apply meet_iff in M. destruct M as (x & y & Hx & Hy & Ep). exact (split_sound U V A B p _ x y L Hx Hy Ep).
Qed.
(** C82: otherwise they have a common point, or an edge direction separates them by not more than the padding. *)
Theorem box_box_meet : fst res <> 0%nat -> meet s1 X1 s2 X2 \/
  exists i j, (i < 3)%nat /\ (j < 3)%nat /\ extent s1 X1 s2 X2 (edge_dir X1 X2 i j) < Rabs (dot p (edge_dir X1 X2 i j)) <= extent s1 X1 s2 X2 (edge_dir X1 X2 i j) + allow eps s1 s2 i j.
Proof.
  intros E. apply code_some in E. destruct E as (b & E & _). apply sat_some in E; auto; try exact (half_pos _ P1); try exact (half_pos _ P2); try exact far_ok. destruct E as (Al & _).
  destruct (some_splits A X1 B X2 O1 O2 (half_pos _ P1) (half_pos _ P2) p) as [M|(a & Ia & L)]; [left; apply meet_iff; exact M|right].
  destruct (Al a Ia) as (Q & _). pose proof (axes_in a Ia) as Ix. fold p in Q. destruct a as [i|i|i j]; unfold bound, extra in Q; cbn [vec] in Q, L; try lra. exists i, j. destruct Ix as (Hi & Hj). split; [exact Hi|]. split; [exact Hj|].
  rewrite (wor_cross X1 X2 O1) in Q, L. unfold both in Q, L. rewrite !reach_scale, dot_scale_r, Rabs_mult, (det_one X1 O1) in Q, L. unfold extent, edge_dir, allow. unfold slack in Q. fold A B. lra.
Qed.
(** The normal and the depth that boxBox2 returns *)
Definition out_normal (b : best) : v3 := if binv b then vneg (bn b) else bn b.
Lemma unit_scaled : forall a, big eps X1 X2 a -> 0 < len X1 X2 a /\ unit_of X1 X2 a = vscale (/ len X1 X2 a) (vec X1 X2 a).
Proof.
  intros a Hb. destruct a as [i|i|i j]; cbn [len unit_of vec big] in *.
  - split; [lra|]. rewrite Rinv_1. ve.
  - split; [lra|]. rewrite Rinv_1. ve.
  - split; [lra|]. unfold wor, mapply. ve.
Qed.
Lemma normal_facts : forall a, big eps X1 X2 a -> let n := out_normal (made eps A X1 B X2 a) in let k := / len X1 X2 a in
  norm n = 1 /\ dot p n = k * Rabs (dot p (vec X1 X2 a)) /\ forall M S, reach M S n = k * reach M S (vec X1 X2 a).
Proof.
  intros a Hb n k. destruct (unit_scaled a Hb) as (L & E). assert (K : 0 < k) by (apply Rinv_0_lt_compat, L).
  assert (N : exists g, (g = 1 \/ g = -1) /\ n = vscale (g * k) (vec X1 X2 a) /\ g * dot p (vec X1 X2 a) = Rabs (dot p (vec X1 X2 a))).
  { unfold n, out_normal, made. cbn [binv bn]. fold U V p. unfold ltb. rewrite E. fold k. destruct (Rlt_dec _ 0) as [Q|Q].
    - exists (-1). split; [auto|]. split; [ve|]. rewrite Rabs_left; [ring|exact Q].
    - exists 1. split; [auto|]. split; [rewrite Rmult_1_l; reflexivity|]. rewrite Rabs_right; [ring|lra]. }
  destruct N as (g & G & -> & Gd). assert (Ag : Rabs (g * k) = k). { rewrite Rabs_mult, (Rabs_right k) by lra. destruct G as [ -> | -> ]; [rewrite Rabs_R1|rewrite Rabs_left by lra]; ring. }
  split; [|split].
  - rewrite norm_scale, Ag, axis_len by assumption. unfold k. field. lra.
  - rewrite dot_scale_r, <- Gd. ring.
  - intros M S. rewrite reach_scale, Ag. reflexivity.
Qed.
Lemma best_facts : forall b, sat eps far A X1 B X2 = Some b -> let n := out_normal b in let d := - bs b in
  norm n = 1 /\ 0 <= d /\ 0 <= dot p n /\ extent s1 X1 s2 X2 n - dot p n <= d.
Proof.
  intros b E n d. apply sat_some in E; auto; try exact (half_pos _ P1); try exact (half_pos _ P2); try exact far_ok. destruct E as (Al & a & Ia & Eb & Hb).
  destruct (normal_facts a Hb) as (N1 & N2 & N3). destruct (unit_scaled a Hb) as (L & _). rewrite <- Eb in N1, N2, N3. fold n in N1, N2, N3. set (k := / len X1 X2 a) in *. assert (K : 0 < k) by (apply Rinv_0_lt_compat, L).
  destruct (Al a Ia) as (Q & _). fold p in Q. assert (Ed : d = k * (bound eps A X1 B X2 a - Rabs (dot p (vec X1 X2 a)))).
  { unfold d. rewrite Eb. unfold made. cbn [bs]. unfold bound, extra, value. destruct a as [i|i|i j]; cbn [len vec] in *; fold p; unfold k; rewrite ?Rinv_1; try ring. unfold bound, extra. cbn [vec]. unfold Rdiv. ring. }
  split; [exact N1|]. split; [rewrite Ed; apply Rmult_le_pos; lra|]. split; [rewrite N2; apply Rmult_le_pos; [lra|apply Rabs_pos]|].
  rewrite Ed, N2. unfold extent. fold A B U V. rewrite !N3. unfold bound, both. fold U V. pose proof (extra_nonneg eps A B (half_pos _ P1) (half_pos _ P2) He a) as Ex.
  assert (0 <= k * extra eps A B a) by (apply Rmult_le_pos; lra). lra.
Qed.
(** C82: moving the second box along the normal by more than the depth separates the boxes. *)
Theorem depth_separates : forall b, sat eps far A X1 B X2 = Some b -> forall t, - bs b < t -> ~ meet s1 X1 s2 (moved (vscale t (out_normal b)) X2).
Proof.
  intros b E t Ht M. destruct (best_facts b E) as (N1 & N2 & N3 & N4). set (n := out_normal b) in *. apply meet_iff in M. destruct M as (x & y & Hx & Hy & Ep). unfold moved in Ep. cbn [tf_tr tf_rot] in Ep.
  apply (split_sound U V A B (vsub (vadd (tf_tr X2) (vscale t n)) (tf_tr X1)) n x y); auto. unfold split_by. unfold extent in N4. fold A B U V in N4.
  replace (dot (vsub (vadd (tf_tr X2) (vscale t n)) (tf_tr X1)) n) with (dot p n + t * norm2 n) by (unfold p; sc). rewrite <- (norm_sq n), N1. rewrite Rabs_right; lra.
Qed.
(** C82: no translation that separates them is much shorter. *)
Theorem depth_small : forall b, sat eps far A X1 B X2 = Some b -> forall w, ~ meet s1 X1 s2 (moved w X2) -> - bs b < norm w \/
  exists i j, (i < 3)%nat /\ (j < 3)%nat /\ 0 < norm (edge_dir X1 X2 i j) /\ (norm (edge_dir X1 X2 i j) <= eps \/ - bs b / fudge < norm w + allow eps s1 s2 i j / norm (edge_dir X1 X2 i j)).
Proof.
  intros b E w M. apply sat_some in E; auto; try exact (half_pos _ P1); try exact (half_pos _ P2); try exact far_ok. destruct E as (Al & _).
  destruct (some_splits A X1 B X2 O1 O2 (half_pos _ P1) (half_pos _ P2) (vadd p w)) as [(x & y & Hx & Hy & Ep)|(a & Ia & L)].
  { exfalso. apply M, meet_iff. exists x, y. split; [exact Hx|]. split; [exact Hy|]. unfold moved. cbn [tf_tr tf_rot]. rewrite <- Ep. unfold p. ve. }
  destruct (Al a Ia) as (Q & Qb). fold p in Q. rewrite dot_add_l in L. pose proof (Rabs_triang (dot p (vec X1 X2 a)) (dot w (vec X1 X2 a))) as T. pose proof (cauchy_schwarz_abs w (vec X1 X2 a)) as C. rewrite axis_len in C by assumption.
  pose proof (axes_in a Ia) as Ix. destruct a as [i|i|i j].
  - left. specialize (Qb Logic.I). cbn [value weight vec len] in *. fold p in Qb. lra.
  - left. specialize (Qb Logic.I). cbn [value weight vec len] in *. fold p in Qb. lra.
  - right. exists i, j. destruct Ix as (Hi & Hj). split; [exact Hi|]. split; [exact Hj|]. unfold edge_dir. rewrite <- (wor_norm X1 X2 O1). cbn [vec len] in *. set (l := norm (loc X1 X2 i j)) in *.
    unfold bound in Q. cbn [vec extra] in Q. assert (Ll : 0 < l). { destruct (norm_nonneg (loc X1 X2 i j)) as [G|G]; [exact G|]. fold l in G. rewrite <- G, Rmult_0_r in C. pose proof (Rabs_pos (dot w (wor X1 X2 i j))).
      exfalso. pose proof (norm_zero (loc X1 X2 i j) (eq_sym G)) as Z. unfold wor in L. rewrite Z in L. replace (mapply (tf_rot X1) vzero) with vzero in L by (unfold mapply; ve). replace (dot p vzero + dot w vzero) with 0 in L by sc. rewrite Rabs_R0 in L.
      assert (0 <= both A X1 B X2 vzero); [|lra]. unfold both, reach. replace (dot (m0 (tf_rot X1)) vzero) with 0 by sc. replace (dot (m1 (tf_rot X1)) vzero) with 0 by sc. replace (dot (m2 (tf_rot X1)) vzero) with 0 by sc.
      replace (dot (m0 (tf_rot X2)) vzero) with 0 by sc. replace (dot (m1 (tf_rot X2)) vzero) with 0 by sc. replace (dot (m2 (tf_rot X2)) vzero) with 0 by sc. rewrite Rabs_R0. lra. }
    split; [exact Ll|]. destruct (Rle_lt_dec l eps) as [G|G]; [left; exact G|right]. specialize (Qb G). cbn [value weight vec len] in Qb. unfold bound in Qb. cbn [vec extra] in Qb. fold p l in Qb.
    assert (Q2 : - bs b / fudge <= (both A X1 B X2 (wor X1 X2 i j) + slack eps A B i j - Rabs (dot p (wor X1 X2 i j))) / l). { unfold fudge in *. unfold Rdiv in *. lra. }
    unfold allow. fold A B. change (pad eps A B * (two i A + two j B)) with (slack eps A B i j). apply Rle_lt_trans with (1 := Q2). apply Rmult_lt_reg_r with l; [exact Ll|]. unfold Rdiv. rewrite Rmult_assoc, Rinv_l, Rmult_1_r, Rmult_plus_distr_r, Rmult_assoc, Rinv_l, Rmult_1_r by lra. lra.
Qed.
End Answer.
Print Assumptions box_box_apart.
Print Assumptions box_box_meet.
Print Assumptions depth_separates.
Print Assumptions depth_small.

(** ** Where the answer is not exact *)
Lemma sat_all : forall eps far A X1 B X2, ortho (tf_rot X1) -> ortho (tf_rot X2) ->
  (forall a, In a axes -> Rabs (dot (vsub (tf_tr X2) (tf_tr X1)) (vec X1 X2 a)) <= bound eps A X1 B X2 a) -> exists b, sat eps far A X1 B X2 = Some b.
Proof.
  intros eps far A X1 B X2 O1 O2 H. destruct (sat eps far A X1 B X2) as [b|] eqn:E; [exists b; reflexivity|exfalso]. rewrite sat_steps in E by assumption.
  apply fold_none in E. destruct E as (a & I & L). specialize (H a I). lra.
Qed.
Definition side2 : v3 := mk3 2 2 2.
Definition turned : mat3 := mkm (mk3 0 (-4/5) (3/5)) (mk3 (3/5) (12/25) (16/25)) (mk3 (-4/5) (9/25) (12/25)).
Definition pose1 : tf := mktf mid vzero.
Definition pose2 (g : R) : tf := mktf turned (vscale (14/5 + g) (mk3 0 (3/5) (4/5))).
Lemma ortho_mid : ortho mid.
Proof. unfold ortho, mid, dot. cbn [m0 m1 m2 c0 c1 c2]. lra. Qed.
Lemma ortho_turned : ortho turned.
Proof. unfold ortho, turned, dot. cbn [m0 m1 m2 c0 c1 c2]. lra. Qed.
Lemma side2_pos : posside side2.
Proof. unfold posside, side2. cbn [c0 c1 c2]. lra. Qed.
Ltac absb := repeat match goal with |- context [Rabs ?x] => let a := fresh "a" in pose proof (Rle_abs x); pose proof (Rle_abs (- x)); pose proof (Rabs_pos x); rewrite ?(Rabs_Ropp x) in *; set (a := Rabs x) in *; clearbody a end.
Lemma gap_pad : forall eps, 0 <= eps -> pad eps (halfs side2) (halfs side2) = 10 * eps.
Proof. intros eps H. unfold pad, halfs, side2, vscale. cbn [c0 c1 c2]. replace (1/2 * 2) with 1 by lra. unfold Rmax. repeat destruct (Rle_dec _ _); lra. Qed.
(** C82, refuted for exact answers: two boxes a gap g <= 40 epsilon apart are reported as intersecting. *)
Theorem box_box_gap_refuted : forall eps atan2 far maxc g, 0 < g -> g <= 40 * eps -> g <= 1/100 -> 4 < far ->
  fst (box_box eps atan2 far maxc side2 pose1 side2 (pose2 g)) <> 0%nat /\ ~ meet side2 pose1 side2 (pose2 g).
Proof.
  intros eps atan2 far maxc g G0 G1 G2 Hf. pose proof ortho_mid as O1. pose proof ortho_turned as O2. assert (He : 0 <= eps) by lra. split.
  - intros E. apply code_zero in E; auto using side2_pos; [|unfold finite, side2; cbn [c0 c1 c2]; lra]. destruct (sat_all eps far (halfs side2) pose1 (halfs side2) (pose2 g) O1 O2) as (b & Eb); [|congruence].
    assert (Cr : forall i j, wor pose1 (pose2 g) i j = cross (col i mid) (col j turned)). { intros i j. rewrite wor_cross by exact O1. replace (det (tf_rot pose1)) with 1 by (cbn [tf_rot pose1]; unfold det, mid, dot, cross; cbn [m0 m1 m2 c0 c1 c2]; ring). cbn [tf_rot pose1 pose2]. ve. }
    pose proof (gap_pad eps He) as Ep. intros a Ia. unfold bound, extra, both, reach, slack. rewrite Ep. destruct a as [i|i|i j]; cbn [vec]; rewrite ?Cr; cbn in Ia;
    repeat (destruct Ia as [Ia|Ia]; [first [discriminate Ia|injection Ia; intros; subst]|]); try contradiction; cbn [col pose1 pose2 tf_rot tf_tr mid turned m0 m1 m2 two]; unfold cross, dot, vsub, vzero, vscale, halfs, side2; cbn [c0 c1 c2 vscale];
    repeat match goal with |- context [Rabs ?x] => match goal with |- Rabs x <= _ => fail 1 | _ => let a := fresh "a" in pose proof (Rle_abs x); pose proof (Rle_abs (- x)); pose proof (Rabs_pos x); rewrite ?(Rabs_Ropp x) in *; set (a := Rabs x) in *; clearbody a end end; apply Rabs_le; lra.
  - intros M. apply meet_iff in M. destruct M as (x & y & Hx & Hy & E). apply (split_sound mid turned (halfs side2) (halfs side2) (vsub (tf_tr (pose2 g)) (tf_tr pose1)) (mk3 0 (3/5) (4/5)) x y); auto. unfold split_by, reach.
    cbn [pose1 pose2 tf_tr mid turned m0 m1 m2]. unfold dot, vsub, vzero, vscale, halfs, side2. cbn [c0 c1 c2 vscale].
    repeat match goal with |- context [Rabs ?x] => first [rewrite (Rabs_right x) by lra | rewrite (Rabs_left x) by lra] end. lra.
Qed.
(** Boxes that only touch along an edge: the answer is "intersecting", and there is no contact. *)
Definition cube (s : R) : v3 := mk3 s s s.
Definition aside (s : R) : tf := mktf mid (mk3 s s 0).
Lemma step_stay : forall eps A X1 B X2 a b, 0 <= eps -> bs b = 0 -> Rabs (dot (vsub (tf_tr X2) (tf_tr X1)) (vec X1 X2 a)) <= bound eps A X1 B X2 a -> step eps A X1 B X2 a (Some b) = Some b.
Proof.
  intros eps A X1 B X2 a b He H L. unfold bound, extra in L. destruct a as [i|i|i j]; cbn [step try_face try_edge vec] in *.
  1, 2: destruct (Rlt_dec 0 _) as [Q|Q]; [exfalso; lra|]; destruct (Rlt_dec (bs b) _) as [Q2|Q2]; [exfalso; lra|reflexivity].
  destruct (Rlt_dec 0 _) as [Q|Q]; [exfalso; lra|]. destruct (Rlt_dec eps _) as [Q1|Q1]; [|reflexivity]. destruct (Rlt_dec (bs b) _) as [Q2|Q2]; [exfalso|reflexivity].
  set (l := norm (loc X1 X2 i j)) in *. set (v := Rabs _ - _) in *. assert (v / l <= 0). { apply Rmult_le_reg_r with l; [lra|]. unfold Rdiv. rewrite Rmult_assoc, Rinv_l by lra. lra. } rewrite H in Q2. unfold fudge in Q2. nra.
Qed.
Lemma fold_stay : forall eps A X1 B X2 l b, 0 <= eps -> bs b = 0 -> (forall a, In a l -> Rabs (dot (vsub (tf_tr X2) (tf_tr X1)) (vec X1 X2 a)) <= bound eps A X1 B X2 a) -> fold_left (fun st a => step eps A X1 B X2 a st) l (Some b) = Some b.
Proof.
  intros eps A X1 B X2 l b He H. induction l as [|a l IH]; intros L; cbn [fold_left]; [reflexivity|]. rewrite step_stay; auto; [|apply L; left; reflexivity]. apply IH. intros x I. apply L. right. exact I.
Qed.
(** C82, refuted: two cubes that touch along an edge get the code 1 and no contact. *)
Theorem box_box_touch_refuted : forall eps atan2 far maxc s, 0 <= eps -> 0 < s -> 2 * s < far ->
  meet (cube s) pose1 (cube s) (aside s) /\ box_box eps atan2 far maxc (cube s) pose1 (cube s) (aside s) = (1%nat, []).
Proof.
  intros eps atan2 far maxc s He Hs Hf. pose proof ortho_mid as O1. split.
  { apply meet_iff. exists (mk3 (s/2) (s/2) 0), (mk3 (- s/2) (- s/2) 0). unfold within, halfs, cube, vscale. cbn [c0 c1 c2]. split; [lra|]. split; [lra|]. unfold mapply, aside, pose1, vsub, vadd, vscale. cbn [tf_rot tf_tr mid m0 m1 m2 c0 c1 c2 vzero]. f_equal; lra. }
  assert (P : positive (halfs (cube s))) by (unfold positive, halfs, cube, vscale; cbn [c0 c1 c2]; lra).
  assert (Cr : forall i j, wor pose1 (aside s) i j = cross (col i mid) (col j mid)). { intros i j. rewrite wor_cross by exact O1. replace (det (tf_rot pose1)) with 1 by (cbn [tf_rot pose1]; unfold det, mid, dot, cross; cbn [m0 m1 m2 c0 c1 c2]; ring). cbn [tf_rot pose1 aside]. ve. }
  assert (L : forall a, In a axes -> Rabs (dot (vsub (tf_tr (aside s)) (tf_tr pose1)) (vec pose1 (aside s) a)) <= bound eps (halfs (cube s)) pose1 (halfs (cube s)) (aside s) a).
  { intros a Ia. assert (Q : Rabs (dot (vsub (tf_tr (aside s)) (tf_tr pose1)) (vec pose1 (aside s) a)) <= both (halfs (cube s)) pose1 (halfs (cube s)) (aside s) (vec pose1 (aside s) a)).
    { unfold both, reach. destruct a as [i|i|i j]; cbn [vec]; rewrite ?Cr; cbn in Ia;
      repeat (destruct Ia as [Ia|Ia]; [first [discriminate Ia|injection Ia; intros; subst]|]); try contradiction; cbn [col pose1 aside tf_rot tf_tr mid m0 m1 m2 two]; unfold cross, dot, vsub, vzero, vscale, halfs, cube; cbn [c0 c1 c2 vscale];
      repeat match goal with |- context [Rabs ?x] => match goal with |- Rabs x <= _ => fail 1 | _ => let a := fresh "a" in pose proof (Rle_abs x); pose proof (Rle_abs (- x)); pose proof (Rabs_pos x); rewrite ?(Rabs_Ropp x) in *; set (a := Rabs x) in *; clearbody a end end; apply Rabs_le; split; nra. }
    unfold bound. pose proof (extra_nonneg eps (halfs (cube s)) (halfs (cube s)) P P He a). lra. }
  assert (E : sat eps far (halfs (cube s)) pose1 (halfs (cube s)) (aside s) = Some (Best 0 1 false (mk3 1 0 0))).
  { rewrite sat_steps by assumption. change axes with (FA 0 :: tl axes). cbn [fold_left]. set (b := Best 0 1 false (mk3 1 0 0)).
    assert (E0 : step eps (halfs (cube s)) pose1 (halfs (cube s)) (aside s) (FA 0) (Some (Best (- far) 0 false vzero)) = Some b).
    { cbn [step try_face]. unfold both. rewrite (reach_own (tf_rot pose1) _ 0 O1). replace (col 0 (tf_rot pose1)) with (col 0 (tf_rot (aside s))) at 1 2 by reflexivity. rewrite (reach_own (tf_rot (aside s)) _ 0 O1). cbn [comp col pose1 aside tf_rot tf_tr mid m0]. unfold halfs, cube, vscale, dot, vsub, vzero. cbn [c0 c1 c2 bs].
      replace ((s - 0) * 1 + (s - 0) * 0 + (0 - 0) * 0) with s by ring. rewrite (Rabs_right s) by lra. destruct (Rlt_dec 0 _) as [Q|Q]; [exfalso; lra|]. destruct (Rlt_dec (- far) _) as [Q1|Q1]; [|exfalso; lra]. unfold b. unfold ltb. destruct (Rlt_dec s 0) as [Q2|Q2]; [exfalso; lra|]. do 2 f_equal. lra. }
    rewrite E0. apply fold_stay; auto. intros a Ia. apply L. right. exact Ia. }
  unfold box_box. fold (halfs (cube s)). rewrite E. cbn [bcode binv bs bn Nat.eqb Nat.ltb Nat.leb Nat.sub]. f_equal.
  match goal with |- map ?f (select _ _ _ ?l) = [] => assert (El : l = []); [|rewrite El; reflexivity] end.
  unfold face_points. cbv zeta. match goal with |- context [incident ?x] => assert (Ei : incident x = (0, 1, 2)%nat) end.
  { unfold incident, mtapply, dot, aside. cbn [tf_rot mid m0 m1 m2 c0 c1 c2]. replace (1 * 1 + 0 * 0 + 0 * 0) with 1 by ring. replace (0 * 1 + 1 * 0 + 0 * 0) with 0 by ring. replace (0 * 1 + 0 * 0 + 1 * 0) with 0 by ring. rewrite Rabs_R0, Rabs_R1. destruct (Rlt_dec 1 0); [exfalso; lra|]. destruct (Rlt_dec 0 1); [reflexivity|exfalso; lra]. }
  rewrite Ei. cbn [comp col others]. unfold mtapply, dot, aside, pose1. cbn [tf_rot tf_tr mid m0 m1 m2 c0 c1 c2].
  destruct (Rlt_dec _ 0) as [Q|_]; [exfalso; lra|]. unfold vsub, vscale, halfs, cube, vzero. cbn [c0 c1 c2 vscale].
  match goal with |- filter _ (map _ (rect_quad ?h0 ?h1 ?q)) = [] => assert (Eq : rect_quad h0 h1 q = []); [|rewrite Eq; reflexivity];
    replace q with [(s/2, - s/2); (s/2, s/2); (3*s/2, s/2); (3*s/2, - s/2)] by (repeat first [reflexivity|apply (f_equal2 cons)|apply (f_equal2 pair)]; field) end.
  assert (T : forall x y, x < y -> ltb x y = true) by (intros x y G; unfold ltb; destruct (Rlt_dec x y); [reflexivity|contradiction]).
  assert (F : forall x y, y <= x -> ltb x y = false) by (intros x y G; unfold ltb; destruct (Rlt_dec x y); [exfalso; lra|reflexivity]).
  unfold rect_quad. repeat (cbn [chop_step hd chop at2 fst snd negb length Nat.eqb app andb xorb]; match goal with |- context [ltb ?a ?b] => first [rewrite (T a b) by lra|rewrite (F a b) by lra] end). reflexivity.
Qed.
Print Assumptions box_box_gap_refuted.
Print Assumptions box_box_touch_refuted.

(** Two cubes side by side: the code is 0 exactly when they are apart. *)
Definition beside (d : R) : tf := mktf mid (mk3 d 0 0).
Example beside_code : forall eps atan2 far maxc s d, 0 <= eps -> 0 < s -> 2 * s < far -> 0 <= d -> fst (box_box eps atan2 far maxc (cube s) pose1 (cube s) (beside d)) = 0%nat <-> s < d.
Proof.
  intros eps atan2 far maxc s d He Hs Hf Hd. pose proof ortho_mid as O. assert (P : posside (cube s)) by (unfold posside, cube; cbn [c0 c1 c2]; lra). split.
  - intros E. destruct (Rlt_le_dec s d) as [L|L]; [exact L|exfalso]. apply box_box_apart in E; auto; [|unfold finite, cube; cbn [c0 c1 c2]; lra]. apply E, meet_iff. exists (mk3 (d/2) 0 0), (mk3 (- d/2) 0 0).
    unfold within, halfs, cube, vscale. cbn [c0 c1 c2]. split; [lra|]. split; [lra|]. unfold mapply, beside, pose1, vsub, vadd, vscale. cbn [tf_rot tf_tr mid m0 m1 m2 c0 c1 c2 vzero]. f_equal; lra.
  - intros L. unfold box_box. fold (halfs (cube s)). assert (E : sat eps far (halfs (cube s)) pose1 (halfs (cube s)) (beside d) = None); [|rewrite E; reflexivity].
    rewrite sat_steps by exact O. change axes with (FA 0 :: tl axes). cbn [fold_left]. assert (E0 : forall b, step eps (halfs (cube s)) pose1 (halfs (cube s)) (beside d) (FA 0) (Some b) = None); [|rewrite E0; reflexivity].
    intros b. cbn [step try_face]. unfold both. rewrite (reach_own (tf_rot pose1) _ 0 O). replace (col 0 (tf_rot pose1)) with (col 0 (tf_rot (beside d))) at 1 2 by reflexivity. rewrite (reach_own (tf_rot (beside d)) _ 0 O). cbn [comp col pose1 beside tf_rot tf_tr mid m0]. unfold halfs, cube, vscale, dot, vsub, vzero. cbn [c0 c1 c2 bs].
    replace ((d - 0) * 1 + (0 - 0) * 0 + (0 - 0) * 0) with d by ring. rewrite (Rabs_right d) by lra. destruct (Rlt_dec 0 _) as [Q|Q]; [reflexivity|exfalso; lra].
Qed.
(** The depth of two cubes side by side is the overlap. *)
Example beside_depth : forall eps far s d, 0 <= eps -> 0 < s -> 2 * s < far -> 0 <= d <= s ->
  exists b, sat eps far (halfs (cube s)) pose1 (halfs (cube s)) (beside d) = Some b /\ - bs b = s - d.
Proof.
  intros eps far s d He Hs Hf Hd. pose proof ortho_mid as O. assert (P : posside (cube s)) by (unfold posside, cube; cbn [c0 c1 c2]; lra). assert (Fin : finite far (cube s) (cube s)) by (unfold finite, cube; cbn [c0 c1 c2]; lra).
  destruct (sat eps far (halfs (cube s)) pose1 (halfs (cube s)) (beside d)) as [b|] eqn:E.
  2:{ exfalso. assert (Z : fst (box_box eps (fun _ _ => 0) far 4 (cube s) pose1 (cube s) (beside d)) = 0%nat) by (unfold box_box; fold (halfs (cube s)); rewrite E; reflexivity). apply beside_code in Z; lra. }
  exists b. split; [reflexivity|]. assert (He0 : 0 <= eps) by lra. apply Rle_antisym; swap 1 2.
  - destruct (Rle_lt_dec (s - d) (- bs b)) as [L|L]; [exact L|exfalso]. set (t := (s - d + - bs b) / 2). assert (Lt : - bs b < t < s - d) by (unfold t; lra).
    destruct (best_facts eps far (cube s) pose1 (cube s) (beside d) He0 O O P P Fin b E) as (N1 & N2 & N3 & _). apply (depth_separates eps far (cube s) pose1 (cube s) (beside d) He0 O O P P Fin b E t); [lra|].
    set (n := out_normal b) in *. apply meet_iff. assert (Nb : forall i, - 1 <= comp i n <= 1). { intros i. assert (Q : c0 n * c0 n + c1 n * c1 n + c2 n * c2 n = 1) by (change (c0 n * c0 n + c1 n * c1 n + c2 n * c2 n) with (norm2 n); rewrite <- norm_sq, N1; ring). destruct i as [|[|i]]; cbn [comp]; split; nra. }
    pose proof (Nb 0%nat) as B0. pose proof (Nb 1%nat) as B1. pose proof (Nb 2%nat) as B2. cbn [comp] in *. assert (T0 : 0 <= t) by lra. exists (mk3 ((d + t * c0 n) / 2) (t * c1 n / 2) (t * c2 n / 2)), (mk3 (- (d + t * c0 n) / 2) (- (t * c1 n) / 2) (- (t * c2 n) / 2)).
    unfold within, halfs, cube, vscale. cbn [c0 c1 c2]. assert (Tb : forall x, -1 <= x <= 1 -> - t <= t * x <= t) by (intros; split; nra). pose proof (Tb _ B0). pose proof (Tb _ B1). pose proof (Tb _ B2). split; [lra|]. split; [lra|].
    unfold moved, mapply, beside, pose1, vsub, vadd, vscale. cbn [tf_rot tf_tr mid m0 m1 m2 c0 c1 c2 vzero]. f_equal; lra.
  - destruct (sat_some eps far (halfs (cube s)) pose1 (halfs (cube s)) (beside d) O O (half_pos _ P) He0) with (b := b) as (Al & _); [unfold halfs, cube, vscale; cbn [c0 c1 c2]; lra|exact E|].
    destruct (Al (FA 0)) as (_ & Q); [left; reflexivity|]. specialize (Q Logic.I). cbn [value weight vec] in Q. unfold both in Q. rewrite (reach_own (tf_rot pose1) _ 0 O) in Q. replace (col 0 (tf_rot pose1)) with (col 0 (tf_rot (beside d))) in Q by reflexivity. rewrite (reach_own (tf_rot (beside d)) _ 0 O) in Q.
    cbn [comp col beside pose1 tf_rot tf_tr mid m0] in Q. unfold halfs, cube, vscale, dot, vsub, vzero in Q. cbn [c0 c1 c2] in Q. replace ((d - 0) * 1 + (0 - 0) * 0 + (0 - 0) * 0) with d in Q by ring. rewrite (Rabs_right d) in Q by lra.
    lra.
Qed.
