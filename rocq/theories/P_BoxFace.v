(** C83: the contacts of two boxes (box_box-inl.h) *)
From Coq Require Import Reals Lra Lia List Bool Arith Psatz.
From Verif Require Import VecR Prim Obb Zonotope BoxBox P_BoxBox BoxClip.
Import ListNotations.
Open Scope R_scope.

(** ** A face of one box over a face of the other *)
Lemma max_elem : forall {T} (f : T -> R) (l : list T), l <> [] -> exists z, In z l /\ forall y, In y l -> f y <= f z.
Proof.
  intros T f l. induction l as [|x l IH]; intros N; [exfalso; apply N; reflexivity|]. destruct l as [|y l]; [exists x; split; [left; reflexivity|intros y [ <- |[]]; lra]|].
  destruct IH as (z & Iz & M); [discriminate|]. destruct (Rle_lt_dec (f x) (f z)) as [L|L].
  - exists z. split; [right; exact Iz|]. intros w [ <- |I]; [exact L|apply M, I].
  - exists x. split; [left; reflexivity|]. intros w [ <- |I]; [lra|]. specialize (M w I). lra.
Qed.
Section Core.
Variables (b1 b2 r1 r2 center : v3) (S1 S2 h0 h1 : R).
Let m11 := dot b1 r1. Let m12 := dot b2 r1. Let m21 := dot b1 r2. Let m22 := dot b2 r2.
Let D := m11 * m22 - m12 * m21.
Let x1 := dot r1 center. Let x2 := dot r2 center.
Hypothesis HD : D <> 0.
Hypothesis P1 : 0 <= S1.
Hypothesis P2 : 0 <= S2.
Definition corners : list p2 := let k1 := m11 * S1 in let k2 := m21 * S1 in let k3 := m12 * S2 in let k4 := m22 * S2 in
  [(x1 - k1 - k3, x2 - k2 - k4); (x1 - k1 + k3, x2 - k2 + k4); (x1 + k1 + k3, x2 + k2 + k4); (x1 + k1 - k3, x2 + k2 - k4)].
Definition co1 (z : p2) : R := m22 * (1 / D) * (fst z - x1) - m12 * (1 / D) * (snd z - x2).
Definition co2 (z : p2) : R := - (m21 * (1 / D)) * (fst z - x1) + m11 * (1 / D) * (snd z - x2).
Definition up (z : p2) : v3 := vadd (vadd center (vscale (co1 z) b1)) (vscale (co2 z) b2).
Lemma corners_convex : convex corners.
Proof. unfold corners. cbv zeta. apply parallelogram; cbn [fst snd]; ring. Qed.
Lemma co1_aff : forall z, co1 z = aff (m22 / D) (- m12 / D) z - (m22 / D * x1 - m12 / D * x2).
Proof. intros z. unfold co1, aff. field. exact HD. Qed.
Lemma co2_aff : forall z, co2 z = aff (- m21 / D) (m11 / D) z - (- m21 / D * x1 + m11 / D * x2).
Proof. intros z. unfold co2, aff. field. exact HD. Qed.
Lemma corner_co : forall z, In z corners -> (co1 z = S1 \/ co1 z = - S1) /\ (co2 z = S2 \/ co2 z = - S2).
Proof.
  intros z I. unfold corners in I. cbv zeta in I. unfold co1, co2. cbn [In] in I.
  repeat (destruct I as [ <- |I]; [cbn [fst snd]; split; first [left; unfold D in *; field; exact HD|right; unfold D in *; field; exact HD]|]). destruct I.
Qed.
Lemma up_shadow : forall z, dot r1 (up z) = fst z /\ dot r2 (up z) = snd z.
Proof.
  intros z. unfold up. rewrite !dot_add_r, !dot_scale_r, (dot_comm r1 b1), (dot_comm r1 b2), (dot_comm r2 b1), (dot_comm r2 b2). fold m11 m12 m21 m22 x1 x2. unfold co1, co2. split; unfold D in *; field; exact HD.
Qed.
Lemma core_sound : forall z, In z (rect_quad h0 h1 corners) -> - S1 <= co1 z <= S1 /\ - S2 <= co2 z <= S2 /\ - h0 <= dot r1 (up z) <= h0 /\ - h1 <= dot r2 (up z) <= h1.
Proof.
  intros z I. destruct (rect_quad_sound h0 h1 corners corners_convex (le_n 4) z I) as (X & Y & A). destruct (up_shadow z) as (-> & ->).
  assert (Q : forall u v e M, (forall x, In x corners -> aff u v x - e = M \/ aff u v x - e = - M) -> 0 <= M -> - M <= aff u v z - e <= M).
  { intros u v e M H HM. pose proof (A u v (M + e)) as A1. pose proof (A (- u) (- v) (M - e)) as A2. split.
    - enough (aff (- u) (- v) z <= M - e) by (unfold aff in *; lra). apply A2. intros x Ix. destruct (H x Ix); unfold aff in *; lra.
    - enough (aff u v z <= M + e) by lra. apply A1. intros x Ix. destruct (H x Ix); lra. }
  split; [rewrite co1_aff; apply Q; auto; intros x Ix; rewrite <- co1_aff; apply corner_co, Ix|]. split; [rewrite co2_aff; apply Q; auto; intros x Ix; rewrite <- co2_aff; apply corner_co, Ix|]. auto.
Qed.
(** No point of the incident face over the inside of the reference face is deeper than all points kept. *)
Lemma core_exact : forall k1 k2 n, - S1 <= k1 <= S1 -> - S2 <= k2 <= S2 -> let P := vadd (vadd center (vscale k1 b1)) (vscale k2 b2) in
  - h0 < dot r1 P < h0 -> - h1 < dot r2 P < h1 -> exists z, In z (rect_quad h0 h1 corners) /\ dot n (up z) <= dot n P.
Proof.
  intros k1 k2 n K1 K2 P X Y. set (p := (dot r1 P, dot r2 P) : p2). assert (Ep1 : co1 p = k1 /\ co2 p = k2).
  { unfold co1, co2, p. cbn [fst snd]. unfold P. rewrite !dot_add_r, !dot_scale_r, (dot_comm r1 b1), (dot_comm r1 b2), (dot_comm r2 b1), (dot_comm r2 b2). fold m11 m12 m21 m22 x1 x2. split; unfold D in *; field; exact HD. }
  destruct Ep1 as (E1 & E2). assert (Eu : up p = P) by (unfold up; rewrite E1, E2; reflexivity).
  assert (Hp : forall u v w, (forall z, In z corners -> aff u v z <= w) -> aff u v p <= w).
  { intros u v w H. set (e1 := u * m11 + v * m21). set (e2 := u * m12 + v * m22). assert (Ap : aff u v p = u * x1 + v * x2 + k1 * e1 + k2 * e2).
    { unfold aff, p. cbn [fst snd]. unfold P. rewrite !dot_add_r, !dot_scale_r, (dot_comm r1 b1), (dot_comm r1 b2), (dot_comm r2 b1), (dot_comm r2 b2). fold m11 m12 m21 m22 x1 x2. unfold e1, e2. ring. }
    unfold corners in H. cbv zeta in H. pose proof (H _ (or_introl eq_refl)) as H1. pose proof (H _ (or_intror (or_introl eq_refl))) as H2. pose proof (H _ (or_intror (or_intror (or_introl eq_refl)))) as H3. pose proof (H _ (or_intror (or_intror (or_intror (or_introl eq_refl))))) as H4.
    unfold aff in H1, H2, H3, H4. cbn [fst snd] in *. rewrite Ap.
    assert (G1 : u * x1 + v * x2 - S1 * e1 - S2 * e2 <= w) by (unfold e1, e2; lra). assert (G2 : u * x1 + v * x2 - S1 * e1 + S2 * e2 <= w) by (unfold e1, e2; lra). assert (G3 : u * x1 + v * x2 + S1 * e1 + S2 * e2 <= w) by (unfold e1, e2; lra). assert (G4 : u * x1 + v * x2 + S1 * e1 - S2 * e2 <= w) by (unfold e1, e2; lra).
    assert (B : forall k S e, - S <= k <= S -> k * e <= S * e \/ k * e <= - (S * e)). { intros k S e K. destruct (Rle_lt_dec 0 e); [left; nra|right; nra]. }
    destruct (B k1 S1 e1 K1), (B k2 S2 e2 K2); lra. }
  pose proof (rect_quad_exact h0 h1 corners corners_convex (le_n 4) p X Y Hp) as Ex.
  assert (N : rect_quad h0 h1 corners <> []). { intros E. rewrite E in Ex. specialize (Ex 0 0 (-1) ltac:(intros z [])). unfold aff in Ex. lra. }
  destruct (max_elem (fun z => - dot n (up z)) _ N) as (z & Iz & M). exists z. split; [exact Iz|].
  set (nu := dot n b1). set (nv := dot n b2). assert (Ud : forall y, dot n (up y) = dot n center + co1 y * nu + co2 y * nv) by (intros y; unfold up; rewrite !dot_add_r, !dot_scale_r; reflexivity).
  assert (Ua : exists u v e, forall y, dot n (up y) = e - aff u v y). { exists (- (m22 / D * nu - m21 / D * nv)), (- (- m12 / D * nu + m11 / D * nv)), (dot n center - (m22 / D * x1 - m12 / D * x2) * nu - (- m21 / D * x1 + m11 / D * x2) * nv). intros y. rewrite Ud, co1_aff, co2_aff. unfold aff. field. exact HD. }
  destruct Ua as (u & v & e & Ua). specialize (Ex u v (aff u v z)). rewrite <- Eu, !Ua. enough (aff u v p <= aff u v z) by lra. apply Ex. intros y Iy. specialize (M y Iy). rewrite !Ua in M. lra.
Qed.
End Core.
Lemma cols : forall M i j, ortho M -> (i < 3)%nat -> (j < 3)%nat -> dot (col i M) (col j M) = if Nat.eqb i j then 1 else 0.
Proof.
  intros M i j (O0 & O1 & O2 & O3 & O4 & O5) Hi Hj. destruct i as [|[|[|i]]]; [| | |lia]; (destruct j as [|[|[|j]]]; [| | |lia]); cbn [col Nat.eqb]; rewrite ?(dot_comm (m1 M) (m0 M)), ?(dot_comm (m2 M) (m0 M)), ?(dot_comm (m2 M) (m1 M)); assumption.
Qed.
(** The three axes of a box, the first one singled out *)
Definition triple (l a1 a2 : nat) : Prop := (l, a1, a2) = (1, 0, 2)%nat \/ (l, a1, a2) = (2, 0, 1)%nat \/ (l, a1, a2) = (0, 1, 2)%nat.
Lemma triple_cross : forall M l a1 a2, ortho M -> triple l a1 a2 -> exists g, Rabs g = 1 /\ cross (col a1 M) (col a2 M) = vscale g (col l M).
Proof.
  intros M l a1 a2 O T. destruct (cross_cols M O) as (C0 & C1 & C2). pose proof (abs_det M 1 O) as A. rewrite Rmult_1_r, Rabs_R1 in A.
  destruct T as [E|[E|E]]; injection E as -> -> ->; cbn [col].
  - exists (- det M). rewrite Rabs_Ropp. split; [exact A|]. replace (cross (m0 M) (m2 M)) with (vneg (cross (m2 M) (m0 M))) by ve. rewrite C2. ve.
  - exists (det M). auto.
  - exists (det M). auto.
Qed.
Lemma incident_triple : forall v l a1 a2, incident v = (l, a1, a2) -> triple l a1 a2 /\ forall k, comp k v <= comp l v.
Proof.
  intros v l a1 a2. unfold incident, triple. destruct (Rlt_dec (c0 v) (c1 v)) as [L|L]; [destruct (Rlt_dec (c2 v) (c1 v)) as [L2|L2]|destruct (Rlt_dec (c2 v) (c0 v)) as [L2|L2]]; intros E; injection E as <- <- <-; (split; [auto|]); intros [|[|k]]; cbn [comp]; lra.
Qed.
Lemma others_triple : forall n, (n < 3)%nat -> forall q1 q2, others n = (q1, q2) -> triple n q1 q2.
Proof. intros n H q1 q2 E. unfold triple. destruct n as [|[|[|n]]]; [| | |lia]; injection E as <- <-; auto. Qed.
Lemma split_cols : forall M b l a1 a2, triple l a1 a2 -> mapply M b = vadd (vadd (vscale (comp l b) (col l M)) (vscale (comp a1 b) (col a1 M))) (vscale (comp a2 b) (col a2 M)).
Proof. intros M b l a1 a2 T. destruct T as [E|[E|E]]; injection E as -> -> ->; cbn [col comp]; unfold mapply; ve. Qed.
Lemma pick_comps : forall l a1 a2 x y z, triple l a1 a2 -> exists b, comp l b = x /\ comp a1 b = y /\ comp a2 b = z.
Proof. intros l a1 a2 x y z T. destruct T as [E|[E|E]]; injection E as -> -> ->; [exists (mk3 y x z)|exists (mk3 y z x)|exists (mk3 x y z)]; cbn [comp c0 c1 c2]; auto. Qed.
Lemma within_comps : forall S b l a1 a2, triple l a1 a2 -> within S b <-> (- comp l S <= comp l b <= comp l S /\ - comp a1 S <= comp a1 b <= comp a1 S /\ - comp a2 S <= comp a2 b <= comp a2 S).
Proof. intros S b l a1 a2 T. unfold within. destruct T as [E|[E|E]]; injection E as -> -> ->; cbn [comp]; tauto. Qed.
Lemma triple_lt : forall l a1 a2, triple l a1 a2 -> (l < 3 /\ a1 < 3 /\ a2 < 3 /\ l <> a1 /\ l <> a2 /\ a1 <> a2)%nat.
Proof. intros l a1 a2 [E|[E|E]]; injection E as -> -> ->; lia. Qed.
Lemma comp_pos : forall S k, positive S -> 0 <= comp k S.
Proof. intros S k (H0 & H1 & H2). destruct k as [|[|k]]; cbn [comp]; assumption. Qed.
Section FaceP.
Variables (Sa : v3) (Ra : mat3) (Sb : v3) (Rb : mat3) (c n2 : v3) (cn : nat) (g : R).
Hypothesis Oa : ortho Ra.
Hypothesis Ob : ortho Rb.
Hypothesis Pa : positive Sa.
Hypothesis Pb : positive Sb.
Hypothesis Hc : (cn < 3)%nat.
Hypothesis Hg : g = 1 \/ g = -1.
Hypothesis Hn : n2 = vscale g (col cn Ra).
(** The face of the incident box that looks towards the reference face *)
Definition facing (l : nat) (b : v3) : Prop := comp l b = if Rlt_dec (comp l (mtapply Rb n2)) 0 then comp l Sb else - comp l Sb.
Lemma face_facts : exists l a1 a2 q1 q2 center, triple l a1 a2 /\ triple cn q1 q2 /\ (forall k, Rabs (comp k (mtapply Rb n2)) <= Rabs (comp l (mtapply Rb n2))) /\
  center = vadd c (vscale (if Rlt_dec (comp l (mtapply Rb n2)) 0 then comp l Sb else - comp l Sb) (col l Rb)) /\
  dot (col a1 Rb) (col q1 Ra) * dot (col a2 Rb) (col q2 Ra) - dot (col a2 Rb) (col q1 Ra) * dot (col a1 Rb) (col q2 Ra) <> 0 /\
  let lift := up (col a1 Rb) (col a2 Rb) (col q1 Ra) (col q2 Ra) center in
  face_points Sa Ra Sb Rb c n2 cn = filter (fun x => if Rle_dec 0 (hd_ x) then true else false)
    (map (fun z => Hit z (lift z) (comp cn Sa - dot n2 (lift z))) (rect_quad (comp q1 Sa) (comp q2 Sa) (corners (col a1 Rb) (col a2 Rb) (col q1 Ra) (col q2 Ra) center (comp a1 Sb) (comp a2 Sb)))).
Proof.
  unfold face_points. set (nr := mtapply Rb n2). set (anr := mk3 (Rabs (c0 nr)) (Rabs (c1 nr)) (Rabs (c2 nr))). destruct (incident anr) as [[l a1] a2] eqn:Ei. destruct (others cn) as [q1 q2] eqn:Eo. cbv zeta.
  destruct (incident_triple _ _ _ _ Ei) as (T & Mx). pose proof (others_triple cn Hc q1 q2 Eo) as Tc. assert (Ac : forall k, comp k anr = Rabs (comp k nr)) by (intros [|[|k]]; reflexivity).
  assert (Mx' : forall k, Rabs (comp k nr) <= Rabs (comp l nr)) by (intros k; rewrite <- !Ac; apply Mx).
  set (center := if Rlt_dec (comp l nr) 0 then vadd c (vscale (comp l Sb) (col l Rb)) else vsub c (vscale (comp l Sb) (col l Rb))).
  exists l, a1, a2, q1, q2, center. split; [exact T|]. split; [exact Tc|]. split; [exact Mx'|]. split; [unfold center; destruct (Rlt_dec (comp l nr) 0); [reflexivity|ve]|]. split; [|reflexivity].
  replace (dot (col a1 Rb) (col q1 Ra) * dot (col a2 Rb) (col q2 Ra) - dot (col a2 Rb) (col q1 Ra) * dot (col a1 Rb) (col q2 Ra)) with (dot (cross (col a1 Rb) (col a2 Rb)) (cross (col q1 Ra) (col q2 Ra))) by sc.
  destruct (triple_cross Rb l a1 a2 Ob T) as (g1 & G1 & ->). destruct (triple_cross Ra cn q1 q2 Oa Tc) as (g2 & G2 & ->). rewrite dot_scale_l, dot_scale_r.
  assert (Nz : comp l nr <> 0).
  { intros Z. assert (Z2 : forall k, comp k nr = 0). { intros k. specialize (Mx' k). rewrite Z, Rabs_R0 in Mx'. pose proof (Rabs_pos (comp k nr)). destruct (Req_dec (comp k nr) 0) as [E|E]; [exact E|]. apply Rabs_pos_lt in E. lra. }
    assert (nr = vzero) by (apply v3_ext; [exact (Z2 0%nat)|exact (Z2 1%nat)|exact (Z2 2%nat)]). assert (E : n2 = vzero) by (rewrite <- (mapply_mt Rb n2 Ob); fold nr; rewrite H; unfold mapply; ve).
    assert (dot n2 n2 = 1) by (rewrite Hn, dot_scale_l, dot_scale_r, (cols Ra cn cn Oa Hc Hc), Nat.eqb_refl; destruct Hg as [ -> | -> ]; ring). rewrite E in H0. unfold dot, vzero in H0. cbn [c0 c1 c2] in H0. lra. }
  assert (En : comp l nr = g * dot (col l Rb) (col cn Ra)). { unfold nr. rewrite Hn. destruct l as [|[|l]]; cbn [mtapply comp c0 c1 c2 col]; rewrite dot_scale_r; reflexivity. }
  intros Z. apply Nz. rewrite En. assert (g1 <> 0) by (intros E; rewrite E, Rabs_R0 in G1; lra). assert (g2 <> 0) by (intros E; rewrite E, Rabs_R0 in G2; lra).
  destruct (Req_dec (dot (col l Rb) (col cn Ra)) 0) as [E|E]; [rewrite E; ring|exfalso]. revert Z. apply Rmult_integral_contrapositive_currified; [assumption|]. apply Rmult_integral_contrapositive_currified; assumption.
Qed.
Lemma face_points_sound : forall x, In x (face_points Sa Ra Sb Rb c n2 cn) -> 0 <= hd_ x /\
  (exists b, within Sb b /\ h3 x = vadd c (mapply Rb b)) /\ exists a, within Sa a /\ vadd (h3 x) (vscale (hd_ x) n2) = mapply Ra a.
Proof.
  destruct face_facts as (l & a1 & a2 & q1 & q2 & center & T & Tc & Mx & Ec & HD & ->). intros x I. apply filter_In in I. destruct I as (I & F). apply in_map_iff in I. destruct I as (z & <- & Iz). cbn [hd_ h3] in *.
  set (lz := up _ _ _ _ center z) in *. destruct (Rle_dec 0 _) as [Fp|Fp]; [|discriminate F]. split; [exact Fp|].
  destruct (core_sound _ _ _ _ _ _ _ _ _ HD (comp_pos Sb a1 Pb) (comp_pos Sb a2 Pb) z Iz) as (K1 & K2 & Y1 & Y2). fold lz in Y1, Y2. split.
  - destruct (pick_comps l a1 a2 (if Rlt_dec (comp l (mtapply Rb n2)) 0 then comp l Sb else - comp l Sb) (co1 (col a1 Rb) (col a2 Rb) (col q1 Ra) (col q2 Ra) center z) (co2 (col a1 Rb) (col a2 Rb) (col q1 Ra) (col q2 Ra) center z) T) as (b & B0 & B1 & B2).
    exists b. split; [apply (within_comps _ _ _ _ _ T); rewrite B0, B1, B2; pose proof (comp_pos Sb l Pb); split; [destruct (Rlt_dec _ 0); lra|auto]|].
    rewrite (split_cols Rb b l a1 a2 T), B0, B1, B2. unfold lz, up. rewrite Ec. ve.
  - exists (mtapply Ra (vadd lz (vscale (comp cn Sa - dot n2 lz) n2))). split; [|symmetry; apply mapply_mt, Oa].
    destruct (triple_lt _ _ _ Tc) as (L0 & L1 & L2 & N1 & N2 & N3). apply (within_comps _ _ _ _ _ Tc).
    assert (Cm : forall k v, comp k (mtapply Ra v) = dot (col k Ra) v) by (intros [|[|k]] v; reflexivity). assert (Dk : forall k, (k < 3)%nat -> dot (col k Ra) n2 = g * (if Nat.eqb k cn then 1 else 0)) by (intros k Hk; rewrite Hn, dot_scale_r, (cols Ra k cn Oa Hk Hc); reflexivity).
    rewrite !Cm, !dot_add_r, !dot_scale_r, (Dk cn L0), (Dk q1 L1), (Dk q2 L2), Nat.eqb_refl.
    replace (Nat.eqb q1 cn) with false by (symmetry; apply Nat.eqb_neq; auto). replace (Nat.eqb q2 cn) with false by (symmetry; apply Nat.eqb_neq; auto). split; [|lra].
    rewrite Hn, dot_scale_l. pose proof (comp_pos Sa cn Pa). destruct Hg as [Eg|Eg]; rewrite Eg; lra.
Qed.
Lemma face_points_exact : exists l, (l < 3)%nat /\ (forall k, Rabs (comp k (mtapply Rb n2)) <= Rabs (comp l (mtapply Rb n2))) /\
  forall b, within Sb b -> facing l b -> let P := vadd c (mapply Rb b) in (forall k, (k < 3)%nat -> k <> cn -> Rabs (dot (col k Ra) P) < comp k Sa) -> 0 <= comp cn Sa - dot n2 P ->
  exists x, In x (face_points Sa Ra Sb Rb c n2 cn) /\ comp cn Sa - dot n2 P <= hd_ x.
Proof.
  destruct face_facts as (l & a1 & a2 & q1 & q2 & center & T & Tc & Mx & Ec & HD & ->). exists l. destruct (triple_lt _ _ _ Tc) as (L0 & L1 & L2 & N1 & N2 & N3). destruct (triple_lt _ _ _ T) as (Ll & _). split; [exact Ll|]. split; [exact Mx|].
  intros b Wb Fb P In_ Dp. assert (EP : P = vadd (vadd center (vscale (comp a1 b) (col a1 Rb))) (vscale (comp a2 b) (col a2 Rb))). { unfold P. rewrite (split_cols Rb b l a1 a2 T). unfold facing in Fb. rewrite Fb, Ec. ve. }
  apply (within_comps _ _ _ _ _ T) in Wb. destruct Wb as (_ & W1 & W2).
  pose proof (In_ q1 L1 (not_eq_sym N1)) as I1. pose proof (In_ q2 L2 (not_eq_sym N2)) as I2. apply Rabs_def2 in I1. apply Rabs_def2 in I2.
  destruct (core_exact (col a1 Rb) (col a2 Rb) (col q1 Ra) (col q2 Ra) center (comp a1 Sb) (comp a2 Sb) (comp q1 Sa) (comp q2 Sa) HD (comp a1 b) (comp a2 b) n2 W1 W2) as (z & Iz & Lz); try (rewrite <- EP; lra). rewrite <- EP in Lz.
  eexists. split; [apply filter_In; split; [apply in_map_iff; exists z; split; [reflexivity|exact Iz]|]|]; cbn [hd_]; [destruct (Rle_dec 0 _) as [_|N]; [reflexivity|exfalso; lra]|lra].
Qed.
End FaceP.

(** ** The selection of the contacts *)
Section Select.
Variables (eps : R) (atan2 : R -> R -> R).
Lemma near_available : forall As a i avail best, (avail (snd best) = true /\ (snd best < i)%nat) \/ (PI < fst best /\ exists j, (i <= j < i + length As)%nat /\ avail j = true) ->
  avail (nearest_angle a i As avail best) = true /\ (nearest_angle a i As avail best < i + length As)%nat.
Proof.
  induction As as [|x As IH]; intros a i avail best H; cbn [nearest_angle length] in *.
  - destruct H as [(H1 & H2)|(_ & j & Hj & _)]; [split; [exact H1|lia]|lia].
  - rewrite <- Nat.add_succ_comm. apply IH. destruct (avail i) eqn:Av.
    + set (d := if Rlt_dec PI (Rabs (x - a)) then 2 * PI - Rabs (x - a) else Rabs (x - a)). assert (Ld : d <= PI) by (unfold d; destruct (Rlt_dec PI _); lra). destruct (Rlt_dec d (fst best)) as [L|L]; cbn [fst snd]; [left; split; [exact Av|lia]|].
      destruct H as [(H1 & H2)|(H1 & _)]; [left; split; [exact H1|lia]|exfalso; lra].
    + destruct H as [(H1 & H2)|(H1 & j & Hj & Hv)]; [left; split; [exact H1|lia]|right]. split; [exact H1|]. exists j. split; [|exact Hv]. destruct (Nat.eq_dec j i) as [ -> |N]; [congruence|lia].
Qed.
Lemma free_index : forall (used : list nat) n, (length used < n)%nat -> exists j, (j < n)%nat /\ ~ In j used.
Proof.
  intros used n L. destruct (existsb (fun j => negb (existsb (Nat.eqb j) used)) (seq 0 n)) eqn:E.
  - apply existsb_exists in E. destruct E as (j & Ij & Ej). apply in_seq in Ij. exists j. split; [lia|]. intros I. apply negb_true_iff in Ej. assert (existsb (Nat.eqb j) used = true) by (apply existsb_exists; exists j; split; [exact I|apply Nat.eqb_refl]). congruence.
  - exfalso. assert (Inc : incl (seq 0 n) used). { intros j Ij. destruct (in_dec Nat.eq_dec j used) as [I|I]; [exact I|exfalso]. assert (existsb (fun j => negb (existsb (Nat.eqb j) used)) (seq 0 n) = true); [|congruence]. apply existsb_exists. exists j. split; [exact Ij|]. apply negb_true_iff. destruct (existsb (Nat.eqb j) used) eqn:X; [|reflexivity]. apply existsb_exists in X. destruct X as (k & Ik & Ek). apply Nat.eqb_eq in Ek. subst. contradiction. }
    pose proof (NoDup_incl_length (seq_NoDup n 0) Inc). rewrite seq_length in H. lia.
Qed.
Lemma pick_spec : forall todo k m i0 As avail used, (forall j, avail j = true <-> ~ In j used) -> NoDup used -> (length used + todo <= length As)%nat ->
  let l := pick todo k m i0 As avail in NoDup l /\ (forall j, In j l -> ~ In j used /\ (j < length As)%nat) /\ length l = todo.
Proof.
  induction todo as [|todo IH]; intros k m i0 As avail used Ha Nd L; cbn [pick]; [repeat split; [constructor|destruct H|destruct H]|].
  set (ang := if Rlt_dec PI _ then _ else _). set (i := nearest_angle ang 0 As avail (1000000000, i0)). assert (A : avail i = true /\ (i < 0 + length As)%nat).
  { apply near_available. right. cbn [fst]. split; [pose proof PI_4; lra|]. destruct (free_index used (length As)) as (j & Hj & Nj); [lia|]. exists j. split; [lia|apply Ha, Nj]. }
  destruct A as (Av & Li). cbn [Nat.add] in Li. apply Ha in Av.
  destruct (IH (S k) m i0 As (fun j => (avail j && negb (Nat.eqb j i))%bool) (i :: used)) as (N & Il & Ln).
  - intros j. rewrite andb_true_iff, Ha, negb_true_iff, Nat.eqb_neq. cbn [In]. intuition congruence.
  - constructor; assumption.
  - cbn [length]. lia.
  - split; [constructor; [intros I; destruct (Il i I) as (Q & _); apply Q; left; reflexivity|exact N]|]. split; [|cbn [length]; lia]. intros j [ <- |I]; [auto|]. destruct (Il j I) as (Q & Q2). split; [|exact Q2]. intros I2. apply Q. right. exact I2.
Qed.
Definition none : hit := Hit (0, 0) vzero 0.
Lemma deepest_spec : forall l pre m i1, (i1 < length pre)%nat -> m = hd_ (nth i1 (pre ++ l) none) -> (forall y, In y pre -> hd_ y <= m) ->
  let r := deepest (length pre) l m i1 in (r < length (pre ++ l))%nat /\ forall y, In y (pre ++ l) -> hd_ y <= hd_ (nth r (pre ++ l) none).
Proof.
  induction l as [|x l IH]; intros pre m i1 Hi Hm Hp; cbn [deepest].
  - rewrite app_nil_r in *. split; [exact Hi|]. intros y I. rewrite <- Hm. apply Hp, I.
  - replace (pre ++ x :: l) with ((pre ++ [x]) ++ l) in * by (rewrite <- app_assoc; reflexivity). replace (S (length pre)) with (length (pre ++ [x])) by (rewrite app_length; cbn [length]; lia).
    assert (Nx : nth (length pre) ((pre ++ [x]) ++ l) none = x) by (rewrite app_nth1 by (rewrite app_length; cbn [length]; lia); rewrite app_nth2, Nat.sub_diag by lia; reflexivity).
    destruct (Rlt_dec m (hd_ x)) as [L|L]; apply IH; try (rewrite app_length; cbn [length]; lia); try assumption.
    + rewrite Nx. reflexivity.
    + intros y I. apply in_app_iff in I. destruct I as [I|[ <- |[]]]; [specialize (Hp y I)|]; lra.
    + intros y I. apply in_app_iff in I. destruct I as [I|[ <- |[]]]; [specialize (Hp y I)|]; lra.
Qed.
(** Distinct points, as many as asked for or as there are, a deepest one among them *)
Lemma select_spec : forall maxc l, exists idx, select eps atan2 maxc l = map (fun i => nth i l none) idx /\ NoDup idx /\ (forall i, In i idx -> (i < length l)%nat) /\
  length idx = Nat.min (Nat.max 1 maxc) (length l) /\ (l <> [] -> exists i, In i idx /\ forall y, In y l -> hd_ y <= hd_ (nth i l none)).
Proof.
  intros maxc l. unfold select. fold none. cbv zeta. set (n := length l). set (m := Nat.max 1 (Nat.min maxc n)). destruct (Nat.ltb m n) eqn:E.
  - apply Nat.ltb_lt in E. assert (Ln : l <> []) by (intros Z; unfold n in E; rewrite Z in E; cbn in E; lia). set (i1 := deepest 1 (tl l) (hd_ (hd none l)) 0).
    assert (D : (i1 < length l)%nat /\ forall y, In y l -> hd_ y <= hd_ (nth i1 l none)). { destruct l as [|x l]; [contradiction|]. apply (deepest_spec l [x] (hd_ x) 0); cbn [length app nth]; auto. intros y [ <- |[]]; lra. }
    destruct D as (D1 & D2). assert (La : length (angles eps atan2 (map h2 l)) = n) by (unfold angles; rewrite !map_length; reflexivity). exists (cull eps atan2 (map h2 l) m i1). split; [reflexivity|]. unfold cull.
    destruct (pick_spec (m - 1) 1 m i1 (angles eps atan2 (map h2 l)) (fun j => negb (Nat.eqb j i1)) [i1]) as (N & Il & Lp).
    + intros j. rewrite negb_true_iff, Nat.eqb_neq. cbn [In]. intuition congruence.
    + constructor; [intros []|constructor].
    + rewrite La. cbn [length]. lia.
    + split; [constructor; [intros I; destruct (Il _ I) as (Q & _); apply Q; left; reflexivity|exact N]|]. split; [intros i [ <- |I]; [exact D1|destruct (Il i I) as (_ & Q); rewrite La in Q; exact Q]|]. split; [cbn [length]; rewrite Lp; unfold m in *; lia|]. intros _. exists i1. split; [left; reflexivity|exact D2].
  - apply Nat.ltb_ge in E. exists (seq 0 n). split; [|split; [apply seq_NoDup|split; [intros i I; apply in_seq in I; lia|split; [rewrite seq_length; unfold m in E; lia|]]]].
    + apply (nth_ext _ _ none none); [rewrite map_length, seq_length; reflexivity|]. intros i Hi. rewrite (nth_indep (map (fun i => nth i l none) (seq 0 n)) none (nth n l none)) by (rewrite map_length, seq_length; exact Hi). rewrite (map_nth (fun i => nth i l none)), seq_nth by exact Hi. reflexivity.
    + intros Ln. destruct (max_elem hd_ l Ln) as (z & Iz & M). apply (In_nth _ _ none) in Iz. destruct Iz as (i & Hi & Ei). exists i. split; [apply in_seq; unfold n; lia|]. rewrite Ei. exact M.
Qed.
End Select.

(** ** The contacts *)
Section Contacts.
Variables (eps : R) (atan2 : R -> R -> R) (far : R) (maxc : nat) (s1 : v3) (X1 : tf) (s2 : v3) (X2 : tf).
Hypothesis He : 0 <= eps.
Hypothesis O1 : ortho (tf_rot X1).
Hypothesis O2 : ortho (tf_rot X2).
Hypothesis P1 : posside s1.
Hypothesis P2 : posside s2.
Hypothesis Hf : finite far s1 s2.
Let A := halfs s1.
Let B := halfs s2.
Let U := tf_rot X1.
Let V := tf_rot X2.
Let p := vsub (tf_tr X2) (tf_tr X1).
Let res := box_box eps atan2 far maxc s1 X1 s2 X2.
(** The points of the incident face that are kept, before the selection *)
Definition kept1 (n : v3) (i : nat) : list hit := face_points A U B V p n i.
Definition kept2 (n : v3) (i : nat) : list hit := face_points B V A U (vneg p) (vneg n) i.
Definition contact1 (n : v3) (x : hit) : contact := mkct n (vadd (vadd (h3 x) (tf_tr X1)) (vscale (hd_ x / 2) n)) (hd_ x).
Definition contact2 (n : v3) (x : hit) : contact := mkct n (vsub (vadd (h3 x) (tf_tr X2)) (vscale (hd_ x / 2) n)) (hd_ x).
Lemma normal_col : forall a b, (a = FA b \/ a = FB b) -> exists g, (g = 1 \/ g = -1) /\ out_normal (made eps A X1 B X2 a) = vscale g (vec X1 X2 a).
Proof.
  intros a i H. assert (E : out_normal (made eps A X1 B X2 a) = vscale (if ltb (dot p (vec X1 X2 a)) 0 then -1 else 1) (vec X1 X2 a)).
  { unfold out_normal, made. cbn [binv bn]. fold p. destruct H as [ -> | -> ]; cbn [unit_of vec]; destruct (ltb _ 0); ve. }
  exists (if ltb (dot p (vec X1 X2 a)) 0 then -1 else 1). split; [destruct (ltb _ 0); auto|exact E].
Qed.
Lemma res_cases : fst res <> 0%nat -> exists b, sat eps far A X1 B X2 = Some b /\ fst res = bcode b /\ let n := out_normal b in
  ((exists i g, (i < 3)%nat /\ bcode b = (1 + i)%nat /\ (g = 1 \/ g = -1) /\ n = vscale g (col i U) /\ snd res = map (contact1 n) (select eps atan2 maxc (kept1 n i))) \/
   (exists i g, (i < 3)%nat /\ bcode b = (4 + i)%nat /\ (g = 1 \/ g = -1) /\ n = vscale g (col i V) /\ snd res = map (contact2 n) (select eps atan2 maxc (kept2 n i))) \/
   (exists i j, (i < 3)%nat /\ (j < 3)%nat /\ bcode b = (7 + 3 * i + j)%nat /\ b = made eps A X1 B X2 (EX i j) /\ eps < len X1 X2 (EX i j) /\ snd res = [edge_contact A X1 B X2 (bcode b) n (- bs b)])).
Proof.
  intros Hr. destruct (code_some eps atan2 far maxc s1 X1 s2 X2 Hr) as (b & E & Ec). exists b. split; [exact E|]. split; [exact Ec|]. intros n.
  pose proof (sat_some eps far A X1 B X2 O1 O2 (half_pos _ P2) He (far_ok far s1 s2 Hf) b E) as (_ & a & Ia & Eb & Hb).
  clear Ec. unfold res, box_box. fold (halfs s1) (halfs s2). fold A B. fold A B in E. rewrite E. cbv zeta. change (if binv b then vneg (bn b) else bn b) with n. fold U V p.
  pose proof (axes_in a Ia) as Ix. destruct a as [i|i|i j].
  - left. destruct (normal_col (FA i) i (or_introl eq_refl)) as (g & Gg & Gn). rewrite <- Eb in Gn. fold n in Gn. exists i, g. assert (Eq : bcode b = (1 + i)%nat) by (rewrite Eb; reflexivity). split; [exact Ix|]. split; [exact Eq|]. split; [exact Gg|]. split; [exact Gn|]. rewrite Eq. destruct i as [|[|[|i]]]; [reflexivity|reflexivity|reflexivity|lia].
  - right; left. destruct (normal_col (FB i) i (or_intror eq_refl)) as (g & Gg & Gn). rewrite <- Eb in Gn. fold n in Gn. exists i, g. assert (Eq : bcode b = (4 + i)%nat) by (rewrite Eb; reflexivity). split; [exact Ix|]. split; [exact Eq|]. split; [exact Gg|]. split; [exact Gn|]. rewrite Eq. destruct i as [|[|[|i]]]; [reflexivity|reflexivity|reflexivity|lia].
  - right; right. exists i, j. destruct Ix as (Hi & Hj). assert (Eq : bcode b = (7 + 3 * i + j)%nat) by (rewrite Eb; reflexivity). split; [exact Hi|]. split; [exact Hj|]. split; [exact Eq|]. split; [exact Eb|]. split; [exact Hb|]. rewrite Eq. destruct i as [|[|[|i]]], j as [|[|[|j]]]; try lia; reflexivity.
Qed.
Lemma halfs_pos : positive A /\ positive B.
Proof. split; apply half_pos; assumption. Qed.
Lemma placed_at : forall s X a, within (halfs s) a -> placed X (boxset s) (tf_apply X a).
Proof. intros s X a W. exists a. split; [apply boxset_within, W|reflexivity]. Qed.
(** The depth along the normal bounds the extent of any two points *)
Lemma pair_depth : forall b, sat eps far A X1 B X2 = Some b -> forall x y, within A x -> within B y -> dot (vsub (tf_apply X1 x) (tf_apply X2 y)) (out_normal b) <= - bs b.
Proof.
  intros b E x y Wx Wy. destruct (best_facts eps far s1 X1 s2 X2 He O1 O2 P1 P2 Hf b E) as (_ & _ & _ & N4). set (n := out_normal b) in *. pose proof (reach_bound U A x n Wx) as R1. pose proof (reach_bound V B y n Wy) as R2. unfold extent in N4. fold A B U V in N4.
  pose proof (Rle_abs (dot (mapply U x) n)). pose proof (Rle_abs (- dot (mapply V y) n)). rewrite Rabs_Ropp in H0. unfold tf_apply. fold U V. rewrite !dot_sub_l, !dot_add_l. rewrite dot_sub_l in N4. lra.
Qed.
(** C83: contacts of a face. *)
Theorem face_contacts : (1 <= fst res <= 6)%nat -> exists n d, norm n = 1 /\ 0 <= d /\ (forall t, d < t -> ~ meet s1 X1 s2 (moved (vscale t n) X2)) /\
  forall ct, In ct (snd res) -> cnorm ct = n /\ 0 <= cdepth ct <= d /\
    exists x y, placed X1 (boxset s1) x /\ placed X2 (boxset s2) y /\ vsub x y = vscale (cdepth ct) n /\ cpos ct = vscale (1/2) (vadd x y).
Proof.
  intros Hr. destruct res_cases as (b & E & Ec & Cs); [lia|]. cbv zeta in Cs. set (n := out_normal b) in *. exists n, (- bs b). destruct (best_facts eps far s1 X1 s2 X2 He O1 O2 P1 P2 Hf b E) as (N1 & N2 & N3 & N4). fold n in N1, N3, N4. split; [exact N1|]. split; [exact N2|].
  split; [intros t Ht; exact (depth_separates eps far s1 X1 s2 X2 He O1 O2 P1 P2 Hf b E t Ht)|]. destruct halfs_pos as (PA & PB).
  assert (Nn : dot n n = 1) by (change (dot n n) with (norm2 n); rewrite <- norm_sq, N1; ring).
  assert (Sel : forall l x, In x (select eps atan2 maxc l) -> In x l). { intros l x I. destruct (select_spec eps atan2 maxc l) as (idx & Es & _ & Hi & _). rewrite Es in I. apply in_map_iff in I. destruct I as (i & <- & Ii). apply nth_In, Hi, Ii. }
  intros ct I. destruct Cs as [(i & g & Hi & Eb & Gg & Gn & Er)|[(i & g & Hi & Eb & Gg & Gn & Er)|(i & j & Hi & Hj & Eb & _)]]; [| |exfalso; lia]; rewrite Er in I; apply in_map_iff in I; destruct I as (h & <- & Ih); apply Sel in Ih.
  - destruct (face_points_sound A U B V p n i g O1 O2 PA PB Hi Gg Gn h Ih) as (D0 & (y & Wy & Ey) & x & Wx & Ex). cbn [cnorm cdepth cpos contact1]. set (d := hd_ h) in *.
    assert (Xe : tf_apply X1 x = vadd (vadd (h3 h) (vscale d n)) (tf_tr X1)) by (unfold tf_apply; fold U; rewrite <- Ex; ve). assert (Ye : tf_apply X2 y = vadd (h3 h) (tf_tr X1)) by (unfold tf_apply; fold V; rewrite Ey; unfold p; ve).
    assert (Df : vsub (tf_apply X1 x) (tf_apply X2 y) = vscale d n) by (rewrite Xe, Ye; ve). split; [reflexivity|]. split; [split; [exact D0|]|].
    + pose proof (pair_depth b E x y Wx Wy) as Q. fold n in Q. rewrite Df, dot_scale_l, Nn in Q. lra.
    + exists (tf_apply X1 x), (tf_apply X2 y). split; [apply placed_at, Wx|]. split; [apply placed_at, Wy|]. split; [exact Df|]. rewrite Xe, Ye. apply v3_ext; unfold vadd, vscale; cbn [c0 c1 c2]; field.
  - assert (Gn' : vneg n = vscale (- g) (col i V)) by (rewrite Gn; ve). assert (Gg' : - g = 1 \/ - g = -1) by (destruct Gg; lra).
    destruct (face_points_sound B V A U (vneg p) (vneg n) i (- g) O2 O1 PB PA Hi Gg' Gn' h Ih) as (D0 & (x & Wx & Ex) & y & Wy & Ey). cbn [cnorm cdepth cpos contact2]. set (d := hd_ h) in *.
    assert (Ye : tf_apply X2 y = vsub (vadd (h3 h) (tf_tr X2)) (vscale d n)) by (unfold tf_apply; fold V; rewrite <- Ey; ve). assert (Xe : tf_apply X1 x = vadd (h3 h) (tf_tr X2)) by (unfold tf_apply; fold U; rewrite Ex; unfold p; ve).
    assert (Df : vsub (tf_apply X1 x) (tf_apply X2 y) = vscale d n) by (rewrite Xe, Ye; ve). split; [reflexivity|]. split; [split; [exact D0|]|].
    + pose proof (pair_depth b E x y Wx Wy) as Q. fold n in Q. rewrite Df, dot_scale_l, Nn in Q. lra.
    + exists (tf_apply X1 x), (tf_apply X2 y). split; [apply placed_at, Wx|]. split; [apply placed_at, Wy|]. split; [exact Df|]. rewrite Xe, Ye. apply v3_ext; unfold vadd, vsub, vscale; cbn [c0 c1 c2]; field.
Qed.
(** C83: no more contacts than asked for. *)
Theorem contact_count : (length (snd res) <= Nat.max 1 maxc)%nat.
Proof.
  destruct (Nat.eq_dec (fst res) 0) as [Z|Z].
  - apply code_zero in Z; auto. unfold res, box_box. fold (halfs s1) (halfs s2). rewrite Z. cbn. lia.
  - destruct (res_cases Z) as (b & _ & _ & Cs). cbv zeta in Cs. assert (Q : forall l, (length (select eps atan2 maxc l) <= Nat.max 1 maxc)%nat) by (intros l; destruct (select_spec eps atan2 maxc l) as (idx & -> & _ & _ & L & _); rewrite map_length, L; lia).
    destruct Cs as [(i & g & _ & _ & _ & _ & ->)|[(i & g & _ & _ & _ & _ & ->)|(i & j & _ & _ & _ & _ & _ & ->)]]; rewrite ?map_length; auto. cbn [length]. lia.
Qed.
(** A point of the incident box, facing the reference face, over its inside and not above it; [dep] is its depth *)
Definition below (S1 : v3) (Y1 : tf) (S2 : v3) (Y2 : tf) (n : v3) (i l : nat) (y : v3) (dep : R) : Prop :=
  exists b, y = tf_apply Y2 b /\ within (halfs S2) b /\ facing (halfs S2) (tf_rot Y2) n l b /\
    (forall k, (k < 3)%nat -> k <> i -> Rabs (dot (col k (tf_rot Y1)) (vsub y (tf_tr Y1))) < comp k (halfs S1)) /\ dep = comp i (halfs S1) - dot n (vsub y (tf_tr Y1)) /\ 0 <= dep.
(** C83: the deepest point of the incident face over the reference face is not missed. *)
Theorem deepest_found : (1 <= fst res <= 6)%nat -> exists n i l, (i < 3)%nat /\ (l < 3)%nat /\ 0 <= dot p n /\
  ((fst res = (1 + i)%nat /\ (n = col i U \/ n = vneg (col i U)) /\ (forall k, Rabs (dot (col k V) n) <= Rabs (dot (col l V) n)) /\ forall y dep, below s1 X1 s2 X2 n i l y dep -> exists ct, In ct (snd res) /\ cnorm ct = n /\ dep <= cdepth ct) \/
   (fst res = (4 + i)%nat /\ (n = col i V \/ n = vneg (col i V)) /\ (forall k, Rabs (dot (col k U) n) <= Rabs (dot (col l U) n)) /\ forall y dep, below s2 X2 s1 X1 (vneg n) i l y dep -> exists ct, In ct (snd res) /\ cnorm ct = n /\ dep <= cdepth ct)).
Proof.
  intros Hr. destruct res_cases as (b & E & Ec & Cs); [lia|]. cbv zeta in Cs. set (n := out_normal b) in *. exists n. destruct halfs_pos as (PA & PB). destruct (best_facts eps far s1 X1 s2 X2 He O1 O2 P1 P2 Hf b E) as (_ & _ & N3 & _). fold n in N3.
  assert (Sg : forall g v, (g = 1 \/ g = -1) -> n = vscale g v -> n = v \/ n = vneg v) by (intros g v [ -> | -> ] ->; [left|right]; ve).
  assert (Cm : forall M k v, comp k (mtapply M v) = dot (col k M) v) by (intros M [|[|k]] v; reflexivity).
  assert (Sel : forall l x, In x l -> exists y, In y (select eps atan2 maxc l) /\ hd_ x <= hd_ y). { intros l x I. destruct (select_spec eps atan2 maxc l) as (idx & Es & _ & _ & _ & M). destruct M as (k & Ik & M); [intros Z; rewrite Z in I; destruct I|]. exists (nth k l none). split; [rewrite Es; apply in_map_iff; eauto|apply M, I]. }
  destruct Cs as [(i & g & Hi & Eb & Gg & Gn & Er)|[(i & g & Hi & Eb & Gg & Gn & Er)|(i & j & Hi & Hj & Eb & _)]]; [| |exfalso; lia]; exists i.
  - destruct (face_points_exact A U B V p n i g O1 O2 Hi Gg Gn) as (l & Hl & Mx & Ex). exists l. split; [exact Hi|]. split; [exact Hl|]. split; [exact N3|]. left. split; [lia|]. split; [exact (Sg g _ Gg Gn)|]. split; [intros k; specialize (Mx k); rewrite !Cm in Mx; exact Mx|].
    intros y dep (bb & Ey & Wb & Fb & In_ & Ed & D0). assert (Ep : vsub y (tf_tr X1) = vadd p (mapply V bb)) by (rewrite Ey; unfold tf_apply, p; fold V; ve). rewrite Ep in Ed. destruct (Ex bb Wb Fb) as (h & Ih & Lh); [intros k Hk Nk; rewrite <- Ep; apply In_; assumption|unfold A; lra|].
    destruct (Sel _ h Ih) as (h' & Ih' & Lh'). exists (contact1 n h'). split; [rewrite Er; apply in_map, Ih'|]. split; [reflexivity|]. cbn [contact1 cdepth]. unfold A in Lh. lra.
  - assert (Gn' : vneg n = vscale (- g) (col i V)) by (rewrite Gn; ve). assert (Gg' : - g = 1 \/ - g = -1) by (destruct Gg; lra).
    destruct (face_points_exact B V A U (vneg p) (vneg n) i (- g) O2 O1 Hi Gg' Gn') as (l & Hl & Mx & Ex). exists l. split; [exact Hi|]. split; [exact Hl|]. split; [exact N3|]. right. split; [lia|]. split; [exact (Sg g _ Gg Gn)|]. split; [intros k; specialize (Mx k); rewrite !Cm, !dot_neg_r, !Rabs_Ropp in Mx; exact Mx|].
    intros y dep (bb & Ey & Wb & Fb & In_ & Ed & D0). assert (Ep : vsub y (tf_tr X2) = vadd (vneg p) (mapply U bb)) by (rewrite Ey; unfold tf_apply, p; fold U; ve). rewrite Ep in Ed. destruct (Ex bb Wb Fb) as (h & Ih & Lh); [intros k Hk Nk; rewrite <- Ep; apply In_; assumption|unfold B; lra|].
    destruct (Sel _ h Ih) as (h' & Ih' & Lh'). exists (contact2 n h'). split; [rewrite Er; apply in_map, Ih'|]. split; [reflexivity|]. cbn [contact2 cdepth]. unfold B in Lh. lra.
Qed.
Lemma normal_edge : forall i j, exists e, out_normal (made eps A X1 B X2 (EX i j)) = vscale e (cross (col i U) (col j V)).
Proof.
  intros i j. pose proof (wor_cross X1 X2 O1 i j) as W. fold U V in W. assert (E : mapply U (vscale (/ norm (loc X1 X2 i j)) (loc X1 X2 i j)) = vscale (/ norm (loc X1 X2 i j) * det U) (cross (col i U) (col j V))).
  { transitivity (vscale (/ norm (loc X1 X2 i j)) (wor X1 X2 i j)); [unfold wor; fold U; unfold mapply; ve|]. rewrite W. ve. }
  unfold out_normal, made. cbn [binv bn unit_of]. fold U. rewrite E. destruct (ltb _ 0); [exists (- (/ norm (loc X1 X2 i j) * det U)); ve|eexists; reflexivity].
Qed.
(** Lines that are not nearly parallel: the closest approach is along the common normal *)
Lemma approach : forall pa ua pb ub alpha beta, dot ua ua = 1 -> dot ub ub = 1 -> 1 / 10000 < 1 - dot ua ub * dot ua ub -> line_approach pa ua pb ub = (alpha, beta) ->
  let v := vsub (vadd pa (vscale alpha ua)) (vadd pb (vscale beta ub)) in dot v ua = 0 /\ dot v ub = 0.
Proof.
  intros pa ua pb ub alpha beta Ua Ub L E v. unfold line_approach in E. cbv zeta in E. set (w := vsub pb pa) in *. set (t := dot ua ub) in *. destruct (Rle_dec (1 - t * t) (1 / 10000)) as [Q|Q]; [exfalso; lra|]. injection E as <- <-.
  set (al := (dot ua w + t * - dot ub w) * (1 / (1 - t * t))). set (be := (t * dot ua w + - dot ub w) * (1 / (1 - t * t))).
  assert (V1 : dot v ua = - dot ua w + al * dot ua ua - be * t) by (unfold v; fold al be; clearbody al be; unfold w, t; sc). assert (V2 : dot v ub = - dot ub w + al * t - be * dot ub ub) by (unfold v; fold al be; clearbody al be; unfold w, t; sc).
  rewrite V1, V2, Ua, Ub. unfold al, be. split; field; lra.
Qed.
Lemma parallel : forall v a b n e, n = vscale e (cross a b) -> dot n n = 1 -> dot v a = 0 -> dot v b = 0 -> v = vscale (dot v n) n.
Proof.
  intros v a b n e E N Va Vb. assert (C : cross v n = vzero). { rewrite E. replace (cross v (vscale e (cross a b))) with (vscale e (vsub (vscale (dot v b) a) (vscale (dot v a) b))) by ve. rewrite Va, Vb. ve. }
  assert (T : cross n (cross v n) = vsub (vscale (dot n n) v) (vscale (dot v n) n)) by ve. rewrite C, N in T. assert (Z : cross n vzero = vzero) by ve. rewrite Z in T.
  set (k := dot v n) in *. clearbody k. destruct v as [v0 v1 v2], n as [n0 n1 n2]. unfold vsub, vscale, vzero in *. cbn [c0 c1 c2] in *. injection T. intros. f_equal; lra.
Qed.
(** C83: the contact of two edges. *)
Theorem edge_contacts : (6 < fst res)%nat -> exists n d ct i j x y, snd res = [ct] /\ norm n = 1 /\ 0 <= d /\ (forall t, d < t -> ~ meet s1 X1 s2 (moved (vscale t n) X2)) /\
  cnorm ct = n /\ cdepth ct = d /\ cpos ct = vscale (1/2) (vadd x y) /\ (i < 3)%nat /\ (j < 3)%nat /\ fst res = (7 + 3 * i + j)%nat /\ dot (col i U) n = 0 /\ dot (col j V) n = 0 /\
  (exists a, x = tf_apply X1 a /\ forall k, (k < 3)%nat -> k <> i -> Rabs (comp k a) = comp k A) /\ (forall q, placed X1 (boxset s1) q -> dot q n <= dot x n) /\
  (exists b, y = tf_apply X2 b /\ forall k, (k < 3)%nat -> k <> j -> Rabs (comp k b) = comp k B) /\ (forall q, placed X2 (boxset s2) q -> dot y n <= dot q n) /\
  dot (vsub x y) n = d - allow eps s1 s2 i j / norm (edge_dir X1 X2 i j) /\
  (1 / 10000 < 1 - dot (col i U) (col j V) * dot (col i U) (col j V) -> vsub x y = vscale (d - allow eps s1 s2 i j / norm (edge_dir X1 X2 i j)) n).
Proof.
  intros Hr. destruct res_cases as (b & E & Ec & Cs); [lia|]. cbv zeta in Cs. set (n := out_normal b) in *. destruct Cs as [(i & g & Hi & Eb & _)|[(i & g & Hi & Eb & _)|(i & j & Hi & Hj & Eb & Ebm & Hb & Er)]]; [exfalso; lia|exfalso; lia|].
  destruct (best_facts eps far s1 X1 s2 X2 He O1 O2 P1 P2 Hf b E) as (N1 & N2 & N3 & _). fold n in N1, N3. destruct (normal_facts eps s1 X1 s2 X2 He O1 O2 (EX i j) Hb) as (_ & Nf2 & Nf3). fold A B in Nf2, Nf3. rewrite <- Ebm in Nf2, Nf3. fold n in Nf2, Nf3. fold p in Nf2.
  assert (Nn : dot n n = 1) by (change (dot n n) with (norm2 n); rewrite <- norm_sq, N1; ring). destruct (normal_edge i j) as (e & Ee). rewrite <- Ebm in Ee. fold n in Ee. destruct halfs_pos as (PA & PB).
  assert (Dx : forall u v, dot u (cross u v) = 0) by (intros; sc). assert (Dy : forall u v, dot v (cross u v) = 0) by (intros; sc). assert (Un : dot (col i U) n = 0) by (rewrite Ee, dot_scale_r, Dx; ring). assert (Vn : dot (col j V) n = 0) by (rewrite Ee, dot_scale_r, Dy; ring).
  set (l := norm (edge_dir X1 X2 i j)). assert (El : len X1 X2 (EX i j) = l) by (cbn [len]; apply wor_norm, O1). assert (Lp : 0 < l) by (rewrite <- El; lra). rewrite El in Nf2, Nf3.
  assert (Ed : - bs b = reach U A n + reach V B n - dot p n + allow eps s1 s2 i j / l).
  { rewrite !Nf3, Nf2. rewrite Ebm. unfold made. cbn [bs]. unfold value, bound, extra, both. rewrite El. fold p U V. unfold allow. fold A B. change (pad eps A B * (two i A + two j B)) with (slack eps A B i j). field. lra. }
  set (up1 := fun k => if Rlt_dec 0 (dot (col k U) n) then 1 else -1). set (dn := fun k => if Rlt_dec 0 (dot (col k V) n) then -1 else 1).
  set (a0 := mk3 (c0 A * up1 0%nat) (c1 A * up1 1%nat) (c2 A * up1 2%nat)). set (b0 := mk3 (c0 B * dn 0%nat) (c1 B * dn 1%nat) (c2 B * dn 2%nat)). set (pa := tf_apply X1 a0). set (pb := tf_apply X2 b0).
  destruct (line_approach pa (col i U) pb (col j V)) as [alpha beta] eqn:La. set (x := vadd pa (vscale alpha (col i U))). set (y := vadd pb (vscale beta (col j V))).
  assert (Ect : edge_contact A X1 B X2 (bcode b) n (- bs b) = mkct n (vscale (1/2) (vadd x y)) (- bs b)).
  { unfold edge_contact. cbv zeta. fold U V. fold up1 dn. assert (I1 : ((bcode b - 7) / 3)%nat = i /\ ((bcode b - 7) mod 3)%nat = j) by (rewrite Eb; destruct i as [|[|[|i]]], j as [|[|[|j]]]; try lia; split; reflexivity). destruct I1 as (-> & ->).
    assert (Epa : vadd (vadd (vadd (tf_tr X1) (vscale (c0 A * up1 0%nat) (m0 U))) (vscale (c1 A * up1 1%nat) (m1 U))) (vscale (c2 A * up1 2%nat) (m2 U)) = pa) by (unfold pa, tf_apply, a0, mapply; fold U; ve).
    assert (Epb : vadd (vadd (vadd (tf_tr X2) (vscale (c0 B * dn 0%nat) (m0 V))) (vscale (c1 B * dn 1%nat) (m1 V))) (vscale (c2 B * dn 2%nat) (m2 V)) = pb) by (unfold pb, tf_apply, b0, mapply; fold V; ve).
    change (if Rlt_dec 0 (dot (col 0 U) n) then 1 else -1) with (up1 0%nat). change (if Rlt_dec 0 (dot (col 1 U) n) then 1 else -1) with (up1 1%nat). change (if Rlt_dec 0 (dot (col 2 U) n) then 1 else -1) with (up1 2%nat).
    change (if Rlt_dec 0 (dot (col 0 V) n) then -1 else 1) with (dn 0%nat). change (if Rlt_dec 0 (dot (col 1 V) n) then -1 else 1) with (dn 1%nat). change (if Rlt_dec 0 (dot (col 2 V) n) then -1 else 1) with (dn 2%nat).
    rewrite Epa, Epb, La. reflexivity. }
  assert (Up : forall k, up1 k * dot (col k U) n = Rabs (dot (col k U) n)) by (intros k; unfold up1; destruct (Rlt_dec 0 _); [rewrite Rabs_right by lra; ring|destruct (Req_dec (dot (col k U) n) 0) as [Z|Z]; [rewrite Z, Rabs_R0; ring|rewrite Rabs_left by lra; ring]]).
  assert (Dn : forall k, dn k * dot (col k V) n = - Rabs (dot (col k V) n)) by (intros k; unfold dn; destruct (Rlt_dec 0 _); [rewrite Rabs_right by lra; ring|destruct (Req_dec (dot (col k V) n) 0) as [Z|Z]; [rewrite Z, Rabs_R0; ring|rewrite Rabs_left by lra; ring]]).
  assert (Xn : dot x n = dot (tf_tr X1) n + reach U A n). { unfold x. rewrite dot_add_l, dot_scale_l, Un. unfold pa, tf_apply, a0, mapply. fold U. rewrite !dot_add_l, !dot_scale_l. cbn [c0 c1 c2]. unfold reach. pose proof (Up 0%nat) as U0. pose proof (Up 1%nat) as U1. pose proof (Up 2%nat) as U2. cbn [col] in U0, U1, U2. rewrite <- U0, <- U1, <- U2. ring. }
  assert (Yn : dot y n = dot (tf_tr X2) n - reach V B n). { unfold y. rewrite dot_add_l, dot_scale_l, Vn. unfold pb, tf_apply, b0, mapply. fold V. rewrite !dot_add_l, !dot_scale_l. cbn [c0 c1 c2]. unfold reach. pose proof (Dn 0%nat) as U0. pose proof (Dn 1%nat) as U1. pose proof (Dn 2%nat) as U2. cbn [col] in U0, U1, U2.
    replace (Rabs (dot (m0 V) n)) with (- (dn 0%nat * dot (m0 V) n)) by (rewrite U0; ring). replace (Rabs (dot (m1 V) n)) with (- (dn 1%nat * dot (m1 V) n)) by (rewrite U1; ring). replace (Rabs (dot (m2 V) n)) with (- (dn 2%nat * dot (m2 V) n)) by (rewrite U2; ring). ring. }
  assert (Gap : dot (vsub x y) n = - bs b - allow eps s1 s2 i j / l). { rewrite dot_sub_l, Xn, Yn, Ed. unfold p. rewrite dot_sub_l. ring. }
  assert (Abs : forall k, Rabs (up1 k) = 1 /\ Rabs (dn k) = 1) by (intros k; unfold up1, dn; destruct (Rlt_dec 0 (dot (col k U) n)), (Rlt_dec 0 (dot (col k V) n)); rewrite ?Rabs_R1, ?(Rabs_left (-1)) by lra; split; ring).
  exists n, (- bs b), (mkct n (vscale (1/2) (vadd x y)) (- bs b)), i, j, x, y. split; [rewrite Er, Ect; reflexivity|]. split; [exact N1|]. split; [exact N2|]. split; [intros t Ht; exact (depth_separates eps far s1 X1 s2 X2 He O1 O2 P1 P2 Hf b E t Ht)|].
  split; [reflexivity|]. split; [reflexivity|]. split; [reflexivity|]. split; [exact Hi|]. split; [exact Hj|]. split; [lia|]. split; [exact Un|]. split; [exact Vn|].
  split; [|split; [|split; [|split; [|split; [exact Gap|]]]]].
  - exists (vadd a0 (vscale alpha (ei i))). split. { unfold x, pa, tf_apply. fold U. replace (col i U) with (mapply U (ei i)) by (unfold ei; destruct i as [|[|i]]; cbn [col mid m0 m1 m2]; unfold mapply; ve). unfold mapply. ve. }
    intros k Hk Nk. destruct PA as (A0 & A1 & A2). assert (Q : forall s u, 0 <= s -> Rabs u = 1 -> Rabs (s * u + alpha * 0) = s) by (intros s u Hs Hu; rewrite Rmult_0_r, Rplus_0_r, Rabs_mult, Hu, Rabs_right; lra).
    pose proof (proj1 (Abs 0%nat)). pose proof (proj1 (Abs 1%nat)). pose proof (proj1 (Abs 2%nat)). destruct k as [|[|[|k]]], i as [|[|[|i]]]; try lia; unfold ei, vadd, vscale, a0; cbn [comp col mid m0 m1 m2 c0 c1 c2]; apply Q; assumption.
  - intros q (q' & Hq & ->). apply boxset_within in Hq. fold A in Hq. rewrite Xn. unfold tf_apply. fold U. rewrite dot_add_l. pose proof (reach_bound U A q' n Hq). pose proof (Rle_abs (dot (mapply U q') n)). lra.
  - exists (vadd b0 (vscale beta (ei j))). split. { unfold y, pb, tf_apply. fold V. replace (col j V) with (mapply V (ei j)) by (unfold ei; destruct j as [|[|j]]; cbn [col mid m0 m1 m2]; unfold mapply; ve). unfold mapply. ve. }
    intros k Hk Nk. destruct PB as (A0 & A1 & A2). assert (Q : forall s u, 0 <= s -> Rabs u = 1 -> Rabs (s * u + beta * 0) = s) by (intros s u Hs Hu; rewrite Rmult_0_r, Rplus_0_r, Rabs_mult, Hu, Rabs_right; lra).
    pose proof (proj2 (Abs 0%nat)). pose proof (proj2 (Abs 1%nat)). pose proof (proj2 (Abs 2%nat)). destruct k as [|[|[|k]]], j as [|[|[|j]]]; try lia; unfold ei, vadd, vscale, b0; cbn [comp col mid m0 m1 m2 c0 c1 c2]; apply Q; assumption.
  - intros q (q' & Hq & ->). apply boxset_within in Hq. fold B in Hq. rewrite Yn. unfold tf_apply. fold V. rewrite dot_add_l. pose proof (reach_bound V B q' n Hq). pose proof (Rle_abs (- dot (mapply V q') n)). rewrite Rabs_Ropp in H0. lra.
  - intros L. fold l. rewrite <- Gap. assert (Uu : dot (col i U) (col i U) = 1) by (rewrite (cols U i i O1 Hi Hi), Nat.eqb_refl; reflexivity). assert (Vv : dot (col j V) (col j V) = 1) by (rewrite (cols V j j O2 Hj Hj), Nat.eqb_refl; reflexivity).
    destruct (approach pa (col i U) pb (col j V) alpha beta Uu Vv L La) as (Q1 & Q2). exact (parallel (vsub x y) (col i U) (col j V) n e Ee Nn Q1 Q2).
Qed.
End Contacts.
Print Assumptions face_contacts.
Print Assumptions contact_count.
Print Assumptions deepest_found.
Print Assumptions edge_contacts.

(** ** Two cubes side by side *)
Lemma step_keep : forall eps A X1 B X2 a b, Rabs (dot (vsub (tf_tr X2) (tf_tr X1)) (vec X1 X2 a)) <= bound eps A X1 B X2 a -> (big eps X1 X2 a -> value eps A X1 B X2 a * weight a <= bs b) -> step eps A X1 B X2 a (Some b) = Some b.
Proof.
  intros eps A X1 B X2 a b L W. unfold bound, extra in L. destruct a as [i|i|i j]; cbn [step try_face try_edge vec big value weight] in *.
  1, 2: specialize (W Logic.I); destruct (Rlt_dec 0 _) as [Q|Q]; [exfalso; lra|]; destruct (Rlt_dec (bs b) _) as [Q2|Q2]; [exfalso; lra|reflexivity].
  destruct (Rlt_dec 0 _) as [Q|Q]; [exfalso; lra|]. destruct (Rlt_dec eps _) as [Q1|Q1]; [|reflexivity]. specialize (W Q1). unfold bound, extra in W. cbn [vec len] in W. destruct (Rlt_dec (bs b) _) as [Q2|Q2]; [exfalso; lra|reflexivity].
Qed.
Lemma fold_keep : forall eps A X1 B X2 l b, (forall a, In a l -> Rabs (dot (vsub (tf_tr X2) (tf_tr X1)) (vec X1 X2 a)) <= bound eps A X1 B X2 a /\ (big eps X1 X2 a -> value eps A X1 B X2 a * weight a <= bs b)) -> fold_left (fun st a => step eps A X1 B X2 a st) l (Some b) = Some b.
Proof.
  intros eps A X1 B X2 l b. induction l as [|a l IH]; intros H; cbn [fold_left]; [reflexivity|]. destruct (H a (or_introl eq_refl)) as (L & W). rewrite step_keep by assumption. apply IH. intros x I. apply H. right. exact I.
Qed.
Lemma beside_code1 : forall eps atan2 far maxc s d, 0 <= eps -> 0 < s -> 2 * s < far -> 0 < d < s -> fst (box_box eps atan2 far maxc (cube s) pose1 (cube s) (beside d)) = 1%nat.
Proof.
  intros eps atan2 far maxc s d He Hs Hf Hd. pose proof ortho_mid as O. assert (P : positive (halfs (cube s))) by (unfold positive, halfs, cube, vscale; cbn [c0 c1 c2]; lra).
  set (S := halfs (cube s)) in *. assert (Sc : S = mk3 (s/2) (s/2) (s/2)) by (unfold S, halfs, cube, vscale; cbn [c0 c1 c2]; f_equal; field).
  assert (Cr : forall i j, wor pose1 (beside d) i j = cross (col i mid) (col j mid)). { intros i j. rewrite wor_cross by exact O. replace (det (tf_rot pose1)) with 1 by (cbn [tf_rot pose1]; unfold det, mid, dot, cross; cbn [m0 m1 m2 c0 c1 c2]; ring). cbn [tf_rot pose1 beside]. ve. }
  assert (Ev : value eps S pose1 S (beside d) (FA 0) = d - s). { cbn [value vec]. unfold both. rewrite (reach_own (tf_rot pose1) _ 0 O). replace (col 0 (tf_rot pose1)) with (col 0 (tf_rot (beside d))) by reflexivity. rewrite (reach_own (tf_rot (beside d)) _ 0 O). rewrite Sc. cbn [comp col pose1 beside tf_rot tf_tr mid m0 c0]. unfold dot, vsub, vzero. cbn [c0 c1 c2]. replace ((d - 0) * 1 + (0 - 0) * 0 + (0 - 0) * 0) with d by ring. rewrite Rabs_right by lra. field. }
  assert (E : sat eps far S pose1 S (beside d) = Some (made eps S pose1 S (beside d) (FA 0))).
  { rewrite sat_steps by exact O. change axes with (FA 0 :: tl axes). cbn [fold_left]. assert (E0 : step eps S pose1 S (beside d) (FA 0) (Some (Best (- far) 0 false vzero)) = Some (made eps S pose1 S (beside d) (FA 0))).
    { unfold made. rewrite Ev. cbn [value vec] in Ev. cbn [step try_face bs]. rewrite Ev. destruct (Rlt_dec 0 (d - s)) as [Q|Q]; [exfalso; lra|]. destruct (Rlt_dec (- far) (d - s)) as [Q2|Q2]; [reflexivity|exfalso; lra]. }
    rewrite E0. apply fold_keep. intros a Ia. unfold made. cbn [bs]. rewrite Ev.
    assert (Q : Rabs (dot (vsub (tf_tr (beside d)) (tf_tr pose1)) (vec pose1 (beside d) a)) - both S pose1 S (beside d) (vec pose1 (beside d) a) <= (d - s) * len pose1 (beside d) a).
    { unfold both, reach. rewrite <- (axis_len pose1 (beside d) O O). rewrite Sc. destruct a as [i|i|i j]; cbn [vec]; rewrite ?Cr; cbn in Ia;
      repeat (destruct Ia as [Ia|Ia]; [first [discriminate Ia|injection Ia; intros; subst]|]); try contradiction; cbn [col pose1 beside tf_rot tf_tr mid m0 m1 m2]; unfold norm, norm2, cross, dot, vsub, vzero; cbn [c0 c1 c2];
      repeat match goal with |- context [Rabs ?x] => ring_simplify x; first [rewrite (Rabs_right x) by lra|rewrite (Rabs_left x) by lra|idtac] end;
      repeat match goal with |- context [sqrt ?x] => first [replace x with 1 by ring; rewrite sqrt_1|replace x with 0 by ring; rewrite sqrt_0] end;
      repeat match goal with |- context [Rabs ?x] => first [replace x with d by ring; rewrite (Rabs_right d) by lra|replace x with (- d) by ring; rewrite Rabs_Ropp, (Rabs_right d) by lra|replace x with 0 by ring; rewrite Rabs_R0|replace x with 1 by ring; rewrite Rabs_R1|replace x with (-1) by ring; rewrite (Rabs_left (-1)) by lra] end; lra. }
    pose proof (extra_nonneg eps S S P P He a) as Xe. pose proof (norm_nonneg (vec pose1 (beside d) a)) as Ln. rewrite (axis_len pose1 (beside d) O O) in Ln.
    split; [unfold bound; nra|]. intros Hb. destruct a as [i|i|i j]; cbn [value weight len extra big] in *; [lra|lra|]. unfold bound. cbn [extra]. set (l := norm (loc pose1 (beside d) i j)) in *. assert (Lp : 0 < l) by lra.
    assert (Q2 : (Rabs (dot (vsub (tf_tr (beside d)) (tf_tr pose1)) (vec pose1 (beside d) (EX i j))) - (both S pose1 S (beside d) (vec pose1 (beside d) (EX i j)) + slack eps S S i j)) / l <= d - s). { apply Rmult_le_reg_r with l; [exact Lp|]. unfold Rdiv. rewrite Rmult_assoc, Rinv_l by lra. lra. }
    set (q := _ / l) in *. unfold fudge. lra. }
  unfold box_box. fold (halfs (cube s)). fold S. rewrite E. reflexivity.
Qed.
(** The contacts of two overlapping cubes side by side: there is one, with the depth of the overlap. *)
Example beside_contact : forall eps atan2 far maxc s d, 0 <= eps -> 0 < s -> 2 * s < far -> 0 < d < s -> let r := box_box eps atan2 far maxc (cube s) pose1 (cube s) (beside d) in
  exists ct, In ct (snd r) /\ cnorm ct = mk3 1 0 0 /\ cdepth ct = s - d.
Proof.
  intros eps atan2 far maxc s d He Hs Hf Hd r. pose proof (beside_code1 eps atan2 far maxc s d He Hs Hf Hd) as C. fold r in C. pose proof ortho_mid as O. assert (P : posside (cube s)) by (unfold posside, cube; cbn [c0 c1 c2]; lra). assert (Fin : finite far (cube s) (cube s)) by (unfold finite, cube; cbn [c0 c1 c2]; lra).
  destruct (deepest_found eps atan2 far maxc (cube s) pose1 (cube s) (beside d) He O O P P Fin) as (n & i & l & Hi & Hl & Np & Cs); [fold r; lia|]. fold r in Cs. destruct Cs as [(Ei & En & Mx & F)|(Ei & _)]; [|exfalso; lia].
  assert (i = 0%nat) by lia. subst i. assert (Nx : n = mk3 1 0 0). { destruct En as [ -> | -> ]; [reflexivity|exfalso]. cbn [col pose1 tf_rot mid m0] in Np. unfold dot, vsub, vneg, beside, vzero in Np. cbn [tf_tr pose1 vzero c0 c1 c2] in Np. unfold vzero in Np. cbn [c0 c1 c2] in Np. lra. }
  assert (l = 0%nat). { specialize (Mx 0%nat). rewrite Nx in Mx. destruct l as [|[|[|l]]]; [reflexivity| | |lia]; exfalso; cbn [col beside tf_rot mid m0 m1 m2] in Mx; unfold dot in Mx; cbn [c0 c1 c2] in Mx; replace (1 * 1 + 0 * 0 + 0 * 0) with 1 in Mx by ring; rewrite Rabs_R1 in Mx; match type of Mx with _ <= Rabs ?x => replace x with 0 in Mx by ring end; rewrite Rabs_R0 in Mx; lra. } subst l.
  destruct (F (mk3 (d - s/2) 0 0) (s - d)) as (ct & Ic & Cn & Cd).
  { exists (mk3 (- s/2) 0 0). assert (Sc : halfs (cube s) = mk3 (s/2) (s/2) (s/2)) by (unfold halfs, cube, vscale; cbn [c0 c1 c2]; f_equal; field). rewrite Sc. split; [unfold tf_apply, beside, mapply, vadd, vscale; cbn [tf_rot tf_tr mid m0 m1 m2 c0 c1 c2]; f_equal; field|]. split; [unfold within; cbn [c0 c1 c2]; lra|].
    split. { unfold facing. rewrite Nx. cbn [comp c0 mtapply beside tf_rot mid m0]. unfold dot. cbn [c0 c1 c2]. destruct (Rlt_dec _ 0); lra. }
    rewrite Nx. split; [|split; [|lra]].
    - intros k Hk Nk. destruct k as [|[|[|k]]]; [contradiction| | |lia]; cbn [col pose1 tf_rot tf_tr mid m1 m2 comp c1 c2]; unfold dot, vsub, vzero; cbn [c0 c1 c2]; match goal with |- Rabs ?x < _ => replace x with 0 by ring end; rewrite Rabs_R0; lra.
    - cbn [comp c0 pose1 tf_tr]. unfold dot, vsub, vzero. cbn [c0 c1 c2]. field. }
  exists ct. split; [exact Ic|]. split; [rewrite Cn; exact Nx|]. destruct (face_contacts eps atan2 far maxc (cube s) pose1 (cube s) (beside d) He O O P P Fin) as (n' & d' & _ & _ & _ & Fc); [fold r; lia|]. destruct (Fc ct Ic) as (Cn' & _ & x & y & (x' & Hx & Ex) & (y' & Hy & Ey) & Df & _).
  rewrite <- Cn', Cn, Nx in Df. apply boxset_within in Hx. apply boxset_within in Hy. destruct Hx as ((_ & Hx) & _), Hy as ((Hy & _) & _). apply (f_equal c0) in Df. rewrite Ex, Ey in Df. unfold tf_apply, mapply, vsub, vadd, vscale, beside, pose1, vzero, halfs, cube in *. cbn [tf_rot tf_tr mid m0 m1 m2 c0 c1 c2 vzero] in *. unfold vscale in *. cbn [c0 c1 c2] in *. lra.
Qed.
(** Two cubes, edge against edge: the tests of C82 choose an edge direction. *)
Example edge_case : forall eps atan2 far maxc, 0 < eps <= 1/1000 -> 4 < far -> (6 < fst (box_box eps atan2 far maxc side2 pose1 side2 (pose2 (-1/10))))%nat.
Proof.
  intros eps atan2 far maxc He Hf. pose proof ortho_mid as O1. pose proof ortho_turned as O2. assert (He0 : 0 <= eps) by lra. set (g := -1/10).
  assert (Cr : forall i j, wor pose1 (pose2 g) i j = cross (col i mid) (col j turned)). { intros i j. rewrite wor_cross by exact O1. replace (det (tf_rot pose1)) with 1 by (cbn [tf_rot pose1]; unfold det, mid, dot, cross; cbn [m0 m1 m2 c0 c1 c2]; ring). cbn [tf_rot pose1 pose2]. ve. }
  pose proof (gap_pad eps He0) as Ep. assert (Fin : finite far side2 side2) by (unfold finite, side2; cbn [c0 c1 c2]; lra). pose proof (half_pos _ side2_pos) as Ph.
  assert (Z : fst (box_box eps atan2 far maxc side2 pose1 side2 (pose2 g)) <> 0%nat).
  { intros E. apply code_zero in E; auto using side2_pos. destruct (sat_all eps far (halfs side2) pose1 (halfs side2) (pose2 g) O1 O2) as (b & Eb); [|congruence].
    intros a Ia. unfold bound, extra, both, reach, slack, g. rewrite Ep. destruct a as [i|i|i j]; cbn [vec]; fold g; rewrite ?Cr; unfold g; cbn in Ia;
    repeat (destruct Ia as [Ia|Ia]; [first [discriminate Ia|injection Ia; intros; subst]|]); try contradiction; cbn [col pose1 pose2 tf_rot tf_tr mid turned m0 m1 m2 two]; unfold cross, dot, vsub, vzero, vscale, halfs, side2; cbn [c0 c1 c2 vscale];
    repeat match goal with |- context [Rabs ?x] => match goal with |- Rabs x <= _ => fail 1 | _ => let a := fresh "a" in pose proof (Rle_abs x); pose proof (Rle_abs (- x)); pose proof (Rabs_pos x); rewrite ?(Rabs_Ropp x) in *; set (a := Rabs x) in *; clearbody a end end; apply Rabs_le; lra. }
  destruct (code_some eps atan2 far maxc side2 pose1 side2 (pose2 g) Z) as (b & E & Ec). rewrite Ec. destruct (sat_some eps far (halfs side2) pose1 (halfs side2) (pose2 g) O1 O2 Ph He0) with (b := b) as (Al & a & Ia & Eb & Hb); [unfold halfs, side2, vscale; cbn [c0 c1 c2]; lra|exact E|].
  destruct a as [i|i|i j]; [exfalso|exfalso|rewrite Eb; cbn [made bcode code_of]; lia].
  all: destruct (Al (EX 0 0)) as (_ & Q); [cbn; tauto|]; assert (Ln : len pose1 (pose2 g) (EX 0 0) = 1) by (rewrite <- (axis_len pose1 (pose2 g) O1 O2); cbn [vec]; rewrite Cr; cbn [col mid turned m0]; unfold norm, norm2, cross, dot; cbn [c0 c1 c2]; match goal with |- sqrt ?x = 1 => replace x with 1 by field end; apply sqrt_1).
  all: cbn [big] in Q; rewrite Ln in Q; specialize (Q ltac:(lra)); rewrite Eb in Q; unfold made in Q; cbn [bs value weight vec] in Q; rewrite Ln in Q; unfold bound, extra, slack, both, reach in Q; rewrite Ep in Q; cbn [vec] in Q; rewrite Cr in Q; unfold g in Q; cbn in Ia;
    repeat (destruct Ia as [Ia|Ia]; [first [discriminate Ia|injection Ia; intros; subst]|]); try contradiction; cbn [col pose1 pose2 tf_rot tf_tr mid turned m0 m1 m2 two] in Q; unfold cross, dot, vsub, vzero, vscale, halfs, side2, fudge in Q; cbn [c0 c1 c2 vscale] in Q;
    repeat match type of Q with context [Rabs ?x] => first [rewrite (Rabs_right x) in Q by lra | rewrite (Rabs_left x) in Q by lra] end; lra.
Qed.
