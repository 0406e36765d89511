(** C86: collision of two triangle meshes, from the calls that build the models to the contacts. *)
From Coq Require Import Reals Lra Lia List Bool Arith Permutation ZArith.
From Verif Require Import VecR Motion AabbDist Obb BvhBuild BvhModel Traversal TraversalMesh TriSat MeshCollide.
From Verif Require P_TriSat P_BvhModel P_Traversal P_Obb.
Import ListNotations.
Open Scope R_scope.

(** Triangle p of a mesh given by its vertices and indices *)
Definition mesh_tri (vs : list v3) (ts : list tri) (p : nat) : option tri3 :=
  match nth_error ts p with
  | Some (a, b, c) => match nth_error vs a, nth_error vs b, nth_error vs c with Some A, Some B, Some C => Some (A, B, C) | _, _, _ => None end
  | None => None
  end.
Definition mesh_surface (vs : list v3) (ts : list tri) (x : v3) : Prop := exists p P, mesh_tri vs ts p = Some P /\ in3 P x.
(** indices within the vertices, no triangle with collinear corners *)
Definition proper_mesh (vs : list v3) (ts : list tri) : Prop := ts <> [] /\ forall p, (p < length ts)%nat -> exists P, mesh_tri vs ts p = Some P /\ proper3 P.

(** A correct result for the meshes placed by X1 and X2 *)
Definition reports (enable : bool) (max : nat) (X1 X2 : tf) (vs1 : list v3) (ts1 : list tri) (vs2 : list v3) (ts2 : list tri) (R : list wcontact) : Prop :=
  (length R <= max)%nat /\
  (R <> [] <-> exists x y, mesh_surface vs1 ts1 x /\ mesh_surface vs2 ts2 y /\ tf_apply X1 x = tf_apply X2 y) /\
  (forall c, In c R -> exists P Q, mesh_tri vs1 ts1 (w1 c) = Some P /\ mesh_tri vs2 ts2 (w2 c) = Some Q /\ contact_of enable (map3 X1 P) (map3 X2 Q) (wgeo c)) /\
  ((length R < max)%nat -> forall p q P Q, mesh_tri vs1 ts1 p = Some P -> mesh_tri vs2 ts2 q = Some Q ->
    (exists x, in3 (map3 X1 P) x /\ in3 (map3 X2 Q) x) -> exists c, In c R /\ w1 c = p /\ w2 c = q).

Lemma mesh_tri_lt : forall vs ts p P, mesh_tri vs ts p = Some P -> (p < length ts)%nat.
Proof. intros vs ts p P H. unfold mesh_tri in H. apply nth_error_Some. destruct (nth_error ts p); [discriminate|discriminate H]. Qed.

Lemma lids_leaves : forall t, length (lids t) = length (tleaves t).
Proof. induction t; cbn; [reflexivity|]. rewrite !app_length. lia. Qed.

Lemma model_hier : forall BV (fit : list v3 -> BV) plus split (inb : BV -> v3 -> Prop),
  (forall l x, In x l -> inb (fit l) x) -> (forall a b x, inb a x -> inb (plus a b) x) -> (forall a b x, inb b x -> inb (plus a b) x) ->
  forall os cs m, proper_history os spec0 -> brun fit plus split os fresh = Some (cs, m) -> a_st (snd (arun os spec0)) = SProcessed -> a_tris (snd (arun os spec0)) <> [] ->
  let a := snd (arun os spec0) in
  (exists t, hier inb m (length (a_tris a)) t) /\ forall p, (p < length (a_tris a))%nat -> tri_at m p = mesh_tri (a_verts a) (a_tris a) p.
Proof.
  intros BV fit plus split inb H1 H2 H3 os cs m Hp E Hs Ht a.
  destruct (P_BvhModel.bvh_protocol v3 BV fit plus split os Hp) as (m' & E' & S1 & S2 & S3 & S4 & S5 & _). rewrite E in E'. injection E' as _ <-. fold a in Hs, Ht, S1, S2, S3, S4, S5 |- *.
  assert (Hst : m_st m = SProcessed) by congruence. specialize (S4 ltac:(rewrite Hs; discriminate)). specialize (S5 (or_introl Hs)).
  assert (Tr : forall p, (p < length (a_tris a))%nat -> tri_at m p = mesh_tri (a_verts a) (a_tris a) p).
  { intros p Lp. unfold tri_at, mesh_tri.
    assert (En : nth_error (m_tris m) p = option_map Some (nth_error (a_tris a) p)).
    { rewrite <- nth_error_map, <- S4. symmetry. rewrite S3. clear -Lp. revert p Lp. generalize (m_tris m) (length (a_tris a)). intros l n. revert n. induction l as [|x l IH]; intros [|n] [|p] Lp; cbn; try lia; try reflexivity. apply IH. lia. }
    rewrite En. destruct (nth_error (a_tris a) p) as [((i, j), k)|]; [|reflexivity]. cbn [option_map].
    assert (Ev : forall i, vert_at m i = nth_error (a_verts a) i) by (intros i0; unfold vert_at; rewrite S5, nth_error_map; destruct (nth_error (a_verts a) i0); reflexivity).
    rewrite !Ev. reflexivity. }
  split; [|exact Tr].
  destruct (P_BvhModel.bvh_processed v3 BV fit plus split inb H1 H2 H3 os Hp cs m E Hst) as (Hn & _ & _ & Pm & t & T1 & T2 & T3 & G). fold a in Hn, Pm, T3, G.
  assert (Ec : prim_count (a_verts a) (a_tris a) = length (a_tris a)) by (unfold prim_count; destruct (a_tris a); [congruence|reflexivity]). rewrite Ec in *.
  exists t. split; [exact T1|]. split; [rewrite T2; exact Pm|]. split; [eapply Permutation_NoDup; [apply Permutation_sym; exact T3|apply seq_NoDup]|].
  split; [rewrite lids_leaves, T2, (Permutation_length Pm), seq_length; reflexivity|].
  eapply good_mono; [exact G|]. intros bv p I B. rewrite T2 in I. apply (Permutation_in _ Pm) in I. apply in_seq in I. split; [lia|].
  intros P x EP HC. rewrite (Tr p ltac:(lia)) in EP. apply B. unfold prim_points. unfold mesh_tri in EP.
  destruct (a_tris a) as [|t0 ts] eqn:Et; [congruence|]. rewrite <- Et in *. destruct (nth_error (a_tris a) p) as [((i, j), k)|]; [|discriminate].
  unfold get1. destruct (nth_error (a_verts a) i) as [A|]; [|discriminate]. destruct (nth_error (a_verts a) j) as [B'|]; [|discriminate]. destruct (nth_error (a_verts a) k) as [C|]; [|discriminate].
  injection EP as <-. cbn in HC. cbn. intuition congruence.
Qed.

Lemma reports_core : forall BV (size : BV -> Z) disjoint (inb : BV -> v3 -> Prop) far enable cost max X X1 X2 (a1 a2 : bvh v3 BV) vs1 ts1 vs2 ts2 fuel,
  0 < far -> ortho (tf_rot X1) -> ortho (tf_rot X) -> (forall y, tf_apply X1 (tf_apply X y) = tf_apply X2 y) ->
  convex inb -> (forall v w y, inb v (tf_apply X y) -> inb w y -> disjoint v w = false) ->
  (exists t, hier inb a1 (length ts1) t) -> (exists t, hier inb a2 (length ts2) t) ->
  (forall p, (p < length ts1)%nat -> tri_at a1 p = mesh_tri vs1 ts1 p) -> (forall p, (p < length ts2)%nat -> tri_at a2 p = mesh_tri vs2 ts2 p) ->
  proper_mesh vs1 ts1 -> proper_mesh vs2 ts2 -> (2 * (length ts1 * length ts2) <= fuel)%nat -> (1 <= max)%nat ->
  exists R, mesh_collide size disjoint far enable cost max X X1 a1 a2 fuel = Some (None, R) /\ reports enable max X1 X2 vs1 ts1 vs2 ts2 R.
Proof.
  intros BV size disjoint inb far enable cost max X X1 X2 a1 a2 vs1 ts1 vs2 ts2 fuel Hf O1 OX HX Cv Ds (t1 & H1) (t2 & H2) E1 E2 (_ & P1) (_ & P2) Hfu Hm.
  destruct (core BV size disjoint inb far enable cost max X X1 X2 a1 a2 (length ts1) (length ts2) t1 t2 fuel) as (R & Run & L & I & C & A); try assumption.
  { intros p Lp. rewrite (E1 p Lp). auto. } { intros p Lp. rewrite (E2 p Lp). auto. }
  exists R. split; [exact Run|]. split; [exact L|]. split; [|split].
  - rewrite I. split; intros (x & y & (p & P & Hp) & (q & Q & Hq) & E).
    + exists x, y. destruct Hp as (Lp & EP & Ix), Hq as (Lq & EQ & Iy). rewrite E1 in EP by exact Lp. rewrite E2 in EQ by exact Lq. split; [exists p, P; auto|]. split; [exists q, Q; auto|exact E].
    + destruct Hp as (EP & Ix), Hq as (EQ & Iy). pose proof (mesh_tri_lt _ _ _ _ EP) as Lp. pose proof (mesh_tri_lt _ _ _ _ EQ) as Lq. exists x, y.
      split; [exists p, P; rewrite (E1 p Lp); auto|]. split; [exists q, Q; rewrite (E2 q Lq); auto|exact E].
  - intros c Ic. destruct (C c Ic) as (P & Q & Lp & Lq & EP & EQ & Hc). rewrite E1 in EP by exact Lp. rewrite E2 in EQ by exact Lq. exists P, Q. auto.
  - intros Lr p q P Q EP EQ M. pose proof (mesh_tri_lt _ _ _ _ EP) as Lp. pose proof (mesh_tri_lt _ _ _ _ EQ) as Lq. apply (A Lr p q P Q Lp Lq); [rewrite E1 by exact Lp; exact EP|rewrite E2 by exact Lq; exact EQ|exact M].
Qed.

(** ** OBB *)
(** no step of the history refits the hierarchy (OBB's operator + need not enclose, C42) *)
Definition no_refit (o : bop v3) : Prop := match o with OEndReplace r _ => r = false | OEndUpdate _ _ => False | _ => True end.
Lemma brun_plus : forall BV (fit : list v3 -> BV) plus plus' split os m, Forall no_refit os -> brun fit plus split os m = brun fit plus' split os m.
Proof.
  intros BV fit plus plus' split os. induction os as [|o os IH]; intros m H; [reflexivity|]. inversion H as [|? ? Ho Hos]; subst. cbn [brun].
  assert (E : bstep fit plus split o m = bstep fit plus' split o m).
  { destruct o; cbn in Ho; try contradiction; subst; reflexivity. }
  rewrite E. destruct (bstep fit plus' split o m) as [(c, m')|]; [|reflexivity]. rewrite (IH m' Hos). reflexivity.
Qed.

(** the volumes: orthonormal axes *)
Definition in_obb (b : obb) (x : v3) : Prop := ortho (ax b) /\ inobb b x.
Definition hull_obb (a b : obb) : obb :=
  let L := Rabs (c0 (ext a)) + Rabs (c1 (ext a)) + Rabs (c2 (ext a)) + (Rabs (c0 (ext b)) + Rabs (c1 (ext b)) + Rabs (c2 (ext b))) + dist (oc a) (oc b) in
  mkobb mid (oc a) (mk3 L L L).
Lemma obb_near : forall b x, in_obb b x -> dist (oc b) x <= Rabs (c0 (ext b)) + Rabs (c1 (ext b)) + Rabs (c2 (ext b)).
Proof.
  intros b x (O & u0 & u1 & u2 & A & B & C & ->). unfold dist. replace (vsub (oc b) (vadd (oc b) (mapply (ax b) (mk3 u0 u1 u2)))) with (vneg (mapply (ax b) (mk3 u0 u1 u2))) by (generalize (mapply (ax b) (mk3 u0 u1 u2)) (oc b); clear; vring).
  assert (E : norm (vneg (mapply (ax b) (mk3 u0 u1 u2))) = norm (mk3 u0 u1 u2)).
  { unfold norm. f_equal. transitivity (norm2 (mapply (ax b) (mk3 u0 u1 u2))); [generalize (mapply (ax b) (mk3 u0 u1 u2)); clear; vring|apply mapply_norm2, O]. }
  rewrite E. assert (Ab : forall u e, - e <= u <= e -> Rabs u <= Rabs e) by (intros u e H; rewrite (Rabs_pos_eq e) by lra; apply Rabs_le; lra).
  specialize (Ab u0 _ A) as A0. specialize (Ab u1 _ B) as A1. specialize (Ab u2 _ C) as A2.
  apply Rle_trans with (Rabs u0 + Rabs u1 + Rabs u2); [|lra].
  pose proof (Rabs_pos u0). pose proof (Rabs_pos u1). pose proof (Rabs_pos u2).
  unfold norm. apply Rsqr_incr_0_var; [|lra]. rewrite Rsqr_sqrt by apply VecR.norm2_nonneg. unfold Rsqr, norm2, dot. cbn [c0 c1 c2].
  assert (S : forall u, u * u = Rabs u * Rabs u) by (intros u; rewrite <- Rabs_mult; symmetry; apply Rabs_pos_eq; apply Rle_0_sqr).
  rewrite (S u0), (S u1), (S u2). assert (0 <= Rabs u0 * Rabs u1) by (apply Rmult_le_pos; lra). assert (0 <= Rabs u0 * Rabs u2) by (apply Rmult_le_pos; lra). assert (0 <= Rabs u1 * Rabs u2) by (apply Rmult_le_pos; lra). lra.
Qed.
Lemma hull_in : forall (a : obb) x L, dist (oc a) x <= L -> in_obb (mkobb mid (oc a) (mk3 L L L)) x.
Proof.
  intros a x L H. split; [apply ortho_mid|]. cbn [ax].
  assert (K : forall v, norm v <= L -> - L <= c0 v <= L /\ - L <= c1 v <= L /\ - L <= c2 v <= L).
  { intros v Hv. assert (Q : forall t, t * t <= norm2 v -> - L <= t <= L).
    { intros t Ht. assert (Rabs t <= norm v) by (unfold norm; rewrite <- sqrt_Rsqr_abs; apply sqrt_le_1_alt; unfold Rsqr; exact Ht). assert (Hr : Rabs t <= L) by lra. clear -Hr. unfold Rabs in Hr. destruct (Rcase_abs t); lra. }
    unfold norm2, dot in Q. pose proof (Rle_0_sqr (c0 v)). pose proof (Rle_0_sqr (c1 v)). pose proof (Rle_0_sqr (c2 v)). unfold Rsqr in *. repeat split; apply Q; lra. }
  destruct (K (vsub x (oc a))) as (K0 & K1 & K2).
  { unfold dist in H. replace (norm (vsub x (oc a))) with (norm (vsub (oc a) x)); [exact H|]. unfold norm. f_equal. clear. vring. }
  exists (c0 (vsub x (oc a))), (c1 (vsub x (oc a))), (c2 (vsub x (oc a))). cbn [ext oc ax c0 c1 c2]. split; [exact K0|]. split; [exact K1|]. split; [exact K2|].
  clear. destruct x, (oc a). unfold mapply, mid, vadd, vsub, vscale, dot. cbn. f_equal; ring.
Qed.
Lemma obb_convex : convex in_obb.
Proof.
  intros b ((A, B), C) x H I. destruct (H A) as (O & a0 & a1 & a2 & HA0 & HA1 & HA2 & EA); [cbn; tauto|]. destruct (H B) as (_ & b0 & b1 & b2 & HB0 & HB1 & HB2 & EB); [cbn; tauto|]. destruct (H C) as (_ & d0 & d1 & d2 & HC0 & HC1 & HC2 & EC); [cbn; tauto|].
  split; [exact O|]. cbn in I. destruct I as (u & v & w & Hu & Hv & Hw & S & ->). exists (u * a0 + v * b0 + w * d0), (u * a1 + v * b1 + w * d1), (u * a2 + v * b2 + w * d2).
  assert (K : forall e x y z, - e <= x <= e -> - e <= y <= e -> - e <= z <= e -> - e <= u * x + v * y + w * z <= e).
  { intros e x y z Hx Hy Hz. assert (0 <= u * (e - x)) by (apply Rmult_le_pos; lra). assert (0 <= v * (e - y)) by (apply Rmult_le_pos; lra). assert (0 <= w * (e - z)) by (apply Rmult_le_pos; lra).
    assert (0 <= u * (e + x)) by (apply Rmult_le_pos; lra). assert (0 <= v * (e + y)) by (apply Rmult_le_pos; lra). assert (0 <= w * (e + z)) by (apply Rmult_le_pos; lra).
    assert (u * e + v * e + w * e = e) by (replace w with (1 - u - v) by lra; ring). lra. }
  split; [apply K; assumption|]. split; [apply K; assumption|]. split; [apply K; assumption|]. rewrite EA, EB, EC. replace w with (1 - u - v) by lra.
  generalize (ax b) (oc b). clear. intros [[] [] []] []. unfold mapply, vadd, vscale, dot. cbn. f_equal; ring.
Qed.

(** Any OBB fit that encloses the points it is given (C60), any split rule; the models are built by any two
    proper histories without refitting, their triangles are not flat; for rigid placements, collide() answers
    whether the placed surfaces have a common point, and every contact describes an intersecting pair. *)
Theorem mesh_obb_collide : forall (fit : list v3 -> obb) plus split1 split2 size far enable cost max X1 X2 os1 os2 cs1 cs2 m1 m2 fuel,
  (forall l, ortho (ax (fit l)) /\ forall x, In x l -> inobb (fit l) x) ->
  0 < far -> ortho (tf_rot X1) -> ortho (tf_rot X2) -> (1 <= max)%nat ->
  proper_history os1 spec0 -> proper_history os2 spec0 -> Forall no_refit os1 -> Forall no_refit os2 ->
  brun fit plus split1 os1 fresh = Some (cs1, m1) -> brun fit plus split2 os2 fresh = Some (cs2, m2) ->
  let g1 := snd (arun os1 spec0) in let g2 := snd (arun os2 spec0) in
  a_st g1 = SProcessed -> a_st g2 = SProcessed -> proper_mesh (a_verts g1) (a_tris g1) -> proper_mesh (a_verts g2) (a_tris g2) ->
  (2 * (length (a_tris g1) * length (a_tris g2)) <= fuel)%nat ->
  let X := rel_tf X1 X2 in
  exists R, mesh_collide size (fun v w => negb (obb_overlap_rt (tf_rot X) (tf_tr X) v w)) far enable cost max X X1 m1 m2 fuel = Some (None, R) /\
    reports enable max X1 X2 (a_verts g1) (a_tris g1) (a_verts g2) (a_tris g2) R.
Proof.
  intros fit plus split1 split2 size far enable cost max X1 X2 os1 os2 cs1 cs2 m1 m2 fuel Hfit Hf O1 O2 Hm H1 H2 R1 R2 B1 B2 g1 g2 S1 S2 P1 P2 Hfu X.
  rewrite (brun_plus _ fit plus hull_obb) in B1 by exact R1. rewrite (brun_plus _ fit plus hull_obb) in B2 by exact R2.
  assert (F1 : forall l x, In x l -> in_obb (fit l) x) by (intros l x I; split; [apply Hfit|apply Hfit, I]).
  assert (F2 : forall a b x, in_obb a x -> in_obb (hull_obb a b) x).
  { intros a b x I. apply hull_in. apply obb_near in I. pose proof (Rabs_pos (c0 (ext b))). pose proof (Rabs_pos (c1 (ext b))). pose proof (Rabs_pos (c2 (ext b))). pose proof (norm_nonneg (vsub (oc a) (oc b))). unfold dist in *. lra. }
  assert (F3 : forall a b x, in_obb b x -> in_obb (hull_obb a b) x).
  { intros a b x I. apply hull_in. apply obb_near in I. pose proof (Rabs_pos (c0 (ext a))). pose proof (Rabs_pos (c1 (ext a))). pose proof (Rabs_pos (c2 (ext a))). pose proof (dist_triangle (oc a) (oc b) x). lra. }
  destruct (model_hier obb fit hull_obb split1 in_obb F1 F2 F3 os1 cs1 m1 H1 B1 S1 (proj1 P1)) as (T1 & E1). destruct (model_hier obb fit hull_obb split2 in_obb F1 F2 F3 os2 cs2 m2 H2 B2 S2 (proj1 P2)) as (T2 & E2).
  apply (reports_core obb size _ in_obb); try assumption.
  - apply rel_ortho; assumption.
  - intros y. apply rel_apply, O1.
  - exact obb_convex.
  - intros v w y (Ov & Iv) (Ow & Iw). rewrite (P_Obb.obb_overlap_rt_sound (tf_rot X) (tf_tr X) v w y); auto. apply rel_ortho; assumption.
Qed.
Print Assumptions mesh_obb_collide.

(** ** AABB *)
Definition tf_id : tf := mktf mid vzero.
Lemma tf_id_apply : forall x, tf_apply tf_id x = x.
Proof. intros []. unfold tf_apply, tf_id, mapply, mid, vadd, vzero, dot. cbn. f_equal; ring. Qed.
Lemma map3_id : forall P, map3 tf_id P = P.
Proof. intros ((a, b), c). unfold map3. rewrite !tf_id_apply. reflexivity. Qed.

Lemma arun_app : forall os1 os2 (a : spec v3), snd (arun (os1 ++ os2) a) = snd (arun os2 (snd (arun os1 a))).
Proof.
  induction os1 as [|o os1 IH]; intros os2 a; [reflexivity|]. cbn [app arun]. destruct (astep o a) as (c, a1). specialize (IH os2 a1).
  destruct (arun (os1 ++ os2) a1) as (u, b), (arun os1 a1) as (u', b'). cbn [snd] in *. exact IH.
Qed.
Lemma proper_app : forall os1 os2 (a : spec v3), proper_history os1 a -> proper_history os2 (snd (arun os1 a)) -> proper_history (os1 ++ os2) a.
Proof.
  induction os1 as [|o os1 IH]; intros os2 a H1 H2; [exact H2|]. cbn [app proper_history]. destruct H1 as (Ho & H1). split; [exact Ho|]. apply IH; [exact H1|].
  cbn [arun] in H2. destruct (astep o a) as (c, a1). cbn [snd] in *. destruct (arun os1 a1). exact H2.
Qed.

(** the calls made on a model placed by X: none for the identity *)
Definition placing (X : tf) (vs : list v3) (ops : list (bop v3)) : Prop := (X = tf_id /\ ops = []) \/ exists refit bottomup, ops = to_world X vs refit bottomup.
Lemma placing_spec : forall X os ops, proper_history os spec0 -> let g := snd (arun os spec0) in a_st g = SProcessed -> placing X (a_verts g) ops ->
  proper_history (os ++ ops) spec0 /\ let g' := snd (arun (os ++ ops) spec0) in a_st g' = SProcessed /\ a_tris g' = a_tris g /\ a_verts g' = map (tf_apply X) (a_verts g).
Proof.
  intros X os ops H g S [(-> & ->)|(r & b & ->)].
  - rewrite app_nil_r. split; [exact H|]. fold g. split; [exact S|]. split; [reflexivity|]. symmetry. erewrite map_ext; [apply map_id|exact tf_id_apply].
  - rewrite arun_app. fold g. destruct g as [st vs ts old new] eqn:Eg. cbn in S. subst st. split.
    + apply proper_app; [exact H|]. fold g. rewrite Eg. cbn. split; [exact I|]. split; [intros _; rewrite map_length; lia|]. split; [exact I|exact I].
    + cbn. rewrite map_length, Nat.eqb_refl. cbn. auto.
Qed.

Lemma mesh_tri_map : forall X vs ts p, mesh_tri (map (tf_apply X) vs) ts p = option_map (map3 X) (mesh_tri vs ts p).
Proof.
  intros X vs ts p. unfold mesh_tri. destruct (nth_error ts p) as [((i, j), k)|]; [|reflexivity]. rewrite !nth_error_map.
  destruct (nth_error vs i), (nth_error vs j), (nth_error vs k); reflexivity.
Qed.
Lemma proper_map : forall X vs ts, ortho (tf_rot X) -> proper_mesh vs ts -> proper_mesh (map (tf_apply X) vs) ts.
Proof.
  intros X vs ts O (N & H). split; [exact N|]. intros p Lp. destruct (H p Lp) as (P & E & Pr). exists (map3 X P). rewrite mesh_tri_map, E. split; [reflexivity|]. destruct P as ((a, b), c). apply (P_TriSat.rot_proper X a b c O Pr).
Qed.
Lemma surface_map : forall X vs ts z, mesh_surface (map (tf_apply X) vs) ts z <-> exists x, mesh_surface vs ts x /\ z = tf_apply X x.
Proof.
  intros X vs ts z. split.
  - intros (p & P & E & I). rewrite mesh_tri_map in E. destruct (mesh_tri vs ts p) as [P0|] eqn:E0; [|discriminate]. injection E as <-. apply in3_map in I. destruct I as (y & Iy & ->). exists y. split; [exists p, P0; auto|reflexivity].
  - intros (x & (p & P & E & I) & ->). exists p, (map3 X P). rewrite mesh_tri_map, E. split; [reflexivity|]. apply in3_map. exists x. auto.
Qed.

Lemma rmin_spec : forall a b x, a <= x \/ b <= x -> Rmin a b <= x.
Proof. intros a b x H. unfold Rmin. destruct (Rle_dec a b); lra. Qed.
Lemma rmax_spec : forall a b x, x <= a \/ x <= b -> x <= Rmax a b.
Proof. intros a b x H. unfold Rmax. destruct (Rle_dec a b); lra. Qed.
Definition in_box (b : boxR) (x : v3) : Prop := in_boxR x b.
Lemma box_plus_l : forall a b x, in_box a x -> in_box (box_plus a b) x.
Proof. intros a b x H. unfold in_box, in_boxR, box_plus, rmin3, rmax3 in *. cbn. destruct H as ((A & B) & (C & D) & E & F). repeat split; first [apply rmin_spec|apply rmax_spec]; left; assumption. Qed.
Lemma box_plus_r : forall a b x, in_box b x -> in_box (box_plus a b) x.
Proof. intros a b x H. unfold in_box, in_boxR, box_plus, rmin3, rmax3 in *. cbn. destruct H as ((A & B) & (C & D) & E & F). repeat split; first [apply rmin_spec|apply rmax_spec]; right; assumption. Qed.
Lemma box_fit_in : forall big l x, In x l -> in_box (box_fit big l) x.
Proof.
  intros big l x I. unfold box_fit. generalize (BoxR (mk3 big big big) (mk3 (- big) (- big) (- big))).
  assert (K : forall l b, in_box b x -> in_box (fold_left box_add l b) x).
  { clear. induction l as [|y l IH]; intros b H; [exact H|]. cbn. apply IH. apply (box_plus_l b (BoxR y y)). exact H. }
  induction l as [|y l IH]; intros b; [destruct I|]. cbn. destruct I as [->|I]; [|apply IH, I]. apply K. apply (box_plus_r b (BoxR x x)). unfold in_box, in_boxR. cbn. lra.
Qed.
Lemma box_convex : convex in_box.
Proof.
  intros b ((A, B), C) x H I. assert (HA := H A ltac:(cbn; tauto)). assert (HB := H B ltac:(cbn; tauto)). assert (HC := H C ltac:(cbn; tauto)). clear H. cbn in I. destruct I as (u & v & w & Hu & Hv & Hw & S & ->).
  assert (K : forall l h x y z, l <= x <= h -> l <= y <= h -> l <= z <= h -> l <= u * x + v * y + w * z <= h).
  { intros l h x y z Hx Hy Hz. assert (0 <= u * (h - x)) by (apply Rmult_le_pos; lra). assert (0 <= v * (h - y)) by (apply Rmult_le_pos; lra). assert (0 <= w * (h - z)) by (apply Rmult_le_pos; lra).
    assert (0 <= u * (x - l)) by (apply Rmult_le_pos; lra). assert (0 <= v * (y - l)) by (apply Rmult_le_pos; lra). assert (0 <= w * (z - l)) by (apply Rmult_le_pos; lra).
    assert (u * h + v * h + w * h = h) by (replace w with (1 - u - v) by lra; ring). assert (u * l + v * l + w * l = l) by (replace w with (1 - u - v) by lra; ring). lra. }
  unfold in_box, in_boxR in *. cbn. destruct HA as (A0 & A1 & A2), HB as (B0 & B1 & B2), HC as (C0 & C1 & C2).
  split; [apply K; assumption|]. split; apply K; assumption.
Qed.
Lemma box_overlap_in : forall v w y, in_box v y -> in_box w y -> box_overlap v w = true.
Proof. intros v w y H1 H2. unfold in_box, in_boxR in *. unfold box_overlap. repeat (destruct (Rlt_dec _ _); [exfalso; lra|]). reflexivity. Qed.

(** The same for AABB, whose models are first moved into the world frame, with or without refitting. *)
Theorem mesh_aabb_collide : forall big split1 split2 size far enable cost max X1 X2 os1 os2 ops1 ops2 cs1 cs2 m1 m2 fuel,
  0 < far -> ortho (tf_rot X1) -> ortho (tf_rot X2) -> (1 <= max)%nat ->
  proper_history os1 spec0 -> proper_history os2 spec0 ->
  let g1 := snd (arun os1 spec0) in let g2 := snd (arun os2 spec0) in
  a_st g1 = SProcessed -> a_st g2 = SProcessed -> proper_mesh (a_verts g1) (a_tris g1) -> proper_mesh (a_verts g2) (a_tris g2) ->
  placing X1 (a_verts g1) ops1 -> placing X2 (a_verts g2) ops2 ->
  brun (box_fit big) box_plus split1 (os1 ++ ops1) fresh = Some (cs1, m1) -> brun (box_fit big) box_plus split2 (os2 ++ ops2) fresh = Some (cs2, m2) ->
  (2 * (length (a_tris g1) * length (a_tris g2)) <= fuel)%nat ->
  exists R, mesh_collide size (fun v w => negb (box_overlap v w)) far enable cost max tf_id tf_id m1 m2 fuel = Some (None, R) /\
    reports enable max X1 X2 (a_verts g1) (a_tris g1) (a_verts g2) (a_tris g2) R.
Proof.
  intros big split1 split2 size far enable cost max X1 X2 os1 os2 ops1 ops2 cs1 cs2 m1 m2 fuel Hf O1 O2 Hm H1 H2 g1 g2 S1 S2 P1 P2 W1 W2 B1 B2 Hfu.
  destruct (placing_spec X1 os1 ops1 H1 S1 W1) as (K1 & St1 & Ts1 & Vs1). destruct (placing_spec X2 os2 ops2 H2 S2 W2) as (K2 & St2 & Ts2 & Vs2). fold g1 in Ts1, Vs1. fold g2 in Ts2, Vs2.
  destruct (model_hier boxR (box_fit big) box_plus split1 in_box (box_fit_in big) box_plus_l box_plus_r _ cs1 m1 K1 B1 St1) as (T1 & E1); [rewrite Ts1; apply P1|].
  destruct (model_hier boxR (box_fit big) box_plus split2 in_box (box_fit_in big) box_plus_l box_plus_r _ cs2 m2 K2 B2 St2) as (T2 & E2); [rewrite Ts2; apply P2|].
  rewrite Ts1, Vs1 in *. rewrite Ts2, Vs2 in *.
  destruct (reports_core boxR size (fun v w => negb (box_overlap v w)) in_box far enable cost max tf_id tf_id tf_id m1 m2 (map (tf_apply X1) (a_verts g1)) (a_tris g1) (map (tf_apply X2) (a_verts g2)) (a_tris g2) fuel) as (R & Run & L & I & C & A);
    try assumption; try apply ortho_mid; try (apply proper_map; assumption).
  - intros y. rewrite !tf_id_apply. reflexivity.
  - exact box_convex.
  - intros v w y Iv Iw. rewrite tf_id_apply in Iv. rewrite (box_overlap_in v w y Iv Iw). reflexivity.
  - exists R. split; [exact Run|]. split; [exact L|]. split; [|split].
    + rewrite I. split.
      * intros (x & y & Sx & Sy & E). rewrite !tf_id_apply in E. subst y. apply surface_map in Sx. apply surface_map in Sy. destruct Sx as (x' & Sx & ->), Sy as (y' & Sy & E). exists x', y'. auto.
      * intros (x & y & Sx & Sy & E). exists (tf_apply X1 x), (tf_apply X2 y). split; [apply surface_map; eauto|]. split; [apply surface_map; eauto|]. rewrite E. reflexivity.
    + intros c Ic. destruct (C c Ic) as (P & Q & EP & EQ & Hc). rewrite mesh_tri_map in EP, EQ. destruct (mesh_tri _ _ (w1 c)) as [P0|]; [|discriminate]. destruct (mesh_tri _ _ (w2 c)) as [Q0|]; [|discriminate].
      injection EP as <-. injection EQ as <-. rewrite !map3_id in Hc. exists P0, Q0. auto.
    + intros Lr p q P Q EP EQ (x & Ix & Iy). apply (A Lr p q (map3 X1 P) (map3 X2 Q)); [rewrite mesh_tri_map, EP; reflexivity|rewrite mesh_tri_map, EQ; reflexivity|]. rewrite !map3_id. exists x. auto.
Qed.
Print Assumptions mesh_aabb_collide.

(** ** The statements are about something *)
(** one triangle each; the second one crosses the first only once moved by -5 along x *)
Definition one (a b c : v3) : list (bop v3) := [OBegin 0 0; OTriangle a b c; OEnd].
Definition E1 : list (bop v3) := one (mk3 (-10) (-10) 0) (mk3 10 (-10) 0) (mk3 0 10 0).
Definition E2 : list (bop v3) := one (mk3 5 0 1) (mk3 4 0 (-10)) (mk3 6 0 (-10)).
Definition EX : tf := mktf mid (mk3 (-5) 0 0).

Lemma one_proper : forall a b c, cross (vsub b a) (vsub c a) <> vzero -> proper_history (one a b c) spec0 /\ a_st (snd (arun (one a b c) spec0)) = SProcessed /\ proper_mesh (a_verts (snd (arun (one a b c) spec0))) (a_tris (snd (arun (one a b c) spec0))).
Proof.
  intros a b c H. cbn. split; [tauto|]. split; [reflexivity|]. split; [discriminate|]. intros p Lp. cbn in Lp. assert (p = 0)%nat as -> by lia. exists (a, b, c). split; [reflexivity|exact H].
Qed.
Example mesh_case : forall big split1 split2 size enable cost max, (1 <= max)%nat -> exists cs1 cs2 m1 m2 R,
  brun (box_fit big) box_plus split1 E1 fresh = Some (cs1, m1) /\ brun (box_fit big) box_plus split2 (E2 ++ to_world EX [mk3 5 0 1; mk3 4 0 (-10); mk3 6 0 (-10)] true true) fresh = Some (cs2, m2) /\
  mesh_collide size (fun v w => negb (box_overlap v w)) 1 enable cost max tf_id tf_id m1 m2 2 = Some (None, R) /\ R <> [].
Proof.
  intros big split1 split2 size enable cost max Hm.
  destruct (one_proper (mk3 (-10) (-10) 0) (mk3 10 (-10) 0) (mk3 0 10 0)) as (A1 & A2 & A3); [intros C; unfold cross, vsub in C; cbn in C; injection C; lra|].
  destruct (one_proper (mk3 5 0 1) (mk3 4 0 (-10)) (mk3 6 0 (-10))) as (B1 & B2 & B3); [intros C; unfold cross, vsub in C; cbn in C; injection C; lra|].
  assert (W1 : placing tf_id (a_verts (snd (arun E1 spec0))) []) by (left; auto).
  assert (W2 : placing EX (a_verts (snd (arun E2 spec0))) (to_world EX [mk3 5 0 1; mk3 4 0 (-10); mk3 6 0 (-10)] true true)) by (right; exists true, true; reflexivity).
  destruct (P_BvhModel.bvh_protocol v3 boxR (box_fit big) box_plus split1 E1 A1) as (m1 & R1 & _).
  destruct (placing_spec EX E2 _ B1 B2 W2) as (K & _).
  destruct (P_BvhModel.bvh_protocol v3 boxR (box_fit big) box_plus split2 _ K) as (m2 & R2 & _).
  assert (R1' := R1). rewrite <- (app_nil_r E1) in R1'.
  destruct (mesh_aabb_collide big split1 split2 size 1 enable cost max tf_id EX E1 E2 [] _ _ _ m1 m2 2 ltac:(lra) ortho_mid ortho_mid Hm A1 B1 A2 B2 A3 B3 W1 W2 R1' R2 ltac:(cbn; lia)) as (R & Run & _ & I & _).
  exists (fst (arun E1 spec0)), (fst (arun (E2 ++ to_world EX [mk3 5 0 1; mk3 4 0 (-10); mk3 6 0 (-10)] true true) spec0)), m1, m2, R.
  split; [exact R1|]. split; [exact R2|]. split; [exact Run|]. apply I. exists (mk3 0 0 0), (mk3 5 0 0). split; [|split].
  - exists 0%nat. eexists. split; [reflexivity|]. cbn. exists (1/4), (1/4), (1/2). unfold vadd, vscale. cbn. split; [lra|]. split; [lra|]. split; [lra|]. split; [lra|]. f_equal; lra.
  - exists 0%nat. eexists. split; [reflexivity|]. cbn. exists (10/11), (1/22), (1/22). unfold vadd, vscale. cbn. split; [lra|]. split; [lra|]. split; [lra|]. split; [lra|]. f_equal; lra.
  - rewrite tf_id_apply. unfold tf_apply, EX, mapply, mid, vadd, dot. cbn. f_equal; lra.
Qed.
