(** C58: conservative advancement and the sampling solver. *)
From Coq Require Import Reals Lra Psatz List ZArith Lia.
From Verif Require Import VecR Motion P_Motion Advance.
Import ListNotations.
Open Scope R_scope.

(** The motion bounds bound the motions at every time. *)
Definition mb_ok (A B : body) (s : scene) : Prop := forall t n, 0 <= t <= 1 ->
  bounds (path1 s) n A t (mb1 s t n) /\ bounds (path2 s) n B t (mb2 s t n).
Definition scene_ok (A B : body) (s : scene) : Prop :=
  convex A /\ convex B /\ near_ok A B (near s) /\ hit_ok A B (hit s) /\ mb_ok A B s.
Definition apart (A B : body) (s : scene) (t : R) : Prop := ~ meet A B (path1 s t) (path2 s t).

(** One round never steps over a contact. *)
Lemma round_safe : forall A B s t, scene_ok A B s -> 0 <= t <= 1 -> apart A B s t ->
  forall u, t <= u <= 1 -> u < t + round vneg s t -> apart A B s u.
Proof.
  intros A B s t (CA & CB & NO & _ & MB) Ht NM u Hu L (x & y & Hx & Hy & E). unfold round in L.
  destruct (near s (path1 s t) (path2 s t)) as [[d x1] x2] eqn:EN.
  destruct (near_separates A B _ _ _ d x1 x2 CA CB NO EN NM) as (Hd & _ & SEP).
  specialize (SEP x y Hx Hy). unfold leaf in L. set (n := normal x1 x2) in *.
  destruct (MB t n Ht) as [B1 _]. destruct (MB t (vneg n) Ht) as [_ B2].
  specialize (B1 x u Hx Hu). specialize (B2 y u Hy Hu). set (b1 := mb1 s t n) in *. set (b2 := mb2 s t (vneg n)) in *. clearbody b1 b2 n.
  rewrite E in B1.
  assert (K : dot n (vsub (tf_apply (path2 s u) y) (tf_apply (path1 s t) x)) + dot (vneg n) (vsub (tf_apply (path2 s u) y) (tf_apply (path2 s t) y))
     = dot n (vsub (tf_apply (path2 s t) y) (tf_apply (path1 s t) x))).
  { generalize (tf_apply (path2 s u) y) (tf_apply (path2 s t) y) (tf_apply (path1 s t) x). vring. }
  assert (F : d <= (u - t) * (b1 + b2)) by lra. clear K B1 B2 SEP.
  destruct (Rle_dec (b1 + b2) d) as [Q|Q].
  - destruct (Rlt_dec 1 1); [lra|]. assert (u - t < 1) by lra. nra.
  - assert (P : 0 < b1 + b2) by lra. destruct (Req_EM_T (b1 + b2) 0); [lra|].
    assert (W : u - t < d / (b1 + b2)) by (destruct (Rlt_dec (d / (b1 + b2)) 1); lra).
    apply (Rmult_lt_compat_r (b1 + b2)) in W; [|assumption].
    replace (d / (b1 + b2) * (b1 + b2)) with d in W by (field; lra). lra.
Qed.

(** At a contact a round ends the loop. *)
Lemma round_contact : forall A B s t, scene_ok A B s -> 0 <= t <= 1 -> meet A B (path1 s t) (path2 s t) ->
  (forall n, n = vzero -> mb1 s t n = 0 /\ mb2 s t n = 0) -> round vneg s t <= t_err.
Proof.
  intros A B s t (_ & _ & NO & _ & _) Ht M Z. unfold round. specialize (NO (path1 s t) (path2 s t)).
  destruct (near s (path1 s t) (path2 s t)) as [[d x1] x2]. destruct NO as [NO _]. destruct (NO M) as [Hd <-].
  assert (N : normal x1 x1 = vzero).
  { unfold normal. replace (vsub x1 x1) with vzero by vring. destruct (Rlt_dec _ _) as [L|]; [|reflexivity]. unfold vzero, norm2, dot in L. cbn in L. lra. }
  unfold leaf. rewrite N. destruct (Z vzero eq_refl) as [-> _].
  assert (NZ : vneg vzero = vzero) by (unfold vneg, vzero; cbn; f_equal; ring). rewrite NZ. destruct (Z vzero eq_refl) as [_ ->].
  rewrite Rplus_0_r. destruct (Rle_dec 0 d); [lra|]. destruct (Req_EM_T 0 0); [|lra]. pose proof t_err_pos. destruct (Rlt_dec (-1) 1); lra.
Qed.

(** The bounds of a zero direction are zero (all motions of the library have this). *)
Definition mb_zero (s : scene) : Prop := forall t, mb1 s t vzero = 0 /\ mb2 s t vzero = 0.

Lemma loop_safe : forall A B s, scene_ok A B s -> mb_zero s -> forall fuel t toc, 0 <= t <= 1 ->
  (forall u, 0 <= u < t -> apart A B s u) -> ca_loop vneg fuel s t t = Some toc ->
  t <= toc <= 1 /\ (forall u, 0 <= u < toc -> apart A B s u) /\ (toc < 1 -> round vneg s toc <= t_err).
Proof.
  intros A B s OK Z. induction fuel as [|fuel IH]; cbn [ca_loop]; intros t toc Ht H E; [discriminate|].
  destruct (Rle_dec (round vneg s t) t_err) as [L|L].
  - injection E as <-. split; [lra|]. split; [exact H|intros _; exact L].
  - assert (AT : apart A B s t).
    { intros M. apply L. eapply round_contact; try eassumption. intros n ->. apply Z. }
    assert (P : 0 < round vneg s t) by (pose proof t_err_pos; lra).
    assert (ST : forall u, 0 <= u -> u < t + round vneg s t -> u <= 1 -> apart A B s u).
    { intros u U0 U1 U2. destruct (Rlt_dec u t) as [X|X]; [apply H; lra|]. eapply round_safe; try eassumption; lra. }
    destruct (Rlt_dec 1 (t + round vneg s t)) as [G|G].
    + injection E as <-. split; [lra|]. split; [intros u Hu; apply ST; lra|lra].
    + assert (X : 0 <= t + round vneg s t <= 1) by lra.
      destruct (IH _ _ X ltac:(intros u Hu; apply ST; lra) E) as (I1 & I2 & I3). split; [lra|]. split; assumption.
Qed.

(** Started at the beginning of the motions, the solver reports no contact too late: the
    bodies are apart at all times before the one returned.  It returns false only if
    they are apart at all times before the end.  If it returns true, the bodies meet at
    the start or the last round, at the time returned, left less than the tolerance. *)
Theorem advancement_sound : forall A B s fuel ans toc, scene_ok A B s -> mb_zero s ->
  ca_run vneg fuel s 0 = Some (ans, toc) ->
  0 <= toc <= 1 /\ (forall u, 0 <= u < toc -> apart A B s u) /\ (ans = false -> toc = 1) /\
  (ans = true -> toc < 1 /\ (meet A B (path1 s toc) (path2 s toc) \/ round vneg s toc <= t_err)).
Proof.
  intros A B s fuel ans toc OK Z E. unfold ca_run in E. pose proof OK as (_ & _ & _ & HO & _).
  destruct (hit s (path1 s 0) (path2 s 0)) eqn:Hh.
  - injection E as <- <-. split; [lra|]. split; [intros; lra|]. split; [discriminate|]. intros _. split; [lra|]. left. apply HO. exact Hh.
  - destruct (ca_loop vneg fuel s 0 0) as [x|] eqn:EL; [|discriminate]. injection E as E1 <-.
    destruct (loop_safe A B s OK Z fuel 0 x ltac:(lra) ltac:(intros; lra) EL) as (H1 & H2 & H3).
    split; [lra|]. split; [exact H2|]. subst ans. destruct (Rlt_dec x 1) as [L|L].
    + split; [discriminate|]. intros _. split; [exact L|right; apply H3; exact L].
    + split; [intros _; lra|discriminate].
Qed.
Print Assumptions advancement_sound.

(** So no contact before the end is missed: it is reported, and not after its time. *)
Theorem advancement_complete : forall A B s fuel ans toc u, scene_ok A B s -> mb_zero s ->
  ca_run vneg fuel s 0 = Some (ans, toc) -> 0 <= u < 1 -> meet A B (path1 s u) (path2 s u) -> ans = true /\ toc <= u.
Proof.
  intros A B s fuel ans toc u OK Z E Hu M. destruct (advancement_sound A B s fuel ans toc OK Z E) as (H0 & H1 & H2 & _).
  assert (L : toc <= u) by (apply Rnot_lt_le; intros L; apply (H1 u); [lra|exact M]). split; [|exact L].
  destruct ans; [reflexivity|]. specialize (H2 eq_refl). lra.
Qed.
Print Assumptions advancement_complete.

(** A reported time is almost a contact: unless the bodies meet there, their distance is at
    most the tolerance times the bound on their approach. *)
Theorem advancement_close : forall A B s fuel toc, scene_ok A B s -> mb_zero s -> ca_run vneg fuel s 0 = Some (true, toc) ->
  apart A B s toc -> exists n x y, A x /\ B y /\
    dist (tf_apply (path1 s toc) x) (tf_apply (path2 s toc) y) <= t_err * (mb1 s toc n + mb2 s toc (vneg n)).
Proof.
  intros A B s fuel toc OK Z E NM. destruct (advancement_sound A B s fuel true toc OK Z E) as (H0 & _ & _ & H3).
  destruct (H3 eq_refl) as [L [M|R0]]; [exfalso; exact (NM M)|]. destruct OK as (CA & CB & NO & _ & _). unfold round in R0.
  destruct (near s (path1 s toc) (path2 s toc)) as [[d x1] x2] eqn:EN.
  destruct (near_separates A B _ _ _ d x1 x2 CA CB NO EN NM) as (Hd & _ & _).
  specialize (NO (path1 s toc) (path2 s toc)). rewrite EN in NO. destruct NO as [_ NO]. destruct (NO NM) as (Ed & (x & Hx & Ex) & (y & Hy & Ey) & _).
  exists (normal x1 x2), x, y. split; [exact Hx|]. split; [exact Hy|]. rewrite <- Ex, <- Ey, <- Ed.
  unfold leaf in R0. set (b := mb1 s toc (normal x1 x2) + mb2 s toc (vneg (normal x1 x2))) in *. pose proof t_err_pos as TE.
  destruct (Rle_dec b d) as [Q|Q]; [destruct (Rlt_dec 1 1); lra|]. destruct (Req_EM_T b 0) as [Q0|Q0]; [lra|].
  destruct (Rlt_dec (d / b) 1) as [Q1|Q1]; [|lra].
  assert (P : 0 < b) by lra. apply (Rmult_le_compat_r b) in R0; [|lra]. replace (d / b * b) with d in R0 by (field; lra). lra.
Qed.
Print Assumptions advancement_close.

(** It always returns, whatever the distance function and the bounds do: after at most
    100001 rounds. *)
Theorem advancement_terminates : forall dir2 s cur fuel, (100001 <= Z.of_nat fuel)%Z -> ca_run dir2 fuel s cur <> None.
Proof.
  assert (L : forall dir2 s fuel cur toc, 1 - toc < INR fuel * t_err -> toc <= 1 -> ca_loop dir2 fuel s cur toc <> None).
  { intros dir2 s. induction fuel as [|fuel IH]; intros cur toc H HT.
    - cbn in H. lra.
    - cbn [ca_loop]. destruct (Rle_dec _ _); [discriminate|]. destruct (Rlt_dec _ _); [discriminate|]. rewrite S_INR in H. apply IH; lra. }
  intros dir2 s cur fuel H. unfold ca_run. destruct (hit _ _ _); [discriminate|].
  pose proof (L dir2 s fuel cur 0) as X. destruct (ca_loop dir2 fuel s cur 0); [discriminate|]. exfalso. apply X; [|lra|reflexivity].
  apply IZR_le in H. rewrite <- INR_IZR_INZ in H. unfold t_err. lra.
Qed.
Print Assumptions advancement_terminates.

(** ** With the motions of the library *)

Inductive motion := MTrans (m : transm) | MInterp (m : interp) | MScrew (m : screw).
Definition mo_at (m : motion) : R -> tf := match m with MTrans m => trans_at m | MInterp m => interp_at m | MScrew m => screw_at m end.
(** computeMotionBound of the visitor of an RSS, in the state of time t *)
Definition mo_bound (b : rss) (m : motion) (t : R) (n : v3) : R :=
  match m with MTrans m => trans_bound m n | MInterp m => rss_bound_interp m (interp_at m t) b n | MScrew m => rss_bound_screw m (screw_at m t) b n end.
Definition mo_ok (m : motion) : Prop :=
  match m with
  | MTrans _ => True
  | MInterp m => unit (i_axis m) /\ 0 <= i_ang m /\ ortho (tf_rot (i_tf1 m))
  | MScrew m => good_screw m /\ ortho (tf_rot (s_tf1 m))
  end.
Definition shape_scene (b1 b2 : rss) (m1 m2 : motion) nr ht : scene := Scene (mo_at m1) (mo_at m2) (mo_bound b1 m1) (mo_bound b2 m2) nr ht.

Lemma bounds_sub : forall p n (P Q : body) t B, (forall x, P x -> Q x) -> bounds p n Q t B -> bounds p n P t B.
Proof. intros p n P Q t B H HB x s Hx Hs. apply HB; auto. Qed.
Lemma mo_bounds : forall b m n t, mo_ok m -> t <= 1 -> bounds (mo_at m) n (in_rss b) t (mo_bound b m t n).
Proof.
  intros b [m|m|m] n t H Ht; cbn in *.
  - eapply bounds_sub; [|apply motion_bound_translation; assumption]. trivial.
  - destruct H as (H1 & H2 & H3). apply motion_bound_interp_rss; assumption.
  - destruct H as (H1 & H2). apply motion_bound_screw_rss; assumption.
Qed.
Lemma dot_zero : forall v, dot v vzero = 0.
Proof. vring. Qed.
Lemma cross_zero : forall v, norm (cross v vzero) = 0.
Proof. intros v. replace (cross v vzero) with vzero by vring. apply norm_vzero. Qed.
Lemma mo_bound_zero : forall b m t, mo_bound b m t vzero = 0.
Proof.
  intros b [m|m|m] t; cbn [mo_bound]; unfold trans_bound, rss_bound_interp, rss_bound_screw; rewrite ?dot_zero, ?cross_zero; ring.
Qed.

Theorem advancement_motions : forall (A B : body) b1 b2 m1 m2 nr ht fuel ans toc,
  convex A -> convex B -> (forall x, A x -> in_rss b1 x) -> (forall y, B y -> in_rss b2 y) ->
  mo_ok m1 -> mo_ok m2 -> near_ok A B nr -> hit_ok A B ht ->
  ca_run vneg fuel (shape_scene b1 b2 m1 m2 nr ht) 0 = Some (ans, toc) ->
  (forall u, 0 <= u < toc -> ~ meet A B (mo_at m1 u) (mo_at m2 u)) /\
  (ans = false -> toc = 1) /\ (ans = true -> toc < 1) /\
  (forall u, 0 <= u < 1 -> meet A B (mo_at m1 u) (mo_at m2 u) -> ans = true /\ toc <= u).
Proof.
  intros A B b1 b2 m1 m2 nr ht fuel ans toc CA CB I1 I2 O1 O2 NO HO E.
  assert (OK : scene_ok A B (shape_scene b1 b2 m1 m2 nr ht)).
  { split; [exact CA|]. split; [exact CB|]. split; [exact NO|]. split; [exact HO|]. intros t n Ht. cbn.
    split; (eapply bounds_sub; [eassumption|apply mo_bounds; [assumption|lra]]). }
  assert (Z : mb_zero (shape_scene b1 b2 m1 m2 nr ht)) by (intros t; cbn; split; apply mo_bound_zero).
  destruct (advancement_sound A B _ fuel ans toc OK Z E) as (_ & H1 & H2 & H3).
  split; [exact H1|]. split; [exact H2|]. split; [intros X; apply H3; exact X|].
  intros u Hu M. eapply advancement_complete; eassumption.
Qed.
Print Assumptions advancement_motions.

(** ** Where it goes wrong *)

(** Two points on the x axis; one moves from p by v, the other from q by w.  shapeDistance
    gives [touch] where they meet. *)
Definition origin : body := fun x => x = vzero.
Definition slide (p v : R) : transm := trans_of (mktf mid (mk3 p 0 0)) (mktf mid (mk3 (p + v) 0 0)).
Definition point_near (touch : R) (a b : tf) : R * v3 * v3 :=
  if Req_EM_T (dist (tf_tr a) (tf_tr b)) 0 then (touch, vzero, vzero) else (dist (tf_tr a) (tf_tr b), tf_tr a, tf_tr b).
Definition point_hit (a b : tf) : bool := if Req_EM_T (dist (tf_tr a) (tf_tr b)) 0 then true else false.
Definition dot_rss : rss := Rss vzero mid 0 0 0.
Definition points (touch p v q w : R) : scene := shape_scene dot_rss dot_rss (MTrans (slide p v)) (MTrans (slide q w)) (point_near touch) point_hit.

Lemma slide_tr : forall p v t, t <= 1 -> tf_tr (trans_at (slide p v) t) = mk3 (p + v * t) 0 0.
Proof. intros p v t Ht. unfold trans_at, slide, trans_of. cbn [tf_tr tr_start tr_range tr_rot tf_rot]. rewrite clip_le by assumption. unfold vadd, vsub, vscale. cbn. f_equal; ring. Qed.
Lemma slide_bound : forall p v n, trans_bound (slide p v) n = v * VecR.c0 n.
Proof. intros p v [x y z]. unfold trans_bound, slide, trans_of, dot, vsub. cbn. ring. Qed.
Lemma dist_x : forall x y, dist (mk3 x 0 0) (mk3 y 0 0) = Rabs (x - y).
Proof. intros x y. unfold dist, norm. replace (norm2 (vsub (mk3 x 0 0) (mk3 y 0 0))) with (Rsqr (x - y)) by (unfold norm2, dot, vsub, Rsqr; cbn; ring). apply sqrt_Rsqr_abs. Qed.
Definition sg (x : R) : R := if Rlt_dec 0 x then 1 else -1.
Lemma normal_x : forall x y, x <> y -> normal (mk3 x 0 0) (mk3 y 0 0) = mk3 (sg (y - x)) 0 0.
Proof.
  intros x y H. unfold normal. replace (norm2 (vsub (mk3 y 0 0) (mk3 x 0 0))) with (Rsqr (y - x)) by (unfold norm2, dot, vsub, Rsqr; cbn; ring).
  destruct (Rlt_dec 0 (Rsqr (y - x))) as [_|N]; [|exfalso; apply N; apply Rsqr_pos_lt; lra].
  rewrite sqrt_Rsqr_abs. unfold sg, vscale, vsub. cbn. destruct (Rlt_dec 0 (y - x)).
  - rewrite Rabs_pos_eq by lra. f_equal; field; lra.
  - rewrite Rabs_left by lra. f_equal; field; lra.
Qed.
(** One round on points, as numbers: [e] is the sign put on the second direction. *)
Definition steer (e : R) (n : v3) : v3 := vscale e n.
Definition step1 (touch p v q w e t : R) : R :=
  let x := p + v * t in let y := q + w * t in
  let '(d, b) := if Req_EM_T x y then (touch, 0) else (Rabs (x - y), (v + e * w) * sg (y - x)) in
  let cur := if Rle_dec b d then 1 else if Req_EM_T b 0 then -1 else d / b in
  if Rlt_dec cur 1 then cur else 1.
Lemma points_round : forall touch p v q w e t, t <= 1 -> round (steer e) (points touch p v q w) t = step1 touch p v q w e t.
Proof.
  intros touch p v q w e t Ht. unfold round, points, shape_scene. cbn [near path1 path2 mo_at mb1 mb2]. unfold point_near. rewrite !slide_tr by assumption.
  rewrite dist_x. unfold step1. destruct (Req_EM_T (p + v * t) (q + w * t)) as [E|E].
  - destruct (Req_EM_T (Rabs (p + v * t - (q + w * t))) 0) as [_|N]; [|exfalso; apply N; rewrite E; replace (q + w * t - (q + w * t)) with 0 by ring; apply Rabs_R0].
    unfold leaf. replace (normal vzero vzero) with vzero.
    2:{ unfold normal. rewrite (vsub_self vzero). destruct (Rlt_dec _ _) as [L|]; [|reflexivity]. unfold vzero, norm2, dot in L. cbn in L. lra. }
    cbn [mo_bound]. rewrite !slide_bound. unfold steer, vscale, vzero. cbn [VecR.c0]. replace (v * 0 + w * (e * 0)) with 0 by ring. reflexivity.
  - destruct (Req_EM_T (Rabs (p + v * t - (q + w * t))) 0) as [Z|_]; [exfalso; revert Z; apply Rabs_no_R0; lra|].
    unfold leaf. rewrite normal_x by assumption. cbn [mo_bound]. rewrite !slide_bound. unfold steer, vscale. cbn [VecR.c0].
    replace (v * sg (q + w * t - (p + v * t)) + w * (e * sg (q + w * t - (p + v * t)))) with ((v + e * w) * sg (q + w * t - (p + v * t))) by ring. reflexivity.
Qed.
Lemma points_hit : forall touch p v q w t, t <= 1 -> hit (points touch p v q w) (path1 (points touch p v q w) t) (path2 (points touch p v q w) t)
  = if Req_EM_T (p + v * t) (q + w * t) then true else false.
Proof.
  intros touch p v q w t Ht. unfold points, shape_scene. cbn [hit path1 path2 mo_at]. unfold point_hit. rewrite !slide_tr by assumption. rewrite dist_x.
  destruct (Req_EM_T (p + v * t) (q + w * t)) as [E|E].
  - destruct (Req_EM_T _ 0) as [_|N]; [reflexivity|]. exfalso. apply N. rewrite E. replace (q + w * t - (q + w * t)) with 0 by ring. apply Rabs_R0.
  - destruct (Req_EM_T _ 0) as [Z|_]; [|reflexivity]. exfalso. revert Z. apply Rabs_no_R0. lra.
Qed.
Lemma points_meet : forall touch p v q w t, t <= 1 -> p + v * t = q + w * t ->
  meet origin origin (path1 (points touch p v q w) t) (path2 (points touch p v q w) t).
Proof.
  intros touch p v q w t Ht E. exists vzero, vzero. split; [reflexivity|]. split; [reflexivity|]. unfold tf_apply.
  unfold points, shape_scene. cbn [path1 path2 mo_at]. rewrite !slide_tr by assumption. rewrite E. reflexivity.
Qed.

(** The points satisfy every hypothesis when a contact gives a negative distance. *)
Lemma points_ok : forall p v q w, scene_ok origin origin (points (-1) p v q w) /\ mb_zero (points (-1) p v q w).
Proof.
  intros p v q w. assert (C : convex origin) by (intros x y l -> -> _; unfold origin, vzero, vadd, vscale, vsub; cbn; f_equal; ring).
  assert (TZ : forall a, tf_apply a vzero = tf_tr a) by (intros [m [x y z]]; unfold tf_apply, mapply, vzero, vadd, vscale; cbn; f_equal; ring).
  assert (ME : forall a b, meet origin origin a b <-> tf_tr a = tf_tr b).
  { intros a b. split; [intros (x & y & -> & -> & E); rewrite !TZ in E; exact E|]. intros E. exists vzero, vzero. rewrite !TZ. repeat split; assumption. }
  assert (SZ : forall x, origin x -> in_rss dot_rss x).
  { intros x ->. exists 0, 0. split; [lra|]. split; [lra|]. cbn. unfold rect, dot_rss. cbn.
    replace (vadd vzero (vadd (vscale (0 * 0) (mk3 1 0 0)) (vscale (0 * 0) (mk3 0 1 0)))) with vzero by (unfold vzero, vadd, vscale; cbn; f_equal; ring).
    rewrite dist_refl. lra. }
  split; [|intros t; cbn [points shape_scene mb1 mb2]; split; apply (mo_bound_zero dot_rss (MTrans _))].
  split; [exact C|]. split; [exact C|]. split; [|split].
  - intros a b. unfold points, shape_scene. cbn [near]. unfold point_near. destruct (Req_EM_T (dist (tf_tr a) (tf_tr b)) 0) as [E|E].
    + split; [intros _; split; [lra|reflexivity]|]. intros N. exfalso. apply N. apply ME. apply dist_zero. exact E.
    + split; [intros M; apply ME in M; exfalso; apply E; rewrite M; apply dist_refl|]. intros _. split; [reflexivity|].
      split; [exists vzero; rewrite TZ; split; reflexivity|]. split; [exists vzero; rewrite TZ; split; reflexivity|].
      intros x y -> ->. rewrite !TZ. lra.
  - intros a b. unfold points, shape_scene. cbn [hit]. unfold point_hit. rewrite ME. destruct (Req_EM_T _ 0) as [E|E].
    + split; [intros _; apply dist_zero; exact E|reflexivity].
    + split; [discriminate|]. intros M. exfalso. apply E. rewrite M. apply dist_refl.
  - intros t n Ht. unfold points, shape_scene. cbn [path1 path2 mb1 mb2].
    split; (eapply bounds_sub; [intros x Hx; exact (SZ x Hx)|apply mo_bounds; [exact I|lra]]).
Qed.

Lemma steer_neg : forall n, steer (-1) n = vneg n.
Proof. intros [x y z]. unfold steer, vscale, vneg. cbn. f_equal; ring. Qed.
Lemma loop_steer : forall f s t toc, ca_loop vneg f s t toc = ca_loop (steer (-1)) f s t toc.
Proof.
  assert (R0 : forall s t, round vneg s t = round (steer (-1)) s t).
  { intros s t. unfold round, leaf. destruct (near _ _ _) as [[d x1] x2]. rewrite steer_neg. reflexivity. }
  induction f as [|f IH]; intros s t toc; cbn [ca_loop]; [reflexivity|]. rewrite !R0. destruct (Rle_dec _ _); [reflexivity|].
  destruct (Rlt_dec _ _); [reflexivity|]. apply IH.
Qed.
Lemma points_loop : forall touch p v q w e f t toc, t <= 1 -> ca_loop (steer e) (S f) (points touch p v q w) t toc =
  let delta := step1 touch p v q w e t in
  if Rle_dec delta t_err then Some toc else if Rlt_dec 1 (toc + delta) then Some 1 else ca_loop (steer e) f (points touch p v q w) (toc + delta) (toc + delta).
Proof. intros. cbn [ca_loop]. rewrite points_round by assumption. reflexivity. Qed.
Lemma step1_apart : forall touch p v q w e t d b, p + v * t <> q + w * t -> d = Rabs (p + v * t - (q + w * t)) ->
  b = (v + e * w) * sg (q + w * t - (p + v * t)) -> 0 <= d ->
  (b <= d -> step1 touch p v q w e t = 1) /\ (d < b -> step1 touch p v q w e t = d / b).
Proof.
  intros touch p v q w e t d b N Ed Eb Hd. unfold step1. destruct (Req_EM_T _ _) as [X|_]; [contradiction|]. rewrite <- Ed, <- Eb. split; intros H.
  - destruct (Rle_dec b d); [|lra]. destruct (Rlt_dec 1 1); lra.
  - destruct (Rle_dec b d); [lra|]. destruct (Req_EM_T b 0); [lra|]. assert (d / b < 1).
    { apply (Rmult_lt_reg_r b); [lra|]. unfold Rdiv. rewrite Rmult_assoc, Rinv_l; lra. }
    destruct (Rlt_dec (d / b) 1); lra.
Qed.
Lemma step1_touch : forall touch p v q w e t, p + v * t = q + w * t ->
  step1 touch p v q w e t = if Rle_dec 0 touch then 1 else -1.
Proof.
  intros touch p v q w e t E. unfold step1. destruct (Req_EM_T _ _) as [_|N]; [|contradiction]. destruct (Rle_dec 0 touch).
  - destruct (Rlt_dec 1 1); lra.
  - destruct (Req_EM_T 0 0); [|lra]. destruct (Rlt_dec (-1) 1); lra.
Qed.
Lemma points_run : forall touch p v q w f cur, cur <= 1 -> p + v * cur <> q + w * cur ->
  ca_run vneg f (points touch p v q w) cur =
  match ca_loop (steer (-1)) f (points touch p v q w) cur 0 with None => None | Some toc => Some (if Rlt_dec toc 1 then true else false, toc) end.
Proof.
  intros touch p v q w f cur Hc N. unfold ca_run. rewrite points_hit by assumption. destruct (Req_EM_T _ _); [contradiction|]. rewrite loop_steer. reflexivity.
Qed.


(** A run from the start of a motion with speed 10 past a point at 5: found at 1/2. *)
Example advancement_case : ca_run vneg 2 (points (-1) 0 10 5 0) 0 = Some (true, / 2).
Proof.
  pose proof t_err_pos as TE. assert (T2 : t_err < / 2) by (unfold t_err; apply Rinv_lt_contravar; lra).
  rewrite points_run by lra. rewrite points_loop by lra. cbv zeta.
  destruct (step1_apart (-1) 0 10 5 0 (-1) 0 5 10 ltac:(lra) ltac:(unfold Rabs; destruct (Rcase_abs _); lra) ltac:(unfold sg; destruct (Rlt_dec _ _); lra) ltac:(lra)) as [_ S].
  rewrite (S ltac:(lra)). replace (5 / 10) with (/ 2) by lra.
  destruct (Rle_dec (/ 2) t_err); [lra|]. destruct (Rlt_dec 1 (0 + / 2)); [lra|]. rewrite Rplus_0_l.
  rewrite points_loop by lra. cbv zeta. rewrite step1_touch by lra. destruct (Rle_dec 0 (-1)); [lra|].
  destruct (Rle_dec (-1) t_err); [|lra]. destruct (Rlt_dec (/ 2) 1); [reflexivity|lra].
Qed.

(** The motions are not rewound: called again with the motions at their end, the same
    query misses the contact. *)
Theorem advancement_stale_refuted : let s := points (-1) 0 10 5 0 in
  scene_ok origin origin s /\ mb_zero s /\ meet origin origin (path1 s (/ 2)) (path2 s (/ 2)) /\
  ca_run vneg 2 s 0 = Some (true, / 2) /\ ca_run vneg 2 s 1 = Some (false, 1).
Proof.
  intros s. destruct (points_ok 0 10 5 0) as [O Z]. split; [exact O|]. split; [exact Z|].
  split; [apply points_meet; lra|]. split; [exact advancement_case|]. unfold s.
  pose proof t_err_pos as TE. rewrite points_run by lra.
  destruct (step1_apart (-1) 0 10 5 0 (-1) 1 5 (-10) ltac:(lra) ltac:(unfold Rabs; destruct (Rcase_abs _); lra) ltac:(unfold sg; destruct (Rlt_dec _ _); lra) ltac:(lra)) as [S _].
  rewrite points_loop by lra. cbv zeta. rewrite (S ltac:(lra)). destruct (Rle_dec 1 t_err); [lra|]. destruct (Rlt_dec 1 (0 + 1)); [lra|].
  replace (0 + 1) with 1 by ring. rewrite points_loop by lra. cbv zeta. rewrite (S ltac:(lra)). destruct (Rle_dec 1 t_err); [lra|].
  destruct (Rlt_dec 1 (1 + 1)); [|lra]. destruct (Rlt_dec 1 1); [lra|reflexivity].
Qed.
Print Assumptions advancement_stale_refuted.

(** A distance of zero at contact, as between triangles (triDistance), instead of a
    negative one: a round that lands on the contact sees no motion along the zero
    direction, steps on, and the contact is missed. *)
Theorem advancement_touch_refuted : let s := points 0 0 10 5 0 in
  meet origin origin (path1 s (/ 2)) (path2 s (/ 2)) /\ ca_run vneg 2 s 0 = Some (false, 1).
Proof.
  intros s. split; [apply points_meet; lra|]. unfold s.
  pose proof t_err_pos as TE. assert (T2 : t_err < / 2) by (unfold t_err; apply Rinv_lt_contravar; lra).
  rewrite points_run by lra. rewrite points_loop by lra. cbv zeta.
  destruct (step1_apart 0 0 10 5 0 (-1) 0 5 10 ltac:(lra) ltac:(unfold Rabs; destruct (Rcase_abs _); lra) ltac:(unfold sg; destruct (Rlt_dec _ _); lra) ltac:(lra)) as [_ S].
  rewrite (S ltac:(lra)). replace (5 / 10) with (/ 2) by lra.
  destruct (Rle_dec (/ 2) t_err); [lra|]. destruct (Rlt_dec 1 (0 + / 2)); [lra|]. rewrite Rplus_0_l.
  rewrite points_loop by lra. cbv zeta. rewrite step1_touch by lra. destruct (Rle_dec 0 0); [|lra].
  destruct (Rle_dec 1 t_err); [lra|]. destruct (Rlt_dec 1 (/ 2 + 1)); [|lra]. destruct (Rlt_dec 1 1); [lra|reflexivity].
Qed.
Print Assumptions advancement_touch_refuted.

(** The mesh traversal gives both visitors the same direction
    (mesh_conservative_advancement_traversal_node-inl.h 153, 200, 548): a second body
    approaching the first is taken to recede, and the contact is missed. *)
Theorem advancement_direction_refuted : let s := points (-1) 0 0 5 (-10) in
  scene_ok origin origin s /\ mb_zero s /\ meet origin origin (path1 s (/ 2)) (path2 s (/ 2)) /\
  ca_run (fun n => n) 2 s 0 = Some (false, 1).
Proof.
  intros s. destruct (points_ok 0 0 5 (-10)) as [O Z]. split; [exact O|]. split; [exact Z|].
  split; [apply points_meet; lra|]. unfold s.
  pose proof t_err_pos as TE. assert (T2 : t_err < / 2) by (unfold t_err; apply Rinv_lt_contravar; lra).
  assert (LS : forall f t toc, ca_loop (fun n => n) f (points (-1) 0 0 5 (-10)) t toc = ca_loop (steer 1) f (points (-1) 0 0 5 (-10)) t toc).
  { assert (R0 : forall t, round (fun n => n) (points (-1) 0 0 5 (-10)) t = round (steer 1) (points (-1) 0 0 5 (-10)) t).
    { intros t. unfold round, leaf. destruct (near _ _ _) as [[d x1] x2]. unfold steer.
      replace (vscale 1 (normal x1 x2)) with (normal x1 x2); [reflexivity|]. generalize (normal x1 x2). vring. }
    induction f as [|f IH]; intros t toc; cbn [ca_loop]; [reflexivity|]. rewrite !R0. destruct (Rle_dec _ _); [reflexivity|].
    destruct (Rlt_dec _ _); [reflexivity|]. apply IH. }
  unfold ca_run. rewrite points_hit by lra. destruct (Req_EM_T _ _); [lra|]. rewrite LS.
  destruct (step1_apart (-1) 0 0 5 (-10) 1 0 5 (-10) ltac:(lra) ltac:(unfold Rabs; destruct (Rcase_abs _); lra) ltac:(unfold sg; destruct (Rlt_dec _ _); lra) ltac:(lra)) as [S _].
  rewrite points_loop by lra. cbv zeta. rewrite (S ltac:(lra)). destruct (Rle_dec 1 t_err); [lra|]. destruct (Rlt_dec 1 (0 + 1)); [lra|].
  replace (0 + 1) with 1 by ring. clear S.
  destruct (step1_apart (-1) 0 0 5 (-10) 1 1 5 10 ltac:(lra) ltac:(unfold Rabs; destruct (Rcase_abs _); lra) ltac:(unfold sg; destruct (Rlt_dec _ _); lra) ltac:(lra)) as [_ S].
  rewrite points_loop by lra. cbv zeta. rewrite (S ltac:(lra)). replace (5 / 10) with (/ 2) by lra. destruct (Rle_dec (/ 2) t_err); [lra|].
  destruct (Rlt_dec 1 (1 + / 2)); [|lra]. destruct (Rlt_dec 1 1); [lra|reflexivity].
Qed.
Print Assumptions advancement_direction_refuted.

(** A contact at the very end of the motion is not reported. *)
Theorem advancement_end_refuted : let s := points (-1) 0 5 5 0 in
  scene_ok origin origin s /\ mb_zero s /\ meet origin origin (path1 s 1) (path2 s 1) /\ ca_run vneg 2 s 0 = Some (false, 1).
Proof.
  intros s. destruct (points_ok 0 5 5 0) as [O Z]. split; [exact O|]. split; [exact Z|].
  split; [apply points_meet; lra|]. unfold s. pose proof t_err_pos as TE.
  rewrite points_run by lra. rewrite points_loop by lra. cbv zeta.
  destruct (step1_apart (-1) 0 5 5 0 (-1) 0 5 5 ltac:(lra) ltac:(unfold Rabs; destruct (Rcase_abs _); lra) ltac:(unfold sg; destruct (Rlt_dec _ _); lra) ltac:(lra)) as [S _].
  rewrite (S ltac:(lra)). destruct (Rle_dec 1 t_err); [lra|]. destruct (Rlt_dec 1 (0 + 1)); [lra|].
  replace (0 + 1) with 1 by ring. rewrite points_loop by lra. cbv zeta. rewrite step1_touch by lra. destruct (Rle_dec 0 (-1)); [lra|].
  destruct (Rle_dec (-1) t_err); [|lra]. destruct (Rlt_dec 1 1); [lra|reflexivity].
Qed.
Print Assumptions advancement_end_refuted.

(** ** The sampling solver *)

(** It tests the times i / (n - 1), returns the first that collides, and finds every
    contact that lasts as long as one step, at most a step late. *)
Lemma sample_0 : forall n, sample n 0 = 0.
Proof. intros n. unfold sample. cbn. unfold Rdiv. ring. Qed.
Lemma sample_last : forall n, (2 <= n)%nat -> sample n (n - 1) = 1.
Proof. intros n H. unfold sample. unfold Rdiv. apply Rinv_r. apply not_0_INR. lia. Qed.
Lemma find_seq : forall (f : nat -> bool) n k i, find f (seq k n) = Some i -> (k <= i < k + n)%nat /\ f i = true /\ forall j, (k <= j < i)%nat -> f j = false.
Proof.
  intros f. induction n as [|n IH]; intros k i H; cbn in H; [discriminate|]. destruct (f k) eqn:E.
  - injection H as <-. split; [lia|]. split; [exact E|]. intros; lia.
  - destruct (IH _ _ H) as (A & B & C). split; [lia|]. split; [exact B|]. intros j Hj. destruct (Nat.eq_dec j k) as [->|N]; [exact E|apply C; lia].
Qed.
Theorem naive_exact : forall s n, (2 <= n)%nat ->
  let hits t := hit s (path1 s t) (path2 s t) in
  match naive_run s n with
  | Some (true, t) => 0 <= t <= 1 /\ hits t = true /\ (exists i, (i < n)%nat /\ t = sample n i /\ forall j, (j < i)%nat -> hits (sample n j) = false)
  | Some (false, t) => t = 1 /\ forall i, (i < n)%nat -> hits (sample n i) = false
  | None => False
  end.
Proof.
  intros s n Hn hits. unfold naive_run. destruct (Nat.eqb_spec n 1) as [E|_]; [lia|].
  destruct (find _ (seq 0 n)) as [i|] eqn:F.
  - apply find_seq in F. destruct F as (A & B & C). split; [|split; [exact B|exists i; split; [lia|]; split; [reflexivity|intros j Hj; apply C; lia]]].
    assert (P : 0 < INR (n - 1)) by (apply lt_0_INR; lia). unfold sample. split.
    + apply Rmult_le_pos; [apply pos_INR|left; apply Rinv_0_lt_compat; exact P].
    + apply (Rmult_le_reg_r (INR (n - 1))); [exact P|]. unfold Rdiv. rewrite Rmult_assoc, Rinv_l, Rmult_1_r, Rmult_1_l by lra. apply le_INR. lia.
  - split; [reflexivity|]. intros i Hi. apply (find_none _ _ F). apply in_seq. lia.
Qed.
Print Assumptions naive_exact.

Theorem naive_finds : forall s n a b, (2 <= n)%nat -> 0 <= a -> b <= 1 -> b - a >= / INR (n - 1) ->
  (forall t, a <= t <= b -> hit s (path1 s t) (path2 s t) = true) ->
  exists t, naive_run s n = Some (true, t) /\ t <= a + / INR (n - 1).
Proof.
  intros s n a b Hn Ha Hb Hab H. assert (P : 0 < INR (n - 1)) by (apply lt_0_INR; lia).
  assert (K : 0 < / INR (n - 1)) by (apply Rinv_0_lt_compat; exact P).
  (* the first sample not before a *)
  set (i := Z.to_nat (- Int_part (- (a * INR (n - 1))))).
  assert (I : a * INR (n - 1) <= INR i < a * INR (n - 1) + 1).
  { destruct (base_Int_part (- (a * INR (n - 1)))) as [B1 B2]. unfold i. rewrite (INR_IZR_INZ (Z.to_nat _)). rewrite Z2Nat.id.
    - rewrite opp_IZR. lra.
    - apply le_IZR. rewrite opp_IZR. assert (0 <= a * INR (n - 1)) by (apply Rmult_le_pos; lra). lra. }
  assert (SI : a <= sample n i < a + / INR (n - 1)).
  { unfold sample. split.
    - apply (Rmult_le_reg_r (INR (n - 1))); [exact P|]. unfold Rdiv. rewrite Rmult_assoc, Rinv_l, Rmult_1_r by lra. lra.
    - apply (Rmult_lt_reg_r (INR (n - 1))); [exact P|]. unfold Rdiv. rewrite Rmult_plus_distr_r, Rmult_assoc, !Rinv_l, Rmult_1_r by lra. lra. }
  assert (IN : (i < n)%nat).
  { assert (X : sample n i <= 1) by lra. unfold sample in X. apply (Rmult_le_compat_r (INR (n - 1))) in X; [|lra].
    unfold Rdiv in X. rewrite Rmult_assoc, Rinv_l, Rmult_1_r, Rmult_1_l in X by lra. apply INR_le in X. lia. }
  assert (HI : hit s (path1 s (sample n i)) (path2 s (sample n i)) = true) by (apply H; lra).
  pose proof (naive_exact s n Hn) as N. cbv zeta in N. destruct (naive_run s n) as [[[|] t]|]; [| |contradiction].
  - exists t. split; [reflexivity|]. destruct N as (_ & _ & j & Hj & -> & F). destruct (le_lt_dec j i) as [L|L].
    + apply Rle_trans with (sample n i); [|lra]. unfold sample, Rdiv. apply Rmult_le_compat_r; [lra|]. apply le_INR. exact L.
    + specialize (F i L). congruence.
  - destruct N as [_ N]. specialize (N i IN). congruence.
Qed.
Print Assumptions naive_finds.

(** Shorter contacts are stepped over, however many samples are taken; and the step is
    set by num_max_iterations, 10 by default, when that is smaller than 1 / toc_err, so
    the requested accuracy is not kept. *)
Theorem naive_tunnel_refuted : forall n, (2 <= n)%nat -> let q := / (2 * INR (n - 1)) in let s := points (-1) 0 1 q 0 in
  0 <= q < 1 /\ meet origin origin (path1 s q) (path2 s q) /\ naive_run s n = Some (false, 1).
Proof.
  intros n Hn q s. assert (P : 1 <= INR (n - 1)) by (replace 1 with (INR 1) by reflexivity; apply le_INR; lia).
  assert (Q : 0 < q < 1).
  { unfold q. split; [apply Rinv_0_lt_compat; lra|]. rewrite <- Rinv_1. apply Rinv_lt_contravar; lra. }
  split; [lra|]. split; [apply points_meet; lra|].
  assert (NH : forall i, (i < n)%nat -> hit s (path1 s (sample n i)) (path2 s (sample n i)) = false).
  { intros i Hi. assert (S1 : sample n i <= 1).
    { unfold sample. apply (Rmult_le_reg_r (INR (n - 1))); [lra|]. unfold Rdiv. rewrite Rmult_assoc, Rinv_l, Rmult_1_r, Rmult_1_l by lra. apply le_INR. lia. }
    unfold s. rewrite points_hit by assumption. destruct (Req_EM_T _ _) as [E|_]; [|reflexivity]. exfalso.
    assert (X : 2 * INR i = 1).
    { unfold sample, q in E. replace (0 + 1 * (INR i / INR (n - 1))) with (INR i / INR (n - 1)) in E by ring. rewrite Rmult_0_l, Rplus_0_r in E.
      apply (f_equal (fun x => x * (2 * INR (n - 1)))) in E. rewrite Rinv_l in E by lra.
      replace (INR i / INR (n - 1) * (2 * INR (n - 1))) with (2 * INR i) in E by (field; lra). exact E. }
    change 2 with (INR 2) in X. rewrite <- mult_INR in X. change 1 with (INR 1) in X. apply INR_eq in X. lia. }
  pose proof (naive_exact s n Hn) as N. cbv zeta in N. destruct (naive_run s n) as [[[|] t]|]; [| |contradiction].
  - destruct N as (_ & B & i & Hi & -> & _). rewrite NH in B by assumption. discriminate.
  - destruct N as [-> _]. reflexivity.
Qed.
Print Assumptions naive_tunnel_refuted.

(** toc_err = 1/10000 with the default of 10 iterations: ten samples, a ninth apart. *)
Theorem naive_accuracy_refuted : n_iter 10 (/ 10000) = 10%nat /\ sample 10 1 - sample 10 0 = / 9 /\ naive_run (points (-1) 0 1 (/ 2) 0) (n_iter 1 (/ 10000)) = None.
Proof.
  assert (E : (- Int_part (- (1 / / 10000)))%Z = 10000%Z).
  { replace (- (1 / / 10000)) with (IZR (-10000)) by (change (IZR (-10000)) with (-10000); field).
    destruct (base_Int_part (IZR (-10000))) as [B1 B2]. assert (X : (Int_part (IZR (-10000)) <= -10000)%Z) by (apply le_IZR; exact B1).
    assert (Y : (-10001 < Int_part (IZR (-10000)))%Z) by (apply lt_IZR; lra). lia. }
  unfold n_iter. rewrite E. split; [reflexivity|]. split; [unfold sample; cbn; lra|reflexivity].
Qed.
Print Assumptions naive_accuracy_refuted.
