(** Sphere and capsule queries (C46-C50). *)
From Coq Require Import Nsatz Reals Lra Psatz Lia Arith List.
From Verif Require Import VecR Prim.
Import ListNotations.
Open Scope R_scope.

Lemma Rabs_le_inv : forall a b, Rabs a <= b -> - b <= a <= b.
Proof. intros a b H. pose proof (Rle_abs a). pose proof (Rle_abs (- a)). rewrite Rabs_Ropp in H1. lra. Qed.

(** ** Fattened sets *)
Definition fat (K : v3 -> Prop) (r : R) (q : v3) : Prop := exists c, K c /\ dist q c <= r.
Definition pair (A B : v3 -> Prop) (a b : v3) : Prop := A a /\ B b /\ forall a' b', A a' -> B b' -> dist a b <= dist a' b'.

Lemma dist_step : forall a b k, dist (vadd a (vscale k (vsub b a))) a = Rabs k * dist a b.
Proof. intros a b k. unfold dist. replace (vsub (vadd a (vscale k (vsub b a))) a) with (vscale k (vsub b a)) by vring. rewrite norm_scale. f_equal. apply (dist_sym b a). Qed.
Lemma dist_step' : forall a b k, dist (vadd a (vscale k (vsub b a))) b = Rabs (1 - k) * dist a b.
Proof. intros a b k. unfold dist. replace (vsub (vadd a (vscale k (vsub b a))) b) with (vscale (1 - k) (vsub a b)) by vring. rewrite norm_scale. reflexivity. Qed.
Lemma frac01 : forall r d, 0 <= r -> 0 < d -> r <= d -> 0 <= r / d <= 1.
Proof.
  intros r d H1 H2 H3. split; [apply Rmult_le_pos; [lra|apply Rlt_le, Rinv_0_lt_compat; lra]|]. apply Rmult_le_reg_r with d; [lra|]. unfold Rdiv. rewrite Rmult_assoc, Rinv_l; lra.
Qed.

Lemma fat_meet : forall A B a b r1 r2, pair A B a b -> 0 <= r1 -> 0 <= r2 -> ((exists q, fat A r1 q /\ fat B r2 q) <-> dist a b <= r1 + r2).
Proof.
  intros A B a b r1 r2 (Ka & Kb & M) H1 H2. split.
  - intros (q & (x & Ax & Dx) & (y & By & Dy)). specialize (M x y Ax By). pose proof (dist_triangle x q y). rewrite (dist_sym x q) in H. lra.
  - intros H. pose proof (dist_nonneg a b) as Hn. destruct (Req_dec (r1 + r2) 0) as [Z|Z].
    + exists a. split; [exists a; split; [exact Ka|rewrite dist_refl; lra]|exists b; split; [exact Kb|lra]].
    + pose proof (frac01 r1 (r1 + r2) H1 ltac:(lra) ltac:(lra)) as F. set (k := r1 / (r1 + r2)) in *.
      assert (E : k * (r1 + r2) = r1) by (unfold k; field; lra).
      assert (E1 : k * dist a b <= k * (r1 + r2)) by (apply Rmult_le_compat_l; lra).
      assert (E2 : (1 - k) * dist a b <= (1 - k) * (r1 + r2)) by (apply Rmult_le_compat_l; lra).
      exists (vadd a (vscale k (vsub b a))). split.
      * exists a. split; [exact Ka|]. rewrite dist_step, Rabs_right; lra.
      * exists b. split; [exact Kb|]. rewrite dist_step', Rabs_right; lra.
Qed.
Lemma fat_dist : forall A B a b r1 r2, pair A B a b -> 0 <= r1 -> 0 <= r2 -> r1 + r2 < dist a b ->
  true_dist (fat A r1) (fat B r2) (dist a b - r1 - r2) (vadd a (vscale (r1 / dist a b) (vsub b a))) (vsub b (vscale (r2 / dist a b) (vsub b a))).
Proof.
  intros A B a b r1 r2 (Ka & Kb & M) H1 H2 H. set (d := dist a b) in *. assert (Hd : 0 < d) by lra.
  pose proof (frac01 r1 d H1 Hd ltac:(lra)) as F1. pose proof (frac01 r2 d H2 Hd ltac:(lra)) as F2.
  assert (E1 : r1 / d * d = r1) by (field; lra). assert (E2 : r2 / d * d = r2) by (field; lra).
  split; [|split; [|split]].
  - exists a. split; [exact Ka|]. rewrite dist_step. fold d. rewrite Rabs_right by lra. lra.
  - exists b. split; [exact Kb|]. replace (vsub b (vscale (r2 / d) (vsub b a))) with (vadd b (vscale (r2 / d) (vsub a b))) by vring. rewrite dist_step. rewrite (dist_sym b a). fold d. rewrite Rabs_right by lra. lra.
  - unfold dist. replace (vsub (vadd a (vscale (r1 / d) (vsub b a))) (vsub b (vscale (r2 / d) (vsub b a)))) with (vscale (1 - r1 / d - r2 / d) (vsub a b)) by vring.
    rewrite norm_scale. change (norm (vsub a b)) with d. rewrite Rabs_right; [lra|]. apply Rle_ge. apply Rmult_le_reg_r with d; [lra|]. lra.
  - intros x y (a' & Ka' & Da) (b' & Kb' & Db). specialize (M a' b' Ka' Kb'). fold d in M. pose proof (dist_triangle a' x b'). pose proof (dist_triangle x y b'). rewrite (dist_sym a' x) in H0. lra.
Qed.
Lemma ball_fat : forall o r q, ball o r q <-> fat (eq o) r q.
Proof. intros. unfold ball, fat. split; [intros H; exists o; split; [reflexivity|exact H]|intros (c & <- & H); exact H]. Qed.
Lemma true_dist_ext : forall A B A' B' d p q, (forall x, A x <-> A' x) -> (forall x, B x <-> B' x) -> true_dist A B d p q -> true_dist A' B' d p q.
Proof. intros A B A' B' d p q HA HB (H1 & H2 & H3 & H4). split; [apply HA, H1|split; [apply HB, H2|split; [exact H3|]]]. intros. apply H4; [apply HA|apply HB]; assumption. Qed.
Lemma near_pair : forall K c n, near K c n -> pair (eq c) K c n.
Proof. intros K c n [Kn M]. split; [reflexivity|split; [exact Kn|]]. intros a b <- Kb. rewrite (dist_sym c n), (dist_sym c b). apply M, Kb. Qed.

(** ** Sphere and sphere (C46) *)
Lemma ss_pair : forall o1 o2, pair (eq o1) (eq o2) o1 o2.
Proof. intros. split; [reflexivity|split; [reflexivity|]]. intros a b <- <-. lra. Qed.

Theorem ss_intersect_iff : forall r1 tf1 r2 tf2, 0 <= r1 -> 0 <= r2 ->
  (ss_intersect r1 tf1 r2 tf2 <> None <-> exists q, ball (tf_tr tf1) r1 q /\ ball (tf_tr tf2) r2 q).
Proof.
  intros r1 tf1 r2 tf2 H1 H2. pose proof (fat_meet _ _ _ _ r1 r2 (ss_pair (tf_tr tf1) (tf_tr tf2)) H1 H2) as F.
  transitivity (exists q, fat (eq (tf_tr tf1)) r1 q /\ fat (eq (tf_tr tf2)) r2 q); [|split; intros (q & A & B); exists q; split; apply ball_fat; assumption].
  rewrite F. unfold ss_intersect. cbv zeta. fold (dist (tf_tr tf2) (tf_tr tf1)). rewrite (dist_sym (tf_tr tf2)). destruct (Rlt_dec (r1 + r2) (dist (tf_tr tf1) (tf_tr tf2))); split; intros; try congruence; lra.
Qed.
Print Assumptions ss_intersect_iff.

(** The contact position lies in both balls; the depth is how far sphere 2 has to move, and along
    the normal it suffices. *)
Theorem ss_contact_ok : forall r1 tf1 r2 tf2 ct, 0 <= r1 -> 0 <= r2 -> 0 < r1 + r2 -> ss_intersect r1 tf1 r2 tf2 = Some ct ->
  let o1 := tf_tr tf1 in let o2 := tf_tr tf2 in
  ball o1 r1 (cpos ct) /\ ball o2 r2 (cpos ct) /\ 0 <= cdepth ct /\
  (o1 <> o2 -> unit (cnorm ct) /\ forall q, ball o1 r1 q -> r2 <= dist q (vadd o2 (vscale (cdepth ct) (cnorm ct)))) /\
  (forall v, norm v <= cdepth ct -> exists q, ball o1 r1 q /\ ball (vadd o2 v) r2 q).
Proof.
  intros r1 tf1 r2 tf2 ct H1 H2 H12. unfold ss_intersect. cbv zeta. fold (dist (tf_tr tf2) (tf_tr tf1)). set (o1 := tf_tr tf1). set (o2 := tf_tr tf2). rewrite (dist_sym o2 o1). set (d := dist o1 o2).
  destruct (Rlt_dec (r1 + r2) d) as [|L]; [discriminate|]. intros E. injection E as <-. cbn [cpos cdepth cnorm].
  assert (Hd : 0 <= d) by apply dist_nonneg.
  pose proof (frac01 r1 (r1 + r2) H1 H12 ltac:(lra)) as F. set (k := r1 / (r1 + r2)) in *.
  assert (E : k * (r1 + r2) = r1) by (unfold k; field; lra).
  assert (E1 : k * d <= k * (r1 + r2)) by (apply Rmult_le_compat_l; lra).
  assert (E2 : (1 - k) * d <= (1 - k) * (r1 + r2)) by (apply Rmult_le_compat_l; lra).
  split; [unfold ball; rewrite dist_step; fold d; rewrite Rabs_right; lra|].
  split; [unfold ball; rewrite dist_step'; fold d; rewrite Rabs_right; lra|].
  split; [lra|]. split.
  - intros Ne. assert (Hp : 0 < d). { destruct Hd as [Hd|Hd]; [exact Hd|]. exfalso. apply Ne. apply dist_zero. symmetry. exact Hd. }
    destruct (Rlt_dec 0 d); [|lra].
    assert (Nd : norm (vsub o2 o1) = d) by apply (dist_sym o2 o1).
    split.
    + unfold unit. rewrite norm2_scale, <- norm_sq, Nd. field. lra.
    + intros q Hq. unfold ball in Hq.
      assert (D : dist o1 (vadd o2 (vscale (r1 + r2 - d) (vscale (/ d) (vsub o2 o1)))) = r1 + r2).
      { rewrite dist_sym. unfold dist. replace (vsub (vadd o2 (vscale (r1 + r2 - d) (vscale (/ d) (vsub o2 o1)))) o1) with (vscale ((r1 + r2) / d) (vsub o2 o1)); [rewrite norm_scale, Nd, Rabs_right; [field; lra|apply Rle_ge, Rlt_le, Rdiv_lt_0_compat; lra]|].
        clear -Hp. clearbody d. destruct o1, o2. unfold vsub, vadd, vscale. cbn. f_equal; field; lra. }
      pose proof (dist_triangle o1 q (vadd o2 (vscale (r1 + r2 - d) (vscale (/ d) (vsub o2 o1))))). rewrite (dist_sym o1 q) in H. lra.
  - intros v Hv. assert (M : exists q, fat (eq o1) r1 q /\ fat (eq (vadd o2 v)) r2 q).
    { apply (fat_meet _ _ _ _ r1 r2 (ss_pair o1 (vadd o2 v)) H1 H2). pose proof (dist_triangle o1 o2 (vadd o2 v)). fold d in H. assert (dist o2 (vadd o2 v) = norm v) by (rewrite dist_sym; unfold dist; f_equal; vring). lra. }
    destruct M as (q & A & B). exists q. split; apply ball_fat; assumption.
Qed.
Print Assumptions ss_contact_ok.

(** Concentric spheres: the reported normal is zero, so moving along it separates nothing. *)
Theorem ss_concentric_refuted : forall r1 tf1 r2 tf2, 0 < r1 -> 0 < r2 -> tf_tr tf1 = tf_tr tf2 -> exists ct,
  ss_intersect r1 tf1 r2 tf2 = Some ct /\ cnorm ct = vzero /\ exists q, ball (tf_tr tf1) r1 q /\ dist q (vadd (tf_tr tf2) (vscale (cdepth ct) (cnorm ct))) < r2.
Proof.
  intros r1 tf1 r2 tf2 H1 H2 E. unfold ss_intersect. cbv zeta. rewrite E, vsub_self, norm_vzero. destruct (Rlt_dec (r1 + r2) 0); [lra|]. destruct (Rlt_dec 0 0); [lra|].
  eexists. split; [reflexivity|]. cbn [cnorm cdepth]. split; [reflexivity|]. exists (tf_tr tf2). split; [unfold ball; rewrite dist_refl; lra|].
  replace (vadd (tf_tr tf2) (vscale (r1 + r2 - 0) vzero)) with (tf_tr tf2) by vring. rewrite dist_refl. exact H2.
Qed.
Print Assumptions ss_concentric_refuted.

Theorem ss_distance_exact : forall r1 tf1 r2 tf2, 0 <= r1 -> 0 <= r2 ->
  match ss_distance r1 tf1 r2 tf2 with
  | Some (d, p1, p2) => 0 < d /\ true_dist (ball (tf_tr tf1) r1) (ball (tf_tr tf2) r2) d p1 p2
  | None => exists q, ball (tf_tr tf1) r1 q /\ ball (tf_tr tf2) r2 q end.
Proof.
  intros r1 tf1 r2 tf2 H1 H2. unfold ss_distance. cbv zeta. fold (dist (tf_tr tf1) (tf_tr tf2)). set (o1 := tf_tr tf1). set (o2 := tf_tr tf2). set (d := dist o1 o2).
  destruct (Rlt_dec (r1 + r2) d) as [L|L].
  - split; [lra|]. apply (true_dist_ext (fat (eq o1) r1) (fat (eq o2) r2)); [intros; symmetry; apply ball_fat|intros; symmetry; apply ball_fat|].
    pose proof (fat_dist _ _ _ _ r1 r2 (ss_pair o1 o2) H1 H2 L) as F. fold d in F.
    replace (d - (r1 + r2)) with (d - r1 - r2) by ring. replace (vsub o1 (vscale (r1 / d) (vsub o1 o2))) with (vadd o1 (vscale (r1 / d) (vsub o2 o1))) by vring.
    replace (vadd o2 (vscale (r2 / d) (vsub o1 o2))) with (vsub o2 (vscale (r2 / d) (vsub o2 o1))) by vring. exact F.
  - destruct (proj2 (fat_meet _ _ _ _ r1 r2 (ss_pair o1 o2) H1 H2)) as (q & A & B); [fold d; lra|]. exists q. split; apply ball_fat; assumption.
Qed.
Print Assumptions ss_distance_exact.

(** ** Sphere and capsule (C47) *)
Lemma fat_placed : forall X K r q, ortho (tf_rot X) -> placed X (fat K r) q <-> fat (placed X K) r q.
Proof.
  intros X K r q O. split.
  - intros (q0 & (c & Kc & D) & ->). exists (tf_apply X c). split; [exists c; split; [exact Kc|reflexivity]|]. rewrite tf_dist by exact O. exact D.
  - intros (c & (c' & Kc & ->) & D). exists (tf_inv_apply X q). split; [|symmetry; apply tf_inv_right, O]. exists c'. split; [exact Kc|]. rewrite dist_sym, <- (placed_dist X q c' O), dist_sym. exact D.
Qed.
Definition axis_seg (lz : R) : v3 -> Prop := segset (mk3 0 0 (lz / 2)) (mk3 0 0 (- (lz / 2))).
Lemma capset_fat : forall lz r q, 0 <= lz -> capset lz r q <-> fat (axis_seg lz) r q.
Proof.
  intros lz r q H. unfold capset, fat, axis_seg, segset. split.
  - intros (z & Hz & D). exists (mk3 0 0 z). split; [|exact D]. destruct (Req_dec lz 0) as [->|N].
    + exists 0. split; [lra|]. unfold vadd, vscale, vsub. cbn. f_equal; lra.
    + exists ((lz / 2 - z) / lz). split; [apply frac01; lra|]. unfold vadd, vscale, vsub. cbn. f_equal; field; lra.
  - intros (c & (s & Hs & ->) & D). exists (lz / 2 - s * lz). split; [assert (0 <= s * lz) by (apply Rmult_le_pos; lra); assert (0 <= (1 - s) * lz) by (apply Rmult_le_pos; lra); lra|].
    replace (mk3 0 0 (lz / 2 - s * lz)) with (vadd (mk3 0 0 (lz / 2)) (vscale s (vsub (mk3 0 0 (- (lz / 2))) (mk3 0 0 (lz / 2))))); [exact D|]. unfold vadd, vscale, vsub. cbn. f_equal; field.
Qed.
Definition capsule (lz r : R) (X : tf) : v3 -> Prop := placed X (capset lz r).
Lemma capsule_fat : forall lz r X q, 0 <= lz -> ortho (tf_rot X) -> capsule lz r X q <-> fat (placed X (axis_seg lz)) r q.
Proof.
  intros lz r X q H O. rewrite <- fat_placed by exact O. unfold capsule, placed. split; intros (q0 & K & E); exists q0; (split; [apply capset_fat; assumption|exact E]).
Qed.
Lemma sc_pair : forall o lz X, ortho (tf_rot X) -> let sp := seg_closest (tf_inv_apply X o) (mk3 0 0 (lz / 2)) (mk3 0 0 (- (lz / 2))) in
  pair (eq o) (placed X (axis_seg lz)) o (tf_apply X sp) /\ dist o (tf_apply X sp) = norm (vsub (tf_inv_apply X o) sp).
Proof.
  intros o lz X O sp. split; [|rewrite dist_sym, placed_dist by exact O; apply dist_sym]. apply near_pair, near_placed; [exact O|]. apply seg_closest_near.
Qed.

Theorem sc_intersect_iff : forall r1 tf1 lz r2 tf2, 0 <= r1 -> 0 <= r2 -> 0 <= lz -> ortho (tf_rot tf2) ->
  (sc_intersect r1 tf1 lz r2 tf2 <> None <-> exists q, ball (tf_tr tf1) r1 q /\ capsule lz r2 tf2 q).
Proof.
  intros r1 tf1 lz r2 tf2 H1 H2 Hl O. destruct (sc_pair (tf_tr tf1) lz tf2 O) as [P D].
  transitivity (exists q, fat (eq (tf_tr tf1)) r1 q /\ fat (placed tf2 (axis_seg lz)) r2 q).
  - rewrite (fat_meet _ _ _ _ r1 r2 P H1 H2), D. unfold sc_intersect. cbv zeta. match goal with |- context [Rlt_dec 0 ?u] => destruct (Rlt_dec 0 u) end; split; intros; try congruence; lra.
  - split; intros (q & A & B); exists q; (split; [apply ball_fat; exact A|apply capsule_fat; assumption]).
Qed.
Print Assumptions sc_intersect_iff.

Lemma unitize_pos : forall v, v <> vzero -> unitize v = vscale (/ norm v) v.
Proof. intros v H. unfold unitize. destruct (Rlt_dec 0 (norm2 v)) as [|n]; [reflexivity|]. exfalso. apply H, norm2_zero. pose proof (norm2_nonneg v). lra. Qed.

Theorem sc_distance_exact : forall r1 tf1 lz r2 tf2, 0 <= r1 -> 0 <= r2 -> 0 <= lz -> ortho (tf_rot tf2) ->
  match sc_distance r1 tf1 lz r2 tf2 with
  | Some (d, p1, p2) => 0 < d /\ true_dist (ball (tf_tr tf1) r1) (capsule lz r2 tf2) d p1 p2
  | None => exists q, ball (tf_tr tf1) r1 q /\ capsule lz r2 tf2 q end.
Proof.
  intros r1 tf1 lz r2 tf2 H1 H2 Hl O. destruct (sc_pair (tf_tr tf1) lz tf2 O) as [P D]. unfold sc_distance. cbv zeta.
  set (o := tf_tr tf1) in *. set (c := tf_inv_apply tf2 o) in *. set (sp := seg_closest c (mk3 0 0 (lz / 2)) (mk3 0 0 (- (lz / 2)))) in *. set (n := norm (vsub c sp)) in *.
  destruct (Rle_dec (n - r1 - r2) 0) as [L|L].
  - destruct (proj2 (fat_meet _ _ _ _ r1 r2 P H1 H2)) as (q & A & B); [lra|]. exists q. split; [apply ball_fat; exact A|apply capsule_fat; assumption].
  - split; [lra|]. apply (true_dist_ext (fat (eq o) r1) (fat (placed tf2 (axis_seg lz)) r2)); [intros; symmetry; apply ball_fat|intros; symmetry; apply capsule_fat; assumption|].
    pose proof (fat_dist _ _ _ _ r1 r2 P H1 H2 ltac:(lra)) as F. rewrite D in F.
    assert (Hn : 0 < n) by lra. assert (Ne : vsub c sp <> vzero) by (intros E; unfold n in Hn; rewrite E, norm_vzero in Hn; lra).
    rewrite (unitize_pos _ Ne). fold n.
    assert (Oo : o = tf_apply tf2 c) by (symmetry; apply tf_inv_right, O).
    replace (tf_apply tf2 (vsub c (vscale r1 (vscale (/ n) (vsub c sp))))) with (vadd o (vscale (r1 / n) (vsub (tf_apply tf2 sp) o))).
    replace (tf_apply tf2 (vadd sp (vscale r2 (vscale (/ n) (vsub c sp))))) with (vsub (tf_apply tf2 sp) (vscale (r2 / n) (vsub (tf_apply tf2 sp) o))).
    exact F.
    + rewrite Oo. unfold tf_apply. rewrite !mapply_add, !mapply_scale, mapply_sub. generalize (mapply (tf_rot tf2) sp) (mapply (tf_rot tf2) c) (tf_tr tf2). clear -Hn. clearbody n. intros [] [] []. unfold vsub, vadd, vscale, Rdiv. cbn. f_equal; ring.
    + rewrite Oo. unfold tf_apply. rewrite !mapply_sub, !mapply_scale, mapply_sub. generalize (mapply (tf_rot tf2) sp) (mapply (tf_rot tf2) c) (tf_tr tf2). clear -Hn. clearbody n. intros [] [] []. unfold vsub, vadd, vscale, Rdiv. cbn. f_equal; ring.
Qed.
Print Assumptions sc_distance_exact.

(** The contact of sphere and capsule: the normal and depth are right; the position is right
    exactly when the penetration is neither too deep nor the overlap too lopsided. *)
Lemma sc_local : forall r1 tf1 lz r2 tf2 ct, 0 <= r1 -> 0 <= r2 -> 0 <= lz -> ortho (tf_rot tf2) -> sc_intersect r1 tf1 lz r2 tf2 = Some ct ->
  let c := tf_inv_apply tf2 (tf_tr tf1) in let sp := seg_closest c (mk3 0 0 (lz / 2)) (mk3 0 0 (- (lz / 2))) in c <> sp ->
  let n := norm (vsub c sp) in let u := vscale (/ n) (vsub c sp) in 0 < n /\ norm u = 1 /\ cdepth ct = r1 + r2 - n /\ 0 <= cdepth ct /\
  cnorm ct = vneg (mapply (tf_rot tf2) u) /\ cpos ct = tf_apply tf2 (vadd sp (vscale (cdepth ct) u)).
Proof.
  intros r1 tf1 lz r2 tf2 ct H1 H2 Hl O Hc c sp Ne n u. unfold sc_intersect in Hc. cbv zeta in Hc. fold c sp n in Hc.
  assert (Nz : vsub c sp <> vzero) by (intros E; apply Ne, dist_zero; unfold dist; rewrite E; apply norm_vzero).
  assert (Hn : 0 < n) by (apply norm_pos; exact Nz).
  destruct (Rlt_dec 0 (n - r1 - r2)); [discriminate|]. rewrite (unitize_pos _ Nz) in Hc. fold n u in Hc. injection Hc as <-. cbn [cdepth cnorm cpos].
  split; [exact Hn|]. split; [unfold u; rewrite norm_scale; fold n; rewrite Rabs_right; [field; lra|apply Rle_ge, Rlt_le, Rinv_0_lt_compat; lra]|].
  split; [lra|]. split; [lra|]. clearbody u. split; [vring|]. f_equal. vring.
Qed.

Theorem sc_contact_separates : forall r1 tf1 lz r2 tf2 ct, 0 <= r1 -> 0 <= r2 -> 0 <= lz -> ortho (tf_rot tf2) -> sc_intersect r1 tf1 lz r2 tf2 = Some ct ->
  ~ placed tf2 (axis_seg lz) (tf_tr tf1) ->
  unit (cnorm ct) /\ (forall q, capsule lz r2 tf2 q -> r1 <= dist q (vsub (tf_tr tf1) (vscale (cdepth ct) (cnorm ct)))) /\
  (forall v, norm v <= cdepth ct -> exists q, ball (vadd (tf_tr tf1) v) r1 q /\ capsule lz r2 tf2 q).
Proof.
  intros r1 tf1 lz r2 tf2 ct H1 H2 Hl O Hc Off. pose proof (sc_local r1 tf1 lz r2 tf2 ct H1 H2 Hl O Hc) as L. cbv zeta in L.
  destruct (sc_pair (tf_tr tf1) lz tf2 O) as [P D]. set (o := tf_tr tf1) in *. set (c := tf_inv_apply tf2 o) in *. set (sp := seg_closest c (mk3 0 0 (lz / 2)) (mk3 0 0 (- (lz / 2)))) in *.
  pose proof (seg_closest_near c (mk3 0 0 (lz / 2)) (mk3 0 0 (- (lz / 2)))) as Nr. fold sp in Nr. change (near (axis_seg lz) c sp) in Nr.
  assert (Oo : o = tf_apply tf2 c) by (symmetry; apply tf_inv_right, O).
  destruct L as (Hn & Hu & Ed & Hd & En & Ep). { intros E. apply Off. exists c. split; [rewrite E; apply Nr|exact Oo]. }
  set (n := norm (vsub c sp)) in *. set (u := vscale (/ n) (vsub c sp)) in *.
  split; [|split].
  - unfold unit. rewrite En, norm2_neg, mapply_norm2 by exact O. rewrite <- norm_sq, Hu. ring.
  - intros q Hq. apply (capsule_fat lz r2 tf2 q Hl O) in Hq. destruct Hq as (x & (x0 & Kx & ->) & Dx).
    assert (Nr' : near (axis_seg lz) (vadd sp (vscale ((r1 + r2) / n) (vsub c sp))) sp) by (apply push_near with (p := c); [apply seg_convex|exact Nr|apply Rlt_le, Rdiv_lt_0_compat || (apply Rmult_le_pos; [lra|apply Rlt_le, Rinv_0_lt_compat; lra]); lra]).
    assert (Mv : vsub o (vscale (cdepth ct) (cnorm ct)) = tf_apply tf2 (vadd sp (vscale ((r1 + r2) / n) (vsub c sp)))).
    { rewrite En, Ed, Oo. unfold u, tf_apply. rewrite !mapply_add, !mapply_scale, !mapply_sub. generalize (mapply (tf_rot tf2) sp) (mapply (tf_rot tf2) c) (tf_tr tf2). clear -Hn. clearbody n. intros [] [] []. unfold vsub, vadd, vscale, vneg. cbn. f_equal; field; lra. }
    destruct Nr' as [_ M]. specialize (M x0 Kx). rewrite <- (tf_dist tf2 _ _ O), <- Mv in M.
    assert (Dn : dist sp (vadd sp (vscale ((r1 + r2) / n) (vsub c sp))) = r1 + r2).
    { rewrite dist_sym, dist_step, (dist_sym sp c). change (dist c sp) with n. rewrite Rabs_right; [field; lra|apply Rle_ge, Rmult_le_pos; [lra|apply Rlt_le, Rinv_0_lt_compat; lra]]. }
    rewrite <- (tf_dist tf2 _ _ O), <- Mv in Dn. rewrite <- (tf_dist tf2 x0 _ O), <- Mv in M.
    pose proof (dist_triangle (tf_apply tf2 x0) q (vsub o (vscale (cdepth ct) (cnorm ct)))). rewrite (dist_sym (tf_apply tf2 x0) q) in H. lra.
  - intros v Hv. destruct P as (_ & Ks & _). destruct (proj2 (fat_meet (eq (vadd o v)) (eq (tf_apply tf2 sp)) _ _ r1 r2 (ss_pair _ _) H1 H2)) as (q & A & (x & <- & Dq)).
    + pose proof (dist_triangle (vadd o v) o (tf_apply tf2 sp)). assert (dist (vadd o v) o = norm v) by (unfold dist; f_equal; vring). rewrite D in H. lra.
    + exists q. split; [apply ball_fat; exact A|]. apply capsule_fat; [exact Hl|exact O|]. exists (tf_apply tf2 sp). split; [exact Ks|exact Dq].
Qed.
Print Assumptions sc_contact_separates.

(** with the distance of the centre to the capsule's axis: where the reported position lies *)
Theorem sc_contact_position : forall r1 tf1 lz r2 tf2 ct, 0 <= r1 -> 0 <= r2 -> 0 <= lz -> ortho (tf_rot tf2) -> sc_intersect r1 tf1 lz r2 tf2 = Some ct ->
  ~ placed tf2 (axis_seg lz) (tf_tr tf1) -> exists n, 0 < n /\ (exists x, placed tf2 (axis_seg lz) x /\ dist (tf_tr tf1) x = n /\ forall y, placed tf2 (axis_seg lz) y -> n <= dist (tf_tr tf1) y) /\
  (capsule lz r2 tf2 (cpos ct) <-> r1 <= n) /\ (ball (tf_tr tf1) r1 (cpos ct) <-> r2 / 2 <= n <= r1 + r2 / 2).
Proof.
  intros r1 tf1 lz r2 tf2 ct H1 H2 Hl O Hc Off. pose proof (sc_local r1 tf1 lz r2 tf2 ct H1 H2 Hl O Hc) as L. cbv zeta in L.
  destruct (sc_pair (tf_tr tf1) lz tf2 O) as [P D]. set (o := tf_tr tf1) in *. set (c := tf_inv_apply tf2 o) in *. set (sp := seg_closest c (mk3 0 0 (lz / 2)) (mk3 0 0 (- (lz / 2)))) in *.
  pose proof (seg_closest_near c (mk3 0 0 (lz / 2)) (mk3 0 0 (- (lz / 2)))) as Nr. fold sp in Nr. change (near (axis_seg lz) c sp) in Nr.
  assert (Oo : o = tf_apply tf2 c) by (symmetry; apply tf_inv_right, O).
  destruct L as (Hn & Hu & Ed & Hd & En & Ep). { intros E. apply Off. exists c. split; [rewrite E; apply Nr|exact Oo]. }
  set (n := norm (vsub c sp)) in *. set (u := vscale (/ n) (vsub c sp)) in *.
  exists n. split; [exact Hn|]. split. { exists (tf_apply tf2 sp). destruct P as (_ & Ks & M). split; [exact Ks|split; [exact D|]]. intros y Ky. rewrite <- D. apply M; [reflexivity|exact Ky]. }
  set (g := cdepth ct) in *.
  assert (Pp : vadd sp (vscale g u) = vadd sp (vscale (g / n) (vsub c sp))) by (unfold u; generalize (vsub c sp); intros []; unfold vadd, vscale, Rdiv; cbn; f_equal; ring).
  assert (Fg : 0 <= g / n) by (apply Rmult_le_pos; [lra|apply Rlt_le, Rinv_0_lt_compat; lra]).
  assert (Eg : g / n * n = g) by (field; lra).
  assert (Nr' : near (axis_seg lz) (vadd sp (vscale g u)) sp) by (rewrite Pp; apply push_near; [apply seg_convex|exact Nr|exact Fg]).
  assert (Dsp : dist sp (vadd sp (vscale g u)) = g) by (rewrite Pp, dist_sym, dist_step, (dist_sym sp c); change (dist c sp) with n; rewrite Rabs_right; lra).
  split.
  - rewrite Ep. split.
    + intros Hq. apply (capsule_fat lz r2 tf2 _ Hl O) in Hq. destruct Hq as (x & (x0 & Kx & ->) & Dx). rewrite tf_dist in Dx by exact O. destruct Nr' as [_ M]. specialize (M x0 Kx). rewrite Dsp, (dist_sym x0) in M. lra.
    + intros Hr. apply capsule_fat; [exact Hl|exact O|]. exists (tf_apply tf2 sp). split; [exists sp; split; [apply Nr|reflexivity]|]. rewrite tf_dist by exact O. rewrite dist_sym, Dsp. lra.
  - rewrite Ep. unfold ball. rewrite Oo, tf_dist by exact O. rewrite Pp, dist_step', (dist_sym sp c). change (dist c sp) with n.
    assert (Ab : Rabs (1 - g / n) * n = Rabs (n - g)) by (replace (n - g) with ((1 - g / n) * n) by lra; rewrite Rabs_mult, (Rabs_right n) by lra; reflexivity). rewrite Ab, Ed.
    split; [intros A; apply Rabs_le_inv in A; lra|intros A; apply Rabs_le; lra].
Qed.
Print Assumptions sc_contact_position.

(** Two shapes that nearly touch from radius 1 each: fine; but two that overlap by most of a
    radius get a position outside the capsule. *)
Theorem sc_contact_refuted : exists r1 tf1 lz r2 tf2 ct, 0 < r1 /\ 0 < r2 /\ 0 < lz /\ ortho (tf_rot tf2) /\
  sc_intersect r1 tf1 lz r2 tf2 = Some ct /\ ~ capsule lz r2 tf2 (cpos ct) /\ ~ ball (tf_tr tf1) r1 (cpos ct).
Proof.
  set (tf1 := mktf mid (mk3 (/ 4) 0 0)). set (tf2 := mktf mid vzero). assert (O : ortho (tf_rot tf2)) by exact ortho_mid.
  assert (Ex : exists ct, sc_intersect 1 tf1 2 1 tf2 = Some ct).
  { destruct (sc_intersect 1 tf1 2 1 tf2) eqn:E; [eexists; reflexivity|]. exfalso. revert E. apply sc_intersect_iff; try lra; [exact O|]. exists vzero. split.
    - unfold ball, dist, tf1. cbn. apply norm_le_sq; [lra|]. unfold norm2, dot. cbn. lra.
    - exists vzero. split; [exists 0; split; [lra|]; unfold vzero; rewrite dist_refl; lra|]. unfold tf_apply, tf2, mapply. cbn. vring. }
  destruct Ex as (ct & E). exists 1, tf1, 2, 1, tf2, ct. split; [lra|split; [lra|split; [lra|split; [exact O|split; [exact E|]]]]].
  assert (Off : ~ placed tf2 (axis_seg 2) (tf_tr tf1)).
  { intros (q & (s & _ & ->) & Eq). apply (f_equal c0) in Eq. revert Eq. unfold tf1, tf2, tf_apply, mapply. cbn. lra. }
  destruct (sc_contact_position 1 tf1 2 1 tf2 ct ltac:(lra) ltac:(lra) ltac:(lra) O E Off) as (n & Hn & (x & Kx & Dx & Mx) & C1 & C2).
  assert (N4 : n <= / 4).
  { assert (K0 : placed tf2 (axis_seg 2) vzero). { exists vzero. split; [exists (/ 2); split; [lra|]; unfold vadd, vscale, vsub, vzero; cbn; f_equal; lra|]. unfold tf_apply, tf2, mapply. cbn. vring. }
    specialize (Mx _ K0). eapply Rle_trans; [exact Mx|]. unfold dist, tf1. cbn. apply norm_le_sq; [lra|]. unfold norm2, dot. cbn. lra. }
  rewrite C1, C2. lra.
Qed.
Print Assumptions sc_contact_refuted.

(** ** Sphere and box (C48) *)
Definition box_at (side : v3) (X : tf) : v3 -> Prop := placed X (boxset side).
Lemma dist_sq : forall a b, dist a b * dist a b = norm2 (vsub a b). Proof. intros. apply norm_sq. Qed.
Lemma sq_lt : forall x y, 0 <= x -> 0 <= y -> (x * x < y * y <-> x < y).
Proof. intros x y Hx Hy. split; intros H; [apply Rnot_le_lt; intros L; assert (y * y <= x * x) by (apply Rmult_le_compat; lra); lra|apply Rmult_le_0_lt_compat; lra]. Qed.

Theorem npb_nearest : forall side q, posside side -> boxset side (npb side q) /\ (forall x, boxset side x -> dist (npb side q) q <= dist x q) /\
  (npb_clamped side q = true <-> ~ boxset side q).
Proof.
  intros side q H. destruct (npb_near side q H) as [K M]. split; [exact K|split; [exact M|]]. split.
  - intros C B. unfold npb_clamped in C. pose proof (B 0%nat ltac:(lia)) as B0. pose proof (B 1%nat ltac:(lia)) as B1. pose proof (B 2%nat ltac:(lia)) as B2. cbn in B0, B1, B2.
    assert (F : forall h x, - h <= x <= h -> clampedc h x = false) by (intros h x Hx; unfold clampedc; destruct (Rlt_dec h x); [lra|]; destruct (Rlt_dec x (- h)); [lra|reflexivity]).
    rewrite !F in C by assumption. discriminate.
  - intros B. destruct (npb_clamped side q) eqn:E; [reflexivity|]. exfalso. apply B, npb_not_clamped, E.
Qed.
Print Assumptions npb_nearest.

(** what both sphere-box and sphere-cylinder do with the nearest point [N] of a convex set *)
Lemma gen_iff : forall K X o r N, ortho (tf_rot X) -> 0 <= r -> near K (tf_inv_apply X o) N ->
  (norm2 (vsub N (tf_inv_apply X o)) <= r * r <-> exists q, ball o r q /\ placed X K q).
Proof.
  intros K X o r N O Hr Nr. pose proof (near_meet _ _ r _ (near_placed X K o N O Nr)) as M. rewrite placed_dist in M by exact O.
  rewrite <- dist_sq. transitivity (dist N (tf_inv_apply X o) <= r); [|rewrite <- M; split; intros (q & A & B); exists q; split; assumption].
  pose proof (dist_nonneg N (tf_inv_apply X o)). split; intros; [apply sq_le; lra|apply Rmult_le_compat; lra].
Qed.
Lemma gen_dist : forall K X o r N, ortho (tf_rot X) -> 0 <= r -> near K (tf_inv_apply X o) N -> r * r < norm2 (vsub N (tf_inv_apply X o)) ->
  let d := dist N (tf_inv_apply X o) in r < d /\
  true_dist (ball o r) (placed X K) (d - r) (tf_apply X (vadd (tf_inv_apply X o) (vscale (r / d) (vsub N (tf_inv_apply X o))))) (tf_apply X N).
Proof.
  intros K X o r N O Hr Nr L d. assert (Ld : r < d) by (apply sq_lt; [exact Hr|apply dist_nonneg|unfold d; rewrite dist_sq; exact L]).
  split; [exact Ld|]. pose proof (near_dist _ _ r _ (near_placed X K o N O Nr) Hr) as F. rewrite placed_dist in F by exact O. fold d in F. specialize (F Ld).
  set (C := tf_inv_apply X o) in *. assert (Oo : o = tf_apply X C) by (symmetry; apply tf_inv_right, O).
  replace (tf_apply X (vadd C (vscale (r / d) (vsub N C)))) with (vadd o (vscale (r / d) (vsub (tf_apply X N) o))); [exact F|].
  rewrite Oo. unfold tf_apply. rewrite mapply_add, mapply_scale, mapply_sub. generalize (mapply (tf_rot X) N) (mapply (tf_rot X) C) (tf_tr X). clear. clearbody d. intros [] [] []. unfold vadd, vscale, vsub. cbn. f_equal; ring.
Qed.

Theorem sb_intersect_iff : forall eps r tfs side tfb, 0 <= r -> posside side -> ortho (tf_rot tfb) ->
  (sb_intersect eps r tfs side tfb <> None <-> exists q, ball (tf_tr tfs) r q /\ box_at side tfb q).
Proof.
  intros eps r tfs side tfb Hr Hs O. unfold box_at. rewrite <- (gen_iff _ tfb (tf_tr tfs) r _ O Hr (npb_near side _ Hs)).
  unfold sb_intersect. cbv zeta. match goal with |- context [Rlt_dec (r * r) ?u] => destruct (Rlt_dec (r * r) u) end; split; intros; try congruence; lra.
Qed.
Print Assumptions sb_intersect_iff.

Theorem sb_distance_exact : forall r tfs side tfb, 0 <= r -> posside side -> ortho (tf_rot tfb) ->
  match sb_distance r tfs side tfb with
  | Some (d, p1, p2) => 0 < d /\ true_dist (ball (tf_tr tfs) r) (box_at side tfb) d p1 p2
  | None => exists q, ball (tf_tr tfs) r q /\ box_at side tfb q end.
Proof.
  intros r tfs side tfb Hr Hs O. pose proof (npb_near side (tf_inv_apply tfb (tf_tr tfs)) Hs) as Nr.
  pose proof (gen_iff _ tfb (tf_tr tfs) r _ O Hr Nr) as I. pose proof (gen_dist _ tfb (tf_tr tfs) r _ O Hr Nr) as G. cbv zeta in G.
  unfold sb_distance. cbv zeta. set (C := tf_inv_apply tfb (tf_tr tfs)) in *. set (N := npb side C) in *.
  destruct (npb_clamped side C) eqn:Cl.
  - rewrite (norm2_sub_sym C N). change (sqrt (norm2 (vsub N C))) with (dist N C). destruct (Rlt_dec (r * r) (norm2 (vsub N C))) as [L|L].
    + destruct (G L) as [Ld T]. split; [lra|]. replace (vadd (vscale (dist N C - r) (vscale (/ dist N C) (vsub C N))) N) with (vadd C (vscale (r / dist N C) (vsub N C))); [exact T|].
      assert (0 < dist N C) by lra. revert H. generalize (dist N C). clear. intros d H. destruct N, C. unfold vadd, vscale, vsub. cbn. f_equal; field; lra.
    + apply I. lra.
  - apply npb_not_clamped in Cl. destruct Cl as [E _]. fold N in E. apply I. rewrite E, vsub_self. replace (norm2 vzero) with 0 by vring. apply Rle_0_sqr.
Qed.
Print Assumptions sb_distance_exact.

(** the face chosen for a centre inside *)
Lemma near_face_spec : forall eps side C, 0 <= eps -> exists md ax, near_face eps side C = Some (md, ax) /\ (ax < 3)%nat /\ md = face_dist side C ax /\ forall i, (i < 3)%nat -> md <= face_dist side C i + eps.
Proof.
  intros eps side C He. unfold near_face. cbn [fold_left].
  destruct (Rlt_dec (face_dist side C 1 + eps) (face_dist side C 0)) as [A|A].
  - destruct (Rlt_dec (face_dist side C 2 + eps) (face_dist side C 1)) as [B|B].
    + exists (face_dist side C 2), 2%nat. split; [reflexivity|split; [lia|split; [reflexivity|]]]. intros [|[|[|i]]] Hi; try lia; lra.
    + exists (face_dist side C 1), 1%nat. split; [reflexivity|split; [lia|split; [reflexivity|]]]. intros [|[|[|i]]] Hi; try lia; lra.
  - destruct (Rlt_dec (face_dist side C 2 + eps) (face_dist side C 0)) as [B|B].
    + exists (face_dist side C 2), 2%nat. split; [reflexivity|split; [lia|split; [reflexivity|]]]. intros [|[|[|i]]] Hi; try lia; lra.
    + exists (face_dist side C 0), 0%nat. split; [reflexivity|split; [lia|split; [reflexivity|]]]. intros [|[|[|i]]] Hi; try lia; lra.
Qed.
Lemma comp_dist : forall i p q, (i < 3)%nat -> Rabs (comp i p - comp i q) <= dist p q.
Proof. intros i p q Hi. unfold dist. replace (comp i p - comp i q) with (comp i (vsub p q)) by (destruct i as [|[|i]]; reflexivity). apply comp_le_norm. Qed.

(** local version of the claim: normal unit, depth separates, nothing much shorter does *)
Definition contact_ok (K : v3 -> Prop) (C : v3) (r slack1 slack2 : R) (ct : contact) : Prop :=
  unit (cnorm ct) /\ (forall q, K q -> r - slack1 <= dist q (vsub C (vscale (cdepth ct) (cnorm ct)))) /\
  (forall v, norm v < cdepth ct - slack2 -> exists q, K q /\ dist q (vadd C v) <= r).
Lemma outside_ok : forall K C r N s2, convex K -> near K C N -> 0 < norm2 (vsub N C) -> norm2 (vsub N C) <= r * r -> 0 <= r -> 0 <= s2 ->
  let d := sqrt (norm2 (vsub N C)) in let n := vscale (/ d) (vsub N C) in contact_ok K C r 0 s2 (mkct n (vadd N (vscale ((r - d) / 2) n)) (r - d)).
Proof.
  intros K C r N s2 Cv Nr Hp Hle Hr Hs d n. assert (Hd : 0 < d) by (apply sqrt_lt_R0; exact Hp). change d with (dist N C) in Hd. assert (Dd : dist N C = d) by reflexivity. rewrite Dd in Hd.
  assert (Dr : d <= r) by (apply sq_le; [exact Hr|]; rewrite <- Dd, dist_sq; exact Hle).
  split; [|split]; cbn [cnorm cdepth].
  - unfold unit, n. rewrite norm2_scale, <- dist_sq, Dd. field. lra.
  - intros q Kq. pose proof (push_near K C N (r / d) Cv Nr ltac:(apply Rmult_le_pos; [lra|apply Rlt_le, Rinv_0_lt_compat; lra])) as [_ M]. specialize (M q Kq).
    assert (E : vsub C (vscale (r - d) n) = vadd N (vscale (r / d) (vsub C N))) by (unfold n; clear -Hd; clearbody d; destruct C, N; unfold vadd, vscale, vsub; cbn; f_equal; field; lra).
    rewrite E. rewrite dist_sym, dist_step, Dd in M. rewrite Rabs_right in M by (apply Rle_ge, Rmult_le_pos; [lra|apply Rlt_le, Rinv_0_lt_compat; lra]). replace (r / d * d) with r in M by (field; lra). lra.
  - intros v Hv. exists N. split; [apply Nr|]. pose proof (dist_triangle N C (vadd C v)). assert (dist C (vadd C v) = norm v) by (rewrite dist_sym; unfold dist; f_equal; vring). lra.
Qed.
Lemma unit_axis : forall i s, s * s = 1 -> unit (axis_vec i s).
Proof. intros [|[|i]] s H; unfold unit, norm2, dot, axis_vec; cbn; lra. Qed.

(** moving a point of a box by less than its distance to every face leaves it inside *)
Lemma inside_move : forall side C v k, boxset side C -> (forall i, (i < 3)%nat -> k <= face_dist side C i) -> norm v <= k -> boxset side (vadd C v).
Proof.
  intros side C v k B F Hv i Hi. specialize (B i Hi). specialize (F i Hi). unfold face_dist in F. pose proof (comp_le_norm i v) as Cv.
  assert (Cv' : - k <= comp i v <= k) by (apply Rabs_le_inv; lra).
  replace (comp i (vadd C v)) with (comp i C + comp i v) by (destruct i as [|[|i]]; reflexivity). destruct (Rle_dec 0 (comp i C)); lra.
Qed.

Definition sb_local (eps r : R) (side C : v3) : contact :=
  let N := npb side C in let d2 := norm2 (vsub N C) in
  if (npb_clamped side C && (if Rlt_dec (eps * eps) d2 then true else false))%bool then
    let d := sqrt d2 in let n := vscale (/ d) (vsub N C) in
    mkct n (vadd N (vscale ((r - d) / 2) n)) (r - d)
  else match near_face eps side C with
       | Some (md, ax) => let n := axis_vec ax (if Rle_dec 0 (comp ax C) then -1 else 1) in
         mkct n (vadd C (vscale ((r - md) / 2) n)) (md + r)
       | None => mkct vzero C 0 end.
Lemma sb_local_eq : forall eps r tfs side tfb ct, sb_intersect eps r tfs side tfb = Some ct ->
  let C := tf_inv_apply tfb (tf_tr tfs) in norm2 (vsub (npb side C) C) <= r * r /\
  ct = mkct (mapply (tf_rot tfb) (cnorm (sb_local eps r side C))) (tf_apply tfb (cpos (sb_local eps r side C))) (cdepth (sb_local eps r side C)).
Proof.
  intros eps r tfs side tfb ct. unfold sb_intersect. cbv zeta. set (C := tf_inv_apply tfb (tf_tr tfs)). destruct (Rlt_dec (r * r) (norm2 (vsub (npb side C) C))) as [|L]; [discriminate|].
  intros E. split; [lra|]. injection E as <-. reflexivity.
Qed.
Lemma sb_local_ok : forall eps r side C, 0 <= eps -> 0 <= r -> posside side -> norm2 (vsub (npb side C) C) <= r * r -> contact_ok (boxset side) C r 0 (2 * eps) (sb_local eps r side C).
Proof.
  intros eps r side C He Hr Hs Hle. pose proof (npb_near side C Hs) as Nr. unfold sb_local. cbv zeta. set (N := npb side C) in *.
  destruct (npb_clamped side C && (if Rlt_dec (eps * eps) (norm2 (vsub N C)) then true else false))%bool eqn:Br.
  - apply andb_prop in Br. destruct Br as [_ Br]. destruct (Rlt_dec (eps * eps) (norm2 (vsub N C))) as [L|]; [|discriminate].
    apply outside_ok; try assumption; [apply box_convex|pose proof (Rle_0_sqr eps) as Q; unfold Rsqr in Q; lra|lra].
  - destruct (near_face_spec eps side C He) as (md & ax & -> & Hax & Emd & Min).
    assert (Dn : dist N C <= eps).
    { apply sq_le; [exact He|]. rewrite dist_sq. apply Bool.andb_false_iff in Br. destruct Br as [Br|Br]; [|destruct (Rlt_dec (eps * eps) (norm2 (vsub N C))); [discriminate|lra]].
      apply npb_not_clamped in Br. destruct Br as [E _]. fold N in E. rewrite E, vsub_self. replace (norm2 vzero) with 0 by vring. apply Rle_0_sqr. }
    set (sg := if Rle_dec 0 (comp ax C) then -1 else 1). split; [|split]; cbn [cnorm cdepth].
    + apply unit_axis. unfold sg. destruct (Rle_dec 0 (comp ax C)); ring.
    + intros q Kq. specialize (Kq ax Hax). pose proof (comp_dist ax q (vsub C (vscale (md + r) (axis_vec ax sg))) Hax) as Cd.
      replace (comp ax (vsub C (vscale (md + r) (axis_vec ax sg)))) with (comp ax C - (md + r) * sg) in Cd by (destruct ax as [|[|[|ax]]]; try lia; cbn; ring).
      unfold face_dist in Emd. unfold sg in *. destruct (Rle_dec 0 (comp ax C)).
      * rewrite Rabs_left1 in Cd by lra. lra.
      * rewrite Rabs_right in Cd by lra. lra.
    + intros v Hv. pose proof (norm_nonneg v) as Vn.
      assert (Ndist : dist C (vadd C v) = norm v) by (rewrite dist_sym; unfold dist; f_equal; vring).
      destruct (npb_clamped side C) eqn:Cl.
      * exists N. split; [apply Nr|]. assert (Mneg : exists i, (i < 3)%nat /\ face_dist side C i < 0).
        { unfold npb_clamped in Cl. assert (G : forall i, (i < 3)%nat -> clampedc (comp i side / 2) (comp i C) = true -> face_dist side C i < 0).
          { intros i Hi E. unfold clampedc in E. unfold face_dist. destruct Hs as (S0 & S1 & S2). assert (0 <= comp i side) by (destruct i as [|[|[|i]]]; try lia; assumption).
            destruct (Rlt_dec (comp i side / 2) (comp i C)); [destruct (Rle_dec 0 (comp i C)); lra|]. destruct (Rlt_dec (comp i C) (- (comp i side / 2))); [|discriminate]. destruct (Rle_dec 0 (comp i C)); lra. }
          apply Bool.orb_prop in Cl. destruct Cl as [Cl|Cl]; [apply Bool.orb_prop in Cl; destruct Cl as [Cl|Cl]|]; [exists 0%nat|exists 1%nat|exists 2%nat]; (split; [lia|apply G; [lia|exact Cl]]). }
        destruct Mneg as (i & Hi & Mi). specialize (Min i Hi). pose proof (dist_triangle N C (vadd C v)). lra.
      * apply npb_not_clamped in Cl. destruct Cl as [_ Bx].
        destruct (Rle_dec (norm v) (md - eps)) as [Le|Le].
        -- exists (vadd C v). split; [apply inside_move with (k := md - eps); [exact Bx|intros i Hi; specialize (Min i Hi); lra|exact Le]|]. rewrite dist_refl. exact Hr.
        -- destruct (Rle_dec (md - eps) 0) as [Z|Z].
           ++ exists C. split; [exact Bx|]. lra.
           ++ assert (F := frac01 (md - eps) (norm v) ltac:(lra) ltac:(lra) ltac:(lra)). set (k := (md - eps) / norm v) in *. assert (Ek : k * norm v = md - eps) by (unfold k; field; lra).
              exists (vadd C (vscale k v)). split; [apply inside_move with (k := md - eps); [exact Bx|intros i Hi; specialize (Min i Hi); lra|rewrite norm_scale, Rabs_right; lra]|].
              unfold dist. replace (vsub (vadd C (vscale k v)) (vadd C v)) with (vscale (- (1 - k)) v) by vring. rewrite norm_scale, Rabs_Ropp, Rabs_right by lra. lra.
Qed.
Lemma world_ok : forall K C X r s1 s2 lc, ortho (tf_rot X) -> contact_ok K C r s1 s2 lc -> let o := tf_apply X C in
  let ct := mkct (mapply (tf_rot X) (cnorm lc)) (tf_apply X (cpos lc)) (cdepth lc) in
  unit (cnorm ct) /\ (forall q, placed X K q -> r - s1 <= dist q (vsub o (vscale (cdepth ct) (cnorm ct)))) /\
  (forall v, norm v < cdepth ct - s2 -> exists q, placed X K q /\ ball (vadd o v) r q).
Proof.
  intros K C X r s1 s2 lc O (U & Sp & Mn) o ct. cbn [ct cnorm cdepth]. split; [|split].
  - unfold unit. rewrite mapply_norm2 by exact O. exact U.
  - intros q (q0 & Kq & ->). unfold ct. cbn [cnorm cdepth]. replace (vsub o (vscale (cdepth lc) (mapply (tf_rot X) (cnorm lc)))) with (tf_apply X (vsub C (vscale (cdepth lc) (cnorm lc)))); [rewrite tf_dist by exact O; apply Sp, Kq|].
    unfold o, tf_apply. rewrite mapply_sub, mapply_scale. vring.
  - intros v Hv. unfold ct in Hv. cbn [cdepth] in Hv. destruct (Mn (mtapply (tf_rot X) v)) as (q & Kq & D); [rewrite mt_norm by exact O; exact Hv|].
    exists (tf_apply X q). split; [exists q; split; [exact Kq|reflexivity]|]. unfold ball. replace (vadd o v) with (tf_apply X (vadd C (mtapply (tf_rot X) v))); [rewrite tf_dist by exact O; exact D|].
    unfold o, tf_apply. rewrite mapply_add, mapply_mt by exact O. vring.
Qed.

(** The contact of sphere and box: the normal is a unit vector, moving the sphere back along it by
    the depth leaves it at most touching, and no motion shorter than the depth (less twice the
    tolerance) separates the shapes. *)
Theorem sb_contact_separates : forall eps r tfs side tfb ct, 0 <= eps -> 0 <= r -> posside side -> ortho (tf_rot tfb) -> sb_intersect eps r tfs side tfb = Some ct ->
  unit (cnorm ct) /\ (forall q, box_at side tfb q -> r <= dist q (vsub (tf_tr tfs) (vscale (cdepth ct) (cnorm ct)))) /\
  (forall v, norm v < cdepth ct - 2 * eps -> exists q, box_at side tfb q /\ ball (vadd (tf_tr tfs) v) r q).
Proof.
  intros eps r tfs side tfb ct He Hr Hs O E. destruct (sb_local_eq _ _ _ _ _ _ E) as [Hle ->].
  pose proof (world_ok _ _ tfb r 0 (2 * eps) _ O (sb_local_ok eps r side _ He Hr Hs Hle)) as W. cbv zeta in W. rewrite tf_inv_right in W by exact O. rewrite Rminus_0_r in W. exact W.
Qed.
Print Assumptions sb_contact_separates.

(** The contact position lies in the ball unless the depth exceeds four radii. *)
Theorem sb_contact_in_ball : forall eps r tfs side tfb ct, 0 <= eps -> 0 <= r -> posside side -> ortho (tf_rot tfb) -> sb_intersect eps r tfs side tfb = Some ct ->
  cdepth ct <= 4 * r -> ball (tf_tr tfs) r (cpos ct).
Proof.
  intros eps r tfs side tfb ct He Hr Hs O E. destruct (sb_local_eq _ _ _ _ _ _ E) as [Hle ->]. cbn [cdepth cpos]. set (C := tf_inv_apply tfb (tf_tr tfs)) in *.
  assert (Oo : tf_tr tfs = tf_apply tfb C) by (symmetry; apply tf_inv_right, O). intros Hd. unfold ball. rewrite Oo, tf_dist by exact O. revert Hd. unfold sb_local. cbv zeta.
  pose proof (npb_near side C Hs) as Nr. set (N := npb side C) in *.
  assert (DN : dist N C <= r) by (apply sq_le; [exact Hr|rewrite dist_sq; exact Hle]).
  destruct (npb_clamped side C && (if Rlt_dec (eps * eps) (norm2 (vsub N C)) then true else false))%bool eqn:Br.
  - apply andb_prop in Br. destruct Br as [_ Br]. destruct (Rlt_dec (eps * eps) (norm2 (vsub N C))) as [L|]; [|discriminate]. cbn [cdepth cpos]. intros _.
    change (sqrt (norm2 (vsub N C))) with (dist N C). assert (Hd : 0 < dist N C) by (apply sqrt_lt_R0; pose proof (Rle_0_sqr eps) as Q; unfold Rsqr in Q; lra). set (d := dist N C) in *.
    replace (vadd N (vscale ((r - d) / 2) (vscale (/ d) (vsub N C)))) with (vadd C (vscale ((r + d) / 2 / d) (vsub N C))) by (clear -Hd; clearbody d; destruct N, C; unfold vadd, vscale, vsub; cbn; f_equal; field; lra).
    rewrite dist_step, (dist_sym C N). fold d. rewrite Rabs_right; [replace ((r + d) / 2 / d * d) with ((r + d) / 2) by (field; lra); lra|]. apply Rle_ge, Rmult_le_pos; [lra|apply Rlt_le, Rinv_0_lt_compat; lra].
  - destruct (near_face_spec eps side C He) as (md & ax & -> & Hax & Emd & _). cbn [cdepth cpos]. intros Hd.
    set (sg := if Rle_dec 0 (comp ax C) then -1 else 1). assert (U : norm (axis_vec ax sg) = 1) by (apply unit_norm, unit_axis; unfold sg; destruct (Rle_dec 0 (comp ax C)); ring).
    unfold dist. replace (vsub (vadd C (vscale ((r - md) / 2) (axis_vec ax sg))) C) with (vscale ((r - md) / 2) (axis_vec ax sg)) by vring. rewrite norm_scale, U.
    assert (- r <= md).
    { destruct Nr as [Kn _]. specialize (Kn ax Hax). pose proof (comp_dist ax N C Hax) as Cd. unfold face_dist in Emd. destruct (Rle_dec 0 (comp ax C)).
      - assert (comp ax C - comp ax N <= dist N C). { pose proof (Rle_abs (- (comp ax N - comp ax C))). rewrite Rabs_Ropp in H. pose proof (comp_dist ax N C Hax). lra. } lra.
      - assert (comp ax N - comp ax C <= dist N C). { pose proof (Rle_abs (comp ax N - comp ax C)). pose proof (comp_dist ax N C Hax). lra. } lra. }
    rewrite Rmult_1_r. apply Rabs_le. lra.
Qed.
Print Assumptions sb_contact_in_ball.

Lemma inv_mid : forall p, tf_inv_apply (mktf mid vzero) p = p.
Proof. intros []. unfold tf_inv_apply, mtapply, mid, vzero, dot, vsub. cbn. f_equal; ring. Qed.
Lemma app_mid : forall p, tf_apply (mktf mid vzero) p = p.
Proof. intros []. unfold tf_apply, mapply, mid, vzero, vadd. cbn. f_equal; ring. Qed.
Lemma box_mid : forall side q, box_at side (mktf mid vzero) q <-> boxset side q.
Proof. intros. unfold box_at, placed. split; [intros (q0 & K & ->); rewrite app_mid; exact K|intros K; exists q; split; [exact K|symmetry; apply app_mid]]. Qed.

(** A small sphere in the middle of a box has its contact position outside the sphere; a sphere
    pushed through a thin plate has it outside the plate. *)
Theorem sb_position_refuted : forall eps, 0 <= eps <= 1 / 2 ->
  (exists tfs side tfb ct, sb_intersect eps 1 tfs side tfb = Some ct /\ posside side /\ ortho (tf_rot tfb) /\ ~ ball (tf_tr tfs) 1 (cpos ct)) /\
  (exists tfs side tfb ct, sb_intersect eps 2 tfs side tfb = Some ct /\ posside side /\ ortho (tf_rot tfb) /\ ~ box_at side tfb (cpos ct)).
Proof.
  intros eps He. split.
  - assert (P : posside (mk3 10 10 10)) by (unfold posside; cbn; lra).
    exists (mktf mid vzero), (mk3 10 10 10), (mktf mid vzero).
    destruct (sb_intersect eps 1 (mktf mid vzero) (mk3 10 10 10) (mktf mid vzero)) as [ct|] eqn:E.
    + exists ct. split; [reflexivity|split; [exact P|split; [exact ortho_mid|]]]. destruct (sb_local_eq _ _ _ _ _ _ E) as [_ ->]. cbn [cpos tf_tr]. rewrite app_mid, inv_mid.
      unfold sb_local. cbv zeta. assert (Cl : npb_clamped (mk3 10 10 10) vzero = false) by (unfold npb_clamped, clampedc, vzero; cbn [c0 c1 c2]; destruct (Rlt_dec (10 / 2) 0); [lra|]; destruct (Rlt_dec 0 (- (10 / 2))); [lra|reflexivity]).
      rewrite Cl. cbn [andb]. unfold near_face. cbn [fold_left]. unfold face_dist, vzero. cbn [comp c0 c1 c2]. destruct (Rle_dec 0 0); [|lra]. repeat (match goal with |- context [Rlt_dec ?u ?v] => destruct (Rlt_dec u v); [lra|] end; cbv iota beta).
      cbn [cpos comp c0]. destruct (Rle_dec 0 0); [|lra]. intros B. pose proof (comp_dist 0 (vadd (mk3 0 0 0) (vscale ((1 - (10 / 2 - 0)) / 2) (axis_vec 0 (-1)))) (mk3 0 0 0) ltac:(lia)) as Cd. unfold ball in B. cbn in Cd, B.
      rewrite Rabs_right in Cd; lra.
    + exfalso. revert E. apply sb_intersect_iff; [lra|exact P|exact ortho_mid|]. exists vzero. split; [unfold ball; cbn; rewrite dist_refl; lra|]. apply box_mid. intros [|[|[|i]]] Hi; try lia; cbn; lra.
  - assert (P : posside (mk3 10 10 (1 / 10))) by (unfold posside; cbn; lra). set (tfs := mktf mid (mk3 0 0 1)).
    exists tfs, (mk3 10 10 (1 / 10)), (mktf mid vzero).
    destruct (sb_intersect eps 2 tfs (mk3 10 10 (1 / 10)) (mktf mid vzero)) as [ct|] eqn:E.
    + exists ct. split; [reflexivity|split; [exact P|split; [exact ortho_mid|]]]. destruct (sb_local_eq _ _ _ _ _ _ E) as [_ ->]. cbn [cpos tf_tr]. rewrite app_mid, inv_mid, box_mid. cbn [tfs tf_tr].
      assert (En : npb (mk3 10 10 (1 / 10)) (mk3 0 0 1) = mk3 0 0 (1 / 20)).
      { unfold npb, clampc. cbn [c0 c1 c2]. destruct (Rlt_dec (10 / 2) 0); [lra|]. destruct (Rlt_dec 0 (- (10 / 2))); [lra|]. destruct (Rlt_dec (1 / 10 / 2) 1); [|lra]. f_equal. lra. }
      assert (Cl : npb_clamped (mk3 10 10 (1 / 10)) (mk3 0 0 1) = true) by (unfold npb_clamped, clampedc; cbn [c0 c1 c2]; destruct (Rlt_dec (1 / 10 / 2) 1); [|lra]; apply Bool.orb_true_r).
      unfold sb_local. cbv zeta. rewrite En, Cl. cbn [andb].
      assert (D2 : norm2 (vsub (mk3 0 0 (1 / 20)) (mk3 0 0 1)) = 19 / 20 * (19 / 20)) by (unfold norm2, dot, vsub; cbn; lra). rewrite D2, sqrt_square by lra.
      destruct (Rlt_dec (eps * eps) (19 / 20 * (19 / 20))) as [_|N]; [|exfalso; apply N; nra]. cbn [cpos]. intros B. specialize (B 2%nat ltac:(lia)). cbn in B. lra.
    + exfalso. revert E. apply sb_intersect_iff; [lra|exact P|exact ortho_mid|]. exists vzero. split; [unfold ball; cbn; apply norm_le_sq; [lra|]; unfold norm2, dot, vsub; cbn; lra|]. apply box_mid. intros [|[|[|i]]] Hi; try lia; cbn; lra.
Qed.
Print Assumptions sb_position_refuted.

(** ** Sphere and cylinder (C49) *)
Definition cyl_at (h rc : R) (X : tf) : v3 -> Prop := placed X (cylset h rc).

Theorem npc_nearest : forall h rc q, 0 <= h -> 0 <= rc -> cylset h rc (npc h rc q) /\ (forall x, cylset h rc x -> dist (npc h rc q) q <= dist x q) /\
  (npc_clamped h rc q = true <-> ~ cylset h rc q).
Proof.
  intros h rc q Hh Hr. destruct (npc_near h rc q Hh Hr) as [K M]. split; [exact K|split; [exact M|]]. split.
  - intros C [Bz Br]. unfold npc_clamped in C. destruct (Rlt_dec (h / 2) (c2 q)); [lra|]. destruct (Rlt_dec (c2 q) (- (h / 2))); [lra|]. destruct (Rlt_dec (rc * rc) (c0 q * c0 q + c1 q * c1 q)); [lra|discriminate].
  - intros B. destruct (npc_clamped h rc q) eqn:E; [reflexivity|]. exfalso. apply B, npc_not_clamped, E.
Qed.
Print Assumptions npc_nearest.

Theorem sy_intersect_iff : forall eps r tfs h rc tfc, 0 <= r -> 0 <= h -> 0 <= rc -> ortho (tf_rot tfc) ->
  (sy_intersect eps r tfs h rc tfc <> None <-> exists q, ball (tf_tr tfs) r q /\ cyl_at h rc tfc q).
Proof.
  intros eps r tfs h rc tfc Hr Hh Hc O. unfold cyl_at. rewrite <- (gen_iff _ tfc (tf_tr tfs) r _ O Hr (npc_near h rc _ Hh Hc)).
  unfold sy_intersect. cbv zeta. match goal with |- context [Rlt_dec (r * r) ?u] => destruct (Rlt_dec (r * r) u) end; split; intros; try congruence; lra.
Qed.
Print Assumptions sy_intersect_iff.

Theorem sy_distance_exact : forall r tfs h rc tfc, 0 <= r -> 0 <= h -> 0 <= rc -> ortho (tf_rot tfc) ->
  match sy_distance r tfs h rc tfc with
  | Some (d, p1, p2) => 0 < d /\ true_dist (ball (tf_tr tfs) r) (cyl_at h rc tfc) d p1 p2
  | None => exists q, ball (tf_tr tfs) r q /\ cyl_at h rc tfc q end.
Proof.
  intros r tfs h rc tfc Hr Hh Hc O. pose proof (npc_near h rc (tf_inv_apply tfc (tf_tr tfs)) Hh Hc) as Nr.
  pose proof (gen_iff _ tfc (tf_tr tfs) r _ O Hr Nr) as I. pose proof (gen_dist _ tfc (tf_tr tfs) r _ O Hr Nr) as G. cbv zeta in G.
  unfold sy_distance. cbv zeta. set (C := tf_inv_apply tfc (tf_tr tfs)) in *. set (N := npc h rc C) in *.
  destruct (npc_clamped h rc C) eqn:Cl.
  - rewrite (norm2_sub_sym C N). change (sqrt (norm2 (vsub N C))) with (dist N C). destruct (Rlt_dec (r * r) (norm2 (vsub N C))) as [L|L].
    + destruct (G L) as [Ld T]. split; [lra|]. replace (vsub C (vscale (/ dist N C) (vscale r (vsub C N)))) with (vadd C (vscale (r / dist N C) (vsub N C))); [exact T|].
      generalize (dist N C). clear. intros d. destruct N, C. unfold vadd, vscale, vsub, Rdiv. cbn. f_equal; ring.
    + apply I. lra.
  - apply npc_not_clamped in Cl. destruct Cl as [E _]. fold N in E. apply I. rewrite E, vsub_self. replace (norm2 vzero) with 0 by vring. apply Rle_0_sqr.
Qed.
Print Assumptions sy_distance_exact.

Definition cyl_face (h : R) (C : v3) : R := if Rle_dec 0 (c2 C) then h / 2 - c2 C else c2 C + h / 2.
Definition radial (C : v3) : R := sqrt (c0 C * c0 C + c1 C * c1 C).
Definition sy_local (eps r h rc : R) (C : v3) : contact :=
  let N := npc h rc C in let d2 := norm2 (vsub N C) in
  if (npc_clamped h rc C && (if Rlt_dec (eps * eps) d2 then true else false))%bool then
    let d := sqrt d2 in let n := vscale (/ d) (vsub N C) in
    mkct n (vadd N (vscale ((r - d) / 2) n)) (r - d)
  else
    let fd := cyl_face h C in let dxy := radial C in let bd := rc - dxy in
    if Rlt_dec bd (fd - eps) then
      if Rlt_dec eps dxy then
        let n := mk3 (- c0 C / dxy) (- c1 C / dxy) 0 in mkct n (vadd C (vscale ((r - bd) / 2) n)) (r + bd)
      else let n := mk3 (-1) 0 0 in mkct n (vadd C (vscale ((r - bd) / 2) n)) (r + rc)
    else let n := mk3 0 0 (if Rle_dec 0 (c2 C) then -1 else 1) in mkct n (vadd C (vscale ((r - fd) / 2) n)) (fd + r).
Lemma sy_local_eq : forall eps r tfs h rc tfc ct, sy_intersect eps r tfs h rc tfc = Some ct ->
  let C := tf_inv_apply tfc (tf_tr tfs) in norm2 (vsub (npc h rc C) C) <= r * r /\
  ct = mkct (mapply (tf_rot tfc) (cnorm (sy_local eps r h rc C))) (tf_apply tfc (cpos (sy_local eps r h rc C))) (cdepth (sy_local eps r h rc C)).
Proof.
  intros eps r tfs h rc tfc ct. unfold sy_intersect. cbv zeta. set (C := tf_inv_apply tfc (tf_tr tfs)). destruct (Rlt_dec (r * r) (norm2 (vsub (npc h rc C) C))) as [|L]; [discriminate|].
  intros E. split; [lra|]. injection E as <-. reflexivity.
Qed.
Lemma radial_sq : forall C, radial C * radial C = c0 C * c0 C + c1 C * c1 C.
Proof. intros C. apply sqrt_sqrt. pose proof (Rle_0_sqr (c0 C)). pose proof (Rle_0_sqr (c1 C)). unfold Rsqr in *. lra. Qed.
Lemma radial_nonneg : forall C, 0 <= radial C. Proof. intros. apply sqrt_pos. Qed.
Lemma dir_dist : forall p q u, unit u -> dot (vsub p q) u <= dist p q.
Proof. intros p q u U. pose proof (cauchy_schwarz (vsub p q) u) as H. rewrite (unit_norm u U), Rmult_1_r in H. exact H. Qed.
Lemma radial_add : forall C v, radial (vadd C v) <= radial C + norm v.
Proof.
  intros C v. pose proof (radial_nonneg C). pose proof (norm_nonneg v). apply sq_le; [lra|]. rewrite radial_sq.
  assert (X : c0 C * c0 v + c1 C * c1 v <= radial C * norm v). { apply cs2; try lra; [rewrite radial_sq; lra|]. rewrite norm_sq. unfold norm2, dot. pose proof (Rle_0_sqr (c2 v)) as Q. unfold Rsqr in Q. lra. }
  replace ((radial C + norm v) * (radial C + norm v)) with (radial C * radial C + 2 * (radial C * norm v) + norm v * norm v) by ring. rewrite radial_sq, norm_sq. unfold norm2, dot. cbn. pose proof (Rle_0_sqr (c2 v)) as Q. unfold Rsqr in Q. lra.
Qed.
Lemma cyl_radial : forall h rc q, 0 <= rc -> (cylset h rc q <-> - (h / 2) <= c2 q <= h / 2 /\ radial q <= rc).
Proof.
  intros h rc q Hc. unfold cylset. rewrite <- radial_sq. pose proof (radial_nonneg q). split; intros [A B]; (split; [exact A|]); [apply sq_le; lra|apply Rmult_le_compat; lra].
Qed.
Lemma cyl_move : forall h rc C v k, 0 <= rc -> cylset h rc C -> k <= cyl_face h C -> k <= rc - radial C -> norm v <= k -> cylset h rc (vadd C v).
Proof.
  intros h rc C v k Hc B F Rd Hv. apply cyl_radial in B; [|exact Hc]. apply cyl_radial; [exact Hc|]. destruct B as [Bz Br]. split; [|pose proof (radial_add C v); lra].
  pose proof (comp_le_norm 2 v) as Cv. cbn [comp] in Cv. assert (Cv' : - k <= c2 v <= k) by (apply Rabs_le_inv; lra). unfold cyl_face in F. cbn [vadd c2]. destruct (Rle_dec 0 (c2 C)); lra.
Qed.
Lemma sy_local_ok : forall eps r h rc C, 0 <= eps -> 0 <= r -> 0 <= h -> 0 <= rc -> norm2 (vsub (npc h rc C) C) <= r * r -> contact_ok (cylset h rc) C r eps (2 * eps) (sy_local eps r h rc C).
Proof.
  intros eps r h rc C He Hr Hh Hc Hle. pose proof (npc_near h rc C Hh Hc) as Nr. unfold sy_local. cbv zeta. set (N := npc h rc C) in *.
  assert (Weak : forall K s ct, contact_ok K C r 0 s ct -> contact_ok K C r eps s ct) by (intros K s ct (A & B & D); split; [exact A|split; [|exact D]]; intros q Kq; specialize (B q Kq); lra).
  destruct (npc_clamped h rc C && (if Rlt_dec (eps * eps) (norm2 (vsub N C)) then true else false))%bool eqn:Br.
  - apply andb_prop in Br. destruct Br as [_ Br]. destruct (Rlt_dec (eps * eps) (norm2 (vsub N C))) as [L|]; [|discriminate].
    apply Weak. apply outside_ok; try assumption; [apply cyl_convex, Hc|pose proof (Rle_0_sqr eps) as Q; unfold Rsqr in Q; lra|lra].
  - assert (Dn : dist N C <= eps).
    { apply sq_le; [exact He|]. rewrite dist_sq. apply Bool.andb_false_iff in Br. destruct Br as [Br|Br]; [|destruct (Rlt_dec (eps * eps) (norm2 (vsub N C))); [discriminate|lra]].
      apply npc_not_clamped in Br. destruct Br as [E _]. fold N in E. rewrite E, vsub_self. replace (norm2 vzero) with 0 by vring. apply Rle_0_sqr. }
    set (fd := cyl_face h C). set (dxy := radial C). set (bd := rc - dxy).
    assert (Hxy : 0 <= dxy) by apply radial_nonneg. assert (Sxy : dxy * dxy = c0 C * c0 C + c1 C * c1 C) by apply radial_sq.
    assert (Ndist : forall v, dist C (vadd C v) = norm v) by (intros; rewrite dist_sym; unfold dist; f_equal; vring).
    (* minimality *)
    assert (Min : forall dep, (dep <= r + fd + eps /\ dep <= r + bd + eps) -> (npc_clamped h rc C = true -> dep <= r + eps) -> forall v, norm v < dep - 2 * eps -> exists q, cylset h rc q /\ dist q (vadd C v) <= r).
    { intros dep [D1 D2] D3 v Hv. pose proof (norm_nonneg v) as Vn. destruct (npc_clamped h rc C) eqn:Cl.
      - exists N. split; [apply Nr|]. specialize (D3 eq_refl). pose proof (dist_triangle N C (vadd C v)). rewrite Ndist in H. lra.
      - apply npc_not_clamped in Cl. destruct Cl as [_ Bx]. set (k := Rmin fd bd). assert (Kf : k <= fd) by apply Rmin_l. assert (Kb : k <= bd) by apply Rmin_r.
        assert (Kd : dep <= r + k + eps) by (unfold k, Rmin; destruct (Rle_dec fd bd); lra).
        destruct (Rle_dec (norm v) k) as [Le|Le].
        + exists (vadd C v). split; [apply cyl_move with (k := k); assumption|]. rewrite dist_refl. exact Hr.
        + destruct (Rle_dec k 0) as [Z|Z]; [exists C; split; [exact Bx|]; rewrite Ndist; lra|].
          assert (F := frac01 k (norm v) ltac:(lra) ltac:(lra) ltac:(lra)). set (l := k / norm v) in *. assert (Ek : l * norm v = k) by (unfold l; field; lra).
          exists (vadd C (vscale l v)). split; [apply cyl_move with (k := k); try assumption; rewrite norm_scale, Rabs_right; lra|].
          unfold dist. replace (vsub (vadd C (vscale l v)) (vadd C v)) with (vscale (- (1 - l)) v) by vring. rewrite norm_scale, Rabs_Ropp, Rabs_right by lra. lra. }
    assert (Out : npc_clamped h rc C = true -> fd < 0 \/ bd < 0).
    { intros Cl. unfold npc_clamped in Cl. unfold fd, cyl_face, bd. destruct (Rlt_dec (h / 2) (c2 C)); [left; destruct (Rle_dec 0 (c2 C)); lra|]. destruct (Rlt_dec (c2 C) (- (h / 2))); [left; destruct (Rle_dec 0 (c2 C)); lra|].
      destruct (Rlt_dec (rc * rc) (c0 C * c0 C + c1 C * c1 C)) as [L|]; [|discriminate]. right. rewrite <- Sxy in L. destruct (Rle_dec dxy rc) as [G|G]; [|lra]. assert (dxy * dxy <= rc * rc) by (apply Rmult_le_compat; lra). lra. }
    destruct (Rlt_dec bd (fd - eps)) as [Bf|Bf].
    + destruct (Rlt_dec eps dxy) as [Ed|Ed].
      * apply Weak. assert (U : unit (mk3 (c0 C / dxy) (c1 C / dxy) 0)). { unfold unit, norm2, dot. cbn. replace (c0 C / dxy * (c0 C / dxy) + c1 C / dxy * (c1 C / dxy) + 0 * 0) with ((c0 C * c0 C + c1 C * c1 C) / (dxy * dxy)) by (field; lra). rewrite <- Sxy. field. lra. }
        split; [|split]; cbn [cnorm cdepth].
        -- revert U. unfold unit, norm2, dot. cbn. intros U. unfold Rdiv in *. lra.
        -- intros q Kq. apply cyl_radial in Kq; [|exact Hc]. destruct Kq as [_ Kq].
           pose proof (dir_dist (vsub C (vscale (r + bd) (mk3 (- c0 C / dxy) (- c1 C / dxy) 0))) q _ U) as Dd. rewrite dist_sym in Dd.
           assert (Cq : c0 q * c0 C + c1 q * c1 C <= radial q * dxy) by (apply cs2; try apply radial_nonneg; try lra; rewrite ?radial_sq; lra).
           assert (E : dot (vsub (vsub C (vscale (r + bd) (mk3 (- c0 C / dxy) (- c1 C / dxy) 0))) q) (mk3 (c0 C / dxy) (c1 C / dxy) 0) = (c0 C * c0 C + c1 C * c1 C) / dxy + (r + bd) * ((c0 C * c0 C + c1 C * c1 C) / (dxy * dxy)) - (c0 q * c0 C + c1 q * c1 C) / dxy).
           { unfold dot, vsub, vscale. cbn. field. lra. }
           rewrite E, <- Sxy in Dd. replace (dxy * dxy / dxy) with dxy in Dd by (field; lra). replace (dxy * dxy / (dxy * dxy)) with 1 in Dd by (field; lra).
           assert ((c0 q * c0 C + c1 q * c1 C) / dxy <= radial q). { apply Rmult_le_reg_r with dxy; [lra|]. unfold Rdiv. rewrite Rmult_assoc, Rinv_l by lra. lra. }
           unfold bd in Dd at 3 || idtac. unfold bd in *. lra.
        -- apply Min; [lra|]. intros Cl. destruct (Out Cl); lra.
      * assert (C0 : Rabs (c0 C) <= dxy). { apply Rabs_le. assert (- dxy <= c0 C <= dxy); [|lra]. pose proof (Rle_0_sqr (c1 C)) as Q. unfold Rsqr in Q. split; [assert (- c0 C <= dxy); [|lra]|]; apply sq_le; lra. }
        split; [|split]; cbn [cnorm cdepth].
        -- unfold unit, norm2, dot. cbn. ring.
        -- intros q Kq. apply cyl_radial in Kq; [|exact Hc]. destruct Kq as [_ Kq]. pose proof (comp_dist 0 (vsub C (vscale (r + rc) (mk3 (-1) 0 0))) q ltac:(lia)) as Cd. rewrite dist_sym in Cd. cbn in Cd.
           assert (Q0 : c0 q <= radial q). { apply sq_le; [apply radial_nonneg|]. rewrite radial_sq. pose proof (Rle_0_sqr (c1 q)) as Q. unfold Rsqr in Q. lra. }
           pose proof (Rle_abs (c0 C - (r + rc) * -1 - c0 q)). pose proof (Rle_abs (- c0 C)) as A0. rewrite Rabs_Ropp in A0. lra.
        -- apply Min; [unfold bd in *; lra|]. intros Cl. destruct (Out Cl); unfold bd in *; lra.
    + apply Weak. split; [|split]; cbn [cnorm cdepth].
      * unfold unit, norm2, dot. cbn. destruct (Rle_dec 0 (c2 C)); ring.
      * intros q [Kz _]. pose proof (comp_dist 2 q (vsub C (vscale (fd + r) (mk3 0 0 (if Rle_dec 0 (c2 C) then -1 else 1)))) ltac:(lia)) as Cd. cbn in Cd. unfold fd, cyl_face in *. destruct (Rle_dec 0 (c2 C)).
        -- rewrite Rabs_left1 in Cd by lra. lra.
        -- rewrite Rabs_right in Cd by lra. lra.
      * apply Min; [lra|]. intros Cl. destruct (Out Cl); lra.
Qed.

(** The contact of sphere and cylinder, up to the tolerance eps (which only matters when the
    sphere's centre is within eps of the axis, respectively of the boundary between the regions). *)
Theorem sy_contact_separates : forall eps r tfs h rc tfc ct, 0 <= eps -> 0 <= r -> 0 <= h -> 0 <= rc -> ortho (tf_rot tfc) -> sy_intersect eps r tfs h rc tfc = Some ct ->
  unit (cnorm ct) /\ (forall q, cyl_at h rc tfc q -> r - eps <= dist q (vsub (tf_tr tfs) (vscale (cdepth ct) (cnorm ct)))) /\
  (forall v, norm v < cdepth ct - 2 * eps -> exists q, cyl_at h rc tfc q /\ ball (vadd (tf_tr tfs) v) r q).
Proof.
  intros eps r tfs h rc tfc ct He Hr Hh Hc O E. destruct (sy_local_eq _ _ _ _ _ _ _ E) as [Hle ->].
  pose proof (world_ok _ _ tfc r eps (2 * eps) _ O (sy_local_ok eps r h rc _ He Hr Hh Hc Hle)) as W. cbv zeta in W. rewrite tf_inv_right in W by exact O. exact W.
Qed.
Print Assumptions sy_contact_separates.

(** ** Capsule and capsule (C50) *)
Lemma clamp01 : forall x, 0 <= clamp x 0 1 <= 1.
Proof. intros x. unfold clamp. destruct (Rlt_dec x 0); [lra|]. destruct (Rlt_dec 1 x); lra. Qed.
Lemma clamp_min : forall e f t, 0 < e -> 0 <= t <= 1 -> let u := clamp (f / e) 0 1 in e * (u * u) - 2 * f * u <= e * (t * t) - 2 * f * t.
Proof.
  intros e f t He Ht u. set (x := f / e) in *. assert (Ef : f = e * x) by (unfold x; field; lra).
  assert (G : e * (t * t) - 2 * f * t - (e * (u * u) - 2 * f * u) = e * ((t - u) * (t + u - 2 * x))) by (rewrite Ef; ring).
  assert (0 <= (t - u) * (t + u - 2 * x)).
  { unfold u, clamp. destruct (Rlt_dec x 0); [apply Rmult_le_pos; lra|]. destruct (Rlt_dec 1 x).
    - replace ((t - 1) * (t + 1 - 2 * x)) with ((1 - t) * (2 * x - t - 1)) by ring. apply Rmult_le_pos; lra.
    - replace ((t - x) * (t + x - 2 * x)) with ((t - x) * (t - x)) by ring. apply Rle_0_sqr. }
  assert (0 <= e * ((t - u) * (t + u - 2 * x))) by (apply Rmult_le_pos; lra). lra.
Qed.

(** The parameters are always those of points of the segments. *)
Theorem segseg_range : forall k P1 Q1 P2 Q2, let '(s, t) := segseg k P1 Q1 P2 Q2 in 0 <= s <= 1 /\ 0 <= t <= 1.
Proof.
  intros k P1 Q1 P2 Q2. unfold segseg. cbv zeta.
  set (a := dot (vsub Q1 P1) (vsub Q1 P1)). set (e := dot (vsub Q2 P2) (vsub Q2 P2)). set (b := dot (vsub Q1 P1) (vsub Q2 P2)). set (c := dot (vsub Q1 P1) (vsub P1 P2)). set (f := dot (vsub Q2 P2) (vsub P1 P2)).
  destruct (Rle_dec a (k * k)); [destruct (Rle_dec e (k * k)); [lra|split; [lra|apply clamp01]]|]. destruct (Rle_dec e (k * k)); [split; [apply clamp01|lra]|].
  set (s := if Rlt_dec (k * k) (Rmax 0 (a * e - b * b)) then clamp ((b * f - c * e) / Rmax 0 (a * e - b * b)) 0 1 else 0).
  assert (0 <= s <= 1) by (unfold s; destruct (Rlt_dec (k * k) (Rmax 0 (a * e - b * b))); [apply clamp01|lra]).
  destruct (Rlt_dec ((b * s + f) / e) 0); [split; [apply clamp01|lra]|]. destruct (Rlt_dec 1 ((b * s + f) / e)); [split; [apply clamp01|lra]|]. split; lra.
Qed.
Print Assumptions segseg_range.

Lemma norm2_convex : forall x y l, 0 <= l <= 1 -> norm2 (vadd (vscale (1 - l) x) (vscale l y)) <= (1 - l) * norm2 x + l * norm2 y.
Proof.
  intros x y l Hl. assert (E : (1 - l) * norm2 x + l * norm2 y - norm2 (vadd (vscale (1 - l) x) (vscale l y)) = (1 - l) * l * norm2 (vsub x y)) by vring.
  assert (0 <= (1 - l) * l * norm2 (vsub x y)) by (apply Rmult_le_pos; [apply Rmult_le_pos; lra|apply norm2_nonneg]). lra.
Qed.

(** Away from its thresholds closestPtSegmentSegment returns the nearest pair of points. *)
Definition clear_of (k x : R) : Prop := x = 0 \/ k * k < x.
Theorem segseg_exact : forall k P1 Q1 P2 Q2, let D1 := vsub Q1 P1 in let D2 := vsub Q2 P2 in
  clear_of k (norm2 D1) -> clear_of k (norm2 D2) -> clear_of k (norm2 D1 * norm2 D2 - dot D1 D2 * dot D1 D2) ->
  let '(s, t) := segseg k P1 Q1 P2 Q2 in pair (segset P1 Q1) (segset P2 Q2) (seg_at P1 Q1 s) (seg_at P2 Q2 t).
Proof.
  intros k P1 Q1 P2 Q2 D1 D2 Ca Ce Cd.
  set (Q := fun s t => norm2 (vsub (seg_at P1 Q1 s) (seg_at P2 Q2 t))).
  assert (Main : let '(s, t) := segseg k P1 Q1 P2 Q2 in forall s' t', 0 <= s' <= 1 -> 0 <= t' <= 1 -> Q s t <= Q s' t').
  { pose proof (Rle_0_sqr k) as Kk. unfold Rsqr in Kk.
    unfold segseg. cbv zeta. fold D1 D2. set (W := vsub P1 P2).
    set (a := dot D1 D1). set (e := dot D2 D2). set (b := dot D1 D2). set (c := dot D1 W). set (f := dot D2 W). set (w := norm2 W).
    change (norm2 D1) with a in *. change (norm2 D2) with e in *. fold b in Cd.
    assert (EQ : forall s t, Q s t = a * (s * s) - 2 * b * (s * t) + e * (t * t) + 2 * c * s - 2 * f * t + w) by (intros; unfold Q, seg_at, a, b, c, e, f, w, W; unfold D1, D2; vring).
    assert (Z1 : a = 0 -> b = 0 /\ c = 0). { intros Z. change a with (norm2 D1) in Z. apply norm2_zero in Z. unfold b, c. rewrite Z. split; vring. }
    assert (Z2 : e = 0 -> b = 0 /\ f = 0). { intros Z. change e with (norm2 D2) in Z. apply norm2_zero in Z. unfold b, f. rewrite Z. split; vring. }
    destruct (Rle_dec a (k * k)) as [La|La].
    - assert (a = 0) by (destruct Ca; lra). destruct (Z1 H) as [B0 C0]. destruct (Rle_dec e (k * k)) as [Le|Le].
      + assert (e = 0) by (destruct Ce; lra). destruct (Z2 H0) as [_ F0]. intros s' t' _ _. rewrite !EQ, H, H0, B0, C0, F0. lra.
      + intros s' t' Hs Ht. pose proof (clamp_min e f t' ltac:(lra) Ht) as M. cbv zeta in M. rewrite !EQ, H, B0, C0. lra.
    - destruct (Rle_dec e (k * k)) as [Le|Le].
      + assert (e = 0) by (destruct Ce; lra). destruct (Z2 H) as [B0 F0]. intros s' t' Hs Ht. pose proof (clamp_min a (- c) s' ltac:(lra) Hs) as M. cbv zeta in M. rewrite !EQ, H, B0, F0. lra.
      + set (den := Rmax 0 (a * e - b * b)). set (s := if Rlt_dec (k * k) den then clamp ((b * f - c * e) / den) 0 1 else 0).
        assert (Hs : 0 <= s <= 1) by (unfold s; destruct (Rlt_dec (k * k) den); [apply clamp01|lra]).
        assert (He : 0 < e) by lra. assert (Ha : 0 < a) by lra.
        assert (Strip : forall s' t', 0 <= s' <= 1 -> Q s ((b * s + f) / e) <= Q s' t').
        { intros s' t' Hs'. apply Rmult_le_reg_l with e; [lra|].
          assert (F : forall x y, e * Q x y = (e * y - b * x - f) * (e * y - b * x - f) + ((a * e - b * b) * (x * x) - 2 * (b * f - c * e) * x) + (e * w - f * f)) by (intros; rewrite EQ; ring).
          rewrite !F. replace (e * ((b * s + f) / e) - b * s - f) with 0 by (field; lra).
          pose proof (Rle_0_sqr (e * t' - b * s' - f)) as Sq. unfold Rsqr in Sq.
          assert ((a * e - b * b) * (s * s) - 2 * (b * f - c * e) * s <= (a * e - b * b) * (s' * s') - 2 * (b * f - c * e) * s'); [|lra].
          destruct Cd as [Cd|Cd].
          - assert (Zp : b * f - c * e = 0).
            { assert (V : vsub (vscale e D1) (vscale b D2) = vzero). { apply norm2_zero. replace (norm2 (vsub (vscale e D1) (vscale b D2))) with (e * (a * e - b * b)) by (unfold a, b, e; clearbody D1 D2; vring). rewrite Cd. ring. }
              assert (V2 : dot (vsub (vscale e D1) (vscale b D2)) W = 0) by (rewrite V; vring). rewrite dot_sub_l, !dot_scale_l in V2. fold c f in V2. lra. }
            rewrite Cd, Zp. lra.
          - assert (Dn : den = a * e - b * b) by (unfold den; rewrite Rmax_right; lra). rewrite <- Dn in *.
            pose proof (clamp_min den (b * f - c * e) s' ltac:(lra) Hs') as M. cbv zeta in M. unfold s. destruct (Rlt_dec (k * k) den); [|lra]. lra. }
        assert (Cx : forall s1 t1 s2 t2 l, 0 <= l <= 1 -> Q ((1 - l) * s1 + l * s2) ((1 - l) * t1 + l * t2) <= (1 - l) * Q s1 t1 + l * Q s2 t2).
        { intros s1 t1 s2 t2 l Hl. unfold Q. replace (vsub (seg_at P1 Q1 ((1 - l) * s1 + l * s2)) (seg_at P2 Q2 ((1 - l) * t1 + l * t2))) with (vadd (vscale (1 - l) (vsub (seg_at P1 Q1 s1) (seg_at P2 Q2 t1))) (vscale l (vsub (seg_at P1 Q1 s2) (seg_at P2 Q2 t2)))) by (unfold seg_at; vring). apply norm2_convex, Hl. }
        assert (Cross : forall s' t' t0, 0 <= s' <= 1 -> (exists l, 0 <= l <= 1 /\ (1 - l) * ((b * s + f) / e) + l * t' = t0) -> exists s2, 0 <= s2 <= 1 /\ Q s2 t0 <= Q s' t').
        { intros s' t' t0 Hs' (l & Hl & El). exists ((1 - l) * s + l * s'). split.
          - assert (0 <= (1 - l) * s) by (apply Rmult_le_pos; lra). assert (0 <= l * s') by (apply Rmult_le_pos; lra). assert (0 <= (1 - l) * (1 - s)) by (apply Rmult_le_pos; lra). assert (0 <= l * (1 - s')) by (apply Rmult_le_pos; lra). lra.
          - rewrite <- El. eapply Rle_trans; [apply Cx, Hl|]. specialize (Strip s' t' Hs'). assert ((1 - l) * Q s ((b * s + f) / e) <= (1 - l) * Q s' t') by (apply Rmult_le_compat_l; lra). lra. }
        set (t := (b * s + f) / e) in *.
        destruct (Rlt_dec t 0) as [Lt|Lt]; [|destruct (Rlt_dec 1 t) as [Gt|Gt]].
        * intros s' t' Hs' Ht'. destruct (Cross s' t' 0 Hs') as (s2 & Hs2 & Le2). { exists (- t / (t' - t)). split; [apply frac01; lra|field; lra]. }
          eapply Rle_trans; [|exact Le2]. pose proof (clamp_min a (- c) s2 Ha Hs2) as M. cbv zeta in M. rewrite !EQ. lra.
        * intros s' t' Hs' Ht'. destruct (Cross s' t' 1 Hs') as (s2 & Hs2 & Le2). { exists ((t - 1) / (t - t')). split; [apply frac01; lra|field; lra]. }
          eapply Rle_trans; [|exact Le2]. pose proof (clamp_min a (b - c) s2 Ha Hs2) as M. cbv zeta in M. rewrite !EQ. lra.
        * intros s' t' Hs' _. apply Strip, Hs'. }
  pose proof (segseg_range k P1 Q1 P2 Q2) as Rg. destruct (segseg k P1 Q1 P2 Q2) as [s t]. destruct Rg as [Rs Rt].
  split; [exists s; split; [exact Rs|reflexivity]|split; [exists t; split; [exact Rt|reflexivity]|]].
  intros x y (s' & Hs' & ->) (t' & Ht' & ->). unfold dist. apply norm_mono. apply (Main s' t' Hs' Ht').
Qed.
Print Assumptions segseg_exact.

(** Inside the thresholds it can be far off: a segment of length about 0.7 and one of length 2k at
    45 degrees are taken to be parallel. *)
Theorem segseg_refuted : forall k, 0 < k < 1 / 2 -> exists P1 Q1 P2 Q2, segseg_sq k P1 Q1 P2 Q2 = 1 / 4 /\
  exists s t, 0 <= s <= 1 /\ 0 <= t <= 1 /\ norm2 (vsub (seg_at P1 Q1 s) (seg_at P2 Q2 t)) = 1 / 8.
Proof.
  intros k Hk. exists (mk3 0 (1 / 2) 0), (mk3 (1 / 2) 0 0), (mk3 (- k) 0 0), (mk3 k 0 0). split.
  - unfold segseg_sq, segseg. cbv zeta.
    replace (dot (vsub (mk3 (1 / 2) 0 0) (mk3 0 (1 / 2) 0)) (vsub (mk3 (1 / 2) 0 0) (mk3 0 (1 / 2) 0))) with (1 / 2) by (unfold dot, vsub; cbn; lra).
    replace (dot (vsub (mk3 k 0 0) (mk3 (- k) 0 0)) (vsub (mk3 k 0 0) (mk3 (- k) 0 0))) with (4 * (k * k)) by (unfold dot, vsub; cbn; lra).
    replace (dot (vsub (mk3 (1 / 2) 0 0) (mk3 0 (1 / 2) 0)) (vsub (mk3 k 0 0) (mk3 (- k) 0 0))) with k by (unfold dot, vsub; cbn; lra).
    replace (dot (vsub (mk3 k 0 0) (mk3 (- k) 0 0)) (vsub (mk3 0 (1 / 2) 0) (mk3 (- k) 0 0))) with (2 * (k * k)) by (unfold dot, vsub; cbn; lra).
    assert (Kp : 0 < k * k) by (apply Rmult_lt_0_compat; lra). assert (Ks : k * k < 1 / 4) by nra.
    destruct (Rle_dec (1 / 2) (k * k)); [lra|]. destruct (Rle_dec (4 * (k * k)) (k * k)); [lra|].
    replace (1 / 2 * (4 * (k * k)) - k * k) with (k * k) by lra. rewrite Rmax_right by lra. destruct (Rlt_dec (k * k) (k * k)); [lra|].
    replace ((k * 0 + 2 * (k * k)) / (4 * (k * k))) with (1 / 2) by (field; nra). destruct (Rlt_dec (1 / 2) 0); [lra|]. destruct (Rlt_dec 1 (1 / 2)); [lra|].
    unfold seg_at, norm2, dot, vsub, vadd, vscale. cbn. field.
  - exists (1 / 2), (1 / 2). split; [lra|split; [lra|]]. unfold seg_at, norm2, dot, vsub, vadd, vscale. cbn. field.
Qed.
Print Assumptions segseg_refuted.

Lemma cap_axis : forall lz X q, placed X (axis_seg lz) q <-> segset (cap_end lz X 1) (cap_end lz X (-1)) q.
Proof.
  intros lz X q.
  assert (E : forall s, tf_apply X (vadd (mk3 0 0 (lz / 2)) (vscale s (vsub (mk3 0 0 (- (lz / 2))) (mk3 0 0 (lz / 2))))) = vadd (cap_end lz X 1) (vscale s (vsub (cap_end lz X (-1)) (cap_end lz X 1)))).
  { intros s. destruct X as [[A B C] T]. unfold cap_end, tf_apply, mapply, col. cbn [tf_rot tf_tr VecR.m0 VecR.m1 VecR.m2]. destruct A, B, C, T. unfold vadd, vscale, vsub. cbn. f_equal; field. }
  split.
  - intros (q0 & (s & Hs & ->) & ->). exists s. split; [exact Hs|apply E].
  - intros (s & Hs & ->). eexists. split; [exists s; split; [exact Hs|reflexivity]|]. symmetry. apply E.
Qed.

(** capsuleCapsuleDistance: the signed gap, and the true distance with witness points when the
    capsules are apart. *)
Theorem cc_distance_exact : forall k lz1 r1 X1 lz2 r2 X2, 0 <= r1 -> 0 <= r2 -> 0 <= lz1 -> 0 <= lz2 -> ortho (tf_rot X1) -> ortho (tf_rot X2) ->
  let D1 := vsub (cap_end lz1 X1 (-1)) (cap_end lz1 X1 1) in let D2 := vsub (cap_end lz2 X2 (-1)) (cap_end lz2 X2 1) in
  clear_of k (norm2 D1) -> clear_of k (norm2 D2) -> clear_of k (norm2 D1 * norm2 D2 - dot D1 D2 * dot D1 D2) ->
  let '(d, p1, p2) := cc_distance k lz1 r1 X1 lz2 r2 X2 in
  (d <= 0 <-> exists q, capsule lz1 r1 X1 q /\ capsule lz2 r2 X2 q) /\
  (0 < d -> k < d + r1 + r2 -> true_dist (capsule lz1 r1 X1) (capsule lz2 r2 X2) d p1 p2).
Proof.
  intros k lz1 r1 X1 lz2 r2 X2 H1 H2 L1 L2 O1 O2 D1 D2 Ca Ce Cd. unfold cc_distance. cbv zeta.
  pose proof (segseg_exact k (cap_end lz1 X1 1) (cap_end lz1 X1 (-1)) (cap_end lz2 X2 1) (cap_end lz2 X2 (-1)) Ca Ce Cd) as P. clear D1 D2 Ca Ce Cd.
  destruct (segseg k (cap_end lz1 X1 1) (cap_end lz1 X1 (-1)) (cap_end lz2 X2 1) (cap_end lz2 X2 (-1))) as [s t].
  set (N1 := seg_at (cap_end lz1 X1 1) (cap_end lz1 X1 (-1)) s) in *. set (N2 := seg_at (cap_end lz2 X2 1) (cap_end lz2 X2 (-1)) t) in *.
  change (sqrt (norm2 (vsub N1 N2))) with (dist N1 N2). set (n := dist N1 N2).
  assert (F1 : forall q, capsule lz1 r1 X1 q <-> fat (segset (cap_end lz1 X1 1) (cap_end lz1 X1 (-1))) r1 q).
  { intros q. rewrite capsule_fat by assumption. unfold fat. split; intros (c & A & B); exists c; (split; [apply cap_axis; exact A|exact B]). }
  assert (F2 : forall q, capsule lz2 r2 X2 q <-> fat (segset (cap_end lz2 X2 1) (cap_end lz2 X2 (-1))) r2 q).
  { intros q. rewrite capsule_fat by assumption. unfold fat. split; intros (c & A & B); exists c; (split; [apply cap_axis; exact A|exact B]). }
  split.
  - transitivity (n <= r1 + r2); [lra|]. unfold n. rewrite <- (fat_meet _ _ _ _ r1 r2 P H1 H2). split; intros (q & A & B); exists q; (split; [apply F1, A|apply F2, B]).
  - intros Hd Hk. destruct (Rlt_dec k n) as [_|N]; [|lra].
    apply (true_dist_ext (fat (segset (cap_end lz1 X1 1) (cap_end lz1 X1 (-1))) r1) (fat (segset (cap_end lz2 X2 1) (cap_end lz2 X2 (-1))) r2)); [intros; symmetry; apply F1|intros; symmetry; apply F2|].
    pose proof (fat_dist _ _ _ _ r1 r2 P H1 H2) as F. fold n in F. specialize (F ltac:(lra)).
    replace (vadd N1 (vscale r1 (vscale (/ n) (vsub N2 N1)))) with (vadd N1 (vscale (r1 / n) (vsub N2 N1))) by (unfold Rdiv; vring).
    replace (vsub N2 (vscale r2 (vscale (/ n) (vsub N2 N1)))) with (vsub N2 (vscale (r2 / n) (vsub N2 N1))) by (unfold Rdiv; vring). exact F.
Qed.
Print Assumptions cc_distance_exact.

(** Non-vacuity: two crossing capsules of length 2 with the axes one apart. *)
Example segseg_case : forall k, 0 <= k <= 1 -> let '(s, t) := segseg k (mk3 (-1) 0 0) (mk3 1 0 0) (mk3 0 (-1) 1) (mk3 0 1 1) in s = 1 / 2 /\ t = 1 / 2.
Proof.
  intros k Hk. unfold segseg. cbv zeta. assert (k * k <= 1) by nra.
  replace (dot (vsub (mk3 1 0 0) (mk3 (-1) 0 0)) (vsub (mk3 1 0 0) (mk3 (-1) 0 0))) with 4 by (unfold dot, vsub; cbn; lra).
  replace (dot (vsub (mk3 0 1 1) (mk3 0 (-1) 1)) (vsub (mk3 0 1 1) (mk3 0 (-1) 1))) with 4 by (unfold dot, vsub; cbn; lra).
  replace (dot (vsub (mk3 1 0 0) (mk3 (-1) 0 0)) (vsub (mk3 0 1 1) (mk3 0 (-1) 1))) with 0 by (unfold dot, vsub; cbn; lra).
  replace (dot (vsub (mk3 1 0 0) (mk3 (-1) 0 0)) (vsub (mk3 (-1) 0 0) (mk3 0 (-1) 1))) with (-2) by (unfold dot, vsub; cbn; lra).
  replace (dot (vsub (mk3 0 1 1) (mk3 0 (-1) 1)) (vsub (mk3 (-1) 0 0) (mk3 0 (-1) 1))) with 2 by (unfold dot, vsub; cbn; lra).
  destruct (Rle_dec 4 (k * k)); [lra|]. replace (4 * 4 - 0 * 0) with 16 by ring. rewrite Rmax_right by lra. destruct (Rlt_dec (k * k) 16); [|lra].
  replace ((0 * 2 - -2 * 4) / 16) with (1 / 2) by lra. assert (C : clamp (1 / 2) 0 1 = 1 / 2) by (unfold clamp; destruct (Rlt_dec (1 / 2) 0); [lra|]; destruct (Rlt_dec 1 (1 / 2)); lra). rewrite C.
  replace ((0 * (1 / 2) + 2) / 4) with (1 / 2) by lra. destruct (Rlt_dec (1 / 2) 0); [lra|]. destruct (Rlt_dec 1 (1 / 2)); [lra|]. split; reflexivity.
Qed.
(** Unit sphere and cylinder of radius 1: three apart they are disjoint at distance 1; one apart they meet. *)
Example sy_case : forall eps, sy_intersect eps 1 (mktf mid (mk3 1 0 0)) 2 1 (mktf mid vzero) <> None /\
  exists p1 p2, sy_distance 1 (mktf mid (mk3 3 0 0)) 2 1 (mktf mid vzero) = Some (1, p1, p2).
Proof.
  intros eps. split.
  - apply sy_intersect_iff; [lra|lra|lra|exact ortho_mid|]. exists (mk3 1 0 0). split; [unfold ball; cbn; rewrite dist_refl; lra|].
    exists (mk3 1 0 0). split; [unfold cylset; cbn; lra|]. rewrite app_mid. reflexivity.
  - pose proof (sy_distance_exact 1 (mktf mid (mk3 3 0 0)) 2 1 (mktf mid vzero) ltac:(lra) ltac:(lra) ltac:(lra) ortho_mid) as E.
    assert (Hd : dist (mk3 2 0 0) (mk3 1 0 0) = 1). { unfold dist, norm, norm2, dot, vsub. cbn. replace ((2 - 1) * (2 - 1) + (0 - 0) * (0 - 0) + (0 - 0) * (0 - 0)) with (1 * 1) by ring. rewrite sqrt_square; lra. }
    assert (B2 : ball (mk3 3 0 0) 1 (mk3 2 0 0)). { unfold ball. apply norm_le_sq; [lra|]. unfold norm2, dot, vsub. cbn. lra. }
    assert (K1 : cyl_at 2 1 (mktf mid vzero) (mk3 1 0 0)). { exists (mk3 1 0 0). split; [unfold cylset; cbn; lra|]. rewrite app_mid. reflexivity. }
    assert (Sep : forall x y, ball (mk3 3 0 0) 1 x -> cyl_at 2 1 (mktf mid vzero) y -> 1 <= dist x y).
    { intros x y Bx (y0 & [_ Ky] & ->). rewrite app_mid. pose proof (comp_dist 0 x (mk3 3 0 0) ltac:(lia)) as D1. pose proof (comp_dist 0 x y0 ltac:(lia)) as D2. unfold ball in Bx. cbn in *.
      assert (c0 y0 <= 1) by (apply sq_le; [lra|]; pose proof (Rle_0_sqr (c1 y0)) as Q; unfold Rsqr in Q; lra). assert (I1 : - 1 <= c0 x - 3 <= 1) by (apply Rabs_le_inv; lra). pose proof (Rle_abs (c0 x - c0 y0)). lra. }
    cbn [tf_tr] in E. destruct (sy_distance 1 (mktf mid (mk3 3 0 0)) 2 1 (mktf mid vzero)) as [[[d p1] p2]|].
    + exists p1, p2. destruct E as [_ T]. destruct T as (T1 & T2 & T3 & T4). assert (d = 1) as ->; [|reflexivity].
      pose proof (T4 _ _ B2 K1). pose proof (Sep _ _ T1 T2). rewrite Hd in *. lra.
    + destruct E as (q & B & K). pose proof (Sep _ _ B K) as S. rewrite dist_refl in S. lra.
Qed.
Example ss_case : ss_intersect 1 (mktf mid vzero) 1 (mktf mid (mk3 1 0 0)) <> None /\ ss_distance 1 (mktf mid vzero) 1 (mktf mid (mk3 1 0 0)) = None.
Proof.
  assert (I : exists q, ball (tf_tr (mktf mid vzero)) 1 q /\ ball (tf_tr (mktf mid (mk3 1 0 0))) 1 q).
  { exists vzero. split; unfold ball; cbn; [rewrite dist_refl; lra|apply norm_le_sq; [lra|]; unfold norm2, dot, vsub; cbn; lra]. }
  split; [apply ss_intersect_iff; [lra|lra|exact I]|].
  unfold ss_distance. cbv zeta. cbn [tf_tr]. match goal with |- context [Rlt_dec ?u ?v] => destruct (Rlt_dec u v) as [L|L] end; [|reflexivity]. exfalso.
  revert L. apply Rle_not_lt. apply norm_le_sq; [lra|]. unfold norm2, dot, vsub; cbn; lra.
Qed.
