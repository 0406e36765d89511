(** Volume integrals, as iterated Riemann integrals (Coquelicot). *)
From Coq Require Import Reals Lra Lia.
From Coquelicot Require Import Coquelicot.
From Verif Require Import VecR.
Open Scope R_scope.

(** The region is given by ranges of z, of y for every z and of x for every z and y, none empty;
    [I] is the integral of [f] over it. *)
Definition ranges (K : v3 -> Prop) (a b : R) (ya yb : R -> R) (xa xb : R -> R -> R) : Prop :=
  a <= b /\ (forall z, a <= z <= b -> ya z <= yb z) /\
  (forall z y, a <= z <= b -> ya z <= y <= yb z -> xa z y <= xb z y) /\
  (forall p, K p <-> a <= c2 p <= b /\ ya (c2 p) <= c1 p <= yb (c2 p) /\ xa (c2 p) (c1 p) <= c0 p <= xb (c2 p) (c1 p)).
Definition iterated (f : v3 -> R) (a b : R) (ya yb : R -> R) (xa xb : R -> R -> R) (I : R) : Prop :=
  exists (fx : R -> R -> R) (fy : R -> R),
    (forall z y, a <= z <= b -> ya z <= y <= yb z -> is_RInt (fun x => f (mk3 x y z)) (xa z y) (xb z y) (fx z y)) /\
    (forall z, a <= z <= b -> is_RInt (fx z) (ya z) (yb z) (fy z)) /\
    is_RInt fy a b I.
Definition integral3 (K : v3 -> Prop) (f : v3 -> R) (I : R) : Prop :=
  exists a b ya yb xa xb, ranges K a b ya yb xa xb /\ iterated f a b ya yb xa xb I.

Lemma ranges_unique : forall K a b ya yb xa xb a' b' ya' yb' xa' xb', ranges K a b ya yb xa xb -> ranges K a' b' ya' yb' xa' xb' ->
  a = a' /\ b = b' /\ (forall z, a <= z <= b -> ya z = ya' z /\ yb z = yb' z) /\
  (forall z y, a <= z <= b -> ya z <= y <= yb z -> xa z y = xa' z y /\ xb z y = xb' z y).
Proof.
  intros K a b ya yb xa xb a' b' ya' yb' xa' xb' (A1 & A2 & A3 & A4) (B1 & B2 & B3 & B4).
  assert (P : forall z, a <= z <= b <-> a' <= z <= b').
  { intros z. split; intros Hz.
    - assert (K (mk3 (xa z (ya z)) (ya z) z)) as H by (apply A4; cbn [c0 c1 c2]; specialize (A2 z Hz); specialize (A3 z (ya z) Hz); lra). apply B4 in H. cbn [c2] in H. tauto.
    - assert (K (mk3 (xa' z (ya' z)) (ya' z) z)) as H by (apply B4; cbn [c0 c1 c2]; specialize (B2 z Hz); specialize (B3 z (ya' z) Hz); lra). apply A4 in H. cbn [c2] in H. tauto. }
  assert (Ea : a = a') by (pose proof (proj1 (P a)); pose proof (proj2 (P a')); lra). assert (Eb : b = b') by (pose proof (proj1 (P b)); pose proof (proj2 (P b')); lra).
  assert (Q : forall z y, a <= z <= b -> (ya z <= y <= yb z <-> ya' z <= y <= yb' z)).
  { intros z y Hz. assert (Hz' := proj1 (P z) Hz). split; intros Hy.
    - assert (K (mk3 (xa z y) y z)) as H by (apply A4; cbn [c0 c1 c2]; specialize (A3 z y Hz Hy); lra). apply B4 in H. cbn [c1 c2] in H. tauto.
    - assert (K (mk3 (xa' z y) y z)) as H by (apply B4; cbn [c0 c1 c2]; specialize (B3 z y Hz' Hy); lra). apply A4 in H. cbn [c1 c2] in H. tauto. }
  split; auto. split; auto. split.
  - intros z Hz. assert (Hz' := proj1 (P z) Hz). specialize (A2 z Hz). specialize (B2 z Hz'). pose proof (proj1 (Q z (ya z) Hz)). pose proof (proj1 (Q z (yb z) Hz)). pose proof (proj2 (Q z (ya' z) Hz)). pose proof (proj2 (Q z (yb' z) Hz)). lra.
  - intros z y Hz Hy. assert (Hz' := proj1 (P z) Hz). assert (Hy' := proj1 (Q z y Hz) Hy). specialize (A3 z y Hz Hy). specialize (B3 z y Hz' Hy').
    assert (X : forall x, xa z y <= x <= xb z y <-> xa' z y <= x <= xb' z y) by (intros x; pose proof (A4 (mk3 x y z)) as H1; pose proof (B4 (mk3 x y z)) as H2; cbn [c0 c1 c2] in *; tauto).
    pose proof (proj1 (X (xa z y))). pose proof (proj1 (X (xb z y))). pose proof (proj2 (X (xa' z y))). pose proof (proj2 (X (xb' z y))). lra.
Qed.
Lemma iterated_unique : forall f a b ya yb xa xb I J, a <= b -> (forall z, a <= z <= b -> ya z <= yb z) ->
  iterated f a b ya yb xa xb I -> iterated f a b ya yb xa xb J -> I = J.
Proof.
  intros f a b ya yb xa xb I J AB Y (fx & fy & A1 & A2 & A3) (gx & gy & B1 & B2 & B3).
  assert (E : forall z y, a <= z <= b -> ya z <= y <= yb z -> fx z y = gx z y).
  { intros z y Hz Hy. rewrite <- (is_RInt_unique _ _ _ _ (A1 z y Hz Hy)). apply is_RInt_unique, B1; auto. }
  assert (E2 : forall z, a <= z <= b -> fy z = gy z).
  { intros z Hz. rewrite <- (is_RInt_unique _ _ _ _ (A2 z Hz)). apply is_RInt_unique. apply (is_RInt_ext (gx z)); [|apply B2; auto]. intros y Hy. specialize (Y z Hz). rewrite Rmin_left, Rmax_right in Hy by lra. symmetry. apply E; lra. }
  rewrite <- (is_RInt_unique _ _ _ _ A3). apply is_RInt_unique. apply (is_RInt_ext gy); [|exact B3]. intros z Hz. rewrite Rmin_left, Rmax_right in Hz by lra. symmetry. apply E2. lra.
Qed.
Lemma iterated_change : forall K f a b ya yb xa xb a' b' ya' yb' xa' xb' I, ranges K a b ya yb xa xb -> ranges K a' b' ya' yb' xa' xb' ->
  iterated f a' b' ya' yb' xa' xb' I -> iterated f a b ya yb xa xb I.
Proof.
  intros K f a b ya yb xa xb a' b' ya' yb' xa' xb' I R R' (fx & fy & A1 & A2 & A3). destruct (ranges_unique _ _ _ _ _ _ _ _ _ _ _ _ _ R R') as (-> & -> & Y & X).
  exists fx, fy. split; [|split; auto].
  - intros z y Hz Hy. destruct (X z y Hz Hy) as [-> ->]. destruct (Y z Hz) as [E1 E2]. apply A1; auto. lra.
  - intros z Hz. destruct (Y z Hz) as [-> ->]. auto.
Qed.
(** The integral is determined by the region and the function. *)
Lemma integral3_unique : forall K f I J, integral3 K f I -> integral3 K f J -> I = J.
Proof.
  intros K f I J (a & b & ya & yb & xa & xb & R & H) (a' & b' & ya' & yb' & xa' & xb' & R' & H').
  apply (iterated_unique f a b ya yb xa xb); [apply R|apply R|exact H|]. eapply iterated_change; eauto.
Qed.
Lemma iterated_lin : forall f g a b ya yb xa xb I J u v, iterated f a b ya yb xa xb I -> iterated g a b ya yb xa xb J ->
  iterated (fun p => u * f p + v * g p) a b ya yb xa xb (u * I + v * J).
Proof.
  intros f g a b ya yb xa xb I J u v (fx & fy & A1 & A2 & A3) (gx & gy & B1 & B2 & B3).
  exists (fun z y => u * fx z y + v * gx z y), (fun z => u * fy z + v * gy z).
  assert (L : forall (f g : R -> R) (a b I J : R), is_RInt f a b I -> is_RInt g a b J -> is_RInt (fun x => u * f x + v * g x) a b (u * I + v * J)).
  { intros f0 g0 a0 b0 I0 J0 Hf Hg. apply (is_RInt_plus (fun x => u * f0 x) (fun x => v * g0 x)); [apply (is_RInt_scal f0 a0 b0 u I0 Hf)|apply (is_RInt_scal g0 a0 b0 v J0 Hg)]. }
  split; [|split]; intros; apply L; auto.
Qed.
Lemma iterated_ext : forall f g a b ya yb xa xb I, (forall p, f p = g p) -> iterated f a b ya yb xa xb I -> iterated g a b ya yb xa xb I.
Proof.
  intros f g a b ya yb xa xb I E (fx & fy & A1 & A2 & A3). exists fx, fy. split; auto.
  intros z y Hz Hy. eapply is_RInt_ext; [|apply A1; auto]. intros x _. apply E.
Qed.
Lemma integral3_lin : forall K f g I J u v, integral3 K f I -> integral3 K g J -> integral3 K (fun p => u * f p + v * g p) (u * I + v * J).
Proof.
  intros K f g I J u v (a & b & ya & yb & xa & xb & Rg & H) (a' & b' & ya' & yb' & xa' & xb' & Rg' & H').
  apply (iterated_change K g a b ya yb xa xb) in H'; auto. exists a, b, ya, yb, xa, xb. split; auto. apply iterated_lin; auto.
Qed.
Lemma integral3_ext : forall K f g I, (forall p, f p = g p) -> integral3 K f I -> integral3 K g I.
Proof.
  intros K f g I E (a & b & ya & yb & xa & xb & Rg & fx & fy & A1 & A2 & A3). exists a, b, ya, yb, xa, xb. split; auto. exists fx, fy. split; auto.
  intros z y Hz Hy. eapply is_RInt_ext; [|apply A1; auto]. intros x _. apply E.
Qed.
Lemma integral3_set : forall K K' f I, (forall p, K p <-> K' p) -> integral3 K f I -> integral3 K' f I.
Proof.
  intros K K' f I E (a & b & ya & yb & xa & xb & (R1 & R2 & R3 & R4) & H). exists a, b, ya, yb, xa, xb. split; auto. split; auto. split; auto. split; auto. intros p. rewrite <- E. auto.
Qed.

(** ** Tools *)
Lemma cont_of : forall (f : R -> R) (x : R), ex_derive f x -> continuous f x.
Proof. intros f x H. apply (ex_derive_continuous f x H). Qed.
Lemma is_RInt_anti : forall (F f : R -> R) a b v, (forall x, is_derive F x (f x)) -> (forall x, continuous f x) -> v = F b - F a -> is_RInt f a b v.
Proof. intros F f a b v D C ->. apply (is_RInt_derive F f); intros; auto. Qed.
(** substitution y = h sin t *)
Lemma is_RInt_sin : forall (f : R -> R) h v, (forall y, continuous f y) -> is_RInt (fun t => h * cos t * f (h * sin t)) (- (PI / 2)) (PI / 2) v -> is_RInt f (- h) h v.
Proof.
  intros f h v C H.
  assert (S : is_RInt (fun t => scal (h * cos t) (f (h * sin t))) (- (PI / 2)) (PI / 2) (RInt f (h * sin (- (PI / 2))) (h * sin (PI / 2)))).
  { apply (is_RInt_comp f (fun t => h * sin t) (fun t => h * cos t)); intros; [apply C|]. split; [auto_derive; [auto|ring]|]. apply (ex_derive_continuous (fun t => h * cos t)). auto_derive. auto. }
  rewrite sin_neg, sin_PI2 in S. replace (h * - (1)) with (- h) in S by ring. rewrite Rmult_1_r in S.
  assert (E : RInt f (- h) h = v) by (rewrite <- (is_RInt_unique _ _ _ _ H); symmetry; apply is_RInt_unique; exact S). rewrite <- E. apply (RInt_correct f). apply ex_RInt_continuous. intros; apply C.
Qed.

(** ** Quadratic functions *)
Record quad := Quad { k0 : R; kx : R; ky : R; kz : R; kxx : R; kyy : R; kzz : R; kxy : R; kxz : R; kyz : R }.
Definition qval (k : quad) (p : v3) : R :=
  k0 k + kx k * c0 p + ky k * c1 p + kz k * c2 p + kxx k * (c0 p * c0 p) + kyy k * (c1 p * c1 p) + kzz k * (c2 p * c2 p) +
  kxy k * (c0 p * c1 p) + kxz k * (c0 p * c2 p) + kyz k * (c1 p * c2 p).
Lemma qval_x : forall k y z w, is_RInt (fun x => qval k (mk3 x y z)) (- w) w
  (2 * w * (k0 k + ky k * y + kz k * z + kyy k * (y * y) + kzz k * (z * z) + kyz k * (y * z)) + kxx k * (2 / 3) * (w * w * w)).
Proof.
  intros k y z w. unfold qval. cbn [c0 c1 c2].
  apply (is_RInt_anti (fun x => (k0 k + ky k * y + kz k * z + kyy k * (y * y) + kzz k * (z * z) + kyz k * (y * z)) * x + (kx k + kxy k * y + kxz k * z) * (x * x) / 2 + kxx k * (x * x * x) / 3)).
  - intros x. auto_derive; auto. field.
  - intros x. apply cont_of. auto_derive. auto.
  - field.
Qed.
(** ** A stack of ellipses *)
Section Stack.
Variables (K : v3 -> Prop) (A B a b : R) (q : R -> R).
Hypothesis A0 : 0 < A. Hypothesis B0 : 0 < B. Hypothesis AB : a <= b.
Hypothesis q0 : forall z, a <= z <= b -> 0 <= q z.
Hypothesis KE : forall p, K p <-> a <= c2 p <= b /\ (c0 p / A) * (c0 p / A) + (c1 p / B) * (c1 p / B) <= q (c2 p).
Let w (z y : R) := A * sqrt (q z - (y / B) * (y / B)).
Lemma sq_range : forall u s, 0 <= s -> (u * u <= s <-> - sqrt s <= u <= sqrt s).
Proof.
  intros u s S. pose proof (sqrt_pos s). pose proof (sqrt_sqrt s S). split; intros Hu.
  - apply Rabs_le_between. rewrite <- (sqrt_Rsqr_abs u). apply sqrt_le_1_alt. unfold Rsqr. lra.
  - assert (Rabs u <= sqrt s) by (apply Rabs_le; lra). assert (H2 : Rabs u * Rabs u <= sqrt s * sqrt s) by (apply Rmult_le_compat; auto using Rabs_pos). rewrite <- Rabs_mult, (Rabs_right (u * u)) in H2; [lra|]. apply Rle_ge, Rle_0_sqr.
Qed.
Lemma stack_ranges : ranges K a b (fun z => - (B * sqrt (q z))) (fun z => B * sqrt (q z)) (fun z y => - w z y) w.
Proof.
  assert (D : forall u s C, 0 < C -> (- (C * s) <= u <= C * s <-> - s <= u / C <= s)).
  { intros u s C HC. replace u with (C * (u / C)) at 1 2 by (field; lra). set (t := u / C). split; intros Ht; split; nra. }
  split; auto. split; [intros z Hz; pose proof (sqrt_pos (q z)); nra|]. split; [intros z y _ _; unfold w; pose proof (sqrt_pos (q z - y / B * (y / B))); nra|].
  intros p. rewrite KE. split.
  - intros [Hz H]. split; auto. specialize (q0 _ Hz). assert (0 <= c0 p / A * (c0 p / A)) by apply Rle_0_sqr. assert (0 <= c1 p / B * (c1 p / B)) by apply Rle_0_sqr. unfold w. split; apply D; auto; apply sq_range; lra.
  - intros (Hz & Hy & Hx). split; auto. specialize (q0 _ Hz). unfold w in Hx. apply D in Hy; auto. apply D in Hx; auto. apply sq_range in Hy; auto. apply sq_range in Hx; lra.
Qed.
Lemma stack_slice : forall k z, a <= z <= b ->
  is_RInt (fun y => 2 * w z y * (k0 k + ky k * y + kz k * z + kyy k * (y * y) + kzz k * (z * z) + kyz k * (y * z)) + kxx k * (2 / 3) * (w z y * w z y * w z y))
    (- (B * sqrt (q z))) (B * sqrt (q z)) (PI * A * B * (q z * (k0 k + kz k * z + kzz k * (z * z)) + q z * q z / 4 * (kxx k * (A * A) + kyy k * (B * B)))).
Proof.
  intros k z Hz. specialize (q0 z Hz). set (r := sqrt (q z)). assert (R0 : 0 <= r) by apply sqrt_pos. assert (R2 : q z = r * r) by (unfold r; rewrite sqrt_sqrt; auto).
  apply is_RInt_sin.
  - intros y. unfold w. apply (continuous_plus (fun y => 2 * (A * sqrt (q z - y / B * (y / B))) * (k0 k + ky k * y + kz k * z + kyy k * (y * y) + kzz k * (z * z) + kyz k * (y * z))) (fun y => kxx k * (2 / 3) * (A * sqrt (q z - y / B * (y / B)) * (A * sqrt (q z - y / B * (y / B))) * (A * sqrt (q z - y / B * (y / B)))))).
    + apply (continuous_mult (fun y => 2 * (A * sqrt (q z - y / B * (y / B)))) (fun y => k0 k + ky k * y + kz k * z + kyy k * (y * y) + kzz k * (z * z) + kyz k * (y * z))).
      * apply (continuous_mult (fun _ => 2) (fun y => A * sqrt (q z - y / B * (y / B)))); [apply continuous_const|]. apply (continuous_mult (fun _ => A) (fun y => sqrt (q z - y / B * (y / B)))); [apply continuous_const|]. apply continuous_sqrt_comp. apply (ex_derive_continuous (fun y => q z - y / B * (y / B))). auto_derive. auto.
      * apply (ex_derive_continuous (fun y => k0 k + ky k * y + kz k * z + kyy k * (y * y) + kzz k * (z * z) + kyz k * (y * z))). auto_derive. auto.
    + assert (Cw : continuous (fun y => A * sqrt (q z - y / B * (y / B))) y).
      { apply (continuous_mult (fun _ => A) (fun y => sqrt (q z - y / B * (y / B)))); [apply continuous_const|]. apply continuous_sqrt_comp. apply (ex_derive_continuous (fun y => q z - y / B * (y / B))). auto_derive. auto. }
      apply (continuous_mult (fun _ => kxx k * (2 / 3)) (fun y => A * sqrt (q z - y / B * (y / B)) * (A * sqrt (q z - y / B * (y / B))) * (A * sqrt (q z - y / B * (y / B))))); [apply continuous_const|].
      apply (continuous_mult (fun y => A * sqrt (q z - y / B * (y / B)) * (A * sqrt (q z - y / B * (y / B)))) (fun y => A * sqrt (q z - y / B * (y / B)))); auto.
      apply (continuous_mult (fun y => A * sqrt (q z - y / B * (y / B))) (fun y => A * sqrt (q z - y / B * (y / B)))); auto.
  - set (C0 := k0 k + kz k * z + kzz k * (z * z)). set (C1 := ky k + kyz k * z).
    apply (is_RInt_ext (fun t => B * r * cos t * (2 * (A * (r * cos t)) * (C0 + C1 * (B * r * sin t) + kyy k * (B * r * sin t * (B * r * sin t))) + kxx k * (2 / 3) * (A * (r * cos t) * (A * (r * cos t)) * (A * (r * cos t)))))).
    + intros t Ht. pose proof PI_RGT_0. rewrite Rmin_left, Rmax_right in Ht by lra. unfold w.
      replace (sqrt (q z - B * r * sin t / B * (B * r * sin t / B))) with (r * cos t); [unfold C0, C1; match goal with |- ?l = ?r => change (@eq R l r) end; ring|]. symmetry. apply sqrt_lem_1.
      * rewrite R2. replace (r * r - B * r * sin t / B * (B * r * sin t / B)) with (r * r * (1 - sin t * sin t)) by (field; lra). pose proof (sin2_cos2 t) as SC. unfold Rsqr in SC. replace (1 - sin t * sin t) with (cos t * cos t) by lra. replace (r * r * (cos t * cos t)) with ((r * cos t) * (r * cos t)) by ring. apply Rle_0_sqr.
      * apply Rmult_le_pos; auto. apply cos_ge_0; lra.
      * rewrite R2. replace (r * r - B * r * sin t / B * (B * r * sin t / B)) with (r * r * (1 - sin t * sin t)) by (field; lra). pose proof (sin2_cos2 t) as SC. unfold Rsqr in SC. replace (1 - sin t * sin t) with (cos t * cos t) by lra. ring.
    + apply (is_RInt_anti (fun t => A * B * (r * r) * C0 * (t + sin t * cos t) + 2 * A * (B * B) * (r * r * r) * C1 * (- (cos t * cos t * cos t) / 3) + 2 * A * (B * B * B) * (r * r * r * r) * kyy k * ((t - sin t * cos t * (1 - 2 * (sin t * sin t))) / 8) + 2 / 3 * kxx k * (A * A * A) * B * (r * r * r * r) * (3 / 8 * t + 3 / 8 * (sin t * cos t) + / 4 * (sin t * (cos t * cos t * cos t))))).
      * intros t. auto_derive; auto. pose proof (sin2_cos2 t) as SC. unfold Rsqr in SC. generalize dependent (sin t). intros s SC. generalize dependent (cos t). intros c SC. assert (SS : s * s = 1 - c * c) by lra. clear SC. field [SS].
      * intros t. apply cont_of. auto_derive. auto.
      * rewrite sin_neg, cos_neg, sin_PI2, cos_PI2, R2. unfold C0. field.
Qed.
End Stack.
Lemma stack_integral : forall K A B a b q k I, 0 < A -> 0 < B -> a <= b -> (forall z, a <= z <= b -> 0 <= q z) ->
  (forall p, K p <-> a <= c2 p <= b /\ (c0 p / A) * (c0 p / A) + (c1 p / B) * (c1 p / B) <= q (c2 p)) ->
  is_RInt (fun z => PI * A * B * (q z * (k0 k + kz k * z + kzz k * (z * z)) + q z * q z / 4 * (kxx k * (A * A) + kyy k * (B * B)))) a b I ->
  integral3 K (qval k) I.
Proof.
  intros K A B a b q k I A0 B0 AB q0 KE H. eexists a, b, _, _, _, _. split; [apply (stack_ranges K A B a b q); auto|].
  eexists _, _. split; [|split; [|exact H]].
  - intros z y _ _. apply qval_x.
  - intros z Hz. apply (stack_slice A B a b q); auto.
Qed.
(** ** Boxes *)
Lemma box_integral : forall K A B C k, 0 <= A -> 0 <= B -> 0 <= C ->
  (forall p, K p <-> - C <= c2 p <= C /\ - B <= c1 p <= B /\ - A <= c0 p <= A) ->
  integral3 K (qval k) (8 * A * B * C * (k0 k + (kxx k * (A * A) + kyy k * (B * B) + kzz k * (C * C)) / 3)).
Proof.
  intros K A B C k A0 B0 C0 KE. exists (- C), C, (fun _ => - B), (fun _ => B), (fun _ _ => - A), (fun _ _ => A). split.
  { split; [lra|]. split; [intros; lra|]. split; [intros; lra|]. exact KE. }
  exists (fun z y => 2 * A * (k0 k + ky k * y + kz k * z + kyy k * (y * y) + kzz k * (z * z) + kyz k * (y * z)) + kxx k * (2 / 3) * (A * A * A)),
    (fun z => 2 * B * (2 * A * (k0 k + kz k * z + kzz k * (z * z)) + kxx k * (2 / 3) * (A * A * A)) + 2 * A * kyy k * (2 / 3) * (B * B * B)).
  split; [intros; apply qval_x|]. split.
  - intros z _. apply (is_RInt_anti (fun y => (2 * A * (k0 k + kz k * z + kzz k * (z * z)) + kxx k * (2 / 3) * (A * A * A)) * y + 2 * A * (ky k + kyz k * z) * (y * y) / 2 + 2 * A * kyy k * (y * y * y) / 3)).
    + intros y. auto_derive; auto. field. + intros y. apply cont_of. auto_derive. auto. + field.
  - apply (is_RInt_anti (fun z => 2 * B * (2 * A * (k0 k * z + kz k * (z * z) / 2 + kzz k * (z * z * z) / 3) + kxx k * (2 / 3) * (A * A * A) * z) + 2 * A * kyy k * (2 / 3) * (B * B * B) * z)).
    + intros y. auto_derive; auto. field. + intros y. apply cont_of. auto_derive. auto. + field.
Qed.
(** ** The simplex *)
Lemma simplex_integral : forall k, iterated (qval k) 0 1 (fun _ => 0) (fun z => 1 - z) (fun _ _ => 0) (fun z y => 1 - z - y)
  (k0 k / 6 + (kx k + ky k + kz k) / 24 + (kxx k + kyy k + kzz k) / 60 + (kxy k + kxz k + kyz k) / 120).
Proof.
  intros k.
  pose (fx := fun z y => let u := 1 - z - y in (k0 k + ky k * y + kz k * z + kyy k * (y * y) + kzz k * (z * z) + kyz k * (y * z)) * u + (kx k + kxy k * y + kxz k * z) * (u * u) / 2 + kxx k * (u * u * u) / 3).
  pose (fy := fun z => let h := 1 - z in k0 k * (h * h) / 2 + ky k * (h * h * h) / 6 + kz k * z * (h * h) / 2 + kyy k * (h * h * h * h) / 12 + kzz k * (z * z) * (h * h) / 2 + kyz k * z * (h * h * h) / 6 +
     kx k * (h * h * h) / 6 + kxy k * (h * h * h * h) / 24 + kxz k * z * (h * h * h) / 6 + kxx k * (h * h * h * h) / 12).
  exists fx, fy. split; [|split].
  - intros z y _ _. unfold qval, fx. cbn [c0 c1 c2].
    apply (is_RInt_anti (fun x => (k0 k + ky k * y + kz k * z + kyy k * (y * y) + kzz k * (z * z) + kyz k * (y * z)) * x + (kx k + kxy k * y + kxz k * z) * (x * x) / 2 + kxx k * (x * x * x) / 3)).
    + intros x. auto_derive; auto. field. + intros x. apply cont_of. auto_derive. auto. + cbn zeta. field.
  - intros z _. unfold fx, fy. cbn zeta.
    apply (is_RInt_anti (fun y => let h := 1 - z in
       (k0 k + kz k * z + kzz k * (z * z)) * (h * y - y * y / 2) + (ky k + kyz k * z) * (h * (y * y) / 2 - y * y * y / 3) + kyy k * (h * (y * y * y) / 3 - y * y * y * y / 4) +
       (kx k + kxz k * z) / 2 * (h * h * y - h * (y * y) + y * y * y / 3) + kxy k / 2 * (h * h * (y * y) / 2 - 2 * h * (y * y * y) / 3 + y * y * y * y / 4) +
       kxx k / 3 * (h * h * h * y - 3 * (h * h) * (y * y) / 2 + h * (y * y * y) - y * y * y * y / 4))).
    + intros y. cbn zeta. auto_derive; auto. field. + intros y. apply cont_of. auto_derive. auto. + cbn zeta. field.
  - unfold fy. cbn zeta.
    apply (is_RInt_anti (fun z => let h := 1 - z in - (k0 k * (h * h * h) / 6) - ky k * (h * h * h * h) / 24 + kz k / 2 * (z * z / 2 - 2 * (z * z * z) / 3 + z * z * z * z / 4) - kyy k * (h * h * h * h * h) / 60 +
       kzz k / 2 * (z * z * z / 3 - z * z * z * z / 2 + z * z * z * z * z / 5) + (kyz k + kxz k) / 6 * (z * z / 2 - z * z * z + 3 * (z * z * z * z) / 4 - z * z * z * z * z / 5) -
       kx k * (h * h * h * h) / 24 - kxy k * (h * h * h * h * h) / 120 - kxx k * (h * h * h * h * h) / 60)).
    + intros y. cbn zeta. auto_derive; auto. field. + intros y. apply cont_of. auto_derive. auto. + cbn zeta. field.
Qed.
