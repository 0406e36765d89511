(** C78: the distance iteration of the libccd extension. *)
From Coq Require Import Reals Lra Lia List Bool Psatz.
From Verif Require Import VecR Motion Prim P_PlaneQuery ShapeBV Support P_Support Gjk P_Gjk CcdGjk P_CcdGjk.
Import ListNotations.
Open Scope R_scope.

(** What is assumed of libccd's point-segment distance: its witness is on the segment, the value is the
    squared distance to it. *)
Definition seg_ok (seg : v3 -> v3 -> v3 -> R * v3) : Prop :=
  forall P a b, segset a b (snd (seg P a b)) /\ fst (seg P a b) = norm2 (vsub (snd (seg P a b)) P).
(** x lies on the simplex *)
Definition on (s : list sp) (x : v3) : Prop :=
  match s with
  | [a] => x = sv a
  | [a; b] => segset (sv a) (sv b) x
  | [a; b; c] => in_tri (sv a) (sv b) (sv c) x
  | _ => False
  end.
Lemma sub_zero : forall x, vsub x vzero = x. Proof. intros. vcoords. Qed.

Section Near.
Variable tri : v3 -> v3 -> v3 -> v3 -> R * v3.
Hypothesis TO : tri_ok tri.
Variable seg : v3 -> v3 -> v3 -> R * v3.
Hypothesis SO : seg_ok seg.

Lemma tri_at : forall a b c, in_tri a b c (snd (tri vzero a b c)) /\ sqrt (fst (tri vzero a b c)) = norm (snd (tri vzero a b c)).
Proof. intros a b c. destruct (TO vzero a b c) as (I & E). split; [exact I|]. rewrite E, sub_zero. reflexivity. Qed.
Lemma seg_at : forall a b, segset a b (snd (seg vzero a b)) /\ sqrt (fst (seg vzero a b)) = norm (snd (seg vzero a b)).
Proof. intros a b. destruct (SO vzero a b) as (I & E). split; [exact I|]. rewrite E, sub_zero. reflexivity. Qed.

(** The point found is on the simplex that is left, which is part of the old one. *)
Lemma nearest_ok : forall last s, (1 <= length s <= 4)%nat -> exists d w s1, nearest tri seg last s = Some (d, w, s1) /\
  (1 <= length s1 <= 3)%nat /\ (forall p, In p s1 -> In p s) /\
  match w with Some p => on s1 p /\ d = norm p /\ (length s = 4%nat -> d < last) | None => d = last /\ length s = 4%nat /\ exists s' x, (forall p, In p s' -> In p s) /\ on s' x /\ last <= norm x end.
Proof.
  intros last s L. destruct s as [|a [|b [|c [|d [|e s]]]]]; cbn [length] in L; try lia.
  - exists (sqrt (norm2 (sv a))), (Some (sv a)), [a]. cbn [nearest on length]. split; [reflexivity|]. split; [lia|]. split; [auto|]. split; [reflexivity|]. split; [reflexivity|intros; discriminate].
  - destruct (seg_at (sv a) (sv b)) as (I & E). do 3 eexists. cbn [nearest length]. split; [reflexivity|]. split; [cbn [length]; lia|]. split; [auto|]. cbn [on]. split; [exact I|]. split; [exact E|intros; discriminate].
  - destruct (tri_at (sv a) (sv b) (sv c)) as (I & E). do 3 eexists. cbn [nearest length]. split; [reflexivity|]. split; [cbn [length]; lia|]. split; [auto|]. cbn [on]. split; [exact I|]. split; [exact E|intros; discriminate].
  - cbn [nearest]. unfold reduce, reduce_step. destruct (tri_at (sv d) (sv b) (sv c)) as (I0 & E0). destruct (tri_at (sv a) (sv d) (sv c)) as (I1 & E1). destruct (tri_at (sv a) (sv b) (sv d)) as (I2 & E2).
    destruct (Rlt_dec (sqrt (fst (tri vzero (sv d) (sv b) (sv c)))) _) as [L0|L0]; cbn [fst snd] in *;
      (destruct (Rlt_dec (sqrt (fst (tri vzero (sv a) (sv d) (sv c)))) _) as [L1|L1]; cbn [fst snd] in *;
       (destruct (Rlt_dec (sqrt (fst (tri vzero (sv a) (sv b) (sv d)))) _) as [L2|L2]; cbn [fst snd] in *));
      do 3 eexists; (split; [reflexivity|]); (split; [cbn [length]; lia|]); (split; [cbn [In]; intuition auto|]); cbn [on];
      try (split; [assumption|split; [assumption|intros _; lra]]). split; [reflexivity|]. split; [reflexivity|]. exists [d; b; c]. eexists. cbn [on]. split; [|split; [exact I0|lra]]. cbn [In]; intuition auto.
Qed.
Definition least (s : list sp) (p : v3) : Prop := forall x, on s x -> norm p <= norm x.
End Near.

Lemma on_convex : forall s, convex (on s).
Proof.
  intros s. destruct s as [|a [|b [|c [|d s]]]]; cbn [on].
  - intros ? ? ? [].
  - intros x y t -> -> _. vcoords.
  - apply seg_convex.
  - apply in_tri_convex.
  - intros ? ? ? [].
Qed.
Lemma on_in : forall (K : v3 -> Prop) s x, convex K -> (forall p, In p s -> K (sv p)) -> on s x -> K x.
Proof.
  intros K s x C H O. destruct s as [|a [|b [|c [|d s]]]]; cbn [on] in O; try contradiction.
  - subst x. apply H. left; reflexivity.
  - destruct O as (t & Ht & ->). apply C; auto; apply H; [left; reflexivity|right; left; reflexivity].
  - apply (tri_convex K (sv a) (sv b) (sv c)); auto; apply H; [left; reflexivity|right; left; reflexivity|right; right; left; reflexivity].
Qed.
(** All of a convex set is beyond the plane through its nearest point. *)
Lemma nearest_plane : forall (K : v3 -> Prop) p y, convex K -> K p -> (forall x, K x -> norm p <= norm x) -> K y -> norm2 p <= dot p y.
Proof.
  intros K p y C Kp M Ky. assert (Q : forall t, 0 <= t <= 1 -> 0 <= 2 * t * dot p (vsub y p) + t * t * norm2 (vsub y p)).
  { intros t Ht. pose proof (M _ (C p y t Kp Ky Ht)) as L. assert (L2 : norm2 p <= norm2 (vadd p (vscale t (vsub y p)))) by (rewrite <- !norm_sq; apply Rmult_le_compat; auto; apply norm_nonneg).
    replace (norm2 (vadd p (vscale t (vsub y p)))) with (norm2 p + (2 * t * dot p (vsub y p) + t * t * norm2 (vsub y p))) in L2 by coords. lra. }
  destruct (Rle_dec (norm2 p) (dot p y)) as [|N]; [assumption|exfalso]. assert (D : dot p (vsub y p) < 0) by (replace (dot p (vsub y p)) with (dot p y - norm2 p) by coords; lra).
  set (k := - dot p (vsub y p)) in *. set (m := norm2 (vsub y p)) in *. assert (m0 : 0 <= m) by apply norm2_nonneg. assert (K0 : 0 < k) by (unfold k; lra).
  pose proof (Q (k / (k + m))) as Z. assert (T1 : 0 <= k / (k + m) <= 1). { split; [apply Rlt_le, Rdiv_lt_0_compat; lra|]. apply Rmult_le_reg_r with (k + m); [lra|]. unfold Rdiv. rewrite Rmult_assoc, Rinv_l by lra. lra. }
  specialize (Z T1). set (t := k / (k + m)) in *. assert (Tp : 0 < t) by (apply Rdiv_lt_0_compat; lra). replace (dot p (vsub y p)) with (- k) in Z by (unfold k; ring).
  assert (Et : t * (k + m) = k) by (unfold t; field; lra). assert (t * m <= k) by (assert (0 <= t * k) by (apply Rmult_le_pos; lra); lra).
  assert (t * (t * m) <= t * k) by (apply Rmult_le_compat_l; lra). assert (0 < t * k) by (apply Rmult_lt_0_compat; lra). lra.
Qed.

(** ** The points on the objects *)
Section Points.
Variable feps : R.
Hypothesis Hf : 0 < feps.
Variables K1 K2 : v3 -> Prop.
Hypothesis C1 : convex K1.
Hypothesis C2 : convex K2.
Definition pair_of (p : sp) : Prop := K1 (sv1 p) /\ K2 (sv2 p) /\ sv p = vsub (sv1 p) (sv2 p).
(** Not a triangle of zero area by the test of the code *)
Definition plain (s : list sp) : Prop := match s with [a; b; c] => area_zero feps (sv a) (sv b) (sv c) = false | _ => True end.

Lemma big_comp : forall v (f : v3 -> R), (f = if Rle_dec (Rabs (c1 v)) (Rabs (c0 v)) then if Rle_dec (Rabs (c2 v)) (Rabs (c0 v)) then c0 else if Rle_dec (Rabs (c2 v)) (Rabs (c1 v)) then c1 else c2
           else if Rle_dec (Rabs (c2 v)) (Rabs (c1 v)) then c1 else c2) ->
  (forall k a b, f (vadd a (vscale k b)) = f a + k * f b) /\ (forall e, 0 < e -> Rabs (f v) < e -> norm v <= 2 * e /\ forall g, g = c0 \/ g = c1 \/ g = c2 -> Rabs (g v) < e).
Proof.
  intros v f ->. split.
  - intros. repeat destruct (Rle_dec _ _); unfold vadd, vscale; cbn [c0 c1 c2]; reflexivity.
  - intros e He H. assert (A : Rabs (c0 v) < e /\ Rabs (c1 v) < e /\ Rabs (c2 v) < e) by (revert H; repeat destruct (Rle_dec _ _); lra). destruct A as (A0 & A1 & A2). split; [|intros g [ -> |[ -> | -> ]]; assumption]. apply Rlt_le in A0. apply Rlt_le in A1. apply Rlt_le in A2.
    assert (Sq : forall x, Rabs x <= e -> x * x <= e * e) by (intros x Hx; rewrite <- (Rabs_right (x * x)) by (apply Rle_ge, Rle_0_sqr); rewrite Rabs_mult; apply Rmult_le_compat; auto using Rabs_pos).
    apply Sq in A0. apply Sq in A1. apply Sq in A2. unfold norm. rewrite <- (sqrt_square (2 * e)) by lra. apply sqrt_le_1_alt. replace (norm2 v) with (c0 v * c0 v + c1 v * c1 v + c2 v * c2 v) by coords. pose proof (Rle_0_sqr e) as E. unfold Rsqr in E. lra.
Qed.
Lemma segment_points : forall a b p, pair_of a -> pair_of b -> segset (sv a) (sv b) p -> let r := extract_segment feps a b p in
  K1 (fst r) /\ K2 (snd r) /\ (vsub (fst r) (snd r) = p \/ (forall f, f = c0 \/ f = c1 \/ f = c2 -> Rabs (f (vsub (sv b) (sv a))) < feps) /\ norm (vsub (vsub (fst r) (snd r)) p) <= 2 * feps).
Proof.
  intros a b p (A1 & A2 & EA) (B1 & B2 & EB) (t & Ht & ->). unfold extract_segment. set (AB := vsub (sv b) (sv a)). set (f := if Rle_dec _ _ then _ else _). destruct (big_comp AB f eq_refl) as (Lin & Small). cbv zeta.
  destruct (Rlt_dec (Rabs (f AB)) feps) as [L|L]; cbn [fst snd].
  - split; [auto|]. split; [auto|]. right. destruct (Small feps Hf L) as (Sm & Co). split; [exact Co|]. rewrite <- EA. replace (vsub (sv a) (vadd (sv a) (vscale t AB))) with (vscale (- t) AB) by (unfold AB; vcoords). rewrite norm_scale.
    rewrite Rabs_Ropp, Rabs_right by lra. pose proof (norm_nonneg AB) as N. assert (t * norm AB <= 1 * norm AB) by (apply Rmult_le_compat_r; lra). lra.
  - assert (Nz : f AB <> 0) by (intros Z; rewrite Z, Rabs_R0 in L; lra). assert (Es : (f (vadd (sv a) (vscale t AB)) - f (sv a)) / f AB = t) by (rewrite Lin; field; auto). rewrite Es. unfold calc_p. split; [apply C1; auto|]. split; [apply C2; auto|]. left. unfold AB. rewrite EA, EB. vcoords.
Qed.
Lemma area_nonzero : forall a b c, area_zero feps a b c = false -> norm2 (cross (vsub b a) (vsub c a)) <> 0.
Proof.
  intros a b c H E. unfold area_zero in H. apply orb_false_iff in H. destruct H as (_ & H). destruct (Rlt_dec _ _) as [|N]; [discriminate|]. apply N. clear H N.
  assert (Z : forall u v, norm2 (cross u v) = 0 -> norm2 (cross (normalized u) (normalized v)) = 0).
  { intros u v Huv. unfold normalized. assert (S : forall k m, norm2 (cross (vscale k u) (vscale m v)) = k * k * (m * m) * norm2 (cross u v)) by (intros; coords).
    destruct (Rlt_dec _ _), (Rlt_dec _ _).
    - rewrite S, Huv. ring.
    - replace v with (vscale 1 v) by vcoords. rewrite S, Huv. ring.
    - replace u with (vscale 1 u) by vcoords. rewrite S, Huv. ring.
    - exact Huv. }
  rewrite Z by exact E. apply Rmult_lt_0_compat; auto.
Qed.
Lemma triangle_points : forall a b c p, pair_of a -> pair_of b -> pair_of c -> in_tri (sv a) (sv b) (sv c) p -> area_zero feps (sv a) (sv b) (sv c) = false ->
  exists p1 p2, extract feps [a; b; c] p = Some (p1, p2) /\ K1 p1 /\ K2 p2 /\ vsub p1 p2 = p.
Proof.
  intros a b c p (A1 & A2 & EA) (B1 & B2 & EB) (D1 & D2 & ED) (u & v & w & Hu & Hv & Hw & S & ->) AZ. unfold extract. rewrite AZ. pose proof (area_nonzero _ _ _ AZ) as NZ.
  set (n := norm2 (cross (vsub (sv b) (sv a)) (vsub (sv c) (sv a)))) in *. set (p := vadd (vadd _ _) _).
  assert (Eb : dot (cross (vsub (sv b) (sv a)) (vsub (sv c) (sv a))) (cross (vsub p (sv a)) (vsub (sv c) (sv a))) = v * n) by (unfold p, n; replace u with (1 - v - w) by lra; coords).
  assert (Ec : dot (cross (vsub (sv b) (sv a)) (vsub (sv c) (sv a))) (cross (vsub (sv b) (sv a)) (vsub p (sv a))) = w * n) by (unfold p, n; replace u with (1 - v - w) by lra; coords).
  rewrite Eb, Ec. unfold Rdiv. rewrite !Rmult_assoc, Rinv_r, !Rmult_1_r by exact NZ. do 2 eexists. split; [reflexivity|].
  assert (I : forall (K : v3 -> Prop) x y z, convex K -> K x -> K y -> K z -> K (interpolate v w x y z)).
  { intros K x y z C Kx Ky Kz. apply (tri_convex K x y z); auto. exists u, v, w. repeat (split; [assumption|]). replace u with (1 - v - w) by lra. unfold interpolate. vcoords. }
  split; [apply I; auto|]. split; [apply I; auto|]. unfold p, interpolate. rewrite EA, EB, ED. replace u with (1 - v - w) by lra. vcoords.
Qed.
Lemma extract_points : forall s p, (forall q, In q s -> pair_of q) -> on s p -> exists p1 p2, extract feps s p = Some (p1, p2) /\
  (plain s -> K1 p1 /\ K2 p2 /\ (vsub p1 p2 = p \/ match s with [a; b] => forall f, f = c0 \/ f = c1 \/ f = c2 -> Rabs (f (vsub (sv b) (sv a))) < feps | _ => False end /\ norm (vsub (vsub p1 p2) p) <= 2 * feps)).
Proof.
  intros s p H O. destruct s as [|a [|b [|c [|d s]]]]; cbn [on] in O; try contradiction.
  - subst p. destruct (H a ltac:(left; reflexivity)) as (A1 & A2 & EA). exists (sv1 a), (sv2 a). split; [reflexivity|]. auto.
  - destruct (segment_points a b p) as (Q1 & Q2 & Q3); auto; [apply H; left; reflexivity|apply H; right; left; reflexivity|]. cbn [extract]. destruct (extract_segment feps a b p) as (p1 & p2). exists p1, p2. split; [reflexivity|]. intros _. cbn [fst snd length] in *. auto.
  - destruct (area_zero feps (sv a) (sv b) (sv c)) eqn:AZ.
    + cbn [extract]. rewrite AZ. match goal with |- exists _ _, Some ?r = _ /\ _ => destruct r as (p1 & p2) end. exists p1, p2. split; [reflexivity|]. intros P. cbn [plain] in P. rewrite AZ in P. discriminate.
    + destruct (triangle_points a b c p) as (p1 & p2 & E & Q1 & Q2 & Q3); auto; [apply H; left; reflexivity|apply H; right; left; reflexivity|apply H; right; right; left; reflexivity|]. exists p1, p2. auto.
Qed.
(** ** Triangles without area *)
(** The coordinates agree up to eps, relative to their size if that is above 1. *)
Definition agree (p q : v3) : Prop := forall f, f = c0 \/ f = c1 \/ f = c2 -> Rabs (f p - f q) <= Rmax 1 (Rmax (Rabs (f p)) (Rabs (f q))) * feps.
Lemma coincident_iff : forall p q, coincident feps p q = true <-> agree p q.
Proof.
  assert (L : forall x y, (if Rlt_dec (Rmax (Rmax 1 (Rabs x)) (Rabs y) * feps) (Rabs (x - y)) then true else false) = false <-> Rabs (x - y) <= Rmax 1 (Rmax (Rabs x) (Rabs y)) * feps).
  { intros x y. rewrite Rmax_assoc. destruct (Rlt_dec _ _); split; intros; try lra; discriminate. }
  intros p q. unfold coincident. cbv zeta. rewrite negb_true_iff, !orb_false_iff, !L. split.
  - intros ((A & B) & C) f [ -> |[ -> | -> ]]; auto.
  - intros H. split; [split|]; apply H; auto.
Qed.
Lemma agree_refl : forall p, agree p p.
Proof. intros p f _. replace (f p - f p) with 0 by ring. rewrite Rabs_R0. apply Rmult_le_pos; [|lra]. pose proof (Rmax_l 1 (Rmax (Rabs (f p)) (Rabs (f p)))). lra. Qed.
(** C78: what triangle_area_is_zero decides: two corners coincide with the first up to eps, or the sine of the
    angle at the first corner is below eps; it never normalises a zero vector on the way. *)
Theorem area_zero_iff : forall a b c, area_zero feps a b c = true <->
  agree a b \/ agree a c \/ a <> b /\ a <> c /\ norm2 (cross (vsub b a) (vsub c a)) < feps * feps * (norm2 (vsub b a) * norm2 (vsub c a)).
Proof.
  intros a b c. unfold area_zero. rewrite !orb_true_iff, !coincident_iff.
  assert (D : agree a b \/ agree a c \/ a <> b /\ a <> c).
  { destruct (coincident feps a b) eqn:E1; [left; apply coincident_iff, E1|]. destruct (coincident feps a c) eqn:E2; [right; left; apply coincident_iff, E2|]. do 2 right.
    split; intros ->; [assert (T : coincident feps b b = true) by (apply coincident_iff, agree_refl)|assert (T : coincident feps c c = true) by (apply coincident_iff, agree_refl)]; congruence. }
  destruct D as [D|[D|(N1 & N2)]]; [tauto|tauto|]. cbv zeta.
  assert (P : forall u v, u <> v -> 0 < norm2 (vsub v u)).
  { intros u v N. destruct (Rle_lt_or_eq_dec 0 (norm2 (vsub v u)) (norm2_nonneg _)) as [|Z]; [assumption|]. exfalso. apply N. assert (S : norm2 (vsub v u) = (c0 v - c0 u) * (c0 v - c0 u) + (c1 v - c1 u) * (c1 v - c1 u) + (c2 v - c2 u) * (c2 v - c2 u)) by coords.
    rewrite <- Z in S. pose proof (Rle_0_sqr (c0 v - c0 u)). pose proof (Rle_0_sqr (c1 v - c1 u)). pose proof (Rle_0_sqr (c2 v - c2 u)). unfold Rsqr in *.
    assert (Q : forall x y, (x - y) * (x - y) = 0 -> y = x) by (intros x y Q; apply Rmult_integral in Q; lra). apply v3_ext; apply Q; lra. }
  pose proof (P _ _ N1) as P1. pose proof (P _ _ N2) as P2. set (u := vsub b a) in *. set (v := vsub c a) in *.
  assert (E : norm2 (cross (normalized u) (normalized v)) * (norm2 u * norm2 v) = norm2 (cross u v)).
  { unfold normalized. destruct (Rlt_dec _ _) as [_|]; [|contradiction]. destruct (Rlt_dec _ _) as [_|]; [|contradiction].
    assert (S : forall k m, norm2 (cross (vscale k u) (vscale m v)) = k * k * (m * m) * norm2 (cross u v)) by (intros; coords). rewrite S.
    rewrite <- (norm_sq u), <- (norm_sq v). assert (Q : forall w, 0 < norm2 w -> 0 < norm w) by (intros w Hw; apply sqrt_lt_R0, Hw). pose proof (Q _ P1). pose proof (Q _ P2). field. split; lra. }
  assert (P12 : 0 < norm2 u * norm2 v) by (apply Rmult_lt_0_compat; auto). set (m := norm2 (cross (normalized u) (normalized v))) in *.
  destruct (Rlt_dec m (feps * feps)) as [L|L].
  - split; [|tauto]. intros _. do 2 right. split; [auto|]. split; [auto|]. rewrite <- E. apply Rmult_lt_compat_r; auto.
  - split; [intros [[|]|]; [tauto|tauto|discriminate]|]. intros [|[|(_ & _ & T)]]; [tauto|tauto|]. exfalso. apply L. rewrite <- E in T. apply Rmult_lt_reg_r in T; auto.
Qed.
(** The middle one of three points on a line is on the segment between the others. *)
Lemma collinear_between : forall a b c, cross (vsub b a) (vsub c a) = vzero -> norm2 (vsub c a) <= norm2 (vsub b a) -> norm2 (vsub c b) <= norm2 (vsub b a) -> segset a b c.
Proof.
  intros a b c Z L1 L2. set (u := vsub b a) in *. set (v := vsub c a) in *. assert (E : norm2 (vsub c b) = norm2 v - 2 * dot v u + norm2 u) by (unfold u, v; coords). rewrite E in L2. clear E.
  destruct (Rle_lt_or_eq_dec 0 (norm2 u) (norm2_nonneg _)) as [P|N].
  - exists (dot v u / norm2 u). pose proof (lagrange u v) as L. rewrite Z in L. replace (norm2 vzero) with 0 in L by coords. replace (dot u v) with (dot v u) in L by coords.
    assert (V0 : 0 <= norm2 v) by apply norm2_nonneg. set (k := dot v u) in *. assert (K0 : 0 <= k). { destruct (Rle_dec 0 k); [assumption|]. exfalso. lra. }
    assert (KU : k <= norm2 u). { destruct (Rle_dec k (norm2 u)) as [|G]; [assumption|]. exfalso. assert (norm2 u * norm2 u < k * k) by (apply Rmult_le_0_lt_compat; lra). assert (norm2 v * norm2 u <= norm2 u * norm2 u) by (apply Rmult_le_compat_r; lra). lra. }
    split; [split; [apply Rmult_le_pos; [lra|apply Rlt_le, Rinv_0_lt_compat, P]|apply Rmult_le_reg_r with (norm2 u); auto; unfold Rdiv; rewrite Rmult_assoc, Rinv_l by lra; lra]|].
    assert (W : vscale (norm2 u) v = vscale k u).
    { assert (J : vsub (vscale (norm2 u) v) (vscale k u) = cross (cross u v) u) by (unfold k; vcoords). rewrite Z in J. assert (J0 : cross vzero u = vzero) by vcoords. rewrite J0 in J. apply v3_ext; [apply (f_equal c0) in J|apply (f_equal c1) in J|apply (f_equal c2) in J]; unfold vsub, vscale, vzero in *; cbn [c0 c1 c2] in *; lra. }
    assert (W2 : v = vscale (k / norm2 u) u). { transitivity (vscale (/ norm2 u) (vscale (norm2 u) v)); [apply v3_ext; unfold vscale; cbn [c0 c1 c2]; field; lra|]. rewrite W. apply v3_ext; unfold vscale; cbn [c0 c1 c2]; field; lra. }
    fold u. rewrite <- W2. unfold v. vcoords.
  - exists 0. split; [lra|]. assert (V : v = vzero). { pose proof (norm2_nonneg v) as V0. assert (V1 : norm2 v = 0) by lra. assert (S : norm2 v = c0 v * c0 v + c1 v * c1 v + c2 v * c2 v) by coords. rewrite V1 in S. pose proof (Rle_0_sqr (c0 v)). pose proof (Rle_0_sqr (c1 v)). pose proof (Rle_0_sqr (c2 v)). unfold Rsqr in *. apply v3_ext; cbn [vzero c0 c1 c2]; apply Rsqr_0_uniq; unfold Rsqr; lra. }
    replace c with (vadd a v) by (unfold v; vcoords). rewrite V. vcoords.
Qed.
Lemma tri_on_segment : forall a b c p, segset a b c -> in_tri a b c p -> segset a b p.
Proof.
  intros a b c p (t & Ht & ->) (u & v & w & Hu & Hv & Hw & S & ->). exists (v + w * t). assert (0 <= w * t) by (apply Rmult_le_pos; lra). assert (w * t <= w * 1) by (apply Rmult_le_compat_l; lra). split; [lra|]. replace u with (1 - v - w) by lra. vcoords.
Qed.
(** C78: if the three points are on a line, the points on the objects are still right: the longest of the
    three sides is used. *)
Theorem collinear_points : forall a b c p, pair_of a -> pair_of b -> pair_of c -> cross (vsub (sv b) (sv a)) (vsub (sv c) (sv a)) = vzero -> in_tri (sv a) (sv b) (sv c) p ->
  exists p1 p2, extract feps [a; b; c] p = Some (p1, p2) /\ K1 p1 /\ K2 p2 /\ norm (vsub (vsub p1 p2) p) <= 2 * feps /\
    (vsub p1 p2 = p \/ forall f, f = c0 \/ f = c1 \/ f = c2 -> Rabs (f (vsub (sv b) (sv a))) < feps /\ Rabs (f (vsub (sv c) (sv a))) < feps /\ Rabs (f (vsub (sv c) (sv b))) < feps).
Proof.
  intros a b c p A B C Z I. assert (AZ : area_zero feps (sv a) (sv b) (sv c) = true). { destruct (area_zero feps (sv a) (sv b) (sv c)) eqn:E; [reflexivity|]. exfalso. apply (area_nonzero _ _ _ E). rewrite Z. coords. }
  cbn [extract]. rewrite AZ. set (ab := norm2 (vsub (sv b) (sv a))). set (ac := norm2 (vsub (sv c) (sv a))). set (bc := norm2 (vsub (sv c) (sv b))).
  assert (W : forall x y z, pair_of x -> pair_of y -> segset (sv x) (sv y) p -> segset (sv x) (sv y) (sv z) -> let r := extract_segment feps x y p in
    K1 (fst r) /\ K2 (snd r) /\ norm (vsub (vsub (fst r) (snd r)) p) <= 2 * feps /\ (vsub (fst r) (snd r) = p \/ forall f, f = c0 \/ f = c1 \/ f = c2 -> Rabs (f (vsub (sv y) (sv x))) < feps /\ Rabs (f (vsub (sv z) (sv x))) < feps /\ Rabs (f (vsub (sv z) (sv y))) < feps)).
  { intros x y z Hx Hy Hp (t & Ht & Ez). destruct (segment_points x y p Hx Hy Hp) as (Q1 & Q2 & Q3). cbv zeta. split; [exact Q1|]. split; [exact Q2|]. destruct Q3 as [Q3|(Q3 & Q4)].
    - rewrite Q3. split; [|left; reflexivity]. replace (vsub p p) with vzero by vcoords. replace (norm vzero) with 0; [lra|]. unfold norm. replace (norm2 vzero) with 0 by coords. rewrite sqrt_0. reflexivity.
    - split; [exact Q4|]. right. intros f Hf'. pose proof (Q3 f Hf') as G. split; [exact G|]. set (d := vsub (sv y) (sv x)) in *.
      assert (E1 : vsub (sv z) (sv x) = vscale t d) by (rewrite Ez; unfold d; vcoords). assert (E2 : vsub (sv z) (sv y) = vscale (t - 1) d) by (rewrite Ez; unfold d; vcoords). rewrite E1, E2.
      assert (M : forall k, -1 <= k <= 1 -> Rabs (f (vscale k d)) < feps). { intros k Hk. replace (f (vscale k d)) with (k * f d) by (destruct Hf' as [ -> |[ -> | -> ]]; reflexivity). rewrite Rabs_mult. apply Rle_lt_trans with (1 * Rabs (f d)); [|lra]. apply Rmult_le_compat_r; [apply Rabs_pos|apply Rabs_le; lra]. }
      split; apply M; lra. }
  assert (Sy : forall x y : v3, norm2 (vsub x y) = norm2 (vsub y x)) by (intros; coords).
  assert (Ra : forall f (x y : v3), f = c0 \/ f = c1 \/ f = c2 -> Rabs (f (vsub x y)) = Rabs (f (vsub y x))) by (intros f x y [ -> |[ -> | -> ]]; unfold vsub; cbn [c0 c1 c2]; apply Rabs_minus_sym).
  assert (J : forall r : v3 * v3, (K1 (fst r) /\ K2 (snd r) /\ norm (vsub (vsub (fst r) (snd r)) p) <= 2 * feps /\
    (vsub (fst r) (snd r) = p \/ forall f, f = c0 \/ f = c1 \/ f = c2 -> Rabs (f (vsub (sv b) (sv a))) < feps /\ Rabs (f (vsub (sv c) (sv a))) < feps /\ Rabs (f (vsub (sv c) (sv b))) < feps)) -> exists p1 p2, Some r = Some (p1, p2) /\ K1 p1 /\ K2 p2 /\ norm (vsub (vsub p1 p2) p) <= 2 * feps /\
    (vsub p1 p2 = p \/ forall f, f = c0 \/ f = c1 \/ f = c2 -> Rabs (f (vsub (sv b) (sv a))) < feps /\ Rabs (f (vsub (sv c) (sv a))) < feps /\ Rabs (f (vsub (sv c) (sv b))) < feps)).
  { intros (p1 & p2) H. exists p1, p2. split; [reflexivity|exact H]. }
  apply J. clear J. destruct (Rle_dec ac ab) as [G1|G1]; [destruct (Rle_dec bc ab) as [G2|G2]|].
  - assert (T : segset (sv a) (sv b) (sv c)) by (apply collinear_between; auto). apply (W a b c); auto. apply tri_on_segment with (sv c); auto.
  - assert (T : segset (sv b) (sv c) (sv a)). { apply collinear_between; [|rewrite Sy; fold ab bc; lra|rewrite Sy; fold ac bc; lra]. rewrite <- Z. vcoords. }
    assert (Hp : segset (sv b) (sv c) p). { apply tri_on_segment with (sv a); auto. destruct I as (u & v & w & H1 & H2 & H3 & H4 & ->). exists v, w, u. repeat (split; [lra|]). vcoords. }
    assert (Q := W b c a B C Hp T). destruct (Rle_dec ab ac) as [G3|G3]; [destruct (Rle_dec bc ac) as [G4|G4]|]; try (exfalso; lra); cbv zeta in Q; destruct Q as (Q1 & Q2 & Q3 & Q4); (split; [exact Q1|split; [exact Q2|split; [exact Q3|]]]); (destruct Q4 as [Q4|Q4]; [left; exact Q4|right]); intros f Hf'; destruct (Q4 f Hf') as (U1 & U2 & U3); rewrite (Ra f (sv b) (sv a)), (Ra f (sv c) (sv a)) by auto; auto.
  - destruct (Rle_dec ab ac) as [G3|G3]; [destruct (Rle_dec bc ac) as [G4|G4]|exfalso; lra].
    + assert (T : segset (sv a) (sv c) (sv b)). { apply collinear_between; [|exact G3|rewrite Sy; exact G4]. assert (N : cross (vsub (sv c) (sv a)) (vsub (sv b) (sv a)) = vneg (cross (vsub (sv b) (sv a)) (vsub (sv c) (sv a)))) by vcoords. rewrite N, Z. vcoords. }
      assert (Hp : segset (sv a) (sv c) p). { apply tri_on_segment with (sv b); auto. destruct I as (u & v & w & H1 & H2 & H3 & H4 & ->). exists u, w, v. repeat (split; [lra|]). vcoords. }
      destruct (W a c b A C Hp T) as (Q1 & Q2 & Q3 & Q4). split; [exact Q1|split; [exact Q2|split; [exact Q3|]]]. destruct Q4 as [Q4|Q4]; [left; exact Q4|right]. intros f Hf'. destruct (Q4 f Hf') as (U1 & U2 & U3). rewrite (Ra f (sv c) (sv b)) by auto. auto.
    + assert (T : segset (sv b) (sv c) (sv a)). { apply collinear_between; [|rewrite Sy; fold ab bc; lra|rewrite Sy; fold ac bc; lra]. rewrite <- Z. vcoords. }
      assert (Hp : segset (sv b) (sv c) p). { apply tri_on_segment with (sv a); auto. destruct I as (u & v & w & H1 & H2 & H3 & H4 & ->). exists v, w, u. repeat (split; [lra|]). vcoords. }
      destruct (W b c a B C Hp T) as (Q1 & Q2 & Q3 & Q4). split; [exact Q1|split; [exact Q2|split; [exact Q3|]]]. destruct Q4 as [Q4|Q4]; [left; exact Q4|right]. intros f Hf'. destruct (Q4 f Hf') as (U1 & U2 & U3). rewrite (Ra f (sv b) (sv a)), (Ra f (sv c) (sv a)) by auto. auto.
Qed.
End Points.
Print Assumptions area_zero_iff.
Print Assumptions collinear_points.

(** ** The loop *)
Section Loop.
Variables ceps meps feps tol big : R.
Hypothesis Hc : 0 < ceps.
Hypothesis Hm : 0 < meps.
Hypothesis Hf : 0 < feps.
Hypothesis Ht : 0 < tol.
Variable tri : v3 -> v3 -> v3 -> v3 -> R * v3.
Hypothesis TO : tri_ok tri.
Variable seg : v3 -> v3 -> v3 -> R * v3.
Hypothesis SO : seg_ok seg.
Variable veq : v3 -> v3 -> bool.
Variable sup : v3 -> sp.
Variables K1 K2 : v3 -> Prop.
Hypothesis C1 : convex K1.
Hypothesis C2 : convex K2.
Hypothesis SK : forall d, d <> vzero -> pair_of K1 K2 (sup d).
Let K := mink K1 K2.
Definition from_sup (p : sp) : Prop := exists d, d <> vzero /\ p = sup d.
Lemma from_pair : forall p, from_sup p -> pair_of K1 K2 p.
Proof. intros p (d & N & ->). apply SK, N. Qed.
Lemma pair_K : forall p, pair_of K1 K2 p -> K (sv p).
Proof. intros p (A & B & E). exists (sv1 p), (sv2 p). auto. Qed.
Lemma on_K : forall s x, (forall p, In p s -> from_sup p) -> on s x -> K x.
Proof. intros s x H O. apply (on_in K s); auto; [apply mink_convex; auto|]. intros p Hp. apply pair_K, from_pair, H, Hp. Qed.

(** x is in a triangle of support points that has no area by the test of the code *)
Definition flat (x : v3) : Prop := exists a b c, from_sup a /\ from_sup b /\ from_sup c /\ area_zero feps (sv a) (sv b) (sv c) = true /\ in_tri (sv a) (sv b) (sv c) x.
(** x is on a segment between support points that differ by less than eps in every coordinate *)
Definition pinched (x : v3) : Prop := exists a b, from_sup a /\ from_sup b /\ segset (sv a) (sv b) x /\ forall f, f = c0 \/ f = c1 \/ f = c2 -> Rabs (f (vsub (sv b) (sv a))) < feps.
(** What a result means; [bound] is a distance that one more improvement must stay below. *)
Definition sound (n : nat) (bound : R) (r : dres) : Prop :=
  match r with
  | Dist d p1 p2 => exists x, K x /\ norm x = d /\
      (flat x \/ K1 p1 /\ K2 p2 /\ (vsub p1 p2 = x \/ pinched x /\ norm (vsub (vsub p1 p2) x) <= 2 * feps))
  | DistUnset d => exists x, K x /\ norm x = d
  | NoDist => INR n * tol <= bound
  | ZeroDir => K vzero
  | Broken => False
  end.
Lemma points_sound : forall s p, on s p -> (forall q, In q s -> from_sup q) -> exists p1 p2, extract feps s p = Some (p1, p2) /\
  (flat p \/ K1 p1 /\ K2 p2 /\ (vsub p1 p2 = p \/ pinched p /\ norm (vsub (vsub p1 p2) p) <= 2 * feps)).
Proof.
  intros s p O H. destruct (extract_points feps Hf K1 K2 C1 C2 s p) as (p1 & p2 & E & A); auto; [intros q Hq; apply from_pair, H, Hq|]. exists p1, p2. split; [exact E|].
  destruct s as [|x [|y [|z [|? ?]]]]; cbn [on] in O; try contradiction.
  - right. destruct (A I) as (Q1 & Q2 & [Q3|([] & _)]). auto.
  - right. destruct (A I) as (Q1 & Q2 & Q3). split; [auto|]. split; [auto|]. destruct Q3 as [Q3|(P & Q3)]; [left; exact Q3|right]. split; [|exact Q3]. exists x, y. split; [apply H; left; reflexivity|]. split; [apply H; right; left; reflexivity|]. split; [exact O|exact P].
  - destruct (area_zero feps (sv x) (sv y) (sv z)) eqn:AZ.
    + left. exists x, y, z. split; [apply H; left; reflexivity|]. split; [apply H; right; left; reflexivity|]. split; [apply H; right; right; left; reflexivity|]. auto.
    + right. destruct (A AZ) as (Q1 & Q2 & [Q3|([] & _)]). auto.
Qed.
Lemma answer_sound : forall n b d s p, on s p -> (forall q, In q s -> from_sup q) -> d = norm p -> sound n b (answer feps d s (Some p)).
Proof.
  intros n b d s p O H ->. cbn [answer]. destruct (points_sound s p O H) as (p1 & p2 & E & A). rewrite E. cbn [sound]. exists p. split; [eapply on_K; eauto|]. split; [reflexivity|]. exact A.
Qed.
Lemma norm2_zero : forall p, norm2 p = 0 -> p = vzero.
Proof.
  intros p E. assert (S : norm2 p = c0 p * c0 p + c1 p * c1 p + c2 p * c2 p) by coords. rewrite E in S. pose proof (Rle_0_sqr (c0 p)). pose proof (Rle_0_sqr (c1 p)). pose proof (Rle_0_sqr (c2 p)). unfold Rsqr in *.
  apply v3_ext; cbn [vzero c0 c1 c2]; apply Rsqr_0_uniq; unfold Rsqr; lra.
Qed.
Lemma dir_nonzero : forall p, norm2 p <> 0 -> normalized (vneg p) <> vzero.
Proof.
  intros p N E. pose proof (norm2_nonneg p) as P. assert (N2 : norm2 (vneg p) = norm2 p) by coords. assert (Q : norm2 (normalized (vneg p)) = 1) by (apply normalized_norm2; intros Z; rewrite Z in N2; revert N2; replace (norm2 vzero) with 0 by coords; intros; lra). rewrite E in Q. revert Q. coords. intros. lra.
Qed.
Lemma dist_loop_sound : forall n last s, (1 <= length s <= 4)%nat -> (forall p, In p s -> from_sup p) -> 0 <= last ->
  (length s = 4%nat -> (exists x, K x /\ norm x = last) \/ forall x, K x -> norm x < last) ->
  sound n last (dist_loop feps tri sup seg tol n last s).
Proof.
  induction n as [|n IH]; intros last s L H P G; [cbn; lra|]. cbn [dist_loop]. destruct (nearest_ok tri TO seg SO last s L) as (d & w & s1 & E & L1 & I1 & W). rewrite E. destruct w as [p|].
  - destruct W as (O & Ed & _). assert (H1 : forall q, In q s1 -> from_sup q) by auto. destruct (Rlt_dec (last - d) tol) as [T|T]; [apply answer_sound; auto|].
    destruct (Req_EM_T (norm2 p) 0) as [Z|Z]; [cbn [sound]; rewrite <- (norm2_zero p Z); eapply on_K; eauto|]. set (l := sup (normalized (vneg p))).
    destruct (Rlt_dec _ _) as [T2|T2]; [apply answer_sound; auto|]. unfold add. replace (length s1 <? 4)%nat with true by (symmetry; apply Nat.ltb_lt; lia).
    assert (D0 : 0 <= d) by (rewrite Ed; apply norm_nonneg).
    assert (S : sound n d (dist_loop feps tri sup seg tol n d (s1 ++ [l]))).
    { apply IH; auto.
      - rewrite app_length. cbn [length]. lia.
      - intros q Hq. apply in_app_or in Hq. destruct Hq as [Hq|[ <- |[]]]; [auto|]. exists (normalized (vneg p)). split; [apply dir_nonzero, Z|reflexivity].
      - intros _. left. exists p. split; [eapply on_K; eauto|auto]. }
    destruct (dist_loop feps tri sup seg tol n d (s1 ++ [l])); cbn [sound] in *; auto. rewrite S_INR. lra.
  - destruct W as (-> & L4 & s' & x & I' & O' & Lx). assert (Kx : K x) by (eapply on_K; [|exact O']; auto).
    assert (Q : exists x, K x /\ norm x = last) by (destruct (G L4) as [Q|Q]; [exact Q|specialize (Q x Kx); lra]). destruct (Rlt_dec _ _); exact Q.
Qed.

(** C78: ccdGJKDist2 always answers.  A distance it returns is the length of a difference of the two objects,
    hence never below the true distance; the two points are in the two objects and differ by that vector,
    unless that vector is in a triangle of support points of zero area, up to 2 eps if it is on a segment of
    nearly coinciding support points.  It returns -1 only if GJK said "intersecting" (see C77) or (max_iterations - 1) tolerance is
    not above the length of the longest difference. *)
Theorem dist_answer : forall n first b, first <> vzero -> sv (sup first) <> vzero -> (forall x, K x -> norm x < big) -> (forall x, K x -> norm x <= b) ->
  match ccd_dist2 ceps meps feps tri veq sup seg tol big n first with
  | Dist d p1 p2 => exists x, K x /\ norm x = d /\
      (flat x \/ K1 p1 /\ K2 p2 /\ (vsub p1 p2 = x \/ pinched x /\ norm (vsub (vsub p1 p2) x) <= 2 * feps))
  | DistUnset d => exists x, K x /\ norm x = d
  | NoDist => close ceps meps feps K \/ INR (n - 1) * tol <= b
  | ZeroDir => K vzero
  | Broken => False
  end.
Proof.
  intros n first b N N1 HB Hb. unfold ccd_dist2. destruct (gjk_answer ceps meps feps Hc Hm (Rlt_le _ _ Hf) tri TO veq sup K) with (n := n) (first := first) as (w & s & E & L & F & C & _); auto; [apply mink_convex; auto|intros d Nd; apply pair_K, SK, Nd|].
  rewrite E. assert (Kf : K (sv (sup first))) by (apply pair_K, SK, N). assert (B0 : 0 <= b) by (pose proof (Hb _ Kf); pose proof (norm_nonneg (sv (sup first))); lra). assert (P : 0 <= big) by (pose proof (HB _ Kf); pose proof (norm_nonneg (sv (sup first))); lra).
  assert (Cl : match dist_loop feps tri sup seg tol n big s with NoDist => INR (n - 1) * tol <= b | r => sound n big r end).
  { destruct n as [|n]; [cbn; lra|]. replace (S n - 1)%nat with n by lia. pose proof (dist_loop_sound (S n) big s L F P (fun _ => or_intror HB)) as S. revert S. cbn [dist_loop].
    destruct (nearest_ok tri TO seg SO big s L) as (d & w' & s1 & E' & L1 & I1 & W). rewrite E'. destruct w' as [p|].
    - destruct W as (O & Ed & _). assert (H1 : forall q, In q s1 -> from_sup q) by (intros q Hq; apply F, I1, Hq). assert (Kp : K p) by (eapply on_K; eauto).
      destruct (Rlt_dec (big - d) tol) as [T|T]; [cbn [answer]; destruct (extract feps s1 p) as [(p1 & p2)|]; auto|]. destruct (Req_EM_T (norm2 p) 0) as [Z|Z]; [auto|]. set (l := sup (normalized (vneg p))).
      destruct (Rlt_dec _ _) as [T2|T2]; [cbn [answer]; destruct (extract feps s1 p) as [(p1 & p2)|]; auto|]. unfold add. replace (length s1 <? 4)%nat with true by (symmetry; apply Nat.ltb_lt; lia). intros _.
      assert (Q : sound n d (dist_loop feps tri sup seg tol n d (s1 ++ [l]))).
      { apply dist_loop_sound.
        - rewrite app_length. cbn [length]. lia.
        - intros q Hq. apply in_app_or in Hq. destruct Hq as [Hq|[ <- |[]]]; [auto|]. exists (normalized (vneg p)). split; [apply dir_nonzero, Z|reflexivity].
        - rewrite Ed; apply norm_nonneg.
        - intros _. left. exists p. auto. }
      destruct (dist_loop feps tri sup seg tol n d (s1 ++ [l])); cbn [sound] in *; auto. apply Rle_trans with d; [exact Q|]. rewrite Ed. apply Hb, Kp.
    - destruct (Rlt_dec _ _); cbn [answer]; auto. }
  assert (Fin : w = Inside \/ w <> Inside) by (destruct w; auto; right; discriminate). destruct Fin as [ -> |NI]; [left; apply C; reflexivity|].
  replace (match w with Inside => NoDist | _ => dist_loop feps tri sup seg tol n big s end) with (dist_loop feps tri sup seg tol n big s) by (destruct w; [contradiction|reflexivity|reflexivity|reflexivity|reflexivity]).
  destruct (dist_loop feps tri sup seg tol n big s); cbn [sound] in Cl; auto.
Qed.
End Loop.
Print Assumptions dist_answer.

(** ** Stopping on a face *)
(** C78: if the support point found along the nearest point of the simplex is on the simplex again, the distance
    is exact. *)
Theorem copy_exact : forall sup (K : v3 -> Prop) s p, convex K -> on s p -> least s p -> p <> vzero ->
  (forall x, K x -> dot (normalized (vneg p)) x <= dot (normalized (vneg p)) (sv (sup (normalized (vneg p))))) -> on s (sv (sup (normalized (vneg p)))) ->
  forall x, K x -> norm p <= norm x.
Proof.
  intros sup K s p CK O L N X O2 x Kx. pose proof (nearest_plane (on s) p _ (on_convex s) O L O2) as P. specialize (X x Kx). set (l := sv (sup (normalized (vneg p)))) in *. clearbody l.
  pose proof (norm_pos p N) as NP. assert (Nz : 0 < norm2 (vneg p)) by (replace (norm2 (vneg p)) with (norm2 p) by coords; rewrite <- norm_sq; apply Rmult_lt_0_compat; auto).
  unfold normalized in X. destruct (Rlt_dec 0 (norm2 (vneg p))) as [_|]; [|contradiction]. rewrite norm_neg in X. assert (Ip : 0 < / norm p) by (apply Rinv_0_lt_compat; auto).
  assert (E : forall y, dot (vscale (/ norm p) (vneg p)) y = / norm p * - dot p y) by (intros; coords). rewrite !E in X. apply Rmult_le_reg_l in X; [|auto].
  pose proof (cauchy_schwarz p x) as CS. rewrite <- norm_sq in P. apply Rmult_le_reg_l with (norm p); lra.
Qed.
Print Assumptions copy_exact.
(** C78: if a point of the current triangle is found again, the search ends without having written the
    nearest point: the points on the two objects are undefined. *)
Theorem copy_unset : forall feps tri sup seg tol n last a b c, tri_ok tri -> 0 < tol ->
  (forall x, in_tri (sv a) (sv b) (sv c) x -> fst (tri vzero (sv a) (sv b) (sv c)) <= norm2 x) ->
  let d := sqrt (fst (tri vzero (sv a) (sv b) (sv c))) in let p := snd (tri vzero (sv a) (sv b) (sv c)) in let l := sup (normalized (vneg p)) in
  tol <= last - d -> p <> vzero -> tol <= Rabs (d - norm (sv l)) -> in_tri (sv a) (sv b) (sv c) (sv l) ->
  dist_loop feps tri sup seg tol (S (S n)) last [a; b; c] = DistUnset d.
Proof.
  intros feps tri sup seg tol n last a b c TO Ht B d p l T1 N T2 I. cbn [dist_loop nearest]. fold d p. destruct (Rlt_dec (last - d) tol) as [|_]; [lra|].
  destruct (Req_EM_T (norm2 p) 0) as [Z|_]; [apply norm2_zero in Z; contradiction|]. fold l. destruct (Rlt_dec _ _) as [|_]; [lra|]. cbn [add length Nat.ltb Nat.leb app].
  assert (Low : forall x y z, in_tri (sv a) (sv b) (sv c) x -> in_tri (sv a) (sv b) (sv c) y -> in_tri (sv a) (sv b) (sv c) z -> d <= sqrt (fst (tri vzero x y z))).
  { intros x y z X Y Z. destruct (tri_at tri TO x y z) as (W & ->). unfold norm, d. apply sqrt_le_1_alt, B. apply (tri_convex _ x y z); auto. apply in_tri_convex. }
  destruct (in_tri_vertex (sv a) (sv b) (sv c)) as (Ia & Ib & Ic). cbn [nearest]. unfold reduce, reduce_step. cbn [fst snd].
  destruct (Rlt_dec (sqrt (fst (tri vzero (sv l) (sv b) (sv c)))) _) as [L|_]; [exfalso; pose proof (Low _ _ _ I Ib Ic); lra|]. cbn [fst snd].
  destruct (Rlt_dec (sqrt (fst (tri vzero (sv a) (sv l) (sv c)))) _) as [L|_]; [exfalso; pose proof (Low _ _ _ Ia I Ic); lra|]. cbn [fst snd].
  destruct (Rlt_dec (sqrt (fst (tri vzero (sv a) (sv b) (sv l)))) _) as [L|_]; [exfalso; pose proof (Low _ _ _ Ia Ib I); lra|]. cbn [fst snd].
  destruct (Rlt_dec _ _); reflexivity.
Qed.
Print Assumptions copy_unset.

(** ** Wrong distances *)
Lemma best_scale : forall k d u v, 0 < k -> best (vscale k d) u v = best d u v.
Proof.
  intros k d u v Hk. unfold best. assert (E : forall x, dot (vscale k d) x = k * dot d x) by (intros; coords). rewrite !E. destruct (Rlt_dec (k * dot d u) (k * dot d v)) as [L|L], (Rlt_dec (dot d u) (dot d v)) as [M|M]; auto; exfalso.
  - apply M. apply Rmult_lt_reg_l with k; auto.
  - apply L. apply Rmult_lt_compat_l; auto.
Qed.
Lemma poly_scale : forall vs v k d, 0 < k -> poly_sup v vs (vscale k d) = poly_sup v vs d.
Proof.
  intros vs v k d Hk. unfold poly_sup. replace (fold_left (best (vscale k d)) vs v) with (fold_left (best d) vs v); [reflexivity|]. revert v. induction vs as [|w vs IH]; intros v; cbn [fold_left]; [reflexivity|]. rewrite best_scale by auto. apply IH.
Qed.
Lemma poly_normal : forall vs v d, d <> vzero -> poly_sup v vs (normalized d) = poly_sup v vs d.
Proof.
  intros vs v d N. unfold normalized. pose proof (norm_pos d N) as P. destruct (Rlt_dec _ _); [|reflexivity]. apply poly_scale. apply Rinv_0_lt_compat; auto.
Qed.

(** C78: the search ends as soon as the new support point is as far away as the nearest point, even if it is
    another point.  So for every q > 0 there is a triangle with a point nearer than q times the distance that
    is reported. *)
Theorem early_stop_refuted : forall ceps meps feps tri veq seg tol big n q t, 0 < tol -> 2 + tol <= big -> (1 <= n)%nat -> 0 < t < 1 -> 0 < q < 1 -> 1 - t * t < q * (1 + t * t) ->
  let a := mk3 1 (- t) 0 in let b := mk3 1 t 0 in let c := vscale q a in
  ccd_dist2 ceps meps feps tri veq (poly_sup a [b; c]) seg tol big n (mk3 1 0 0) = Dist (norm a) a vzero /\ norm c = q * norm a.
Proof.
  intros ceps meps feps tri veq seg tol big n q t Ht Hb Hn Hq Htt Hqt a b c. assert (TT : 0 < t * t) by (apply Rmult_lt_0_compat; lra). assert (T1 : t * t < 1) by (apply Rlt_le_trans with (1 * 1); [apply Rmult_gt_0_lt_compat; lra|lra]). split; [|unfold c; rewrite norm_scale, Rabs_right; [reflexivity|lra]].
  assert (QT : q * (t * t) < t * t) by (rewrite <- (Rmult_1_l (t * t)) at 2; apply Rmult_lt_compat_r; lra).
  assert (E0 : poly_sup a [b; c] (mk3 1 0 0) = Sp a a vzero). { unfold poly_sup, best. cbn [fold_left]. repeat match goal with |- context [Rlt_dec ?u ?v] => destruct (Rlt_dec u v) as [L|_]; [exfalso; revert L; unfold c, a, b; coords; lra|] end. reflexivity. }
  assert (E1 : poly_sup a [b; c] (vneg a) = Sp b b vzero).
  { unfold poly_sup, best. cbn [fold_left]. destruct (Rlt_dec (dot (vneg a) a) (dot (vneg a) b)) as [_|N]; [|exfalso; apply N; unfold a, b; coords; lra]. destruct (Rlt_dec _ _) as [L|_]; [exfalso; revert L; unfold c, a, b; coords; lra|reflexivity]. }
  assert (Na : norm2 a = 1 + t * t) by (unfold a; coords). assert (Nb : norm2 b = 1 + t * t) by (unfold b; coords). assert (NZ : vneg a <> vzero) by (intros Z; apply (f_equal c0) in Z; revert Z; unfold a, vneg, vzero; cbn [c0]; lra).
  pose proof (poly_normal [b; c] a (vneg a) NZ) as E2. rewrite E1 in E2. destruct n as [|n]; [lia|]. unfold ccd_dist2, ccd_gjk. set (sup := poly_sup a [b; c]) in *. clearbody sup. rewrite E0. cbn [sv gjk_loop]. rewrite E1. cbn [sv].
  destruct (Rlt_dec (dot b (vneg a)) 0) as [_|N]; [|exfalso; apply N; unfold a, b; coords; lra]. cbn [dist_loop nearest sv]. change (sqrt (norm2 a)) with (norm a).
  assert (N2 : norm a < 2) by (unfold norm; rewrite <- (sqrt_square 2) by lra; apply sqrt_lt_1_alt; rewrite Na; lra). destruct (Rlt_dec (big - norm a) tol) as [|_]; [lra|]. destruct (Req_EM_T (norm2 a) 0) as [|_]; [lra|]. rewrite E2. cbn [sv].
  replace (norm a - norm b) with 0 by (unfold norm; rewrite Na, Nb; ring). rewrite Rabs_R0. destruct (Rlt_dec 0 tol) as [_|]; [|lra]. reflexivity.
Qed.
Print Assumptions early_stop_refuted.

Ltac pick := unfold poly_sup, best; cbn [fold_left]; repeat match goal with |- context [Rlt_dec ?u ?v] => lazymatch constr:((u, v)) with context [Rlt_dec _ _] => fail | _ => idtac end; let H := fresh in destruct (Rlt_dec u v) as [H|H];
  [try (exfalso; revert H; coords; lra)|try (exfalso; apply H; coords; lra)] end; try reflexivity.
(** C78: a full run of the query on a triangle with the nearest point in its interior: the distance is right, the
    points on the objects are undefined. *)
Theorem face_unset_refuted : forall ceps meps feps tri veq seg tol big n, tri_ok tri -> seg_ok seg -> 0 < tol <= 1 / 10 -> 4 <= big -> (4 <= n)%nat ->
  let a := mk3 3 (-2) (-1) in let b := mk3 3 4 (-1) in let c := mk3 3 0 3 in
  (forall x, segset a b x -> fst (seg vzero a b) <= norm2 x) -> (forall x, in_tri a b c x -> fst (tri vzero a b c) <= norm2 x) ->
  ccd_dist2 ceps meps feps tri veq (poly_sup a [b; c]) seg tol big n (mk3 1 0 0) = DistUnset 3.
Proof.
  intros ceps meps feps tri veq seg tol big n TO SO Ht Hb Hn a b c SB TB.
  destruct (seg_at seg SO a b) as (SI & SE). destruct (tri_at tri TO a b c) as (TI & TE). set (p2 := snd (seg vzero a b)) in *. set (p3 := snd (tri vzero a b c)) in *.
  assert (P2 : p2 = mk3 3 0 (-1)).
  { destruct SI as (s & Hs & Es). assert (Y : p2 = mk3 3 (-2 + 6 * s) (-1)) by (rewrite Es; unfold a, b; vcoords). destruct (SO vzero a b) as (_ & F). fold p2 in F. rewrite sub_zero in F. pose proof (SB (mk3 3 0 (-1))) as Q. rewrite F in Q. rewrite Y in Q |- *.
    assert (Q' : norm2 (mk3 3 (-2 + 6 * s) (-1)) <= norm2 (mk3 3 0 (-1))) by (apply Q; exists (1 / 3); split; [lra|unfold a, b; apply v3_ext; unfold vadd, vscale, vsub; cbn [c0 c1 c2]; lra]).
    assert (Z : -2 + 6 * s = 0). { apply Rsqr_0_uniq. unfold Rsqr. pose proof (Rle_0_sqr (-2 + 6 * s)) as S0. unfold Rsqr in S0. revert Q'. unfold norm2, dot. cbn [c0 c1 c2]. intros. lra. } rewrite Z. reflexivity. }
  assert (P3 : p3 = mk3 3 0 0).
  { destruct (TO vzero a b c) as (_ & F). fold p3 in F. rewrite sub_zero in F. assert (X : c0 p3 = 3). { destruct TI as (u & v & w & _ & _ & _ & S & ->). unfold a, b, c, vadd, vscale. cbn [c0 c1 c2]. lra. }
    pose proof (TB (mk3 3 0 0)) as Q. rewrite F in Q. assert (Q' : norm2 p3 <= norm2 (mk3 3 0 0)) by (apply Q; exists (1 / 2), (1 / 4), (1 / 4); do 4 (split; [lra|]); unfold a, b, c; apply v3_ext; unfold vadd, vscale; cbn [c0 c1 c2]; lra).
    revert Q'. replace (norm2 p3) with (c0 p3 * c0 p3 + c1 p3 * c1 p3 + c2 p3 * c2 p3) by coords. rewrite X. unfold norm2, dot. cbn [c0 c1 c2]. intros Q'. pose proof (Rle_0_sqr (c1 p3)) as S1. pose proof (Rle_0_sqr (c2 p3)) as S2. unfold Rsqr in *.
    apply v3_ext; cbn [c0 c1 c2]; auto; apply Rsqr_0_uniq; unfold Rsqr; lra. }
  assert (sa : 3.7 <= sqrt 14 <= 3.75). { split; [rewrite <- (sqrt_square 3.7) by lra|rewrite <- (sqrt_square 3.75) by lra]; apply sqrt_le_1_alt; lra. }
  assert (sb : 5 <= sqrt 26) by (rewrite <- (sqrt_square 5) by lra; apply sqrt_le_1_alt; lra). assert (sc : 4 <= sqrt 18) by (rewrite <- (sqrt_square 4) by lra; apply sqrt_le_1_alt; lra).
  assert (sd : 3.1 <= sqrt 10 <= 3.2). { split; [rewrite <- (sqrt_square 3.1) by lra|rewrite <- (sqrt_square 3.2) by lra]; apply sqrt_le_1_alt; lra. }
  assert (Na : norm a = sqrt 14) by (unfold norm; f_equal; unfold a; coords; lra). assert (Nb : norm b = sqrt 26) by (unfold norm; f_equal; unfold b; coords; lra). assert (Nc : norm c = sqrt 18) by (unfold norm; f_equal; unfold c; coords; lra).
  assert (N2 : norm p2 = sqrt 10) by (rewrite P2; unfold norm; f_equal; coords; lra). assert (N3 : norm p3 = 3) by (rewrite P3; unfold norm; replace (norm2 (mk3 3 0 0)) with (3 * 3) by coords; apply sqrt_square; lra).
  assert (E0 : poly_sup a [b; c] (mk3 1 0 0) = Sp a a vzero) by (unfold a, b, c; pick). assert (E1 : poly_sup a [b; c] (vneg a) = Sp b b vzero) by (unfold a, b, c; pick).
  assert (NZ : forall x, c0 x = 3 -> vneg x <> vzero) by (intros x X Z; apply (f_equal c0) in Z; revert Z; unfold vneg, vzero; cbn [c0]; lra).
  assert (E2 : poly_sup a [b; c] (normalized (vneg a)) = Sp b b vzero) by (rewrite poly_normal; [exact E1|apply NZ; reflexivity]).
  assert (E3 : poly_sup a [b; c] (normalized (vneg p2)) = Sp c c vzero) by (rewrite poly_normal; [rewrite P2; unfold a, b, c; pick|apply NZ; rewrite P2; reflexivity]).
  assert (E4 : poly_sup a [b; c] (normalized (vneg p3)) = Sp a a vzero) by (rewrite poly_normal; [rewrite P3; unfold a, b, c; pick|apply NZ; rewrite P3; reflexivity]).
  assert (Zn : forall x, c0 x = 3 -> norm2 x <> 0) by (intros x X Z; apply norm2_zero in Z; rewrite Z in X; unfold vzero in X; cbn [c0] in X; lra).
  do 4 (destruct n as [|n]; [lia|]). unfold ccd_dist2, ccd_gjk. set (sup := poly_sup a [b; c]) in *. clearbody sup. rewrite E0. cbn [sv gjk_loop]. rewrite E1. cbn [sv].
  destruct (Rlt_dec (dot b (vneg a)) 0) as [_|N]; [|exfalso; apply N; unfold a, b; coords; lra]. remember (S (S n)) as m eqn:Em. cbn [dist_loop nearest sv]. change (sqrt (norm2 a)) with (norm a). rewrite Na.
  destruct (Rlt_dec (big - sqrt 14) tol) as [|_]; [lra|]. destruct (Req_EM_T (norm2 a) 0) as [Z|_]; [exfalso; revert Z; apply Zn; reflexivity|]. rewrite E2. cbn [sv]. rewrite Nb. destruct (Rlt_dec _ _) as [L|_]; [exfalso; revert L; rewrite Rabs_left by lra; lra|].
  cbn [add length Nat.ltb Nat.leb app nearest sv]. fold p2. rewrite SE, N2. destruct (Rlt_dec _ _) as [|_]; [lra|]. destruct (Req_EM_T (norm2 p2) 0) as [Z|_]; [exfalso; revert Z; apply Zn; rewrite P2; reflexivity|]. rewrite E3. cbn [sv]. rewrite Nc. destruct (Rlt_dec _ _) as [L|_]; [exfalso; revert L; rewrite Rabs_left by lra; lra|].
  cbn [add length Nat.ltb Nat.leb app]. subst m. rewrite copy_unset; cbn [sv]; fold p3; auto; try lra.
  - rewrite TE, N3. reflexivity.
  - intros Z. rewrite Z in P3. apply (f_equal c0) in P3. unfold vzero in P3. cbn [c0] in P3. lra.
  - rewrite E4. cbn [sv]. rewrite TE, N3, Na, Rabs_left by lra. lra.
  - rewrite E4. cbn [sv]. apply in_tri_vertex.
Qed.
Print Assumptions face_unset_refuted.

(** ** The shapes *)
Definition always (big : R) (find : list v3 -> v3 -> v3) (s : shape) : Prop := sized s /\ forall d, finds find s d /\ tri_in_range big s d.
Lemma callback_in : forall big eps find s X d, 0 < eps -> always big find s -> ortho (tf_rot X) -> d <> vzero -> placed X (points s) (ccd_support big eps find s X d).
Proof.
  intros big eps find s X d He (Z & F) O N. destruct (F (mtapply (tf_rot X) d)) as (F1 & F2). destruct s; try (apply ccd_support_extreme; auto; fail).
  destruct Z as (Z1 & Z2). apply (ccd_support_cylinder big eps find r lz X d Z1 Z2 O He).
Qed.
(** C78: for any two shapes, the points that come with a distance are points of the two shapes and the
    distance between them is the reported one up to 2 eps, unless the last simplex was a triangle of zero
    area; the reported distance is never below the true one. *)
Theorem shapes_dist : forall ceps meps feps tol big rmax tri seg veq find s0 s1 X0 X1 n first d p1 p2,
  0 < ceps -> 0 < meps -> 0 < feps -> 0 < tol -> tri_ok tri -> seg_ok seg -> always big find s0 -> always big find s1 -> ortho (tf_rot X0) -> ortho (tf_rot X1) ->
  let sup := shapes_sup big ceps find s0 s1 X0 X1 in first <> vzero -> sv (sup first) <> vzero ->
  (forall p q, placed X0 (points s0) p -> placed X1 (points s1) q -> dist p q < rmax) ->
  ccd_dist2 ceps meps feps tri veq sup seg tol rmax n first = Dist d p1 p2 ->
  exists p q, placed X0 (points s0) p /\ placed X1 (points s1) q /\ dist p q = d /\
    (flat feps sup (vsub p q) \/ placed X0 (points s0) p1 /\ placed X1 (points s1) p2 /\ Rabs (dist p1 p2 - d) <= 2 * feps).
Proof.
  intros ceps meps feps tol big rmax tri seg veq find s0 s1 X0 X1 n first d p1 p2 Hc Hm Hf Ht TO SO A0 A1 O0 O1 sup N N1 B E.
  set (K0 := placed X0 (points s0)) in *. set (K1 := placed X1 (points s1)) in *. assert (C0 : convex K0) by (apply placed_convex, points_convex, A0). assert (C1 : convex K1) by (apply placed_convex, points_convex, A1).
  assert (SK : forall e, e <> vzero -> pair_of K0 K1 (sup e)) by (intros e He; split; [apply callback_in; auto|split; [apply callback_in; auto using neg_zero|reflexivity]]).
  pose proof (dist_answer ceps meps feps tol rmax Hc Hm Hf tri TO seg SO veq sup K0 K1 C0 C1 SK n first rmax N N1) as Q. rewrite E in Q. destruct Q as (x & (p & q & Kp & Kq & Ex) & Nx & P).
  - intros x (p & q & Kp & Kq & ->). apply B; auto.
  - intros x (p & q & Kp & Kq & ->). apply Rlt_le, B; auto.
  - exists p, q. split; [auto|]. split; [auto|]. split; [unfold dist; rewrite <- Nx, Ex; reflexivity|]. rewrite <- Ex. destruct P as [P|(Q1 & Q2 & Q3)]; [left; exact P|right]. split; [auto|]. split; [auto|]. unfold dist. rewrite <- Nx. destruct Q3 as [ -> |(_ & Q3)].
    + replace (norm x - norm x) with 0 by ring. rewrite Rabs_R0. lra.
    + apply Rle_trans with (norm (vsub (vsub p1 p2) x)); [|exact Q3]. set (y := vsub p1 p2) in *. pose proof (norm_triangle x (vsub y x)) as T1. replace (vadd x (vsub y x)) with y in T1 by vcoords. pose proof (norm_triangle y (vneg (vsub y x))) as T2. replace (vadd y (vneg (vsub y x))) with x in T2 by vcoords. rewrite norm_neg in T2. unfold Rabs. destruct (Rcase_abs _); lra.
Qed.
Print Assumptions shapes_dist.

(** Two points: the distance between them. *)
Example dist_point : forall ceps meps feps tri veq seg tol big n p, 0 < tol -> norm p + tol <= big -> p <> vzero ->
  ccd_dist2 ceps meps feps tri veq (poly_sup p []) seg tol big (S n) (mk3 1 0 0) = Dist (norm p) p vzero.
Proof.
  intros ceps meps feps tri veq seg tol big n p Ht Hb N. unfold ccd_dist2, ccd_gjk, poly_sup. cbn [fold_left sv gjk_loop]. pose proof (norm_pos p N) as P. assert (P2 : 0 < norm2 p) by (rewrite <- norm_sq; apply Rmult_lt_0_compat; auto).
  destruct (Rlt_dec _ _) as [_|M]; [|exfalso; apply M; replace (dot p (vneg p)) with (- norm2 p) by coords; lra]. cbn [dist_loop nearest sv]. change (sqrt (norm2 p)) with (norm p). destruct (Rlt_dec _ _) as [|_]; [lra|]. destruct (Req_EM_T _ _) as [|_]; [lra|].
  replace (norm p - norm p) with 0 by ring. rewrite Rabs_R0. destruct (Rlt_dec 0 tol); [reflexivity|contradiction].
Qed.
Example seg_ok_some : seg_ok (fun P a b => (norm2 (vsub a P), a)).
Proof. intros P a b. cbn [fst snd]. split; [exists 0; split; [lra|vcoords]|reflexivity]. Qed.
