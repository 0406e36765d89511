(** C94: distance of two rectangles, and of two RSS. *)
From Coq Require Import Reals Lra Psatz List Bool.
From Verif Require Import VecR Obb Motion RectSeg.
Import ListNotations.
Open Scope R_scope.

(** The point at t of the first side (it starts at the origin) and at u of the second one, which starts at T *)
Definition side_gap (A B T : v3) (t u : R) : R := dist (vscale t A) (vadd T (vscale u B)).
Definition nearest_pair (a b : R) (A B T : v3) (t u : R) : Prop :=
  0 <= t <= a /\ 0 <= u <= b /\ forall t' u', 0 <= t' <= a -> 0 <= u' <= b -> side_gap A B T t u <= side_gap A B T t' u'.

Lemma clip_in : forall x a, 0 <= a -> 0 <= clip_to_range x 0 a <= a /\ forall y, 0 <= y <= a -> 0 <= (clip_to_range x 0 a - x) * (y - clip_to_range x 0 a).
Proof. intros x a H. unfold clip_to_range. destruct (Rlt_dec x 0); [|destruct (Rlt_dec a x)]; (split; [lra|intros y Hy; nra]). Qed.

(** The square of the gap without the constant part *)
Definition qf (c p q t u : R) : R := t * t + u * u - 2 * c * t * u - 2 * t * p + 2 * u * q.
Lemma gap_qf : forall A B T t u, dot A A = 1 -> dot B B = 1 -> side_gap A B T t u = sqrt (norm2 T + qf (dot A B) (dot A T) (dot B T) t u).
Proof.
  intros A B T t u UA UB. unfold side_gap, dist, norm. f_equal. unfold qf.
  replace (norm2 (vsub (vscale t A) (vadd T (vscale u B)))) with (norm2 T + (t * t * dot A A + u * u * dot B B - 2 * dot A B * t * u - 2 * t * dot A T + 2 * u * dot B T)) by vring. rewrite UA, UB. ring.
Qed.
Lemma qf_lower : forall c p q t u t1 u1, c * c <= 1 -> qf c p q t1 u1 + 2 * (t1 - (u1 * c + p)) * (t - t1) + 2 * (u1 - (t1 * c - q)) * (u - u1) <= qf c p q t u.
Proof.
  intros c p q t u t1 u1 H. unfold qf. enough (G : 0 <= (t - t1) * (t - t1) + (u - u1) * (u - u1) - 2 * c * (t - t1) * (u - u1)) by (ring_simplify in G; ring_simplify; lra).
  set (x := t - t1). set (y := u - u1). replace (x * x + y * y - 2 * c * x * y) with ((x - c * y) * (x - c * y) + (1 - c * c) * (y * y)) by ring. pose proof (Rle_0_sqr (x - c * y)) as S1. pose proof (Rle_0_sqr y) as S2. unfold Rsqr in S1, S2. assert (0 <= (1 - c * c) * (y * y)) by (apply Rmult_le_pos; lra). lra.
Qed.
Lemma qf_convex : forall c p q t u t1 u1 s, c * c <= 1 -> 0 <= s <= 1 -> qf c p q (t1 + s * (t - t1)) (u1 + s * (u - u1)) <= (1 - s) * qf c p q t1 u1 + s * qf c p q t u.
Proof.
  intros c p q t u t1 u1 s H Hs. unfold qf. set (x := t - t1). set (y := u - u1). replace t with (t1 + x) by (unfold x; ring). replace u with (u1 + y) by (unfold y; ring). clearbody x y.
  assert (G : 0 <= x * x + y * y - 2 * c * x * y). { replace (x * x + y * y - 2 * c * x * y) with ((x - c * y) * (x - c * y) + (1 - c * c) * (y * y)) by ring. pose proof (Rle_0_sqr (x - c * y)) as S1. pose proof (Rle_0_sqr y) as S2. unfold Rsqr in S1, S2. assert (0 <= (1 - c * c) * (y * y)) by (apply Rmult_le_pos; lra). lra. }
  assert (Z : 0 <= s * (1 - s)) by (apply Rmult_le_pos; lra). pose proof (Rmult_le_pos _ _ Z G) as K.
  match goal with |- ?l <= ?r => replace r with (l + s * (1 - s) * (x * x + y * y - 2 * c * x * y)) by ring end. lra.
Qed.

Lemma unit_facts : forall A B T, dot A A = 1 -> dot B B = 1 -> dot A B * dot A B <= 1 /\ (1 - dot A B * dot A B = 0 -> dot A T - dot B T * dot A B = 0).
Proof.
  intros A B T UA UB. set (c := dot A B). assert (N : norm2 (vsub B (vscale c A)) = 1 - c * c).
  { replace (norm2 (vsub B (vscale c A))) with (dot B B - 2 * c * dot A B + c * c * dot A A) by vring. rewrite UA, UB. fold c. ring. }
  pose proof (norm2_nonneg (vsub B (vscale c A))) as P. split; [lra|]. intros Z. rewrite Z in N. destruct (Req_dec (norm2 (vsub B (vscale c A))) 0) as [_|X]; [|contradiction].
  assert (E : vsub B (vscale c A) = vzero). { destruct (vsub B (vscale c A)) as [x y z]. unfold norm2, dot in N. cbn in N. unfold vzero. f_equal; nra. }
  assert (EB : dot B T = c * dot A T). { replace (dot B T) with (dot (vsub B (vscale c A)) T + c * dot A T) by vring. rewrite E. unfold vzero, dot. cbn. ring. }
  rewrite EB. replace (dot A T - c * dot A T * c) with ((1 - c * c) * dot A T) by ring. rewrite Z. ring.
Qed.

(** If the best u for the best t is beyond an end of the second side, the best pair is at that end *)
Lemma end_best : forall c p q a t1 u1 e t' u', c * c <= 1 -> 0 <= a -> 0 <= t1 <= a -> 0 <= t' <= a -> (forall t u, 0 <= t <= a -> qf c p q t1 u1 <= qf c p q t u) ->
  (u1 < e <= u' \/ u' <= e < u1) -> qf c p q (clip_to_range (e * c + p) 0 a) e <= qf c p q t' u'.
Proof.
  intros c p q a t1 u1 e t' u' H Ha H1 H' M S. set (s := (e - u1) / (u' - u1)). assert (Sd : u' - u1 <> 0) by lra.
  assert (Sx : s * (u' - u1) = e - u1) by (unfold s; field; exact Sd). assert (S01 : 0 <= s <= 1) by (destruct S; split; nra).
  pose proof (qf_convex c p q t' u' t1 u1 s H S01) as C. rewrite Sx in C. replace (u1 + (e - u1)) with e in C by ring. pose proof (M t' u' H') as M'.
  set (tt := t1 + s * (t' - t1)) in *. assert (T : 0 <= tt <= a) by (unfold tt; split; nra).
  destruct (clip_in (e * c + p) a Ha) as (R1 & R2). pose proof (qf_lower c p q tt e (clip_to_range (e * c + p) 0 a) e H) as L. specialize (R2 tt T). nra.
Qed.

(** The pair returned is a nearest one *)
Theorem seg_coords_nearest : forall a b A B T, 0 <= a -> 0 <= b -> dot A A = 1 -> dot B B = 1 ->
  nearest_pair a b A B T (fst (seg_coords a b (dot A B) (dot A T) (dot B T))) (snd (seg_coords a b (dot A B) (dot A T) (dot B T))).
Proof.
  intros a b A B T Ha Hb UA UB. destruct (unit_facts A B T UA UB) as (Hc & Hd). unfold nearest_pair.
  enough (G : let r := seg_coords a b (dot A B) (dot A T) (dot B T) in 0 <= fst r <= a /\ 0 <= snd r <= b /\ forall t' u', 0 <= t' <= a -> 0 <= u' <= b -> qf (dot A B) (dot A T) (dot B T) (fst r) (snd r) <= qf (dot A B) (dot A T) (dot B T) t' u').
  { cbv zeta in G. destruct G as (G1 & G2 & G3). split; [exact G1|]. split; [exact G2|]. intros t' u' Ht Hu. rewrite !gap_qf by assumption. apply sqrt_le_1_alt. specialize (G3 t' u' Ht Hu). lra. }
  set (c := dot A B) in *. set (p := dot A T) in *. set (q := dot B T) in *. unfold seg_coords. cbv zeta.
  set (t1 := if Req_EM_T (1 - c * c) 0 then 0 else clip_to_range ((p - q * c) / (1 - c * c)) 0 a).
  assert (T1 : 0 <= t1 <= a) by (unfold t1; destruct (Req_EM_T (1 - c * c) 0); [lra|apply clip_in, Ha]).
  assert (M : forall t u, 0 <= t <= a -> qf c p q t1 (t1 * c - q) <= qf c p q t u).
  { intros t u Ht. pose proof (qf_lower c p q t u t1 (t1 * c - q) Hc) as L. replace (t1 * c - q - (t1 * c - q)) with 0 in L by ring.
    enough (0 <= (t1 - ((t1 * c - q) * c + p)) * (t - t1)) by lra. replace (t1 - ((t1 * c - q) * c + p)) with (t1 * (1 - c * c) - (p - q * c)) by ring. unfold t1 in *. destruct (Req_EM_T (1 - c * c) 0) as [Z|Z].
    - rewrite (Hd Z). lra.
    - set (x := (p - q * c) / (1 - c * c)) in *. assert (X : p - q * c = x * (1 - c * c)) by (unfold x; field; exact Z). rewrite X. destruct (clip_in x a Ha) as (_ & K). specialize (K t Ht). set (y := clip_to_range x 0 a) in *.
      replace ((y * (1 - c * c) - x * (1 - c * c)) * (t - y)) with ((1 - c * c) * ((y - x) * (t - y))) by ring. apply Rmult_le_pos; lra. }
  clearbody t1. destruct (Rlt_dec (t1 * c - q) 0) as [L|L]; [|destruct (Rlt_dec b (t1 * c - q)) as [L2|L2]]; cbn [fst snd].
  - split; [apply clip_in, Ha|]. split; [lra|]. intros t' u' Ht Hu. pose proof (end_best c p q a t1 (t1 * c - q) 0 t' u' Hc Ha T1 Ht M ltac:(left; lra)) as E. replace (0 * c + p) with p in E by ring. exact E.
  - split; [apply clip_in, Ha|]. split; [lra|]. intros t' u' Ht Hu. apply (end_best c p q a t1 (t1 * c - q) b t' u' Hc Ha T1 Ht M). right. lra.
  - split; [exact T1|]. split; [lra|]. intros t' u' Ht Hu. apply M, Ht.
Qed.
Print Assumptions seg_coords_nearest.

(** The slope of the gap where the second side crosses the plane through the first side with normal N *)
Lemma cross_slope : forall a c p q u1 t u, 0 <= a -> c * c <= 1 -> 0 <= t <= a -> let t1 := clip_to_range (u1 * c + p) 0 a in
  0 <= t1 <= a /\ qf c p q t1 u1 + 2 * (u1 - (t1 * c - q)) * (u - u1) <= qf c p q t u.
Proof.
  intros a c p q u1 t u Ha Hc Ht t1. destruct (clip_in (u1 * c + p) a Ha) as (K1 & K2). split; [exact K1|]. pose proof (qf_lower c p q t u t1 u1 Hc) as L. specialize (K2 t Ht). fold t1 in K2. lra.
Qed.
Lemma gap_lt : forall A B T t u t' u', dot A A = 1 -> dot B B = 1 -> side_gap A B T t u <= side_gap A B T t' u' -> qf (dot A B) (dot A T) (dot B T) t u <= qf (dot A B) (dot A T) (dot B T) t' u'.
Proof.
  intros A B T t u t' u' UA UB H. rewrite !gap_qf in H by assumption.
  assert (P : forall x y, 0 <= norm2 T + qf (dot A B) (dot A T) (dot B T) x y). { intros x y. unfold qf. replace (norm2 T + _) with (norm2 (vsub (vscale x A) (vadd T (vscale y B)))); [apply norm2_nonneg|].
    replace (norm2 (vsub (vscale x A) (vadd T (vscale y B)))) with (norm2 T + (x * x * dot A A + y * y * dot B B - 2 * dot A B * x * y - 2 * x * dot A T + 2 * y * dot B T)) by vring. rewrite UA, UB. ring. }
  apply sqrt_le_0 in H; [|apply P|apply P]. lra.
Qed.

(** If inVoronoi is true and the second side has an end outside of (or on) the plane through the first side with the outer normal N, then in each nearest pair
    the point of the second side is outside of (or on) the plane *)
Theorem in_voronoi_outside : forall a b A B T N t u, 0 <= a -> 0 <= b -> dot A A = 1 -> dot B B = 1 ->
  in_voronoi a b (dot N B) (dot N T) (dot A B) (dot A T) (dot B T) = true -> 0 <= dot N T \/ 0 <= dot N (vadd T (vscale b B)) ->
  nearest_pair a b A B T t u -> 0 <= dot N (vadd T (vscale u B)).
Proof.
  intros a b A B T N t u Ha Hb UA UB E Hx (Ht & Hu & Hm). destruct (unit_facts A B T UA UB) as (Hc & _).
  assert (DN : forall x, dot N (vadd T (vscale x B)) = dot N T + x * dot N B) by (intros x; vring). rewrite DN in *. unfold in_voronoi in E. destruct (Rlt_dec (Rabs (dot N B)) tiny) as [|NB]; [discriminate E|]. cbv zeta in E.
  assert (Ty : 0 < tiny) by (unfold tiny; lra). set (n := dot N B) in *. set (m := dot N T) in *. assert (Nz : n <> 0) by (intros Z; rewrite Z, Rabs_R0 in NB; lra).
  set (x := - m / n) in *. assert (X : m = - (x * n)) by (unfold x; field; exact Nz). set (u1 := clip_to_range x 0 b) in *. assert (U1 : 0 <= u1 <= b) by (apply clip_in, Hb).
  destruct (cross_slope a (dot A B) (dot A T) (dot B T) u1 t u Ha Hc Ht) as (K1 & K2). cbv zeta in K1, K2. set (t1 := clip_to_range (u1 * dot A B + dot A T) 0 a) in *.
  pose proof (gap_lt A B T t u t1 u1 UA UB (Hm t1 u1 K1 U1)) as K3. destruct (Rlt_dec 0 n) as [Pn|Pn].
  - destruct (Rlt_dec (u1 + tiny) (t1 * dot A B - dot B T)) as [V|]; [|discriminate E]. assert (Le : u1 <= u) by nra.
    assert (Xb : x <= b) by (destruct Hx; nra). assert (x <= u1) by (unfold u1, clip_to_range; destruct (Rlt_dec x 0); [lra|destruct (Rlt_dec b x); lra]). nra.
  - destruct (Rlt_dec (t1 * dot A B - dot B T) (u1 - tiny)) as [V|]; [|discriminate E]. assert (Le : u <= u1) by nra.
    assert (X0 : 0 <= x) by (destruct Hx; nra). assert (u1 <= x) by (unfold u1, clip_to_range; destruct (Rlt_dec x 0); [lra|destruct (Rlt_dec b x); lra]). nra.
Qed.
Print Assumptions in_voronoi_outside.

(** If inVoronoi is false, the second side is not nearly parallel to the plane and has an end inside, then some pair with the second point not outside is as near as any pair with the second
    point outside, up to the tolerance *)
Theorem in_voronoi_inside : forall a b A B T N t u, 0 <= a -> 0 <= b -> dot A A = 1 -> dot B B = 1 -> / 10000000 <= Rabs (dot N B) ->
  in_voronoi a b (dot N B) (dot N T) (dot A B) (dot A T) (dot B T) = false -> dot N T <= 0 \/ dot N (vadd T (vscale b B)) <= 0 ->
  0 <= t <= a -> 0 <= u <= b -> 0 <= dot N (vadd T (vscale u B)) ->
  exists t1 u1, 0 <= t1 <= a /\ 0 <= u1 <= b /\ dot N (vadd T (vscale u1 B)) <= 0 /\
    side_gap A B T t1 u1 * side_gap A B T t1 u1 <= side_gap A B T t u * side_gap A B T t u + 2 * / 10000000 * b.
Proof.
  intros a b A B T N t u Ha Hb UA UB NB E Hx Ht Hu Hp. destruct (unit_facts A B T UA UB) as (Hc & _).
  assert (DN : forall x, dot N (vadd T (vscale x B)) = dot N T + x * dot N B) by (intros x; vring). rewrite DN in Hx, Hp. unfold in_voronoi in E. assert (TE : tiny = / 10000000) by (unfold tiny; lra). rewrite <- TE in *. assert (Ty : 0 < tiny) by (unfold tiny; lra). clear TE. destruct (Rlt_dec (Rabs (dot N B)) tiny) as [|_]; [lra|]. cbv zeta in E.
  set (n := dot N B) in *. set (m := dot N T) in *. assert (Nz : n <> 0) by (intros Z; rewrite Z, Rabs_R0 in NB; lra).
  set (x := - m / n) in *. assert (X : m = - (x * n)) by (unfold x; field; exact Nz). set (u1 := clip_to_range x 0 b) in *. assert (U1 : 0 <= u1 <= b) by (apply clip_in, Hb).
  destruct (cross_slope a (dot A B) (dot A T) (dot B T) u1 t u Ha Hc Ht) as (K1 & K2). cbv zeta in K1, K2. set (t1 := clip_to_range (u1 * dot A B + dot A T) 0 a) in *.
  exists t1, u1. split; [exact K1|]. split; [exact U1|]. rewrite DN. fold n m.
  assert (SQ : forall y z, side_gap A B T y z * side_gap A B T y z = norm2 T + qf (dot A B) (dot A T) (dot B T) y z).
  { intros y z. unfold side_gap, dist. rewrite norm_sq. unfold qf. replace (norm2 (vsub (vscale y A) (vadd T (vscale z B)))) with (norm2 T + (y * y * dot A A + z * z * dot B B - 2 * dot A B * y * z - 2 * y * dot A T + 2 * z * dot B T)) by vring. rewrite UA, UB. ring. }
  rewrite !SQ. destruct (Rlt_dec 0 n) as [Pn|Pn].
  - destruct (Rlt_dec (u1 + tiny) (t1 * dot A B - dot B T)) as [|V]; [discriminate E|]. assert (X0 : 0 <= x) by (destruct Hx; nra). assert (Xu : x <= u) by nra. assert (Q : u1 = x) by (unfold u1, clip_to_range; destruct (Rlt_dec x 0); [lra|destruct (Rlt_dec b x); lra]). split; [rewrite Q; nra|]. nra.
  - destruct (Rlt_dec (t1 * dot A B - dot B T) (u1 - tiny)) as [|V]; [discriminate E|]. assert (Xb : x <= b) by (destruct Hx; nra). assert (Xu : u <= x) by nra. assert (Q : u1 = x) by (unfold u1, clip_to_range; destruct (Rlt_dec x 0); [lra|destruct (Rlt_dec b x); lra]). split; [rewrite Q; nra|]. nra.
Qed.
Print Assumptions in_voronoi_inside.

(** ** The rectangles *)
Definition in_rect_a (a0 a1 : R) (p : v3) : Prop := exists x y, 0 <= x <= a0 /\ 0 <= y <= a1 /\ p = mk3 x y 0.
Definition in_rect_b (Rab : mat3) (Tab : v3) (b0 b1 : R) (q : v3) : Prop :=
  exists x y, 0 <= x <= b0 /\ 0 <= y <= b1 /\ q = vadd Tab (vadd (vscale x (m0 Rab)) (vscale y (m1 Rab))).

Lemma slope_sign : forall k m, 0 <= m -> (forall s, 0 <= s <= 1 -> 0 <= - (2 * s * k) + s * s * m) -> k <= 0.
Proof.
  intros k m Hm H. apply Rnot_lt_le. intros K. set (s := k / (k + m)). assert (S : s * (k + m) = k) by (unfold s; field; lra). assert (P : 0 < s) by (unfold s; apply Rmult_lt_0_compat; [exact K|apply Rinv_0_lt_compat; lra]).
  specialize (H s). assert (S1 : s <= 1) by nra. specialize (H ltac:(lra)). assert (s * m <= k) by nra. nra.
Qed.
Lemma between : forall s x y a, 0 <= s <= 1 -> 0 <= x <= a -> 0 <= y <= a -> 0 <= x + s * (y - x) <= a.
Proof. intros s x y a Hs Hx Hy. replace (x + s * (y - x)) with ((1 - s) * x + s * y) by ring. assert (0 <= (1 - s) * x <= (1 - s) * a) by (split; nra). assert (0 <= s * y <= s * a) by (split; nra). lra. Qed.
Lemma pair_slopes : forall a b A B T t u, nearest_pair a b A B T t u -> let d := vsub (vadd T (vscale u B)) (vscale t A) in
  (forall t', 0 <= t' <= a -> (t' - t) * dot d A <= 0) /\ (forall u', 0 <= u' <= b -> 0 <= (u' - u) * dot d B).
Proof.
  intros a b A B T t u (Ht & Hu & M) d.
  assert (G : forall t' u', 0 <= t' <= a -> 0 <= u' <= b -> norm2 d <= norm2 (vsub (vadd T (vscale u' B)) (vscale t' A))).
  { intros t' u' H1 H2. specialize (M t' u' H1 H2). unfold side_gap, dist, norm in M. apply sqrt_le_0 in M; try apply norm2_nonneg. replace (norm2 d) with (norm2 (vsub (vscale t A) (vadd T (vscale u B)))) by (unfold d; clear; vring).
    replace (norm2 (vsub (vadd T (vscale u' B)) (vscale t' A))) with (norm2 (vsub (vscale t' A) (vadd T (vscale u' B)))) by (clear; vring). exact M. }
  split.
  - intros t' H. apply (slope_sign _ ((t' - t) * (t' - t) * norm2 A)); [apply Rmult_le_pos; [apply Rle_0_sqr|apply norm2_nonneg]|]. intros s Hs. specialize (G (t + s * (t' - t)) u (between s t t' a Hs Ht H) Hu).
    replace (norm2 (vsub (vadd T (vscale u B)) (vscale (t + s * (t' - t)) A))) with (norm2 d + (- (2 * s * ((t' - t) * dot d A)) + s * s * ((t' - t) * (t' - t) * norm2 A))) in G by (unfold d; clear; vring). lra.
  - intros u' H. enough (- ((u' - u) * dot d B) <= 0) by lra. apply (slope_sign _ ((u' - u) * (u' - u) * norm2 B)); [apply Rmult_le_pos; [apply Rle_0_sqr|apply norm2_nonneg]|]. intros s Hs. specialize (G t (u + s * (u' - u)) Ht (between s u u' b Hs Hu H)).
    replace (norm2 (vsub (vadd T (vscale (u + s * (u' - u)) B)) (vscale t A))) with (norm2 d + (- (2 * s * - ((u' - u) * dot d B)) + s * s * ((u' - u) * (u' - u) * norm2 B))) in G by (unfold d; clear; vring). lra.
Qed.

(** A rectangle seen from one of its sides: where the side starts, its direction, the outer normal, the length and the width *)
Record edge := Edge { eo : v3; ed : v3; en : v3; el : R; ew : R }.
Definition in_edge (e : edge) (p : v3) : Prop := exists s r, 0 <= s <= ew e /\ 0 <= r <= el e /\ p = vadd (eo e) (vadd (vscale (- s) (en e)) (vscale r (ed e))).
Definition edge_ok (e : edge) : Prop := dot (ed e) (ed e) = 1 /\ dot (en e) (ed e) = 0 /\ 0 <= el e /\ 0 <= ew e.

(** A nearest pair of two sides, each point outside of the other side, is a nearest pair of the rectangles *)
Lemma sides_to_rects : forall e f t u, edge_ok e -> edge_ok f -> let T := vsub (eo f) (eo e) in let T' := vsub (eo e) (eo f) in
  nearest_pair (el e) (el f) (ed e) (ed f) T t u -> 0 <= dot (en e) (vadd T (vscale u (ed f))) -> 0 <= dot (en f) (vadd T' (vscale t (ed e))) ->
  forall p q, in_edge e p -> in_edge f q -> dist (vadd (eo e) (vscale t (ed e))) (vadd (eo f) (vscale u (ed f))) <= dist p q.
Proof.
  intros e f t u (Ue & Ne & _ & _) (Uf & Nf & _ & _) T T' NP OA OB p q (s & r & Hs & Hr & ->) (s' & r' & Hs' & Hr' & ->). pose proof (pair_slopes _ _ _ _ _ _ _ NP) as (S1 & S2). cbv zeta in S1, S2. set (d := vsub (vadd T (vscale u (ed f))) (vscale t (ed e))) in *.
  specialize (S1 r Hr). specialize (S2 r' Hr').
  assert (D0 : dot d (en e) = dot (en e) (vadd T (vscale u (ed f)))). { replace (dot d (en e)) with (dot (en e) (vadd T (vscale u (ed f))) - t * dot (en e) (ed e)) by (unfold d; generalize T; clear; vring). rewrite Ne. ring. }
  assert (DB : dot d (en f) = - dot (en f) (vadd T' (vscale t (ed e)))). { replace (dot d (en f)) with (u * dot (en f) (ed f) - dot (en f) (vadd T' (vscale t (ed e)))) by (unfold d, T, T'; clear; vring). rewrite Nf. ring. }
  set (w := vsub (vadd (vscale (- s') (en f)) (vscale (r' - u) (ed f))) (vadd (vscale (- s) (en e)) (vscale (r - t) (ed e)))).
  assert (E1 : vsub (vadd (eo e) (vscale t (ed e))) (vadd (eo f) (vscale u (ed f))) = vscale (-1) d) by (unfold d, T; clear; vring).
  assert (E2 : vsub (vadd (eo e) (vadd (vscale (- s) (en e)) (vscale r (ed e)))) (vadd (eo f) (vadd (vscale (- s') (en f)) (vscale r' (ed f)))) = vscale (-1) (vadd d w)) by (unfold w, d, T; clear; vring).
  unfold dist. rewrite E1, E2. unfold norm. apply sqrt_le_1_alt. rewrite !norm2_scale. replace (norm2 (vadd d w)) with (norm2 d + 2 * dot d w + norm2 w) by (clear; vring). pose proof (norm2_nonneg w) as W.
  assert (DW : dot d w = (- s') * dot d (en f) + (r' - u) * dot d (ed f) - (- s) * dot d (en e) - (r - t) * dot d (ed e)) by (unfold w; generalize d; clear; vring).
  assert (Z1 : 0 <= (- s') * dot d (en f)) by (rewrite DB; nra). assert (Z2 : (- s) * dot d (en e) <= 0) by (rewrite D0; nra). lra.
Qed.

(** The Voronoi tests, or both ends outside, put the nearest point outside *)
Lemma side_outside : forall a b A B T N t u, 0 <= a -> 0 <= b -> dot A A = 1 -> dot B B = 1 -> nearest_pair a b A B T t u ->
  (0 <= dot N T \/ 0 <= dot N T + b * dot N B) -> (0 <= dot N T /\ 0 <= dot N T + b * dot N B) \/ in_voronoi a b (dot N B) (dot N T) (dot A B) (dot A T) (dot B T) = true ->
  0 <= dot N (vadd T (vscale u B)).
Proof.
  intros a b A B T N t u Ha Hb UA UB NP Pre [(X & Y)|V].
  - replace (dot N (vadd T (vscale u B))) with (dot N T + u * dot N B) by vring. destruct NP as (_ & Hu & _). destruct (Rle_dec 0 (dot N B)); nra.
  - apply (in_voronoi_outside a b A B T N t u Ha Hb UA UB V); [|exact NP]. replace (dot N (vadd T (vscale b B))) with (dot N T + b * dot N B) by vring. exact Pre.
Qed.

(** What a case of the code has to satisfy *)
Lemma edge_final : forall e f p1 p2 q1 q2 l1 l2 x1 x2 x3 x4 x5 l3 l4 y1 y2 y3 y4 y5 l5 l6 z1 z2 z3 D Pf P Q d,
  edge_case p1 p2 q1 q2 (in_voronoi l1 l2 x1 x2 x3 x4 x5) (in_voronoi l3 l4 y1 y2 y3 y4 y5) (seg_coords l5 l6 z1 z2 z3) D Pf = Some (P, Q, d) ->
  edge_ok e -> edge_ok f -> let T := vsub (eo f) (eo e) in let T' := vsub (eo e) (eo f) in
  (l1 = el f /\ l2 = el e /\ x1 = dot (en f) (ed e) /\ x2 = dot (en f) T' /\ x3 = dot (ed f) (ed e) /\ x4 = dot (ed f) T' /\ x5 = dot (ed e) T') ->
  (l3 = el e /\ l4 = el f /\ y1 = dot (en e) (ed f) /\ y2 = dot (en e) T /\ y3 = dot (ed e) (ed f) /\ y4 = dot (ed e) T /\ y5 = dot (ed f) T) ->
  (l5 = el e /\ l6 = el f /\ z1 = dot (ed e) (ed f) /\ z2 = dot (ed e) T /\ z3 = dot (ed f) T) ->
  (p1 = true -> 0 <= x2 \/ 0 <= x2 + l2 * x1) -> (q1 = true -> 0 <= x2 /\ 0 <= x2 + l2 * x1) ->
  (p2 = true -> 0 <= y2 \/ 0 <= y2 + l4 * y1) -> (q2 = true -> 0 <= y2 /\ 0 <= y2 + l4 * y1) ->
  (forall t u, D t u = vsub (vadd (eo f) (vscale u (ed f))) (vadd (eo e) (vscale t (ed e)))) -> (forall t, Pf t = vadd (eo e) (vscale t (ed e))) ->
  in_edge e P /\ in_edge f Q /\ d = dist P Q /\ forall p q, in_edge e p -> in_edge f q -> d <= dist p q.
Proof.
  intros e f p1 p2 q1 q2 l1 l2 x1 x2 x3 x4 x5 l3 l4 y1 y2 y3 y4 y5 l5 l6 z1 z2 z3 D Pf P Q d E Ke Kf T T' (X1 & X2 & X3 & X4 & X5 & X6 & X7) (Y1 & Y2 & Y3 & Y4 & Y5 & Y6 & Y7) (Z1 & Z2 & Z3 & Z4 & Z5) Hp1 Hq1 Hp2 Hq2 HD HP.
  subst l1 l2 x1 x2 x3 x4 x5 l3 l4 y1 y2 y3 y4 y5 l5 l6 z1 z2 z3. destruct (Ke) as (Ue & Ne & Le & We). destruct (Kf) as (Uf & Nf & Lf & Wf).
  unfold edge_case in E. match type of E with (if ?b then _ else _) = _ => destruct b eqn:C; [|discriminate E] end. apply andb_prop in C. destruct C as (C & C3). apply andb_prop in C. destruct C as (C1 & C2). apply andb_prop in C3. destruct C3 as (C3 & C4).
  pose proof (seg_coords_nearest (el e) (el f) (ed e) (ed f) T Le Lf Ue Uf) as NP. destruct (seg_coords (el e) (el f) (dot (ed e) (ed f)) (dot (ed e) T) (dot (ed f) T)) as [t u]. cbn [fst snd] in NP.
  assert (NP' : nearest_pair (el f) (el e) (ed f) (ed e) T' u t).
  { destruct NP as (N1 & N2 & N3). split; [exact N2|]. split; [exact N1|]. assert (SG : forall x y, side_gap (ed f) (ed e) T' y x = side_gap (ed e) (ed f) T x y) by (intros x y; unfold side_gap, dist, norm, T, T'; f_equal; clear; vring). intros y x Hy Hx. rewrite !SG. apply N3; assumption. }
  assert (KB : 0 <= dot (en e) (vadd T (vscale u (ed f)))) by (apply (side_outside (el e) (el f) (ed e) (ed f) T (en e) t u Le Lf Ue Uf NP (Hp2 C2)); apply orb_prop in C4; destruct C4 as [C4|C4]; [left; apply Hq2, C4|right; exact C4]).
  assert (KA : 0 <= dot (en f) (vadd T' (vscale t (ed e)))) by (apply (side_outside (el f) (el e) (ed f) (ed e) T' (en f) u t Lf Le Uf Ue NP' (Hp1 C1)); apply orb_prop in C3; destruct C3 as [C3|C3]; [left; apply Hq1, C3|right; exact C3]).
  pose proof (sides_to_rects e f t u Ke Kf NP KB KA) as G. destruct NP as (Nt & Nu & _).
  assert (X1 : P = vadd (eo e) (vscale t (ed e))) by (rewrite <- HP; congruence). assert (X2 : Q = vadd (D t u) (Pf t)) by congruence. assert (X3 : d = norm (D t u)) by congruence. rewrite HD, HP in X2. rewrite HD in X3.
  assert (X4 : Q = vadd (eo f) (vscale u (ed f))) by (rewrite X2; clear; vring). assert (X5 : d = dist P Q) by (rewrite X3, X4, X1; unfold dist, norm; f_equal; clear; vring).
  split; [exists 0, t; split; [lra|]; split; [exact Nt|]; rewrite X1; clear; vring|]. split; [exists 0, u; split; [lra|]; split; [exact Nu|]; rewrite X4; clear; vring|]. split; [exact X5|].
  intros p q Hp Hq. rewrite X5, X1, X4. apply G; assumption.
Qed.

Lemma rect_UA1 : forall a0 a1 p, in_rect_a a0 a1 p <-> in_edge (Edge (mk3 a0 0 0) (mk3 0 1 0) (mk3 1 0 0) a1 a0) p.
Proof.
  intros a0 a1 p. unfold in_rect_a, in_edge. cbn [eo ed en el ew]. split.
  - intros (x & y & Hx & Hy & ->). exists (a0 - x), (y). split; [lra|]. split; [lra|]. unfold vadd, vscale, vzero. cbn. f_equal; ring.
  - intros (s & r & Hs & Hr & ->). exists (a0 - s), (r). split; [lra|]. split; [lra|]. unfold vadd, vscale, vzero. cbn. f_equal; ring.
Qed.
Lemma rect_LA1 : forall a0 a1 p, in_rect_a a0 a1 p <-> in_edge (Edge vzero (mk3 0 1 0) (mk3 (-1) 0 0) a1 a0) p.
Proof.
  intros a0 a1 p. unfold in_rect_a, in_edge. cbn [eo ed en el ew]. split.
  - intros (x & y & Hx & Hy & ->). exists (x), (y). split; [lra|]. split; [lra|]. unfold vadd, vscale, vzero. cbn. f_equal; ring.
  - intros (s & r & Hs & Hr & ->). exists (s), (r). split; [lra|]. split; [lra|]. unfold vadd, vscale, vzero. cbn. f_equal; ring.
Qed.
Lemma rect_UA0 : forall a0 a1 p, in_rect_a a0 a1 p <-> in_edge (Edge (mk3 0 a1 0) (mk3 1 0 0) (mk3 0 1 0) a0 a1) p.
Proof.
  intros a0 a1 p. unfold in_rect_a, in_edge. cbn [eo ed en el ew]. split.
  - intros (x & y & Hx & Hy & ->). exists (a1 - y), (x). split; [lra|]. split; [lra|]. unfold vadd, vscale, vzero. cbn. f_equal; ring.
  - intros (s & r & Hs & Hr & ->). exists (r), (a1 - s). split; [lra|]. split; [lra|]. unfold vadd, vscale, vzero. cbn. f_equal; ring.
Qed.
Lemma rect_LA0 : forall a0 a1 p, in_rect_a a0 a1 p <-> in_edge (Edge vzero (mk3 1 0 0) (mk3 0 (-1) 0) a0 a1) p.
Proof.
  intros a0 a1 p. unfold in_rect_a, in_edge. cbn [eo ed en el ew]. split.
  - intros (x & y & Hx & Hy & ->). exists (y), (x). split; [lra|]. split; [lra|]. unfold vadd, vscale, vzero. cbn. f_equal; ring.
  - intros (s & r & Hs & Hr & ->). exists (r), (s). split; [lra|]. split; [lra|]. unfold vadd, vscale, vzero. cbn. f_equal; ring.
Qed.
Lemma rect_UB1 : forall Rab Tab b0 b1 p, in_rect_b Rab Tab b0 b1 p <-> in_edge (Edge (vadd Tab (vscale b0 (m0 Rab))) (m1 Rab) (m0 Rab) b1 b0) p.
Proof.
  intros Rab Tab b0 b1 p. unfold in_rect_b, in_edge. cbn [eo ed en el ew]. split.
  - intros (x & y & Hx & Hy & ->). exists (b0 - x), (y). split; [lra|]. split; [lra|]. clear. vring.
  - intros (s & r & Hs & Hr & ->). exists (b0 - s), (r). split; [lra|]. split; [lra|]. clear. vring.
Qed.
Lemma rect_LB1 : forall Rab Tab b0 b1 p, in_rect_b Rab Tab b0 b1 p <-> in_edge (Edge Tab (m1 Rab) (vscale (-1) (m0 Rab)) b1 b0) p.
Proof.
  intros Rab Tab b0 b1 p. unfold in_rect_b, in_edge. cbn [eo ed en el ew]. split.
  - intros (x & y & Hx & Hy & ->). exists (x), (y). split; [lra|]. split; [lra|]. clear. vring.
  - intros (s & r & Hs & Hr & ->). exists (s), (r). split; [lra|]. split; [lra|]. clear. vring.
Qed.
Lemma rect_UB0 : forall Rab Tab b0 b1 p, in_rect_b Rab Tab b0 b1 p <-> in_edge (Edge (vadd Tab (vscale b1 (m1 Rab))) (m0 Rab) (m1 Rab) b0 b1) p.
Proof.
  intros Rab Tab b0 b1 p. unfold in_rect_b, in_edge. cbn [eo ed en el ew]. split.
  - intros (x & y & Hx & Hy & ->). exists (b1 - y), (x). split; [lra|]. split; [lra|]. clear. vring.
  - intros (s & r & Hs & Hr & ->). exists (r), (b1 - s). split; [lra|]. split; [lra|]. clear. vring.
Qed.
Lemma rect_LB0 : forall Rab Tab b0 b1 p, in_rect_b Rab Tab b0 b1 p <-> in_edge (Edge Tab (m0 Rab) (vscale (-1) (m1 Rab)) b0 b1) p.
Proof.
  intros Rab Tab b0 b1 p. unfold in_rect_b, in_edge. cbn [eo ed en el ew]. split.
  - intros (x & y & Hx & Hy & ->). exists (y), (x). split; [lra|]. split; [lra|]. clear. vring.
  - intros (s & r & Hs & Hr & ->). exists (r), (s). split; [lra|]. split; [lra|]. clear. vring.
Qed.

Definition rect_result (Rab : mat3) (Tab : v3) (a0 a1 b0 b1 : R) (P Q : v3) (d : R) : Prop :=
  in_rect_a a0 a1 P /\ in_rect_b Rab Tab b0 b1 Q /\ d = dist P Q /\ forall p q, in_rect_a a0 a1 p -> in_rect_b Rab Tab b0 b1 q -> d <= dist p q.
Lemma gt_lt : forall x y, gt x y = true -> y < x.
Proof. intros x y. unfold gt. destruct (Rlt_dec y x); [auto|discriminate]. Qed.
Ltac names := unfold LA0_lx, LA0_ly, LA0_ux, LA0_uy, LA1_lx, LA1_ly, LA1_ux, LA1_uy, LB0_lx, LB0_ly, LB0_ux, LB0_uy, LB1_lx, LB1_ly, LB1_ux, LB1_uy, UA0_lx, UA0_ly, UA0_ux, UA0_uy, UA1_lx, UA1_ly, UA1_ux, UA1_uy, UB0_lx, UB0_ly, UB0_ux, UB0_uy, UB1_lx, UB1_ly, UB1_ux, UB1_uy, AUU_x, BUU_x, BUU_y, AUU_y, BUL_y, AUL_x, ALU_x, BLU_x, BUL_x, ALU_y, AUL_y, BLU_y, ALL_y, ALL_x, BLL_x, BLL_y, A0B0, A0B1, A1B0, A1B1, Tba0, Tba1, pick in *.
Lemma times : forall k x y : R, x = y -> k * x = k * y. Proof. intros; subst; reflexivity. Qed.
Ltac number O b0 b1 := names; let O00 := fresh in let O11 := fresh in let O01 := fresh in destruct O as (O00 & O11 & _ & O01 & _ & _);
  pose proof (times b0 _ _ O00); pose proof (times b1 _ _ O11); pose proof (times b0 _ _ O01); pose proof (times b1 _ _ O01);
  unfold dot, vsub, vadd, vscale, vzero in *; cbn [c0 c1 c2] in *; repeat split; lra.
Ltac outside := let H := fresh in intros H; apply gt_lt in H; revert H; names; repeat (match goal with |- context [Rlt_dec ?x ?y] => destruct (Rlt_dec x y) end); intros; first [left; lra|right; lra|split; lra].
Ltac edge_steps G O := match type of O with ortho ?Rab => match goal with Hb0 : 0 <= ?b0, Hb1 : 0 <= ?b1 |- rect_result Rab _ _ _ ?b0 ?b1 _ _ _ =>
  specialize (G ltac:(unfold edge_ok; cbn [eo ed en el ew]; number O b0 b1)); specialize (G ltac:(unfold edge_ok; cbn [eo ed en el ew]; number O b0 b1));
  specialize (G ltac:(number O b0 b1)); specialize (G ltac:(number O b0 b1)); specialize (G ltac:(number O b0 b1)) end end;
  specialize (G ltac:(outside)); specialize (G ltac:(outside)); specialize (G ltac:(outside)); specialize (G ltac:(outside));
  specialize (G ltac:(intros; names; unfold dot, vsub, vadd, vscale, vzero; cbn [c0 c1 c2]; f_equal; ring)); specialize (G ltac:(intros; unfold vadd, vscale, vzero; cbn [c0 c1 c2]; f_equal; ring)).
Lemma edge_UA1_UB1_nearest : forall Rab Tab a0 a1 b0 b1 P Q d, ortho Rab -> 0 <= a0 -> 0 <= a1 -> 0 <= b0 -> 0 <= b1 -> edge_UA1_UB1 Rab Tab a0 a1 b0 b1 = Some (P, Q, d) -> rect_result Rab Tab a0 a1 b0 b1 P Q d.
Proof.
  intros Rab Tab a0 a1 b0 b1 P Q d O H0 H1 H2 H3 E. unfold edge_UA1_UB1 in E.
  pose proof (edge_final (Edge (mk3 a0 0 0) (mk3 0 1 0) (mk3 1 0 0) a1 a0) (Edge (vadd Tab (vscale b0 (m0 Rab))) (m1 Rab) (m0 Rab) b1 b0) _ _ _ _ _ _ _ _ _ _ _ _ _ _ _ _ _ _ _ _ _ _ _ _ _ _ _ _ E) as G. clear E. cbv zeta in G. cbn [eo ed en el ew] in G. edge_steps G O.
  unfold rect_result. rewrite rect_UA1, rect_UB1. destruct G as (G1 & G2 & G3 & G4). split; [exact G1|]. split; [exact G2|]. split; [exact G3|]. intros p q. rewrite rect_UA1, rect_UB1. apply G4.
Qed.
Lemma edge_UA1_LB1_nearest : forall Rab Tab a0 a1 b0 b1 P Q d, ortho Rab -> 0 <= a0 -> 0 <= a1 -> 0 <= b0 -> 0 <= b1 -> edge_UA1_LB1 Rab Tab a0 a1 b1 = Some (P, Q, d) -> rect_result Rab Tab a0 a1 b0 b1 P Q d.
Proof.
  intros Rab Tab a0 a1 b0 b1 P Q d O H0 H1 H2 H3 E. unfold edge_UA1_LB1 in E.
  pose proof (edge_final (Edge (mk3 a0 0 0) (mk3 0 1 0) (mk3 1 0 0) a1 a0) (Edge Tab (m1 Rab) (vscale (-1) (m0 Rab)) b1 b0) _ _ _ _ _ _ _ _ _ _ _ _ _ _ _ _ _ _ _ _ _ _ _ _ _ _ _ _ E) as G. clear E. cbv zeta in G. cbn [eo ed en el ew] in G. edge_steps G O.
  unfold rect_result. rewrite rect_UA1, rect_LB1. destruct G as (G1 & G2 & G3 & G4). split; [exact G1|]. split; [exact G2|]. split; [exact G3|]. intros p q. rewrite rect_UA1, rect_LB1. apply G4.
Qed.
Lemma edge_LA1_UB1_nearest : forall Rab Tab a0 a1 b0 b1 P Q d, ortho Rab -> 0 <= a0 -> 0 <= a1 -> 0 <= b0 -> 0 <= b1 -> edge_LA1_UB1 Rab Tab a1 b0 b1 = Some (P, Q, d) -> rect_result Rab Tab a0 a1 b0 b1 P Q d.
Proof.
  intros Rab Tab a0 a1 b0 b1 P Q d O H0 H1 H2 H3 E. unfold edge_LA1_UB1 in E.
  pose proof (edge_final (Edge vzero (mk3 0 1 0) (mk3 (-1) 0 0) a1 a0) (Edge (vadd Tab (vscale b0 (m0 Rab))) (m1 Rab) (m0 Rab) b1 b0) _ _ _ _ _ _ _ _ _ _ _ _ _ _ _ _ _ _ _ _ _ _ _ _ _ _ _ _ E) as G. clear E. cbv zeta in G. cbn [eo ed en el ew] in G. edge_steps G O.
  unfold rect_result. rewrite rect_LA1, rect_UB1. destruct G as (G1 & G2 & G3 & G4). split; [exact G1|]. split; [exact G2|]. split; [exact G3|]. intros p q. rewrite rect_LA1, rect_UB1. apply G4.
Qed.
Lemma edge_LA1_LB1_nearest : forall Rab Tab a0 a1 b0 b1 P Q d, ortho Rab -> 0 <= a0 -> 0 <= a1 -> 0 <= b0 -> 0 <= b1 -> edge_LA1_LB1 Rab Tab a1 b1 = Some (P, Q, d) -> rect_result Rab Tab a0 a1 b0 b1 P Q d.
Proof.
  intros Rab Tab a0 a1 b0 b1 P Q d O H0 H1 H2 H3 E. unfold edge_LA1_LB1 in E.
  pose proof (edge_final (Edge vzero (mk3 0 1 0) (mk3 (-1) 0 0) a1 a0) (Edge Tab (m1 Rab) (vscale (-1) (m0 Rab)) b1 b0) _ _ _ _ _ _ _ _ _ _ _ _ _ _ _ _ _ _ _ _ _ _ _ _ _ _ _ _ E) as G. clear E. cbv zeta in G. cbn [eo ed en el ew] in G. edge_steps G O.
  unfold rect_result. rewrite rect_LA1, rect_LB1. destruct G as (G1 & G2 & G3 & G4). split; [exact G1|]. split; [exact G2|]. split; [exact G3|]. intros p q. rewrite rect_LA1, rect_LB1. apply G4.
Qed.
Lemma edge_UA1_UB0_nearest : forall Rab Tab a0 a1 b0 b1 P Q d, ortho Rab -> 0 <= a0 -> 0 <= a1 -> 0 <= b0 -> 0 <= b1 -> edge_UA1_UB0 Rab Tab a0 a1 b0 b1 = Some (P, Q, d) -> rect_result Rab Tab a0 a1 b0 b1 P Q d.
Proof.
  intros Rab Tab a0 a1 b0 b1 P Q d O H0 H1 H2 H3 E. unfold edge_UA1_UB0 in E.
  pose proof (edge_final (Edge (mk3 a0 0 0) (mk3 0 1 0) (mk3 1 0 0) a1 a0) (Edge (vadd Tab (vscale b1 (m1 Rab))) (m0 Rab) (m1 Rab) b0 b1) _ _ _ _ _ _ _ _ _ _ _ _ _ _ _ _ _ _ _ _ _ _ _ _ _ _ _ _ E) as G. clear E. cbv zeta in G. cbn [eo ed en el ew] in G. edge_steps G O.
  unfold rect_result. rewrite rect_UA1, rect_UB0. destruct G as (G1 & G2 & G3 & G4). split; [exact G1|]. split; [exact G2|]. split; [exact G3|]. intros p q. rewrite rect_UA1, rect_UB0. apply G4.
Qed.
Lemma edge_UA1_LB0_nearest : forall Rab Tab a0 a1 b0 b1 P Q d, ortho Rab -> 0 <= a0 -> 0 <= a1 -> 0 <= b0 -> 0 <= b1 -> edge_UA1_LB0 Rab Tab a0 a1 b0 = Some (P, Q, d) -> rect_result Rab Tab a0 a1 b0 b1 P Q d.
Proof.
  intros Rab Tab a0 a1 b0 b1 P Q d O H0 H1 H2 H3 E. unfold edge_UA1_LB0 in E.
  pose proof (edge_final (Edge (mk3 a0 0 0) (mk3 0 1 0) (mk3 1 0 0) a1 a0) (Edge Tab (m0 Rab) (vscale (-1) (m1 Rab)) b0 b1) _ _ _ _ _ _ _ _ _ _ _ _ _ _ _ _ _ _ _ _ _ _ _ _ _ _ _ _ E) as G. clear E. cbv zeta in G. cbn [eo ed en el ew] in G. edge_steps G O.
  unfold rect_result. rewrite rect_UA1, rect_LB0. destruct G as (G1 & G2 & G3 & G4). split; [exact G1|]. split; [exact G2|]. split; [exact G3|]. intros p q. rewrite rect_UA1, rect_LB0. apply G4.
Qed.
Lemma edge_LA1_UB0_nearest : forall Rab Tab a0 a1 b0 b1 P Q d, ortho Rab -> 0 <= a0 -> 0 <= a1 -> 0 <= b0 -> 0 <= b1 -> edge_LA1_UB0 Rab Tab a1 b0 b1 = Some (P, Q, d) -> rect_result Rab Tab a0 a1 b0 b1 P Q d.
Proof.
  intros Rab Tab a0 a1 b0 b1 P Q d O H0 H1 H2 H3 E. unfold edge_LA1_UB0 in E.
  pose proof (edge_final (Edge vzero (mk3 0 1 0) (mk3 (-1) 0 0) a1 a0) (Edge (vadd Tab (vscale b1 (m1 Rab))) (m0 Rab) (m1 Rab) b0 b1) _ _ _ _ _ _ _ _ _ _ _ _ _ _ _ _ _ _ _ _ _ _ _ _ _ _ _ _ E) as G. clear E. cbv zeta in G. cbn [eo ed en el ew] in G. edge_steps G O.
  unfold rect_result. rewrite rect_LA1, rect_UB0. destruct G as (G1 & G2 & G3 & G4). split; [exact G1|]. split; [exact G2|]. split; [exact G3|]. intros p q. rewrite rect_LA1, rect_UB0. apply G4.
Qed.
Lemma edge_LA1_LB0_nearest : forall Rab Tab a0 a1 b0 b1 P Q d, ortho Rab -> 0 <= a0 -> 0 <= a1 -> 0 <= b0 -> 0 <= b1 -> edge_LA1_LB0 Rab Tab a1 b0 = Some (P, Q, d) -> rect_result Rab Tab a0 a1 b0 b1 P Q d.
Proof.
  intros Rab Tab a0 a1 b0 b1 P Q d O H0 H1 H2 H3 E. unfold edge_LA1_LB0 in E.
  pose proof (edge_final (Edge vzero (mk3 0 1 0) (mk3 (-1) 0 0) a1 a0) (Edge Tab (m0 Rab) (vscale (-1) (m1 Rab)) b0 b1) _ _ _ _ _ _ _ _ _ _ _ _ _ _ _ _ _ _ _ _ _ _ _ _ _ _ _ _ E) as G. clear E. cbv zeta in G. cbn [eo ed en el ew] in G. edge_steps G O.
  unfold rect_result. rewrite rect_LA1, rect_LB0. destruct G as (G1 & G2 & G3 & G4). split; [exact G1|]. split; [exact G2|]. split; [exact G3|]. intros p q. rewrite rect_LA1, rect_LB0. apply G4.
Qed.
Lemma edge_UA0_UB1_nearest : forall Rab Tab a0 a1 b0 b1 P Q d, ortho Rab -> 0 <= a0 -> 0 <= a1 -> 0 <= b0 -> 0 <= b1 -> edge_UA0_UB1 Rab Tab a0 a1 b0 b1 = Some (P, Q, d) -> rect_result Rab Tab a0 a1 b0 b1 P Q d.
Proof.
  intros Rab Tab a0 a1 b0 b1 P Q d O H0 H1 H2 H3 E. unfold edge_UA0_UB1 in E.
  pose proof (edge_final (Edge (mk3 0 a1 0) (mk3 1 0 0) (mk3 0 1 0) a0 a1) (Edge (vadd Tab (vscale b0 (m0 Rab))) (m1 Rab) (m0 Rab) b1 b0) _ _ _ _ _ _ _ _ _ _ _ _ _ _ _ _ _ _ _ _ _ _ _ _ _ _ _ _ E) as G. clear E. cbv zeta in G. cbn [eo ed en el ew] in G. edge_steps G O.
  unfold rect_result. rewrite rect_UA0, rect_UB1. destruct G as (G1 & G2 & G3 & G4). split; [exact G1|]. split; [exact G2|]. split; [exact G3|]. intros p q. rewrite rect_UA0, rect_UB1. apply G4.
Qed.
Lemma edge_UA0_LB1_nearest : forall Rab Tab a0 a1 b0 b1 P Q d, ortho Rab -> 0 <= a0 -> 0 <= a1 -> 0 <= b0 -> 0 <= b1 -> edge_UA0_LB1 Rab Tab a0 a1 b1 = Some (P, Q, d) -> rect_result Rab Tab a0 a1 b0 b1 P Q d.
Proof.
  intros Rab Tab a0 a1 b0 b1 P Q d O H0 H1 H2 H3 E. unfold edge_UA0_LB1 in E.
  pose proof (edge_final (Edge (mk3 0 a1 0) (mk3 1 0 0) (mk3 0 1 0) a0 a1) (Edge Tab (m1 Rab) (vscale (-1) (m0 Rab)) b1 b0) _ _ _ _ _ _ _ _ _ _ _ _ _ _ _ _ _ _ _ _ _ _ _ _ _ _ _ _ E) as G. clear E. cbv zeta in G. cbn [eo ed en el ew] in G. edge_steps G O.
  unfold rect_result. rewrite rect_UA0, rect_LB1. destruct G as (G1 & G2 & G3 & G4). split; [exact G1|]. split; [exact G2|]. split; [exact G3|]. intros p q. rewrite rect_UA0, rect_LB1. apply G4.
Qed.
Lemma edge_LA0_UB1_nearest : forall Rab Tab a0 a1 b0 b1 P Q d, ortho Rab -> 0 <= a0 -> 0 <= a1 -> 0 <= b0 -> 0 <= b1 -> edge_LA0_UB1 Rab Tab a0 b0 b1 = Some (P, Q, d) -> rect_result Rab Tab a0 a1 b0 b1 P Q d.
Proof.
  intros Rab Tab a0 a1 b0 b1 P Q d O H0 H1 H2 H3 E. unfold edge_LA0_UB1 in E.
  pose proof (edge_final (Edge vzero (mk3 1 0 0) (mk3 0 (-1) 0) a0 a1) (Edge (vadd Tab (vscale b0 (m0 Rab))) (m1 Rab) (m0 Rab) b1 b0) _ _ _ _ _ _ _ _ _ _ _ _ _ _ _ _ _ _ _ _ _ _ _ _ _ _ _ _ E) as G. clear E. cbv zeta in G. cbn [eo ed en el ew] in G. edge_steps G O.
  unfold rect_result. rewrite rect_LA0, rect_UB1. destruct G as (G1 & G2 & G3 & G4). split; [exact G1|]. split; [exact G2|]. split; [exact G3|]. intros p q. rewrite rect_LA0, rect_UB1. apply G4.
Qed.
Lemma edge_LA0_LB1_nearest : forall Rab Tab a0 a1 b0 b1 P Q d, ortho Rab -> 0 <= a0 -> 0 <= a1 -> 0 <= b0 -> 0 <= b1 -> edge_LA0_LB1 Rab Tab a0 b1 = Some (P, Q, d) -> rect_result Rab Tab a0 a1 b0 b1 P Q d.
Proof.
  intros Rab Tab a0 a1 b0 b1 P Q d O H0 H1 H2 H3 E. unfold edge_LA0_LB1 in E.
  pose proof (edge_final (Edge vzero (mk3 1 0 0) (mk3 0 (-1) 0) a0 a1) (Edge Tab (m1 Rab) (vscale (-1) (m0 Rab)) b1 b0) _ _ _ _ _ _ _ _ _ _ _ _ _ _ _ _ _ _ _ _ _ _ _ _ _ _ _ _ E) as G. clear E. cbv zeta in G. cbn [eo ed en el ew] in G. edge_steps G O.
  unfold rect_result. rewrite rect_LA0, rect_LB1. destruct G as (G1 & G2 & G3 & G4). split; [exact G1|]. split; [exact G2|]. split; [exact G3|]. intros p q. rewrite rect_LA0, rect_LB1. apply G4.
Qed.
Lemma edge_UA0_UB0_nearest : forall Rab Tab a0 a1 b0 b1 P Q d, ortho Rab -> 0 <= a0 -> 0 <= a1 -> 0 <= b0 -> 0 <= b1 -> edge_UA0_UB0 Rab Tab a0 a1 b0 b1 = Some (P, Q, d) -> rect_result Rab Tab a0 a1 b0 b1 P Q d.
Proof.
  intros Rab Tab a0 a1 b0 b1 P Q d O H0 H1 H2 H3 E. unfold edge_UA0_UB0 in E.
  pose proof (edge_final (Edge (mk3 0 a1 0) (mk3 1 0 0) (mk3 0 1 0) a0 a1) (Edge (vadd Tab (vscale b1 (m1 Rab))) (m0 Rab) (m1 Rab) b0 b1) _ _ _ _ _ _ _ _ _ _ _ _ _ _ _ _ _ _ _ _ _ _ _ _ _ _ _ _ E) as G. clear E. cbv zeta in G. cbn [eo ed en el ew] in G. edge_steps G O.
  unfold rect_result. rewrite rect_UA0, rect_UB0. destruct G as (G1 & G2 & G3 & G4). split; [exact G1|]. split; [exact G2|]. split; [exact G3|]. intros p q. rewrite rect_UA0, rect_UB0. apply G4.
Qed.
Lemma edge_UA0_LB0_nearest : forall Rab Tab a0 a1 b0 b1 P Q d, ortho Rab -> 0 <= a0 -> 0 <= a1 -> 0 <= b0 -> 0 <= b1 -> edge_UA0_LB0 Rab Tab a0 a1 b0 = Some (P, Q, d) -> rect_result Rab Tab a0 a1 b0 b1 P Q d.
Proof.
  intros Rab Tab a0 a1 b0 b1 P Q d O H0 H1 H2 H3 E. unfold edge_UA0_LB0 in E.
  pose proof (edge_final (Edge (mk3 0 a1 0) (mk3 1 0 0) (mk3 0 1 0) a0 a1) (Edge Tab (m0 Rab) (vscale (-1) (m1 Rab)) b0 b1) _ _ _ _ _ _ _ _ _ _ _ _ _ _ _ _ _ _ _ _ _ _ _ _ _ _ _ _ E) as G. clear E. cbv zeta in G. cbn [eo ed en el ew] in G. edge_steps G O.
  unfold rect_result. rewrite rect_UA0, rect_LB0. destruct G as (G1 & G2 & G3 & G4). split; [exact G1|]. split; [exact G2|]. split; [exact G3|]. intros p q. rewrite rect_UA0, rect_LB0. apply G4.
Qed.
Lemma edge_LA0_UB0_nearest : forall Rab Tab a0 a1 b0 b1 P Q d, ortho Rab -> 0 <= a0 -> 0 <= a1 -> 0 <= b0 -> 0 <= b1 -> edge_LA0_UB0 Rab Tab a0 b0 b1 = Some (P, Q, d) -> rect_result Rab Tab a0 a1 b0 b1 P Q d.
Proof.
  intros Rab Tab a0 a1 b0 b1 P Q d O H0 H1 H2 H3 E. unfold edge_LA0_UB0 in E.
  pose proof (edge_final (Edge vzero (mk3 1 0 0) (mk3 0 (-1) 0) a0 a1) (Edge (vadd Tab (vscale b1 (m1 Rab))) (m0 Rab) (m1 Rab) b0 b1) _ _ _ _ _ _ _ _ _ _ _ _ _ _ _ _ _ _ _ _ _ _ _ _ _ _ _ _ E) as G. clear E. cbv zeta in G. cbn [eo ed en el ew] in G. edge_steps G O.
  unfold rect_result. rewrite rect_LA0, rect_UB0. destruct G as (G1 & G2 & G3 & G4). split; [exact G1|]. split; [exact G2|]. split; [exact G3|]. intros p q. rewrite rect_LA0, rect_UB0. apply G4.
Qed.
Lemma edge_LA0_LB0_nearest : forall Rab Tab a0 a1 b0 b1 P Q d, ortho Rab -> 0 <= a0 -> 0 <= a1 -> 0 <= b0 -> 0 <= b1 -> edge_LA0_LB0 Rab Tab a0 b0 = Some (P, Q, d) -> rect_result Rab Tab a0 a1 b0 b1 P Q d.
Proof.
  intros Rab Tab a0 a1 b0 b1 P Q d O H0 H1 H2 H3 E. unfold edge_LA0_LB0 in E.
  pose proof (edge_final (Edge vzero (mk3 1 0 0) (mk3 0 (-1) 0) a0 a1) (Edge Tab (m0 Rab) (vscale (-1) (m1 Rab)) b0 b1) _ _ _ _ _ _ _ _ _ _ _ _ _ _ _ _ _ _ _ _ _ _ _ _ _ _ _ _ E) as G. clear E. cbv zeta in G. cbn [eo ed en el ew] in G. edge_steps G O.
  unfold rect_result. rewrite rect_LA0, rect_LB0. destruct G as (G1 & G2 & G3 & G4). split; [exact G1|]. split; [exact G2|]. split; [exact G3|]. intros p q. rewrite rect_LA0, rect_LB0. apply G4.
Qed.

(** If one of the sixteen pairs of sides is chosen, the points are points of the rectangles, the number is their distance, and no two points of the rectangles are nearer *)
Theorem rect_edges_nearest : forall Rab Tab a0 a1 b0 b1 P Q d, ortho Rab -> 0 <= a0 -> 0 <= a1 -> 0 <= b0 -> 0 <= b1 -> rect_edges Rab Tab a0 a1 b0 b1 = Some (P, Q, d) ->
  in_rect_a a0 a1 P /\ in_rect_b Rab Tab b0 b1 Q /\ d = dist P Q /\ forall p q, in_rect_a a0 a1 p -> in_rect_b Rab Tab b0 b1 q -> d <= dist p q.
Proof.
  intros Rab Tab a0 a1 b0 b1 P Q d O H0 H1 H2 H3 E.
  assert (G : forall l, (forall o, In o l -> o = Some (P, Q, d) -> rect_result Rab Tab a0 a1 b0 b1 P Q d) -> first_some l = Some (P, Q, d) -> rect_result Rab Tab a0 a1 b0 b1 P Q d).
  { induction l as [|o l IH]; intros H F; [discriminate F|]. change (match o with Some x => Some x | None => first_some l end = Some (P, Q, d)) in F. destruct o as [x|]; [apply (H _ (or_introl eq_refl) F)|apply IH; [|exact F]]. intros o Ho. apply H. right. exact Ho. }
  refine (G _ _ E). clear G E. intros o Ho Eo. cbn [In] in Ho.
  destruct Ho as [<-|Ho]; [exact (edge_UA1_UB1_nearest _ _ _ _ _ _ _ _ _ O H0 H1 H2 H3 Eo)|].
  destruct Ho as [<-|Ho]; [exact (edge_UA1_LB1_nearest _ _ _ _ _ _ _ _ _ O H0 H1 H2 H3 Eo)|].
  destruct Ho as [<-|Ho]; [exact (edge_LA1_UB1_nearest _ _ _ _ _ _ _ _ _ O H0 H1 H2 H3 Eo)|].
  destruct Ho as [<-|Ho]; [exact (edge_LA1_LB1_nearest _ _ _ _ _ _ _ _ _ O H0 H1 H2 H3 Eo)|].
  destruct Ho as [<-|Ho]; [exact (edge_UA1_UB0_nearest _ _ _ _ _ _ _ _ _ O H0 H1 H2 H3 Eo)|].
  destruct Ho as [<-|Ho]; [exact (edge_UA1_LB0_nearest _ _ _ _ _ _ _ _ _ O H0 H1 H2 H3 Eo)|].
  destruct Ho as [<-|Ho]; [exact (edge_LA1_UB0_nearest _ _ _ _ _ _ _ _ _ O H0 H1 H2 H3 Eo)|].
  destruct Ho as [<-|Ho]; [exact (edge_LA1_LB0_nearest _ _ _ _ _ _ _ _ _ O H0 H1 H2 H3 Eo)|].
  destruct Ho as [<-|Ho]; [exact (edge_UA0_UB1_nearest _ _ _ _ _ _ _ _ _ O H0 H1 H2 H3 Eo)|].
  destruct Ho as [<-|Ho]; [exact (edge_UA0_LB1_nearest _ _ _ _ _ _ _ _ _ O H0 H1 H2 H3 Eo)|].
  destruct Ho as [<-|Ho]; [exact (edge_LA0_UB1_nearest _ _ _ _ _ _ _ _ _ O H0 H1 H2 H3 Eo)|].
  destruct Ho as [<-|Ho]; [exact (edge_LA0_LB1_nearest _ _ _ _ _ _ _ _ _ O H0 H1 H2 H3 Eo)|].
  destruct Ho as [<-|Ho]; [exact (edge_UA0_UB0_nearest _ _ _ _ _ _ _ _ _ O H0 H1 H2 H3 Eo)|].
  destruct Ho as [<-|Ho]; [exact (edge_UA0_LB0_nearest _ _ _ _ _ _ _ _ _ O H0 H1 H2 H3 Eo)|].
  destruct Ho as [<-|Ho]; [exact (edge_LA0_UB0_nearest _ _ _ _ _ _ _ _ _ O H0 H1 H2 H3 Eo)|].
  destruct Ho as [<-|Ho]; [exact (edge_LA0_LB0_nearest _ _ _ _ _ _ _ _ _ O H0 H1 H2 H3 Eo)|].
  destruct Ho.
Qed.
Print Assumptions rect_edges_nearest.

Lemma comp_le : forall v, c2 v <= norm v /\ - c2 v <= norm v.
Proof. intros v. pose proof (norm_sq v) as Q. assert (P : 0 <= norm v) by apply sqrt_pos. destruct v as [x y z]. unfold norm2, dot in Q. cbn in Q. cbn [c2]. set (n := norm (mk3 x y z)) in *. split; nra. Qed.
Lemma sep1_le : forall Rab Tab a0 a1 b0 b1 p q, in_rect_a a0 a1 p -> in_rect_b Rab Tab b0 b1 q -> sep1 Rab Tab b0 b1 <= dist p q.
Proof.
  intros Rab Tab a0 a1 b0 b1 p q (x & y & Hx & Hy & ->) (x' & y' & Hx' & Hy' & ->). destruct (comp_le (vsub (mk3 x y 0) (vadd Tab (vadd (vscale x' (m0 Rab)) (vscale y' (m1 Rab)))))) as (K1 & K2). fold (dist (mk3 x y 0) (vadd Tab (vadd (vscale x' (m0 Rab)) (vscale y' (m1 Rab))))) in K1, K2.
  set (d := dist _ _) in *. clearbody d. unfold vsub, vadd, vscale in K1, K2. cbn [c0 c1 c2] in K1, K2. unfold sep1. set (r := c2 (m0 Rab)) in *. set (s := c2 (m1 Rab)) in *. set (z := c2 Tab) in *. clearbody r s z.
  destruct (Rlt_dec 0 z); [destruct (Rlt_dec r 0); destruct (Rlt_dec s 0)|destruct (Rlt_dec 0 r); destruct (Rlt_dec 0 s)]; nra.
Qed.
Lemma sep2_le : forall Rab Tab a0 a1 b0 b1 p q, ortho Rab -> in_rect_a a0 a1 p -> in_rect_b Rab Tab b0 b1 q -> sep2 Rab Tab a0 a1 <= dist p q.
Proof.
  intros Rab Tab a0 a1 b0 b1 p q (O00 & O11 & O22 & O01 & O02 & O12) (x & y & Hx & Hy & ->) (x' & y' & Hx' & Hy' & ->). set (w := vsub (mk3 x y 0) (vadd Tab (vadd (vscale x' (m0 Rab)) (vscale y' (m1 Rab))))).
  assert (N : norm (m2 Rab) = 1) by (unfold norm, norm2; rewrite O22; apply sqrt_1). pose proof (cauchy_schwarz_abs (m2 Rab) w) as C. rewrite N, Rmult_1_l in C. change (norm w) with (dist (mk3 x y 0) (vadd Tab (vadd (vscale x' (m0 Rab)) (vscale y' (m1 Rab))))) in C. set (d := dist _ _) in *. clearbody d.
  assert (W : dot (m2 Rab) w = x * c0 (m2 Rab) + y * c1 (m2 Rab) - Tba2 Rab Tab). { replace (dot (m2 Rab) w) with (x * c0 (m2 Rab) + y * c1 (m2 Rab) - dot (m2 Rab) Tab - x' * dot (m0 Rab) (m2 Rab) - y' * dot (m1 Rab) (m2 Rab)) by (unfold w; clear; vring). rewrite O02, O12. unfold Tba2. ring. }
  rewrite W in C. unfold sep2. set (r := c0 (m2 Rab)) in *. set (s := c1 (m2 Rab)) in *. set (z := Tba2 Rab Tab) in *. clearbody r s z. clear W. assert (C1 : x * r + y * s - z <= d /\ - (x * r + y * s - z) <= d) by (unfold Rabs in C; destruct (Rcase_abs _); lra). clear C. destruct C1 as (C1 & C2).
  destruct (Rlt_dec z 0); [destruct (Rlt_dec r 0); destruct (Rlt_dec s 0)|destruct (Rlt_dec 0 r); destruct (Rlt_dec 0 s)]; nra.
Qed.
(** The number returned is never larger than the distance of two points of the rectangles; if a pair of sides was chosen it is the distance of two of them *)
Theorem rect_distance_bound : forall Rab Tab a0 a1 b0 b1, ortho Rab -> 0 <= a0 -> 0 <= a1 -> 0 <= b0 -> 0 <= b1 ->
  0 <= rect_distance Rab Tab a0 a1 b0 b1 /\ forall p q, in_rect_a a0 a1 p -> in_rect_b Rab Tab b0 b1 q -> rect_distance Rab Tab a0 a1 b0 b1 <= dist p q.
Proof.
  intros Rab Tab a0 a1 b0 b1 O H0 H1 H2 H3. unfold rect_distance. destruct (rect_edges Rab Tab a0 a1 b0 b1) as [[[P Q] d]|] eqn:E.
  - apply rect_edges_nearest in E; try assumption. destruct E as (_ & _ & -> & M). split; [apply sqrt_pos|exact M].
  - cbv zeta. split; [destruct (Rlt_dec 0 _); lra|]. intros p q Hp Hq. pose proof (sep1_le Rab Tab a0 a1 b0 b1 p q Hp Hq). pose proof (sep2_le Rab Tab a0 a1 b0 b1 p q O Hp Hq). assert (0 <= dist p q) by apply sqrt_pos. destruct (Rlt_dec (sep2 Rab Tab a0 a1) (sep1 Rab Tab b0 b1)); destruct (Rlt_dec 0 _); lra.
Qed.
Print Assumptions rect_distance_bound.

(** The two rectangles in the frame of the first one *)
Lemma rss_gap_le : forall b1 b2 x y x' y', ortho (rax b1) -> ortho (rax b2) -> 0 <= rl0 b1 -> 0 <= rl1 b1 -> 0 <= rl0 b2 -> 0 <= rl1 b2 ->
  0 <= x <= 1 -> 0 <= y <= 1 -> 0 <= x' <= 1 -> 0 <= y' <= 1 -> rss_gap b1 b2 <= dist (rect b1 x y) (rect b2 x' y').
Proof.
  intros b1 b2 x y x' y' O1 O2 L0 L1 L2 L3 Hx Hy Hx' Hy'. unfold rss_gap.
  assert (O : ortho (mtmul (rax b1) (rax b2))).
  { unfold ortho, mtmul. cbn [m0 m1 m2]. rewrite !mt_dot by exact O1. exact O2. }
  destruct (rect_distance_bound (mtmul (rax b1) (rax b2)) (mtapply (rax b1) (vsub (To b2) (To b1))) _ _ _ _ O L0 L1 L2 L3) as [_ B].
  replace (dist (rect b1 x y) (rect b2 x' y')) with (dist (mtapply (rax b1) (vsub (rect b1 x y) (To b1))) (mtapply (rax b1) (vsub (rect b2 x' y') (To b1)))).
  2: { unfold dist. rewrite <- mtapply_sub, mt_norm by exact O1. f_equal. vring. }
  apply B.
  - exists (x * rl0 b1), (y * rl1 b1). split; [nra|]. split; [nra|]. unfold rect. rewrite <- (mt_mapply (rax b1) (mk3 (x * rl0 b1) (y * rl1 b1) 0) O1). f_equal. vring.
  - exists (x' * rl0 b2), (y' * rl1 b2). split; [nra|]. split; [nra|]. unfold rect, mtmul. cbn [m0 m1 m2]. vring.
Qed.

(** The distance of two RSS is never larger than that of two of their points, and a common point is never missed *)
Theorem rss_distance_bound : forall b1 b2 p q, ortho (rax b1) -> ortho (rax b2) -> 0 <= rl0 b1 -> 0 <= rl1 b1 -> 0 <= rl0 b2 -> 0 <= rl1 b2 ->
  in_rss b1 p -> in_rss b2 q -> 0 <= rss_distance b1 b2 <= dist p q.
Proof.
  intros b1 b2 p q O1 O2 L0 L1 L2 L3 (x & y & Hx & Hy & D1) (x' & y' & Hx' & Hy' & D2).
  pose proof (rss_gap_le b1 b2 x y x' y' O1 O2 L0 L1 L2 L3 Hx Hy Hx' Hy') as G.
  pose proof (dist_triangle (rect b1 x y) p (rect b2 x' y')) as T1. pose proof (dist_triangle p q (rect b2 x' y')) as T2. rewrite (dist_sym (rect b1 x y) p) in T1.
  unfold rss_distance. cbv zeta. pose proof (dist_nonneg p q). destruct (Rlt_dec _ 0); lra.
Qed.
Print Assumptions rss_distance_bound.

Theorem rss_overlap_complete : forall b1 b2 p, ortho (rax b1) -> ortho (rax b2) -> 0 <= rl0 b1 -> 0 <= rl1 b1 -> 0 <= rl0 b2 -> 0 <= rl1 b2 ->
  in_rss b1 p -> in_rss b2 p -> rss_overlap b1 b2 = true.
Proof.
  intros b1 b2 p O1 O2 L0 L1 L2 L3 (x & y & Hx & Hy & D1) (x' & y' & Hx' & Hy' & D2).
  pose proof (rss_gap_le b1 b2 x y x' y' O1 O2 L0 L1 L2 L3 Hx Hy Hx' Hy') as G.
  pose proof (dist_triangle (rect b1 x y) p (rect b2 x' y')) as T1. rewrite (dist_sym (rect b1 x y) p) in T1.
  unfold rss_overlap. destruct (Rle_dec _ _); [reflexivity|lra].
Qed.
Print Assumptions rss_overlap_complete.

(** A point of the rectangle of b from its two coordinates *)
Lemma rect_at : forall l c, 0 <= c <= l -> exists x, 0 <= x <= 1 /\ x * l = c.
Proof.
  intros l c H. destruct (Req_dec l 0) as [Z|Z]; [exists 0; lra|]. exists (c / l). split; [|field; exact Z]. assert (0 < l) by lra. split.
  - apply Rmult_le_pos; [lra|]. left. apply Rinv_0_lt_compat. assumption.
  - apply (Rmult_le_reg_r l); [assumption|]. unfold Rdiv. rewrite Rmult_assoc, Rinv_l by exact Z. lra.
Qed.
Definition on_line (p q : v3) (k : R) : v3 := vadd p (vscale k (vsub q p)).
Lemma on_line_l : forall p q k, 0 <= k -> dist (on_line p q k) p = k * dist p q.
Proof. intros p q k H. rewrite (dist_sym p q). unfold dist. replace (vsub (on_line p q k) p) with (vscale k (vsub q p)) by (unfold on_line; vring). rewrite norm_scale, Rabs_pos_eq by exact H. reflexivity. Qed.
Lemma on_line_2 : forall p q k h, h <= k -> dist (on_line p q k) (on_line p q h) = (k - h) * dist p q.
Proof. intros p q k h H. rewrite (dist_sym p q). unfold dist. replace (vsub (on_line p q k) (on_line p q h)) with (vscale (k - h) (vsub q p)) by (unfold on_line; vring). rewrite norm_scale, Rabs_pos_eq by lra. reflexivity. Qed.
Lemma on_line_r : forall p q k, k <= 1 -> dist (on_line p q k) q = (1 - k) * dist p q.
Proof. intros p q k H. replace q with (on_line p q 1) at 2 by (unfold on_line; vring). rewrite dist_sym. apply on_line_2. exact H. Qed.

(** If a pair of sides is chosen, the distance of the RSS is attained, and is zero exactly if they have a common point *)
Theorem rss_distance_attained : forall b1 b2 e, ortho (rax b1) -> ortho (rax b2) -> 0 <= rl0 b1 -> 0 <= rl1 b1 -> 0 <= rl0 b2 -> 0 <= rl1 b2 -> 0 <= rr b1 -> 0 <= rr b2 ->
  rect_edges (mtmul (rax b1) (rax b2)) (mtapply (rax b1) (vsub (To b2) (To b1))) (rl0 b1) (rl1 b1) (rl0 b2) (rl1 b2) = Some e ->
  (exists p q, in_rss b1 p /\ in_rss b2 q /\ dist p q = rss_distance b1 b2) /\ (rss_overlap b1 b2 = true -> exists p, in_rss b1 p /\ in_rss b2 p).
Proof.
  intros b1 b2 [[P Q] d] O1 O2 L0 L1 L2 L3 R1 R2 E. assert (G : rss_gap b1 b2 = d) by (unfold rss_gap, rect_distance; rewrite E; reflexivity).
  assert (O : ortho (mtmul (rax b1) (rax b2))). { unfold ortho, mtmul. cbn [m0 m1 m2]. rewrite !mt_dot by exact O1. exact O2. }
  apply rect_edges_nearest in E; try assumption. destruct E as ((X & Y & HX & HY & EP) & (X' & Y' & HX' & HY' & EQ) & D & _).
  destruct (rect_at _ _ HX) as (x & Hx & Ex). destruct (rect_at _ _ HY) as (y & Hy & Ey). destruct (rect_at _ _ HX') as (x' & Hx' & Ex'). destruct (rect_at _ _ HY') as (y' & Hy' & Ey').
  assert (D' : dist (rect b1 x y) (rect b2 x' y') = d).
  { rewrite D. replace (dist (rect b1 x y) (rect b2 x' y')) with (dist (mtapply (rax b1) (vsub (rect b1 x y) (To b1))) (mtapply (rax b1) (vsub (rect b2 x' y') (To b1)))).
    2: { unfold dist. rewrite <- mtapply_sub, mt_norm by exact O1. f_equal. vring. }
    f_equal.
    - rewrite EP, <- (mt_mapply (rax b1) (mk3 X Y 0) O1). f_equal. unfold rect. rewrite Ex, Ey. vring.
    - rewrite EQ. unfold rect, mtmul. cbn [m0 m1 m2]. rewrite Ex', Ey'. vring. }
  set (p := rect b1 x y) in *. set (q := rect b2 x' y') in *.
  assert (I1 : forall z, dist z p <= rr b1 -> in_rss b1 z) by (intros z Hz; exists x, y; auto). assert (I2 : forall z, dist z q <= rr b2 -> in_rss b2 z) by (intros z Hz; exists x', y'; auto).
  assert (N : 0 <= d) by (rewrite <- D'; apply dist_nonneg).
  assert (C : d <= rr b1 + rr b2 -> exists z, in_rss b1 z /\ in_rss b2 z).
  { intros H. destruct (Req_dec (rr b1 + rr b2) 0) as [Z|Z].
    - exists p. split; [apply I1; rewrite dist_refl; exact R1|apply I2; lra].
    - destruct (rect_at (rr b1 + rr b2) (rr b1) ltac:(lra)) as (k & Hk & Ek). exists (on_line p q k). split; [apply I1; rewrite on_line_l by lra|apply I2; rewrite on_line_r by lra]; rewrite D'; nra. }
  split.
  - unfold rss_distance. rewrite G. cbv zeta. destruct (Rlt_dec (d - (rr b1 + rr b2)) 0) as [H|H].
    + destruct C as (z & Z1 & Z2); [lra|]. exists z, z. rewrite dist_refl. auto.
    + destruct (rect_at d (rr b1) ltac:(lra)) as (k & Hk & Ek). destruct (rect_at d (rr b2) ltac:(lra)) as (h & Hh & Eh).
      destruct (Req_dec d 0) as [Z|Z].
      * exists p, q. split; [apply I1; rewrite dist_refl; exact R1|]. split; [apply I2; rewrite dist_refl; exact R2|]. lra.
      * assert (K : k <= 1 - h) by (apply (Rmult_le_reg_r d); lra). exists (on_line p q k), (on_line p q (1 - h)).
        split; [apply I1; rewrite on_line_l by lra; rewrite D'; lra|]. split; [apply I2; rewrite on_line_r by lra; rewrite D'; lra|]. rewrite dist_sym, on_line_2 by exact K. rewrite D'. lra.
  - unfold rss_overlap. rewrite G. destruct (Rle_dec _ _) as [H|H]; [intros _; exact (C H)|discriminate].
Qed.
Print Assumptions rss_distance_attained.

(** The same with the second volume moved by a transform *)
Definition rss_moved (X : tf) (b : rss) : rss := Rss (tf_apply X (To b)) (mmul (tf_rot X) (rax b)) (rl0 b) (rl1 b) (rr b).
Lemma rect_moved : forall X b x y, rect (rss_moved X b) x y = tf_apply X (rect b x y).
Proof. intros X b x y. unfold rect, rss_moved. cbn [To rax rl0 rl1]. unfold mmul. cbn [m0 m1]. unfold tf_apply. vring. Qed.
Lemma in_moved : forall X b q, ortho (tf_rot X) -> in_rss b q -> in_rss (rss_moved X b) (tf_apply X q).
Proof. intros X b q O (x & y & Hx & Hy & H). exists x, y. rewrite rect_moved, tf_dist by exact O. auto. Qed.
Lemma moved_in : forall X b q, ortho (tf_rot X) -> in_rss (rss_moved X b) q -> exists q', in_rss b q' /\ q = tf_apply X q'.
Proof.
  intros X b q O (x & y & Hx & Hy & H). exists (tf_inv_apply X q). split; [|symmetry; apply tf_inv_right, O]. exists x, y. split; [exact Hx|]. split; [exact Hy|].
  rewrite rect_moved in H. rewrite <- (tf_dist X) by exact O. rewrite tf_inv_right by exact O. exact H.
Qed.
Lemma ortho_mmul_rt : forall A B, ortho A -> ortho B -> ortho (mmul A B).
Proof. intros A B HA HB. unfold ortho, mmul. cbn [m0 m1 m2]. rewrite !mapply_dot by exact HA. exact HB. Qed.

Theorem rss_rt_bound : forall X b1 b2, ortho (tf_rot X) -> ortho (rax b1) -> ortho (rax b2) -> 0 <= rl0 b1 -> 0 <= rl1 b1 -> 0 <= rl0 b2 -> 0 <= rl1 b2 ->
  (forall p q, in_rss b1 p -> in_rss b2 q -> 0 <= rss_distance_rt X b1 b2 <= dist p (tf_apply X q)) /\
  (forall q, in_rss b1 (tf_apply X q) -> in_rss b2 q -> rss_overlap_rt X b1 b2 = true).
Proof.
  intros X b1 b2 OX O1 O2 L0 L1 L2 L3. pose proof (ortho_mmul_rt _ _ OX O2) as O. split.
  - intros p q Hp Hq. exact (rss_distance_bound b1 (rss_moved X b2) p (tf_apply X q) O1 O L0 L1 L2 L3 Hp (in_moved X b2 q OX Hq)).
  - intros q Hp Hq. exact (rss_overlap_complete b1 (rss_moved X b2) (tf_apply X q) O1 O L0 L1 L2 L3 Hp (in_moved X b2 q OX Hq)).
Qed.
Print Assumptions rss_rt_bound.

Theorem rss_rt_attained : forall X b1 b2 e, ortho (tf_rot X) -> ortho (rax b1) -> ortho (rax b2) -> 0 <= rl0 b1 -> 0 <= rl1 b1 -> 0 <= rl0 b2 -> 0 <= rl1 b2 -> 0 <= rr b1 -> 0 <= rr b2 ->
  rect_edges (mtmul (rax b1) (mmul (tf_rot X) (rax b2))) (mtapply (rax b1) (vsub (tf_apply X (To b2)) (To b1))) (rl0 b1) (rl1 b1) (rl0 b2) (rl1 b2) = Some e ->
  (exists p q, in_rss b1 p /\ in_rss b2 q /\ dist p (tf_apply X q) = rss_distance_rt X b1 b2) /\ (rss_overlap_rt X b1 b2 = true -> exists q, in_rss b1 (tf_apply X q) /\ in_rss b2 q).
Proof.
  intros X b1 b2 e OX O1 O2 L0 L1 L2 L3 R1 R2 E. pose proof (ortho_mmul_rt _ _ OX O2) as O.
  destruct (rss_distance_attained b1 (rss_moved X b2) e O1 O L0 L1 L2 L3 R1 R2 E) as ((p & q & Hp & Hq & D) & C). split.
  - destruct (moved_in X b2 q OX Hq) as (q' & Hq' & ->). exists p, q'. split; [exact Hp|]. split; [exact Hq'|]. exact D.
  - intros H. destruct (C H) as (z & Z1 & Z2). destruct (moved_in X b2 z OX Z2) as (q' & Hq' & ->). exists q'. auto.
Qed.
Print Assumptions rss_rt_attained.

(** Crossing sides one above the other: the nearest points are in the middle *)
Example cross_sides : seg_coords 2 2 0 1 (-1) = (1, 1).
Proof.
  unfold seg_coords. destruct (Req_EM_T (1 - 0 * 0) 0); [lra|]. assert (C : clip_to_range ((1 - -1 * 0) / (1 - 0 * 0)) 0 2 = 1). { unfold clip_to_range. replace ((1 - -1 * 0) / (1 - 0 * 0)) with 1 by field. destruct (Rlt_dec 1 0); [lra|]. destruct (Rlt_dec 2 1); lra. }
  cbv zeta. rewrite C. destruct (Rlt_dec (1 * 0 - -1) 0); [lra|]. destruct (Rlt_dec 2 (1 * 0 - -1)); [lra|]. f_equal. ring.
Qed.
(** Parallel sides *)
Example parallel_sides : seg_coords 2 2 1 5 5 = (2, 0).
Proof.
  unfold seg_coords. destruct (Req_EM_T (1 - 1 * 1) 0); [|lra]. cbv zeta. destruct (Rlt_dec (0 * 1 - 5) 0); [|lra]. f_equal. unfold clip_to_range. destruct (Rlt_dec 5 0); [lra|]. destruct (Rlt_dec 2 5); lra.
Qed.
(** A second side that leaves the plane and comes closer *)
Example voronoi_case : in_voronoi 1 1 1 0 0 0 (-1) = true.
Proof.
  unfold in_voronoi. rewrite Rabs_R1. destruct (Rlt_dec 1 tiny) as [L|_]; [unfold tiny in L; lra|]. cbv zeta. replace (- 0 / 1) with 0 by field. assert (C : clip_to_range 0 0 1 = 0) by (unfold clip_to_range; destruct (Rlt_dec 0 0); [lra|destruct (Rlt_dec 1 0); lra]). rewrite C. replace (0 * 0 + 0) with 0 by ring. rewrite C.
  destruct (Rlt_dec 0 1); [|lra]. destruct (Rlt_dec _ _) as [_|L]; [reflexivity|]. exfalso. apply L. unfold tiny. lra.
Qed.

(** Two unit squares in a plane, the second one turned around, with facing sides 2 apart: the first pair of sides is chosen *)
Example facing_sides : rect_edges (mkm (mk3 (-1) 0 0) (mk3 0 1 0) (mk3 0 0 (-1))) (mk3 4 0 0) 1 1 1 1 = Some (mk3 1 0 0, mk3 3 0 0, 2).
Proof.
  assert (S : seg_coords 1 1 1 0 0 = (0, 0)). { unfold seg_coords. destruct (Req_EM_T (1 - 1 * 1) 0); [|lra]. cbv zeta. destruct (Rlt_dec (0 * 1 - 0) 0); [lra|]. destruct (Rlt_dec 1 (0 * 1 - 0)); [lra|]. f_equal. ring. }
  unfold rect_edges, first_some. cbn [fold_right]. match goal with |- match ?e with _ => _ end = _ => assert (E : e = Some (mk3 1 0 0, mk3 3 0 0, 2)) end; [|rewrite E; reflexivity].
  unfold edge_UA1_UB1, edge_case. names. unfold dot. cbn [m0 m1 c0 c1 c2].
  assert (G : forall x y, y < x -> gt x y = true) by (intros x y H; unfold gt; destruct (Rlt_dec y x); [reflexivity|contradiction]).
  repeat (match goal with |- context [gt ?x ?y] => rewrite (G x y) by (repeat (match goal with |- context [Rlt_dec ?p ?q] => destruct (Rlt_dec p q) end); lra) end). cbn [andb orb].
  match goal with |- context [seg_coords 1 1 1 ?x ?y] => replace x with 0 by lra; replace y with 0 by lra end. rewrite S.
  match goal with |- context [norm ?v] => replace v with (mk3 2 0 0) by (f_equal; lra) end. f_equal. f_equal; [f_equal; unfold vadd; cbn; f_equal; lra|].
  unfold norm, norm2, dot. cbn [c0 c1 c2]. replace (2 * 2 + 0 * 0 + 0 * 0) with (2 * 2) by ring. apply sqrt_square. lra.
Qed.
(** Two RSS with facing sides: the distance of the sides without the radii *)
Example facing_rss : rss_distance (Rss vzero mid 1 1 (1 / 2)) (Rss (mk3 4 0 0) (mkm (mk3 (-1) 0 0) (mk3 0 1 0) (mk3 0 0 (-1))) 1 1 (1 / 2)) = 1.
Proof.
  unfold rss_distance, rss_gap, rect_distance. cbn [To rax rl0 rl1 rr].
  replace (mtmul mid (mkm (mk3 (-1) 0 0) (mk3 0 1 0) (mk3 0 0 (-1)))) with (mkm (mk3 (-1) 0 0) (mk3 0 1 0) (mk3 0 0 (-1))) by (unfold mtmul, mtapply, mid, dot; cbn [m0 m1 m2 c0 c1 c2]; repeat f_equal; ring).
  replace (mtapply mid (vsub (mk3 4 0 0) vzero)) with (mk3 4 0 0) by (unfold mtapply, mid, vzero, vsub, dot; cbn [m0 m1 m2 c0 c1 c2]; f_equal; ring). rewrite facing_sides. cbv zeta. destruct (Rlt_dec _ 0); lra.
Qed.
(** P and Q are not points of the rectangles if no pair of sides is chosen: a square above the middle of a larger one and tilted; the distance 1 is right, but the points are the corner
    of the first square and a point that is not in the second one *)
Theorem rect_points_refuted : let Rab := mkm (mk3 (4 / 5) 0 (3 / 5)) (mk3 0 1 0) (mk3 (- (3 / 5)) 0 (4 / 5)) in let Tab := mk3 5 5 1 in
  ortho Rab /\ rect_distance Rab Tab 10 10 1 1 = 1 /\ exists Q, rect_points Rab Tab 10 10 1 1 = Some (vzero, Q) /\ ~ in_rect_b Rab Tab 1 1 Q.
Proof.
  intros Rab Tab. assert (G : forall x y, x <= y -> gt x y = false) by (intros x y H; unfold gt; destruct (Rlt_dec y x); [lra|reflexivity]).
  assert (N : forall p1 x y q1 q2 v1 v2 tu D P, x <= y -> edge_case p1 (gt x y) q1 q2 v1 v2 tu D P = None) by (intros; unfold edge_case; rewrite G by assumption; rewrite Bool.andb_false_r; reflexivity).
  assert (E : rect_edges Rab Tab 10 10 1 1 = None).
  { unfold rect_edges, first_some. cbn [fold_right]. unfold Rab, Tab.
    match goal with |- match ?e with _ => _ end = _ => assert (X : e = None) by (unfold edge_UA1_UB1; apply N; names; cbn [m0 m1 c0 c1 c2]; repeat (match goal with |- context [Rlt_dec ?p ?q] => destruct (Rlt_dec p q) end); lra); rewrite X; clear X end.
    match goal with |- match ?e with _ => _ end = _ => assert (X : e = None) by (unfold edge_UA1_LB1; apply N; names; cbn [m0 m1 c0 c1 c2]; repeat (match goal with |- context [Rlt_dec ?p ?q] => destruct (Rlt_dec p q) end); lra); rewrite X; clear X end.
    match goal with |- match ?e with _ => _ end = _ => assert (X : e = None) by (unfold edge_LA1_UB1; apply N; names; cbn [m0 m1 c0 c1 c2]; repeat (match goal with |- context [Rlt_dec ?p ?q] => destruct (Rlt_dec p q) end); lra); rewrite X; clear X end.
    match goal with |- match ?e with _ => _ end = _ => assert (X : e = None) by (unfold edge_LA1_LB1; apply N; names; cbn [m0 m1 c0 c1 c2]; repeat (match goal with |- context [Rlt_dec ?p ?q] => destruct (Rlt_dec p q) end); lra); rewrite X; clear X end.
    match goal with |- match ?e with _ => _ end = _ => assert (X : e = None) by (unfold edge_UA1_UB0; apply N; names; cbn [m0 m1 c0 c1 c2]; repeat (match goal with |- context [Rlt_dec ?p ?q] => destruct (Rlt_dec p q) end); lra); rewrite X; clear X end.
    match goal with |- match ?e with _ => _ end = _ => assert (X : e = None) by (unfold edge_UA1_LB0; apply N; names; cbn [m0 m1 c0 c1 c2]; repeat (match goal with |- context [Rlt_dec ?p ?q] => destruct (Rlt_dec p q) end); lra); rewrite X; clear X end.
    match goal with |- match ?e with _ => _ end = _ => assert (X : e = None) by (unfold edge_LA1_UB0; apply N; names; cbn [m0 m1 c0 c1 c2]; repeat (match goal with |- context [Rlt_dec ?p ?q] => destruct (Rlt_dec p q) end); lra); rewrite X; clear X end.
    match goal with |- match ?e with _ => _ end = _ => assert (X : e = None) by (unfold edge_LA1_LB0; apply N; names; cbn [m0 m1 c0 c1 c2]; repeat (match goal with |- context [Rlt_dec ?p ?q] => destruct (Rlt_dec p q) end); lra); rewrite X; clear X end.
    match goal with |- match ?e with _ => _ end = _ => assert (X : e = None) by (unfold edge_UA0_UB1; apply N; names; cbn [m0 m1 c0 c1 c2]; repeat (match goal with |- context [Rlt_dec ?p ?q] => destruct (Rlt_dec p q) end); lra); rewrite X; clear X end.
    match goal with |- match ?e with _ => _ end = _ => assert (X : e = None) by (unfold edge_UA0_LB1; apply N; names; cbn [m0 m1 c0 c1 c2]; repeat (match goal with |- context [Rlt_dec ?p ?q] => destruct (Rlt_dec p q) end); lra); rewrite X; clear X end.
    match goal with |- match ?e with _ => _ end = _ => assert (X : e = None) by (unfold edge_LA0_UB1; apply N; names; cbn [m0 m1 c0 c1 c2]; repeat (match goal with |- context [Rlt_dec ?p ?q] => destruct (Rlt_dec p q) end); lra); rewrite X; clear X end.
    match goal with |- match ?e with _ => _ end = _ => assert (X : e = None) by (unfold edge_LA0_LB1; apply N; names; cbn [m0 m1 c0 c1 c2]; repeat (match goal with |- context [Rlt_dec ?p ?q] => destruct (Rlt_dec p q) end); lra); rewrite X; clear X end.
    match goal with |- match ?e with _ => _ end = _ => assert (X : e = None) by (unfold edge_UA0_UB0; apply N; names; cbn [m0 m1 c0 c1 c2]; repeat (match goal with |- context [Rlt_dec ?p ?q] => destruct (Rlt_dec p q) end); lra); rewrite X; clear X end.
    match goal with |- match ?e with _ => _ end = _ => assert (X : e = None) by (unfold edge_UA0_LB0; apply N; names; cbn [m0 m1 c0 c1 c2]; repeat (match goal with |- context [Rlt_dec ?p ?q] => destruct (Rlt_dec p q) end); lra); rewrite X; clear X end.
    match goal with |- match ?e with _ => _ end = _ => assert (X : e = None) by (unfold edge_LA0_UB0; apply N; names; cbn [m0 m1 c0 c1 c2]; repeat (match goal with |- context [Rlt_dec ?p ?q] => destruct (Rlt_dec p q) end); lra); rewrite X; clear X end.
    match goal with |- match ?e with _ => _ end = _ => assert (X : e = None) by (unfold edge_LA0_LB0; apply N; names; cbn [m0 m1 c0 c1 c2]; repeat (match goal with |- context [Rlt_dec ?p ?q] => destruct (Rlt_dec p q) end); lra); rewrite X; clear X end.
    reflexivity. }
  assert (S1 : sep1 Rab Tab 1 1 = 1). { unfold sep1, Rab, Tab. cbn [m0 m1 c0 c1 c2]. destruct (Rlt_dec 0 1); [|lra]. destruct (Rlt_dec (3 / 5) 0); [lra|]. destruct (Rlt_dec 0 0); lra. }
  assert (S2 : sep2 Rab Tab 10 10 < 0). { unfold sep2, Tba2, Rab, Tab, dot. cbn [m0 m1 m2 c0 c1 c2]. destruct (Rlt_dec _ 0) as [L|L]; [|lra]. destruct (Rlt_dec (- (3 / 5)) 0); [|lra]. destruct (Rlt_dec 0 0); lra. }
  split; [unfold ortho, Rab, dot; cbn [m0 m1 m2 c0 c1 c2]; repeat split; lra|]. split.
  - unfold rect_distance. rewrite E, S1. cbv zeta. destruct (Rlt_dec (sep2 Rab Tab 10 10) 1); [|lra]. destruct (Rlt_dec 0 1); lra.
  - exists (mk3 0 0 1). split.
    + unfold rect_points. rewrite E, S1. destruct (Rle_dec 1 (sep2 Rab Tab 10 10)); [lra|]. destruct (Rle_dec 0 1); [|lra]. unfold Tab. cbn [c2]. destruct (Rlt_dec 0 1); [reflexivity|lra].
    + intros (x & y & Hx & Hy & Q). unfold Rab, Tab, vadd, vscale in Q. cbn [m0 m1 c0 c1 c2] in Q. apply (f_equal c0) in Q. cbn [c0] in Q. lra.
Qed.
Print Assumptions rect_points_refuted.
