(** Queries between a sphere and a triangle
    (include/fcl/narrowphase/detail/primitive_shape_algorithm/sphere_triangle-inl.h), over the
    reals.  [eps] stands for numeric_limits<S>::epsilon(); the output pointers are taken to be
    non-null where a definition returns the corresponding value. *)
From Coq Require Import Nsatz Reals Lra Psatz Lia Arith List Bool.
From Verif Require Import VecR Project Prim.
Import ListNotations.
Open Scope R_scope.

(** segmentSqrDistance (79-108): the squared distance and the nearest point *)
Definition seg_sqr (from to p : v3) : R * v3 :=
  let diff := vsub p from in
  let v := vsub to from in
  let t := dot v diff in
  if Rlt_dec 0 t then
    let vv := dot v v in
    if Rlt_dec t vv then
      let t := t / vv in
      let d := vsub diff (vscale t v) in (dot d d, vadd from (vscale t v))
    else let d := vsub diff v in (dot d d, vadd from (vscale 1 v))
  else (dot diff diff, vadd from (vscale 0 v)).

Definition gtb (x y : R) : bool := if Rlt_dec y x then true else false.
Definition leb (x y : R) : bool := if Rle_dec x y then true else false.

(** projectInTriangle (110-137) *)
Definition proj_in_tri (p1 p2 p3 normal p : v3) : bool :=
  let r1 := dot (cross (vsub p2 p1) normal) (vsub p p1) in
  let r2 := dot (cross (vsub p3 p2) normal) (vsub p p2) in
  let r3 := dot (cross (vsub p1 p3) normal) (vsub p p3) in
  ((gtb r1 0 && gtb r2 0 && gtb r3 0) || (leb r1 0 && leb r2 0 && leb r3 0))%bool.

(** the three edge tests of sphereTriangleIntersect (172-194): each hit overwrites the point *)
Definition edge_test (k : R) (from to center : v3) (found : option v3) : option v3 :=
  let (d2, q) := seg_sqr from to center in if Rlt_dec d2 k then Some q else found.

(** sphereTriangleIntersect (139-222); None for "return false" *)
Definition st_intersect (eps r : R) (X : tf) (P1 P2 P3 : v3) : option contact :=
  let normal0 := unitize (cross (vsub P2 P1) (vsub P3 P1)) in
  let center := tf_tr X in
  let rt := r + eps in
  let d0 := dot (vsub center P1) normal0 in
  let '(d, normal) := if Rlt_dec d0 0 then (d0 * -1, vscale (-1) normal0) else (d0, normal0) in
  let found :=
    if Rlt_dec d rt then
      if proj_in_tri P1 P2 P3 normal center then Some (vsub center (vscale d normal))
      else let k := rt * rt in
        edge_test k P3 P1 center (edge_test k P2 P3 center (edge_test k P1 P2 center None))
    else None in
  match found with
  | None => None
  | Some cp =>
      let v := vsub cp center in
      let d2 := norm2 v in
      if Rlt_dec d2 (rt * rt) then
        if Rlt_dec 0 d2 then Some (mkct (unitize v) cp (- (r - sqrt d2)))
        else Some (mkct (vneg normal) cp (- r))
      else None
  end.

(** The squared distance of sphereTriangleDistance (231-425) from the coefficients of the
    quadratic function of the edge parameters; None for a quotient by zero (285-289), where the
    result is not a number. *)
Definition tri_sqr (a00 a01 a11 b0 b1 c : R) : option R :=
  let det := Rabs (a00 * a11 - a01 * a01) in
  let s := a01 * b1 - a11 * b0 in
  let t := a01 * b0 - a00 * b1 in
  let q s t := s * (a00 * s + a01 * t + 2 * b0) + t * (a01 * s + a11 * t + 2 * b1) + c in
  let only_s := if Rle_dec a00 (- b0) then a00 + 2 * b0 + c else let s := - b0 / a00 in b0 * s + c in
  let only_t := if Rle_dec a11 (- b1) then a11 + 2 * b1 + c else let t := - b1 / a11 in b1 * t + c in
  if Rle_dec (s + t) det then
    if Rlt_dec s 0 then
      if Rlt_dec t 0 then (* region 4 *)
        if Rlt_dec b0 0 then Some only_s
        else if Rle_dec 0 b1 then Some c else Some only_t
      else (* region 3 *)
        if Rle_dec 0 b1 then Some c else Some only_t
    else if Rlt_dec t 0 then (* region 5 *)
      if Rle_dec 0 b0 then Some c else Some only_s
    else (* region 0 *)
      if Req_EM_T det 0 then None
      else let inv := 1 / det in Some (q (s * inv) (t * inv))
  else
    let denom := a00 - 2 * a01 + a11 in
    if Rlt_dec s 0 then (* region 2 *)
      let tmp0 := a01 + b0 in let tmp1 := a11 + b1 in
      if Rlt_dec tmp0 tmp1 then
        let numer := tmp1 - tmp0 in
        if Rle_dec denom numer then Some (a00 + 2 * b0 + c)
        else let s := numer / denom in Some (q s (1 - s))
      else if Rle_dec tmp1 0 then Some (a11 + 2 * b1 + c)
      else if Rle_dec 0 b1 then Some c
      else let t := - b1 / a11 in Some (b1 * t + c)
    else if Rlt_dec t 0 then (* region 6 *)
      let tmp0 := a01 + b1 in let tmp1 := a00 + b0 in
      if Rlt_dec tmp0 tmp1 then
        let numer := tmp1 - tmp0 in
        if Rle_dec denom numer then Some (a11 + 2 * b1 + c)
        else let t := numer / denom in Some (q (1 - t) t)
      else if Rle_dec tmp1 0 then Some (a00 + 2 * b0 + c)
      else if Rle_dec 0 b0 then Some c
      else let s := - b0 / a00 in Some (b0 * s + c)
    else (* region 1 *)
      let numer := a11 + b1 - a01 - b0 in
      if Rle_dec numer 0 then Some (a11 + 2 * b1 + c)
      else if Rle_dec denom numer then Some (a00 + 2 * b0 + c)
      else let s := numer / denom in Some (q s (1 - s)).

(** sphereTriangleDistance without points (224-439): the value returned and [dist]; a comparison
    with a value that is not a number is false *)
Definition st_distance (r : R) (X : tf) (P1 P2 P3 : v3) : bool * R :=
  let center := tf_tr X in
  let diff := vsub P1 center in let e0 := vsub P2 P1 in let e1 := vsub P3 P1 in
  match tri_sqr (norm2 e0) (dot e0 e1) (norm2 e1) (dot diff e0) (dot diff e1) (norm2 diff) with
  | None => (false, -1)
  | Some d2 =>
      let d2 := if Rlt_dec d2 0 then 0 else d2 in
      if Rlt_dec (r * r) d2 then (true, sqrt d2 - r) else (false, -1)
  end.

(** sphereTriangleDistance with points (441-470), p1 and p2 not null: None for "return false"
    (nothing is written), otherwise [dist], [p1] in the frame of the sphere, [p2] in the frame of
    the triangle *)
Definition st_points (r : R) (X : tf) (P1 P2 P3 : v3) : option (R * v3 * v3) :=
  let o := tf_tr X in
  let res := project_triangle P1 P2 P3 o in
  if Rlt_dec (r * r) (sd res) then
    let pp := vadd (vadd (vscale (par res 0) P1) (vscale (par res 1) P2)) (vscale (par res 2) P3) in
    let dir := unitize (vsub o pp) in
    Some (sqrt (sd res) - r, tf_inv_apply X (vsub o (vscale r dir)), pp)
  else None.

(** sphereTriangleDistance with a transform of the triangle (472-482) *)
Definition st_placed (r : R) (X1 : tf) (P1 P2 P3 : v3) (X2 : tf) : option (R * v3 * v3) :=
  match st_points r X1 (tf_apply X2 P1) (tf_apply X2 P2) (tf_apply X2 P3) with
  | None => None
  | Some (d, p1, p2) => Some (d, p1, tf_inv_apply X2 p2)
  end.

(** ** The quadratic function over the triangle of parameters *)
Section Quad.
  Variables a00 a01 a11 b0 b1 c : R.
  Hypothesis H0 : 0 < a00.
  Hypothesis H1 : 0 < a11.
  Hypothesis HD : 0 < a00 * a11 - a01 * a01.
  Definition quad (s t : R) : R := a00 * s * s + 2 * a01 * s * t + a11 * t * t + 2 * b0 * s + 2 * b1 * t + c.
  Definition simplex (s t : R) : Prop := 0 <= s /\ 0 <= t /\ s + t <= 1.
  Definition qmin (d : R) : Prop := (exists s t, simplex s t /\ d = quad s t) /\ forall s t, simplex s t -> d <= quad s t.

  Lemma form_pos : forall x y, 0 <= a00 * x * x + 2 * a01 * x * y + a11 * y * y.
  Proof.
    intros x y. assert (E : a00 * (a00 * x * x + 2 * a01 * x * y + a11 * y * y) = (a00 * x + a01 * y) * (a00 * x + a01 * y) + (a00 * a11 - a01 * a01) * (y * y)) by ring.
    pose proof (Rle_0_sqr (a00 * x + a01 * y)) as Q1. pose proof (Rle_0_sqr y) as Q2. unfold Rsqr in *.
    assert (0 <= a00 * (a00 * x * x + 2 * a01 * x * y + a11 * y * y)) by (rewrite E; apply Rplus_le_le_0_compat; [exact Q1|apply Rmult_le_pos; lra]).
    destruct (Rle_lt_dec 0 (a00 * x * x + 2 * a01 * x * y + a11 * y * y)) as [|N]; [assumption|].
    exfalso. assert (0 < a00 * - (a00 * x * x + 2 * a01 * x * y + a11 * y * y)) by (apply Rmult_lt_0_compat; lra). lra.
  Qed.

  Lemma denom_pos : 0 < a00 - 2 * a01 + a11.
  Proof.
    pose proof (form_pos 1 (-1)) as F. destruct (Rle_lt_dec (a00 - 2 * a01 + a11) 0) as [N|]; [exfalso|assumption].
    assert (E : a00 * (a00 - 2 * a01 + a11) = (a00 - a01) * (a00 - a01) + (a00 * a11 - a01 * a01)) by ring.
    pose proof (Rle_0_sqr (a00 - a01)) as Q. unfold Rsqr in Q. assert (0 <= a00 * - (a00 - 2 * a01 + a11)) by (apply Rmult_le_pos; lra). lra.
  Qed.

  (** the conditions at the three corners of the parameters *)
  Lemma kkt : forall s t d, simplex s t -> d = quad s t ->
    let gs := a00 * s + a01 * t + b0 in let gt := a01 * s + a11 * t + b1 in
    0 <= - gs * s - gt * t -> 0 <= gs * (1 - s) - gt * t -> 0 <= - gs * s + gt * (1 - t) -> qmin d.
  Proof.
    intros s t d Hst Hd gs gt K0 K1 K2. split; [exists s, t; auto|]. intros s' t' (S0 & T0 & ST).
    pose proof (form_pos (s' - s) (t' - t)) as F.
    assert (E : quad s' t' - d = 2 * (gs * (s' - s) + gt * (t' - t)) + (a00 * (s' - s) * (s' - s) + 2 * a01 * (s' - s) * (t' - t) + a11 * (t' - t) * (t' - t)))
      by (rewrite Hd; unfold quad, gs, gt; ring).
    assert (L : gs * (s' - s) + gt * (t' - t) = (1 - s' - t') * (- gs * s - gt * t) + s' * (gs * (1 - s) - gt * t) + t' * (- gs * s + gt * (1 - t))) by ring.
    assert (0 <= (1 - s' - t') * (- gs * s - gt * t)) by (apply Rmult_le_pos; lra).
    assert (0 <= s' * (gs * (1 - s) - gt * t)) by (apply Rmult_le_pos; lra).
    assert (0 <= t' * (- gs * s + gt * (1 - t))) by (apply Rmult_le_pos; lra). lra.
  Qed.

  Lemma mul_neg : forall x y, 0 <= x -> y <= 0 -> x * y <= 0. Proof. intros. nra. Qed.
  Lemma corner : forall x y z g h, 0 < x -> 0 < x * z - y * y -> g <= 0 -> y * g <= x * h -> h * (y - x) + g * (y - z) <= 0 -> g <= h.
  Proof.
    intros x y z g h Hx Hd Hg T G. destruct (Rle_lt_dec g h) as [|N]; [assumption|exfalso].
    assert (x * h < x * g) by (apply Rmult_lt_compat_l; assumption).
    destruct (Rle_lt_dec y x) as [L|L].
    - pose proof (mul_neg (x - y) g ltac:(lra) Hg). lra.
    - assert (0 <= (y - x) * (x * h - y * g)) by (apply Rmult_le_pos; lra).
      assert (x * (h * (y - x) + g * (y - z)) <= 0) by (apply mul_neg; lra).
      assert (0 <= (x * z - y * y) * g) by lra.
      assert (g = 0) by nra. subst g. nra.
  Qed.

  Lemma corner2 : forall x y z b b', 0 < x -> 0 < x * z - y * y -> x * b' <= y * b -> y * b' <= z * b -> 0 <= b' -> 0 <= b.
  Proof.
    intros x y z b b' Hx Hd T S B. destruct (Rle_lt_dec 0 b) as [|N]; [assumption|exfalso].
    assert (0 <= x * b') by (apply Rmult_le_pos; lra).
    assert (y <= 0) by (destruct (Rle_lt_dec y 0); [assumption|]; nra).
    pose proof (mul_neg (y * b - x * b') y ltac:(lra) ltac:(assumption)).
    assert (0 <= x * (z * b - y * b')) by (apply Rmult_le_pos; lra).
    assert ((x * z - y * y) * - b <= 0) by lra. assert (0 < (x * z - y * y) * - b) by (apply Rmult_lt_0_compat; lra). lra.
  Qed.
  Lemma corner3 : forall x y z g h, 0 < x - 2 * y + z -> 0 < x * z - y * y -> g <= h -> 0 < h * (y - x) + g * (y - z) -> y * h + (x * z - y * y) <= z * g -> g <= 0.
  Proof.
    intros x y z g h Hp Hd L G S. destruct (Rle_lt_dec g 0) as [|N]; [assumption|exfalso].
    destruct (Rle_lt_dec y x) as [Y|Y].
    - pose proof (mul_neg (h - g) (y - x) ltac:(lra) ltac:(lra)). assert (0 < g * (x - 2 * y + z)) by (apply Rmult_lt_0_compat; assumption). lra.
    - destruct (Rle_lt_dec 0 y) as [Y0|Y0].
      + assert (0 <= y * (h * (y - x) + g * (y - z))) by (apply Rmult_le_pos; lra).
        assert (0 <= (y - x) * (z * g - (y * h + (x * z - y * y)))) by (apply Rmult_le_pos; lra).
        assert (0 < (x * z - y * y) * g) by (apply Rmult_lt_0_compat; assumption).
        assert (0 < (x * z - y * y) * (y - x)) by (apply Rmult_lt_0_compat; lra). lra.
      + nra.
  Qed.
  Lemma corner4 : forall x y z g h, 0 < z -> 0 < x * z - y * y -> h <= g -> z * g <= y * h -> 0 < h * (y - x) + g * (y - z) -> h <= 0.
  Proof.
    intros x y z g h Hz Hd L S G. destruct (Rle_lt_dec h 0) as [|N]; [assumption|exfalso].
    assert (z * h <= z * g) by (apply Rmult_le_compat_l; lra).
    assert (0 <= y - z) by (destruct (Rle_lt_dec z y); [lra|]; nra).
    assert (0 <= (y - z) * (y * h - z * g)) by (apply Rmult_le_pos; lra).
    assert (0 < z * (h * (y - x) + g * (y - z))) by (apply Rmult_lt_0_compat; lra).
    assert (0 < (x * z - y * y) * h) by (apply Rmult_lt_0_compat; lra). lra.
  Qed.

  Lemma frac : forall x y, 0 < y -> 0 <= x <= y -> 0 <= x / y <= 1.
  Proof.
    intros x y Hy [A B]. split; [apply Rmult_le_pos; [exact A|left; apply Rinv_0_lt_compat, Hy]|].
    apply Rmult_le_reg_r with y; [exact Hy|]. unfold Rdiv. rewrite Rmult_assoc, Rinv_l; lra.
  Qed.
  Lemma pos_div : forall x y, 0 < y -> 0 <= x -> 0 <= x / y.
  Proof. intros. apply Rmult_le_pos; [assumption|left; apply Rinv_0_lt_compat; assumption]. Qed.

  (** the five places where the minimum can be, with the conditions in terms of the coefficients *)
  Lemma at_origin : 0 <= b0 -> 0 <= b1 -> qmin c.
  Proof. intros. apply (kkt 0 0); [unfold simplex; lra|unfold quad; ring|..]; nra. Qed.
  Lemma at_one_s : a00 + b0 <= 0 -> a00 + b0 <= a01 + b1 -> qmin (a00 + 2 * b0 + c).
  Proof. intros. apply (kkt 1 0); [unfold simplex; lra|unfold quad; ring|..]; nra. Qed.
  Lemma at_one_t : a11 + b1 <= 0 -> a11 + b1 <= a01 + b0 -> qmin (a11 + 2 * b1 + c).
  Proof. intros. apply (kkt 0 1); [unfold simplex; lra|unfold quad; ring|..]; nra. Qed.
  Lemma on_s : b0 <= 0 -> - b0 <= a00 -> a01 * b0 - a00 * b1 <= 0 -> qmin (b0 * (- b0 / a00) + c).
  Proof.
    intros A B T. pose proof (frac (- b0) a00 H0 ltac:(lra)) as F.
    apply (kkt (- b0 / a00) 0); [unfold simplex; lra|unfold quad; field; lra|..].
    - replace (- (a00 * (- b0 / a00) + a01 * 0 + b0) * (- b0 / a00) - (a01 * (- b0 / a00) + a11 * 0 + b1) * 0) with 0 by (field; lra). lra.
    - replace ((a00 * (- b0 / a00) + a01 * 0 + b0) * (1 - - b0 / a00) - (a01 * (- b0 / a00) + a11 * 0 + b1) * 0) with 0 by (field; lra). lra.
    - replace (- (a00 * (- b0 / a00) + a01 * 0 + b0) * (- b0 / a00) + (a01 * (- b0 / a00) + a11 * 0 + b1) * (1 - 0)) with (- (a01 * b0 - a00 * b1) / a00) by (field; lra).
      apply pos_div; lra.
  Qed.
  Lemma on_t : b1 <= 0 -> - b1 <= a11 -> a01 * b1 - a11 * b0 <= 0 -> qmin (b1 * (- b1 / a11) + c).
  Proof.
    intros A B T. pose proof (frac (- b1) a11 H1 ltac:(lra)) as F.
    apply (kkt 0 (- b1 / a11)); [unfold simplex; lra|unfold quad; field; lra|..].
    - replace (- (a00 * 0 + a01 * (- b1 / a11) + b0) * 0 - (a01 * 0 + a11 * (- b1 / a11) + b1) * (- b1 / a11)) with 0 by (field; lra). lra.
    - replace ((a00 * 0 + a01 * (- b1 / a11) + b0) * (1 - 0) - (a01 * 0 + a11 * (- b1 / a11) + b1) * (- b1 / a11)) with (- (a01 * b1 - a11 * b0) / a11) by (field; lra).
      apply pos_div; lra.
    - replace (- (a00 * 0 + a01 * (- b1 / a11) + b0) * 0 + (a01 * 0 + a11 * (- b1 / a11) + b1) * (1 - - b1 / a11)) with 0 by (field; lra). lra.
  Qed.
  Lemma on_slope : forall s, let t := 1 - s in s * (a00 - 2 * a01 + a11) = a11 + b1 - a01 - b0 -> 0 <= s <= 1 ->
    a00 * a11 - a01 * a01 <= (a01 * b1 - a11 * b0) + (a01 * b0 - a00 * b1) ->
    qmin (s * (a00 * s + a01 * t + 2 * b0) + t * (a01 * s + a11 * t + 2 * b1) + c).
  Proof.
    intros s t Es Hs G. pose proof denom_pos as DP.
    assert (Eg : (a00 * s + a01 * t + b0) = (a01 * s + a11 * t + b1)) by (unfold t; lra).
    assert (Gg : (a00 - 2 * a01 + a11) * (a00 * s + a01 * t + b0) <= 0).
    { replace ((a00 - 2 * a01 + a11) * (a00 * s + a01 * t + b0)) with ((a00 - a01) * (s * (a00 - 2 * a01 + a11)) + (a01 + b0) * (a00 - 2 * a01 + a11)) by (unfold t; ring). rewrite Es. lra. }
    assert (a00 * s + a01 * t + b0 <= 0).
    { destruct (Rle_lt_dec (a00 * s + a01 * t + b0) 0) as [|N]; [assumption|]. exfalso. assert (0 < (a00 - 2 * a01 + a11) * (a00 * s + a01 * t + b0)) by (apply Rmult_lt_0_compat; assumption). lra. }
    apply (kkt s t); [unfold simplex, t; lra|unfold quad; ring|..]; cbv zeta; rewrite <- Eg; unfold t in *; nra.
  Qed.
  Lemma inside : let D := a00 * a11 - a01 * a01 in let s := (a01 * b1 - a11 * b0) / D in let t := (a01 * b0 - a00 * b1) / D in
    0 <= s -> 0 <= t -> s + t <= 1 -> qmin (s * (a00 * s + a01 * t + 2 * b0) + t * (a01 * s + a11 * t + 2 * b1) + c).
  Proof.
    intros D s t S0 T0 ST.
    assert (E0 : a00 * s + a01 * t + b0 = 0) by (unfold s, t, D; field; apply Rgt_not_eq; exact HD).
    assert (E1 : a01 * s + a11 * t + b1 = 0) by (unfold s, t, D; field; apply Rgt_not_eq; exact HD).
    apply (kkt s t); [unfold simplex; lra|unfold quad; ring|..]; cbv zeta; rewrite E0, E1; lra.
  Qed.

  Theorem tri_sqr_min : exists d, tri_sqr a00 a01 a11 b0 b1 c = Some d /\ qmin d.
  Proof.
    unfold tri_sqr. cbv zeta. rewrite (Rabs_right (a00 * a11 - a01 * a01)) by lra. pose proof denom_pos as DP.
    set (D := a00 * a11 - a01 * a01) in *. set (S := a01 * b1 - a11 * b0). set (T := a01 * b0 - a00 * b1).
    assert (OS : b0 < 0 -> T <= 0 -> S + T <= D -> qmin (if Rle_dec a00 (- b0) then a00 + 2 * b0 + c else b0 * (- b0 / a00) + c)).
    { intros A B G. destruct (Rle_dec a00 (- b0)); [|apply on_s; unfold T in B; lra]. apply at_one_s; [lra|].
      apply (corner a00 a01 a11); unfold S, T, D in *; lra. }
    assert (OT : b1 < 0 -> S <= 0 -> S + T <= D -> qmin (if Rle_dec a11 (- b1) then a11 + 2 * b1 + c else b1 * (- b1 / a11) + c)).
    { intros A B G. destruct (Rle_dec a11 (- b1)); [|apply on_t; unfold S in B; lra]. apply at_one_t; [lra|].
      apply (corner a11 a01 a00); unfold S, T, D in *; lra. }
    destruct (Rle_dec (S + T) D) as [G|G].
    - destruct (Rlt_dec S 0) as [Sn|Sn]; [destruct (Rlt_dec T 0) as [Tn|Tn]|destruct (Rlt_dec T 0) as [Tn|Tn]].
      + destruct (Rlt_dec b0 0); [eexists; split; [reflexivity|apply OS; lra]|].
        destruct (Rle_dec 0 b1); eexists; (split; [reflexivity|]); [apply at_origin; lra|apply OT; lra].
      + destruct (Rle_dec 0 b1); eexists; (split; [reflexivity|]); [apply at_origin; [apply (corner2 a00 a01 a11 b0 b1)|]; unfold S, T, D in *; lra|apply OT; lra].
      + destruct (Rle_dec 0 b0); eexists; (split; [reflexivity|]); [apply at_origin; [|apply (corner2 a11 a01 a00 b1 b0)]; unfold S, T, D in *; lra|apply OS; lra].
      + destruct (Req_EM_T D 0); [lra|]. eexists; split; [reflexivity|].
        replace (S * (1 / D)) with (S / D) by (field; lra). replace (T * (1 / D)) with (T / D) by (field; lra).
        apply inside; fold D S T; [apply pos_div; lra|apply pos_div; lra|].
        replace (S / D + T / D) with ((S + T) / D) by (field; lra). apply frac; lra.
    - assert (G' : D <= S + T) by lra.
      assert (Sl : forall n, n = a11 + b1 - a01 - b0 -> 0 <= n -> ~ (a00 - 2 * a01 + a11 <= n) -> let s := n / (a00 - 2 * a01 + a11) in
        qmin (s * (a00 * s + a01 * (1 - s) + 2 * b0) + (1 - s) * (a01 * s + a11 * (1 - s) + 2 * b1) + c)).
      { intros n -> Nn Nd s. apply on_slope; [unfold s; field; lra|apply frac; lra|exact G']. }
      assert (Sl' : forall n, n = a00 + b0 - a01 - b1 -> 0 <= n -> ~ (a00 - 2 * a01 + a11 <= n) -> let t := n / (a00 - 2 * a01 + a11) in
        qmin ((1 - t) * (a00 * (1 - t) + a01 * t + 2 * b0) + t * (a01 * (1 - t) + a11 * t + 2 * b1) + c)).
      { intros n -> Nn Nd t. replace t with (1 - (1 - t)) at 3 4 6 by ring.
        pose proof (frac (a00 + b0 - a01 - b1) _ DP ltac:(lra)) as F. fold t in F. apply on_slope; [unfold t; field; lra|lra|exact G']. }
      assert (Gs : 0 < S + T - D) by lra.
      destruct (Rlt_dec S 0) as [Sn|Sn]; [|destruct (Rlt_dec T 0) as [Tn|Tn]].
      + destruct (Rlt_dec (a01 + b0) (a11 + b1)).
        * destruct (Rle_dec (a00 - 2 * a01 + a11) (a11 + b1 - (a01 + b0))); eexists; (split; [reflexivity|]); [|apply Sl; lra].
          apply at_one_s; [apply (corner3 a00 a01 a11 _ (a01 + b1))|]; unfold S, T, D in *; lra.
        * destruct (Rle_dec (a11 + b1) 0); [eexists; split; [reflexivity|apply at_one_t; lra]|].
          destruct (Rle_dec 0 b1); eexists; (split; [reflexivity|]); [apply at_origin; [destruct (Rle_lt_dec 0 b0); [assumption|exfalso]|lra]; unfold S in *; nra|apply on_t; unfold S in *; lra].
      + destruct (Rlt_dec (a01 + b1) (a00 + b0)).
        * destruct (Rle_dec (a00 - 2 * a01 + a11) (a00 + b0 - (a01 + b1))); eexists; (split; [reflexivity|]); [|apply Sl'; lra].
          apply at_one_t; [apply (corner3 a11 a01 a00 _ (a01 + b0))|]; unfold S, T, D in *; lra.
        * destruct (Rle_dec (a00 + b0) 0); [eexists; split; [reflexivity|apply at_one_s; lra]|].
          destruct (Rle_dec 0 b0); eexists; (split; [reflexivity|]); [apply at_origin; [lra|destruct (Rle_lt_dec 0 b1); [assumption|exfalso]]; unfold T in *; nra|apply on_s; unfold T in *; lra].
      + destruct (Rle_dec (a11 + b1 - a01 - b0) 0); [eexists; split; [reflexivity|apply at_one_t; [apply (corner4 a00 a01 a11 (a01 + b0))|]; unfold S, T, D in *; lra]|].
        destruct (Rle_dec (a00 - 2 * a01 + a11) (a11 + b1 - a01 - b0)); eexists; (split; [reflexivity|]); [|apply Sl; lra].
        apply at_one_s; [apply (corner4 a11 a01 a00 (a01 + b1))|]; unfold S, T, D in *; lra.
  Qed.
End Quad.

(** ** Points of the triangle *)
Lemma cross_shift : forall a b c, cross (vsub b a) (vsub c a) = cross (vsub a b) (vsub b c).
Proof. intros [] [] []. unfold cross, vsub. cbn. f_equal; ring. Qed.

Lemma tri_quad : forall a b c p s t, norm2 (vsub (bary3 a b c (1 - s - t) s t) p) =
  quad (norm2 (vsub b a)) (dot (vsub b a) (vsub c a)) (norm2 (vsub c a)) (dot (vsub a p) (vsub b a)) (dot (vsub a p) (vsub c a)) (norm2 (vsub a p)) s t.
Proof. intros [] [] [] [] s t. unfold quad, bary3, norm2, dot, vsub, vadd, vscale. cbn. ring. Qed.

Lemma tri_simplex : forall a b c q, tri_pt a b c q <-> exists s t, simplex s t /\ q = bary3 a b c (1 - s - t) s t.
Proof.
  intros. split.
  - intros (x & y & z & X & Y & Z & E & ->). exists y, z. split; [unfold simplex; lra|]. f_equal; lra.
  - intros (s & t & (S & T & L) & ->). exists (1 - s - t), s, t. repeat split; lra.
Qed.

Lemma cross_nz : forall a b, cross a b <> vzero -> 0 < norm2 a /\ 0 < norm2 b /\ 0 < norm2 a * norm2 b - dot a b * dot a b.
Proof.
  intros a b H. pose proof (lagrange a b) as Lg.
  assert (0 < norm2 (cross a b)).
  { destruct (Rle_lt_or_eq_dec 0 _ (VecR.norm2_nonneg (cross a b))) as [|E]; [assumption|]. exfalso. apply H, norm2_zero. congruence. }
  pose proof (VecR.norm2_nonneg a). pose proof (VecR.norm2_nonneg b). repeat split; try lra; pose proof (Rle_0_sqr (dot a b)); unfold Rsqr in *; nra.
Qed.

Lemma tri_sqr_nearest : forall a b c p, cross (vsub b a) (vsub c a) <> vzero ->
  exists d q, tri_sqr (norm2 (vsub b a)) (dot (vsub b a) (vsub c a)) (norm2 (vsub c a)) (dot (vsub a p) (vsub b a)) (dot (vsub a p) (vsub c a)) (norm2 (vsub a p)) = Some d /\
    nearest (tri_pt a b c) p q d.
Proof.
  intros a b c p H. destruct (cross_nz _ _ H) as (A & B & D).
  destruct (tri_sqr_min _ _ _ (dot (vsub a p) (vsub b a)) (dot (vsub a p) (vsub c a)) (norm2 (vsub a p)) A B D) as (d & E & (s & t & Hst & Ed) & M).
  exists d, (bary3 a b c (1 - s - t) s t). split; [exact E|]. split; [apply tri_simplex; eauto|]. split; [rewrite tri_quad; exact Ed|].
  intros q Hq. apply tri_simplex in Hq. destruct Hq as (s' & t' & Hst' & ->). rewrite tri_quad. apply M, Hst'.
Qed.

Lemma tri_sqr_flat : forall a b c p, cross (vsub b a) (vsub c a) = vzero ->
  tri_sqr (norm2 (vsub b a)) (dot (vsub b a) (vsub c a)) (norm2 (vsub c a)) (dot (vsub a p) (vsub b a)) (dot (vsub a p) (vsub c a)) (norm2 (vsub a p)) = None.
Proof.
  intros a b c p H. set (u := vsub b a) in *. set (v := vsub c a) in *. set (w := vsub a p). clearbody u v w.
  assert (D : norm2 u * norm2 v - dot u v * dot u v = 0) by (pose proof (lagrange u v) as Lg; rewrite H in Lg; replace (norm2 vzero) with 0 in Lg by (unfold norm2, dot, vzero; cbn; ring); lra).
  assert (X : c1 u * c2 v - c2 u * c1 v = 0 /\ c2 u * c0 v - c0 u * c2 v = 0 /\ c0 u * c1 v - c1 u * c0 v = 0) by (unfold cross, vzero in H; injection H; auto).
  destruct X as (X & Y & Z).
  assert (S : dot u v * dot w v - norm2 v * dot w u = 0).
  { replace (dot u v * dot w v - norm2 v * dot w u) with (dot (cross v w) (cross u v)) by (destruct u, v, w; unfold norm2, dot, cross; cbn; ring). rewrite H. destruct v, w. unfold dot, cross, vzero. cbn. ring. }
  assert (T : dot u v * dot w u - norm2 u * dot w v = 0).
  { replace (dot u v * dot w u - norm2 u * dot w v) with (dot (cross w u) (cross u v)) by (destruct u, v, w; unfold norm2, dot, cross; cbn; ring). rewrite H. destruct u, w. unfold dot, cross, vzero. cbn. ring. }
  unfold tri_sqr. cbv zeta. rewrite D, S, T, Rabs_R0.
  destruct (Rle_dec (0 + 0) 0); [|lra]. destruct (Rlt_dec 0 0); [lra|]. destruct (Req_EM_T 0 0); [reflexivity|lra].
Qed.

(** ** The segment *)
Lemma seg_sqr_spec : forall a b p d q, seg_sqr a b p = (d, q) -> nearest (seg_pt a b) p q d.
Proof.
  intros a b p d q. unfold seg_sqr. cbv zeta. set (v := vsub b a). set (w := vsub p a). set (t := dot v w).
  assert (Pt : forall s, vadd a (vscale s v) = segp a b s) by (intros s; unfold v, segp; destruct a, b; unfold vadd, vscale, vsub; cbn; f_equal; ring).
  assert (Q : forall s, norm2 (vsub (segp a b s) p) = dot v v * s * s - 2 * t * s + dot w w).
  { intros s. unfold t, v, w, segp. destruct a, b, p. unfold norm2, dot, vadd, vscale, vsub. cbn. ring. }
  pose proof (VecR.norm2_nonneg v) as V. unfold norm2 in V.
  assert (M : forall s, 0 <= s <= 1 -> q = segp a b s -> d = dot v v * s * s - 2 * t * s + dot w w ->
     (forall k, 0 <= k <= 1 -> 0 <= (dot v v * s - t) * (k - s)) -> nearest (seg_pt a b) p q d).
  { intros s Hs -> Hd K. split; [exists s; auto|]. split; [rewrite Q; exact Hd|]. intros q' (k & Hk & ->). rewrite Q, Hd. specialize (K k Hk).
    assert (0 <= dot v v * ((k - s) * (k - s))) by (apply Rmult_le_pos; [exact V|apply Rle_0_sqr]).
    replace (dot v v * k * k - 2 * t * k) with (dot v v * s * s - 2 * t * s + 2 * ((dot v v * s - t) * (k - s)) + dot v v * ((k - s) * (k - s))) by ring. lra. }
  destruct (Rlt_dec 0 t) as [T|T]; [destruct (Rlt_dec t (dot v v)) as [L|L]|]; intros E; injection E as Ed Eq.
  - assert (Hf : 0 <= t / dot v v <= 1) by (apply frac; lra).
    apply (M (t / dot v v) Hf); [rewrite <- Eq; apply Pt| |].
    + rewrite <- Ed. rewrite dot_sub_l, !dot_sub_r, !dot_scale_l, !dot_scale_r, (dot_comm w v). fold t. field. lra.
    + intros k _. replace (dot v v * (t / dot v v) - t) with 0 by (field; lra). lra.
  - apply (M 1); [lra|rewrite <- Eq; apply Pt| |].
    + rewrite <- Ed. rewrite dot_sub_l, !dot_sub_r, (dot_comm w v). fold t. ring.
    + intros k Hk. nra.
  - apply (M 0); [lra|rewrite <- Eq; apply Pt|rewrite <- Ed; ring|]. intros k Hk. nra.
Qed.

(** ** Inside or outside the edges *)
Definition side (a b c p : v3) (i : nat) : R :=
  dot (vsub (tri a b c i) p) (cross (tri (vsub a b) (vsub b c) (vsub c a) i) (cross (vsub a b) (vsub b c))).

Lemma side_sum : forall a b c p, side a b c p 0 + side a b c p 1 + side a b c p 2 = - norm2 (cross (vsub a b) (vsub b c)).
Proof. intros [] [] [] []. unfold side, norm2, dot, cross, vsub. cbn. ring. Qed.

Lemma proj_side : forall a b c p k n, n = vscale k (cross (vsub a b) (vsub b c)) ->
  dot (cross (vsub b a) n) (vsub p a) = k * side a b c p 0 /\
  dot (cross (vsub c b) n) (vsub p b) = k * side a b c p 1 /\
  dot (cross (vsub a c) n) (vsub p c) = k * side a b c p 2.
Proof. intros [] [] [] [] k n ->. unfold side, dot, cross, vsub, vscale. cbn. repeat split; ring. Qed.

Lemma gtb_spec : forall x y, gtb x y = true <-> y < x. Proof. intros. unfold gtb. destruct (Rlt_dec y x); split; intros; try lra; discriminate. Qed.
Lemma leb_spec : forall x y, leb x y = true <-> x <= y. Proof. intros. unfold leb. destruct (Rle_dec x y); split; intros; try lra; discriminate. Qed.

Lemma proj_true : forall a b c p k n, n = vscale k (cross (vsub a b) (vsub b c)) -> k <> 0 -> cross (vsub a b) (vsub b c) <> vzero ->
  proj_in_tri a b c n p = true -> forall i, (i < 3)%nat -> side a b c p i <= 0.
Proof.
  intros a b c p k n En Hk Hn. unfold proj_in_tri. cbv zeta. destruct (proj_side a b c p k n En) as (-> & -> & ->).
  pose proof (side_sum a b c p) as Sm. assert (0 < norm2 (cross (vsub a b) (vsub b c))).
  { destruct (Rle_lt_or_eq_dec 0 _ (VecR.norm2_nonneg (cross (vsub a b) (vsub b c)))) as [|E]; [assumption|]. exfalso. apply Hn, norm2_zero. congruence. }
  rewrite orb_true_iff, !andb_true_iff, !gtb_spec, !leb_spec. intros Hc i Hi.
  assert (C : side a b c p 0 <= 0 /\ side a b c p 1 <= 0 /\ side a b c p 2 <= 0).
  { set (x := side a b c p 0) in *. set (y := side a b c p 1) in *. set (z := side a b c p 2) in *. clearbody x y z.
    destruct (Rlt_dec 0 k) as [K|K].
    - assert (Pp : forall u, 0 < k * u -> 0 < u) by (intros; nra). assert (Pn : forall u, k * u <= 0 -> u <= 0) by (intros; nra).
      destruct Hc as [[[A B] C]|[[A B] C]]; [apply Pp in A, B, C; lra|apply Pn in A, B, C; lra].
    - assert (k < 0) by (destruct (Rtotal_order k 0) as [|[|]]; [assumption|contradiction|lra]).
      assert (Pp : forall u, 0 < k * u -> u < 0) by (intros; nra). assert (Pn : forall u, k * u <= 0 -> 0 <= u) by (intros; nra).
      destruct Hc as [[[A B] C]|[[A B] C]]; [apply Pp in A, B, C; lra|apply Pn in A, B, C; lra]. }
  destruct i as [|[|[|i]]]; try lia; apply C.
Qed.

Lemma proj_false : forall a b c p k n, n = vscale k (cross (vsub a b) (vsub b c)) -> k <> 0 ->
  proj_in_tri a b c n p = false -> exists i, (i < 3)%nat /\ 0 <= side a b c p i.
Proof.
  intros a b c p k n En Hk H.
  destruct (Rle_lt_dec 0 (side a b c p 0)) as [|A]; [exists 0%nat; auto|]. destruct (Rle_lt_dec 0 (side a b c p 1)) as [|B]; [exists 1%nat; auto|].
  destruct (Rle_lt_dec 0 (side a b c p 2)) as [|C]; [exists 2%nat; auto|]. exfalso.
  unfold proj_in_tri in H. cbv zeta in H. destruct (proj_side a b c p k n En) as (E0 & E1 & E2). rewrite E0, E1, E2 in H. clear E0 E1 E2.
  apply Bool.not_true_iff_false in H. apply H. rewrite orb_true_iff, !andb_true_iff, !gtb_spec, !leb_spec.
  destruct (Rlt_dec 0 k); [right; repeat split; nra|left]. assert (k < 0) by (destruct (Rtotal_order k 0) as [|[|]]; [assumption|contradiction|lra]). repeat split; nra.
Qed.

(** the projection of a point that is inside of the edges *)
Lemma foot_nearest : forall a b c p, cross (vsub a b) (vsub b c) <> vzero -> (forall i, (i < 3)%nat -> side a b c p i <= 0) ->
  let n := cross (vsub a b) (vsub b c) in let h := dot (vsub p a) n / norm2 n in
  let q := vsub p (vscale h n) in nearest (tri_pt a b c) p q (norm2 (vsub q p)) /\
  q = bary3 a b c (- side a b c p 1 / norm2 n) (- side a b c p 2 / norm2 n) (- side a b c p 0 / norm2 n).
Proof.
  intros a b c p Hn Hs n h q.
  assert (Hl : 0 < norm2 n).
  { destruct (Rle_lt_or_eq_dec 0 _ (VecR.norm2_nonneg n)) as [|E]; [assumption|]. exfalso. apply Hn, norm2_zero. symmetry. exact E. }
  set (x := - side a b c p 1 / norm2 n). set (y := - side a b c p 2 / norm2 n). set (z := - side a b c p 0 / norm2 n).
  assert (SE : x + y + z = 1 /\ p = vadd (bary3 a b c x y z) (vscale (- (dot (vsub a p) n / norm2 n)) n)) by exact (tri_bary a b c p Hl).
  destruct SE as [Sm Ep]. assert (Eh : - (dot (vsub a p) n / norm2 n) = h).
  { unfold h. replace (dot (vsub a p) n) with (- dot (vsub p a) n); [field; lra|]. rewrite !dot_sub_l. ring. }
  rewrite Eh in Ep.
  assert (Eq : q = bary3 a b c x y z).
  { unfold q. rewrite Ep at 1. set (u := bary3 a b c x y z). set (w := vscale h n). clearbody u w. destruct u, w. unfold vsub, vadd. cbn. f_equal; ring. }
  assert (N1 : dot (vsub a b) n = 0) by (unfold n; destruct a, b, c; unfold dot, cross, vsub; cbn; ring).
  assert (N2 : dot (vsub b c) n = 0) by (unfold n; destruct a, b, c; unfold dot, cross, vsub; cbn; ring).
  assert (P0 : 0 <= x /\ 0 <= y /\ 0 <= z) by (unfold x, y, z; repeat split; apply pos_div; try exact Hl; match goal with |- 0 <= - side _ _ _ _ ?i => specialize (Hs i ltac:(lia)) end; lra).
  split; [|exact Eq]. split; [rewrite Eq; exists x, y, z; tauto|]. split; [reflexivity|].
  intros q' (x' & y' & z' & X & Y & Z & S' & ->). rewrite Eq. rewrite Ep.
  rewrite (bary3_dist a b c n x y z h x' y' z' N1 N2 Sm S').
  rewrite (bary3_dist a b c n x y z h x y z N1 N2 Sm Sm).
  replace (vadd (vscale (x - x) (vsub a b)) (vscale (z - z) (vsub b c))) with vzero by (unfold vadd, vscale, vzero; cbn; f_equal; ring).
  replace (norm2 vzero) with 0 by (unfold norm2, dot, vzero; cbn; ring). match goal with |- _ <= _ + norm2 ?w => pose proof (VecR.norm2_nonneg w) end. lra.
Qed.

(** for a point that is not strictly inside of the edges an edge is as near as any point *)
Lemma edge_nearest : forall a b c p, cross (vsub a b) (vsub b c) <> vzero -> (exists i, (i < 3)%nat /\ 0 <= side a b c p i) ->
  forall q, tri_pt a b c q -> exists i s, (i < 3)%nat /\ 0 <= s <= 1 /\ norm2 (vsub (segp (tri a b c i) (tri a b c (nexti i)) s) p) <= norm2 (vsub q p).
Proof.
  intros a b c p Hn (i0 & Hi0 & H0) q Hq.
  assert (Hl : 0 < norm2 (cross (vsub a b) (vsub b c))).
  { destruct (Rle_lt_or_eq_dec 0 _ (VecR.norm2_nonneg (cross (vsub a b) (vsub b c)))) as [|E]; [assumption|]. exfalso. apply Hn, norm2_zero. congruence. }
  destruct (Rlt_dec 0 (side a b c p 0)) as [A|A]; [destruct (tri_exit a b c p Hl) with q as (i & s & X & _ & Y & Z); eauto; exists 0%nat; auto|].
  destruct (Rlt_dec 0 (side a b c p 1)) as [B|B]; [destruct (tri_exit a b c p Hl) with q as (i & s & X & _ & Y & Z); eauto; exists 1%nat; auto|].
  destruct (Rlt_dec 0 (side a b c p 2)) as [C|C]; [destruct (tri_exit a b c p Hl) with q as (i & s & X & _ & Y & Z); eauto; exists 2%nat; auto|].
  assert (Hs : forall i, (i < 3)%nat -> side a b c p i <= 0) by (intros [|[|[|i]]] Hi; try lia; lra).
  destruct (foot_nearest a b c p Hn Hs) as [(_ & _ & M) Ef]. specialize (M q Hq). rewrite Ef in M.
  set (l := norm2 (cross (vsub a b) (vsub b c))) in *. pose proof (side_sum a b c p) as Sm. fold l in Sm.
  assert (D : forall x, x <= 0 -> 0 <= - x / l) by (intros; apply pos_div; lra).
  exists i0. destruct i0 as [|[|[|]]]; try lia; cbn [tri nexti].
  - exists (- side a b c p 2 / l). split; [lia|]. assert (E0 : side a b c p 0 = 0) by lra. rewrite E0 in *. split; [split; [apply D; lra|]; apply frac; lra|].
    replace (segp a b (- side a b c p 2 / l)) with (bary3 a b c (- side a b c p 1 / l) (- side a b c p 2 / l) (- 0 / l)); [exact M|].
    replace (- side a b c p 1 / l) with (1 - - side a b c p 2 / l); [|apply Rmult_eq_reg_r with l; [field_simplify; lra|lra]].
    replace (- 0 / l) with 0 by (field; lra). unfold segp, bary3. destruct a, b, c. unfold vadd, vscale. cbn. f_equal; ring.
  - exists (- side a b c p 0 / l). split; [lia|]. assert (E0 : side a b c p 1 = 0) by lra. rewrite E0 in *. split; [split; [apply D; lra|]; apply frac; lra|].
    replace (segp b c (- side a b c p 0 / l)) with (bary3 a b c (- 0 / l) (- side a b c p 2 / l) (- side a b c p 0 / l)); [exact M|].
    replace (- side a b c p 2 / l) with (1 - - side a b c p 0 / l); [|apply Rmult_eq_reg_r with l; [field_simplify; lra|lra]].
    replace (- 0 / l) with 0 by (field; lra). unfold segp, bary3. destruct a, b, c. unfold vadd, vscale. cbn. f_equal; ring.
  - exists (- side a b c p 1 / l). split; [lia|]. assert (E0 : side a b c p 2 = 0) by lra. rewrite E0 in *. split; [split; [apply D; lra|]; apply frac; lra|].
    replace (segp c a (- side a b c p 1 / l)) with (bary3 a b c (- side a b c p 1 / l) (- 0 / l) (- side a b c p 0 / l)); [exact M|].
    replace (- side a b c p 0 / l) with (1 - - side a b c p 1 / l); [|apply Rmult_eq_reg_r with l; [field_simplify; lra|lra]].
    replace (- 0 / l) with 0 by (field; lra). unfold segp, bary3. destruct a, b, c. unfold vadd, vscale. cbn. f_equal; ring.
Qed.
