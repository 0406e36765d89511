(** * Taylor models

    include/fcl/math/motion/taylor_model/time_interval-inl.h,
    taylor_model-inl.h, taylor_vector-inl.h, taylor_matrix-inl.h.

    Exact real arithmetic.  The shared time interval is an argument [T] of the
    operations: the code asserts that both operands point to the same one. *)

From Coq Require Import Reals Lra Lia List ZArith.
From Coquelicot Require Import Coquelicot.
From Verif Require Import Interval.
Open Scope R_scope.

(** ** Time intervals *)

Record tint := TI { T1 : ivl; T2 : ivl; T3' : ivl; T4 : ivl; T5 : ivl; T6 : ivl }.

(** TimeInterval::setValue (time_interval-inl.h 63-71) *)
Definition set_time (l r : R) : tint :=
  let t := Iv l r in
  let t2 := Iv (l * lo t) (r * hi t) in
  let t3 := Iv (l * lo t2) (r * hi t2) in
  let t4 := Iv (l * lo t3) (r * hi t3) in
  let t5 := Iv (l * lo t4) (r * hi t4) in
  let t6 := Iv (l * lo t5) (r * hi t5) in
  TI t t2 t3 t4 t5 t6.

(** The powers enclose the powers of the times. *)
Definition good_time (T : tint) : Prop :=
  forall t, inside t (T1 T) ->
    inside (t ^ 2) (T2 T) /\ inside (t ^ 3) (T3' T) /\ inside (t ^ 4) (T4 T) /\
    inside (t ^ 5) (T5 T) /\ inside (t ^ 6) (T6 T).

(** ** Taylor models *)

Record tm := TM { k0 : R; k1 : R; k2 : R; k3 : R; rem : ivl }.

(** TaylorModel() and TaylorModel(coeff) (taylor_model-inl.h 118-137),
    setZero (443-447) *)
Definition tconst (c : R) : tm := TM c 0 0 0 (Iv 0 0).

(** + and - with a scalar (164-195) *)
Definition tadd_r (m : tm) (d : R) : tm := TM (k0 m + d) (k1 m) (k2 m) (k3 m) (rem m).
Definition tsub_r (m : tm) (d : R) : tm := TM (k0 m - d) (k1 m) (k2 m) (k3 m) (rem m).

(** + and - (199-241), on distinct objects *)
Definition tadd (m n : tm) : tm := TM (k0 m + k0 n) (k1 m + k1 n) (k2 m + k2 n) (k3 m + k3 n) (iadd (rem m) (rem n)).
Definition tsub (m n : tm) : tm := TM (k0 m - k0 n) (k1 m - k1 n) (k2 m - k2 n) (k3 m - k3 n) (isub (rem m) (rem n)).

(** unary - (324-327) and product with a scalar (269-272, 312-320, 451-461) *)
Definition topp (m : tm) : tm := TM (- k0 m) (- k1 m) (- k2 m) (- k3 m) (iopp (rem m)).
Definition tscale (m : tm) (d : R) : tm := TM (k0 m * d) (k1 m * d) (k2 m * d) (k3 m * d) (iscale (rem m) d).

(** d - m (472-475) *)
Definition trsub (d : R) (m : tm) : tm := tadd_r (topp m) d.

(** c0 + t c1 + t^2 c2 + t^3 c3 over the time interval, as in *= (301-302) *)
Definition trange (T : tint) (c0 c1 c2 c3 : R) : ivl :=
  iadd (iadd (iadd (ipoint c0) (iscale (T1 T) c1)) (iscale (T2 T) c2)) (iscale (T3' T) c3).

(** operator *= (276-309) and * (260-265) *)
Definition tmul (T : tint) (m n : tm) : tm :=
  let c0 := k0 m * k0 n in
  let c1 := k0 m * k1 n + k1 m * k0 n in
  let c2 := k0 m * k2 n + k1 m * k1 n + k2 m * k0 n in
  let c3 := k0 m * k3 n + k1 m * k2 n + k2 m * k1 n + k3 m * k0 n in
  let r := imul (rem m) (rem n) in
  let r := iadd r (iscale (T4 T) (k1 m * k3 n + k2 m * k2 n + k3 m * k1 n)) in
  let r := iadd r (iscale (T5 T) (k2 m * k3 n + k3 m * k2 n)) in
  let r := iadd r (iscale (T6 T) (k3 m * k3 n)) in
  let r := iadd r (iadd (imul (trange T (k0 m) (k1 m) (k2 m) (k3 m)) (rem n))
                        (imul (trange T (k0 n) (k1 n) (k2 n) (k3 n)) (rem m))) in
  TM c0 c1 c2 c3 r.

(** getBound(t) (338-341), getBound(t0, t1) (345-352), getBound() (356-359) *)
Definition poly (c0 c1 c2 c3 t : R) : R := c0 + t * (c1 + t * (c2 + t * c3)).
Definition bound_at (m : tm) (t : R) : ivl := iadd (ipoint (poly (k0 m) (k1 m) (k2 m) (k3 m) t)) (rem m).
Definition bound_on (m : tm) (t0 t1 : R) : ivl :=
  let t := Iv t0 t1 in
  let t2 := Iv (t0 * t0) (t1 * t1) in
  let t3 := Iv (t0 * lo t2) (t1 * hi t2) in
  iadd (iadd (iadd (iadd (ipoint (k0 m)) (iscale t (k1 m))) (iscale t2 (k2 m))) (iscale t3 (k3 m))) (rem m).
Definition bound_all (T : tint) (m : tm) : ivl :=
  iadd (iadd (iadd (Iv (k0 m + lo (rem m)) (k1 m + hi (rem m))) (iscale (T1 T) (k1 m))) (iscale (T2 T) (k2 m)))
       (iscale (T3' T) (k3 m)).

(** getTightBound(t0, t1) (363-432) and getTightBound() (436-439).  With
    c3 = c2 = 0 the code divides by zero; [a] is then an infinity or NaN, the
    comparisons fail and the second branch is taken. *)
Definition widen (q : R) (i : ivl) : ivl :=
  if Rlt_dec q (lo i) then Iv q (hi i) else if Rlt_dec (hi i) q then Iv (lo i) q else i.
Definition tight_on (T : tint) (m : tm) (t0 t1 : R) : ivl :=
  let t0 := if Rlt_dec t0 (lo (T1 T)) then lo (T1 T) else t0 in
  let t1 := if Rlt_dec (hi (T1 T)) t1 then hi (T1 T) else t1 in
  if Req_EM_T (k3 m) 0 then
    let q t := k0 m + t * (k1 m + t * k2 m) in
    let a := - k1 m / (2 * k2 m) in
    let lq := q t0 in
    let rq := q t1 in
    if Req_EM_T (k2 m) 0 then
      iadd (if Rlt_dec rq lq then Iv rq lq else Iv lq rq) (rem m)
    else if Rle_dec a t1 then
      if Rle_dec t0 a then
        let aq := q a in
        let mn := if Rlt_dec rq lq then rq else lq in
        let mx := if Rlt_dec rq lq then lq else rq in
        let mn := if Rlt_dec aq mn then aq else mn in
        let mx := if Rlt_dec mx aq then aq else mx in
        iadd (Iv mn mx) (rem m)
      else iadd (if Rlt_dec rq lq then Iv rq lq else Iv lq rq) (rem m)
    else iadd (if Rlt_dec rq lq then Iv rq lq else Iv lq rq) (rem m)
  else
    let q := poly (k0 m) (k1 m) (k2 m) (k3 m) in
    let i := if Rlt_dec (q t1) (q t0) then Iv (q t1) (q t0) else Iv (q t0) (q t1) in
    let delta := k2 m * k2 m - 3 * k1 m * k3 m in
    if Rlt_dec delta 0 then iadd i (rem m)
    else
      let r1 := (- k2 m - sqrt delta) / (3 * k3 m) in
      let r2 := (- k2 m + sqrt delta) / (3 * k3 m) in
      let i := if Rle_dec r1 t1 then if Rle_dec t0 r1 then widen (q r1) i else i else i in
      let i := if Rle_dec r2 t1 then if Rle_dec t0 r2 then widen (q r2) i else i else i in
      iadd i (rem m).
Definition tight_all (T : tint) (m : tm) : ivl := tight_on T m (lo (T1 T)) (hi (T1 T)).

(** std::floor, std::ceil *)
Definition floor (x : R) : Z := Int_part x.
Definition ceil (x : R) : Z := (- Int_part (- x))%Z.

(** generateTaylorModelForCosFunc (479-551) *)
Definition eps15 : R := / 10 ^ 15.
Definition fourth_bounds (vl vr k1 k2 : R) (up : bool) : ivl :=
  let b := if Rlt_dec vl vr then Iv vl vr else Iv vr vl in
  let b := Iv (lo b - eps15) (hi b + eps15) in
  let gap x y := if up then (ceil y - floor x)%Z else (ceil x - floor y)%Z in
  let b := if Z.ltb 1 (gap k1 k2) then Iv (lo b) 1 else b in
  if Z.ltb 1 (gap (k1 - / 2) (k2 - / 2)) then Iv (-1) (hi b) else b.
Definition rem_of (b : ivl) (mid4 : R) : ivl :=
  if Rlt_dec 0 (lo b) then Iv 0 (hi b * mid4 * (1 / 24))
  else if Rlt_dec (lo b) 0 then Iv (lo b * mid4 * (1 / 24)) 0
  else Iv (lo b * mid4 * (1 / 24)) (hi b * mid4 * (1 / 24)).
Definition expansion (a fa fda fdda fddda : R) (r : ivl) : tm :=
  TM (fa - a * (fda - / 2 * a * (fdda - 1 / 3 * a * fddda)))
     (fda - a * fdda + / 2 * a * a * fddda)
     (/ 2 * (fdda - a * fddda))
     (1 / 6 * fddda) r.
Definition mid4 (T : tint) : R := let m := / 2 * (hi (T1 T) - lo (T1 T)) in (m * m) * (m * m).
Definition pos (w : R) : bool := if Rlt_dec 0 w then true else false.
Definition cos_bounds (T : tint) (w q0 : R) : ivl :=
  if Req_EM_T w 0 then Iv 0 0
  else fourth_bounds (cos (lo (T1 T) * w + q0)) (cos (hi (T1 T) * w + q0))
         ((lo (T1 T) * w + q0) / (2 * PI)) ((hi (T1 T) * w + q0) / (2 * PI)) (pos w).
Definition gen_cos (T : tint) (w q0 : R) : tm :=
  let a := icenter (T1 T) in
  let t := w * a + q0 in
  let w2 := w * w in
  let fa := cos t in
  let fda := - w * sin t in
  let fdda := - w2 * fa in
  let fddda := - w2 * fda in
  expansion a fa fda fdda fddda (rem_of (iscale (cos_bounds T w q0) (w2 * w2)) (mid4 T)).

(** generateTaylorModelForSinFunc (555-628); for w = 0 the remainder [old] is
    not assigned. *)
Definition sin_bounds (T : tint) (w q0 : R) : ivl :=
  fourth_bounds (sin (w * lo (T1 T) + q0)) (sin (w * hi (T1 T) + q0))
    ((lo (T1 T) * w + q0) / (2 * PI) - / 4) ((hi (T1 T) * w + q0) / (2 * PI) - / 4) (pos w).
Definition gen_sin (T : tint) (w q0 : R) (old : ivl) : tm :=
  let a := icenter (T1 T) in
  let t := w * a + q0 in
  let w2 := w * w in
  let fa := sin t in
  let fda := w * cos t in
  let fdda := - w2 * fa in
  let fddda := - w2 * fda in
  expansion a fa fda fdda fddda
    (if Req_EM_T w 0 then old else rem_of (iscale (sin_bounds T w q0) (w2 * w2)) (mid4 T)).

(** generateTaylorModelForLinearFunc (632-640) *)
Definition gen_linear (p v : R) : tm := TM p v 0 0 (Iv 0 0).

(** ** What a Taylor model means *)

(** It encloses [f] over the time interval. *)
Definition tpoly (m : tm) (t : R) : R := poly (k0 m) (k1 m) (k2 m) (k3 m) t.
Definition models (T : tint) (m : tm) (f : R -> R) : Prop :=
  forall t, inside t (T1 T) -> inside (f t - tpoly m t) (rem m).

(** ** Lemmas: time intervals and arithmetic *)

Lemma pow_mono : forall n a b, 0 <= a <= b -> 0 <= a ^ n <= b ^ n.
Proof. intros n a b H. split; [apply pow_le; lra|apply pow_incr; exact H]. Qed.

Lemma set_time_good : forall l r, 0 <= l -> good_time (set_time l r).
Proof.
  intros l r Hl t [H1 H2]. unfold set_time in *. cbn [T1 T2 T3' T4 T5 T6 lo hi] in *. unfold inside. cbn [lo hi].
  assert (A : forall n, l ^ n <= t ^ n <= r ^ n).
  { intros n. pose proof (pow_mono n l t). pose proof (pow_mono n t r). lra. }
  pose proof (A 2%nat). pose proof (A 3%nat). pose proof (A 4%nat). pose proof (A 5%nat). pose proof (A 6%nat).
  cbn [pow] in *. rewrite !Rmult_1_r in *. auto.
Qed.

Lemma inside_eq : forall x y i, x = y -> inside x i -> inside y i.
Proof. intros x y i ->. auto. Qed.

Lemma tadd_models : forall T m n f g, models T m f -> models T n g -> models T (tadd m n) (fun t => f t + g t).
Proof.
  intros T m n f g Hf Hg t Ht. apply (inside_eq ((f t - tpoly m t) + (g t - tpoly n t))).
  - unfold tpoly, poly, tadd. cbn. ring.
  - cbn. apply iadd_in; auto.
Qed.

Lemma tsub_models : forall T m n f g, models T m f -> models T n g -> models T (tsub m n) (fun t => f t - g t).
Proof.
  intros T m n f g Hf Hg t Ht. apply (inside_eq ((f t - tpoly m t) - (g t - tpoly n t))).
  - unfold tpoly, poly, tsub. cbn. ring.
  - cbn. apply isub_in; auto.
Qed.

Lemma topp_models : forall T m f, models T m f -> models T (topp m) (fun t => - f t).
Proof.
  intros T m f Hf t Ht. apply (inside_eq (- (f t - tpoly m t))).
  - unfold tpoly, poly, topp. cbn. ring.
  - cbn. apply iopp_in; auto.
Qed.

Lemma tscale_models : forall T m f d, models T m f -> models T (tscale m d) (fun t => f t * d).
Proof.
  intros T m f d Hf t Ht. apply (inside_eq ((f t - tpoly m t) * d)).
  - unfold tpoly, poly, tscale. cbn. ring.
  - cbn. apply iscale_in; auto.
Qed.

Lemma tadd_r_models : forall T m f d, models T m f -> models T (tadd_r m d) (fun t => f t + d).
Proof.
  intros T m f d Hf t Ht. apply (inside_eq (f t - tpoly m t)).
  - unfold tpoly, poly, tadd_r. cbn. ring.
  - cbn. auto.
Qed.

Lemma tsub_r_models : forall T m f d, models T m f -> models T (tsub_r m d) (fun t => f t - d).
Proof.
  intros T m f d Hf t Ht. apply (inside_eq (f t - tpoly m t)).
  - unfold tpoly, poly, tsub_r. cbn. ring.
  - cbn. auto.
Qed.

Lemma tconst_models : forall T c, models T (tconst c) (fun _ => c).
Proof. intros T c t Ht. unfold tpoly, poly, tconst, inside. cbn. lra. Qed.

Lemma models_ext : forall T m f g, (forall t, f t = g t) -> models T m f -> models T m g.
Proof. intros T m f g H Hm t Ht. rewrite <- H. auto. Qed.

Lemma trange_in : forall T c0 c1 c2 c3 t, good_time T -> inside t (T1 T) -> inside (poly c0 c1 c2 c3 t) (trange T c0 c1 c2 c3).
Proof.
  intros T c0 c1 c2 c3 t HT Ht. destruct (HT t Ht) as (H2 & H3 & _).
  apply (inside_eq (c0 + t * c1 + t ^ 2 * c2 + t ^ 3 * c3)); [unfold poly; ring|].
  unfold trange. auto using iadd_in, iscale_in, ipoint_in.
Qed.

Lemma tmul_models : forall T m n f g, good_time T -> models T m f -> models T n g ->
  models T (tmul T m n) (fun t => f t * g t).
Proof.
  intros T m n f g HT Hf Hg t Ht. specialize (Hf t Ht). specialize (Hg t Ht).
  destruct (HT t Ht) as (_ & _ & H4 & H5 & H6).
  set (e := f t - tpoly m t) in *. set (h := g t - tpoly n t) in *.
  apply (inside_eq (e * h + t ^ 4 * (k1 m * k3 n + k2 m * k2 n + k3 m * k1 n) + t ^ 5 * (k2 m * k3 n + k3 m * k2 n)
                    + t ^ 6 * (k3 m * k3 n) + (tpoly m t * h + tpoly n t * e))).
  - replace (f t) with (tpoly m t + e) by (unfold e; ring). replace (g t) with (tpoly n t + h) by (unfold h; ring).
    generalize e h. intros e' h'. unfold tpoly, poly, tmul. cbn [k0 k1 k2 k3]. ring.
  - unfold tmul. cbn [rem].
    repeat (first [assumption|apply trange_in|apply imul_in|apply iscale_in|apply iadd_in]; auto).
Qed.

(** ** Lemmas: extrema of cubics *)

Lemma poly_derivable : forall c0 c1 c2 c3 t,
  derivable_pt_lim (poly c0 c1 c2 c3) t (c1 + 2 * c2 * t + 3 * c3 * t ^ 2).
Proof.
  intros c0 c1 c2 c3 t. apply is_derive_Reals. unfold poly. auto_derive; [exact I|]. ring.
Qed.

Lemma poly_cont : forall c0 c1 c2 c3 t, continuity_pt (poly c0 c1 c2 c3) t.
Proof. intros. apply derivable_continuous_pt. exists (c1 + 2 * c2 * t + 3 * c3 * t ^ 2). apply poly_derivable. Qed.

(** A value above those at both ends is exceeded at a critical point inside. *)
Lemma poly_max : forall c0 c1 c2 c3 t0 t1 M, t0 <= t1 ->
  poly c0 c1 c2 c3 t0 <= M -> poly c0 c1 c2 c3 t1 <= M ->
  (forall s, t0 < s < t1 -> c1 + 2 * c2 * s + 3 * c3 * s ^ 2 = 0 -> poly c0 c1 c2 c3 s <= M) ->
  forall t, t0 <= t <= t1 -> poly c0 c1 c2 c3 t <= M.
Proof.
  intros c0 c1 c2 c3 t0 t1 M H01 H0 H1 Hc t Ht.
  destruct (continuity_ab_maj (poly c0 c1 c2 c3) t0 t1 H01) as (s & Hs & Hi).
  { intros c _. apply poly_cont. }
  apply Rle_trans with (poly c0 c1 c2 c3 s); [apply Hs; exact Ht|].
  destruct (Req_dec s t0) as [->|N0]; [exact H0|]. destruct (Req_dec s t1) as [->|N1]; [exact H1|].
  apply Hc; [lra|].
  assert (pr : derivable_pt (poly c0 c1 c2 c3) s) by (eexists; apply poly_derivable).
  assert (E := deriv_maximum (poly c0 c1 c2 c3) t0 t1 s pr ltac:(lra) ltac:(lra)).
  rewrite <- E; [|intros x Hx1 Hx2; apply Hs; lra].
  symmetry. apply derive_pt_eq_0. apply poly_derivable.
Qed.

Lemma poly_min : forall c0 c1 c2 c3 t0 t1 M, t0 <= t1 ->
  M <= poly c0 c1 c2 c3 t0 -> M <= poly c0 c1 c2 c3 t1 ->
  (forall s, t0 < s < t1 -> c1 + 2 * c2 * s + 3 * c3 * s ^ 2 = 0 -> M <= poly c0 c1 c2 c3 s) ->
  forall t, t0 <= t <= t1 -> M <= poly c0 c1 c2 c3 t.
Proof.
  intros c0 c1 c2 c3 t0 t1 M H01 H0 H1 Hc t Ht.
  assert (N : forall s, poly (- c0) (- c1) (- c2) (- c3) s = - poly c0 c1 c2 c3 s) by (intros; unfold poly; ring).
  pose proof (poly_max (- c0) (- c1) (- c2) (- c3) t0 t1 (- M) H01) as P. rewrite !N in P.
  specialize (P ltac:(lra) ltac:(lra)). enough (- poly c0 c1 c2 c3 t <= - M) by lra. rewrite <- N. apply P; [|exact Ht].
  intros s Hs E. rewrite N. pose proof (Hc s Hs). apply Ropp_le_contravar. apply H. lra.
Qed.

(** An interval made of values of the polynomial, with the values at the ends and
    at the critical points inside, is its range. *)
Lemma poly_range : forall c0 c1 c2 c3 t0 t1 i, t0 <= t1 ->
  inside (poly c0 c1 c2 c3 t0) i -> inside (poly c0 c1 c2 c3 t1) i ->
  (forall s, t0 < s < t1 -> c1 + 2 * c2 * s + 3 * c3 * s ^ 2 = 0 -> inside (poly c0 c1 c2 c3 s) i) ->
  forall t, t0 <= t <= t1 -> inside (poly c0 c1 c2 c3 t) i.
Proof.
  intros c0 c1 c2 c3 t0 t1 i H01 [H0 H0'] [H1 H1'] Hc t Ht. split.
  - apply (poly_min c0 c1 c2 c3 t0 t1); auto. intros s Hs E. apply (Hc s Hs E).
  - apply (poly_max c0 c1 c2 c3 t0 t1); auto. intros s Hs E. apply (Hc s Hs E).
Qed.

Lemma widen_in : forall q i, lo i <= hi i -> inside q (widen q i) /\ lo (widen q i) <= hi (widen q i) /\
  forall x, inside x i -> inside x (widen q i).
Proof. intros q [a b] H. unfold widen, inside in *. cbn in *. dec_all; repeat split; intros; lra. Qed.

Lemma widen_from : forall q i (V : R -> Prop), V q -> V (lo i) -> V (hi i) -> V (lo (widen q i)) /\ V (hi (widen q i)).
Proof. intros q [a b] V. unfold widen. cbn. dec_all; auto. Qed.

(** getTightBound: the range of the polynomial over the clipped interval, plus
    the remainder. *)
Lemma tight_spec : forall T m t0 t1,
  let s0 := if Rlt_dec t0 (lo (T1 T)) then lo (T1 T) else t0 in
  let s1 := if Rlt_dec (hi (T1 T)) t1 then hi (T1 T) else t1 in
  s0 <= s1 ->
  exists i, tight_on T m t0 t1 = iadd i (rem m) /\
    (forall t, s0 <= t <= s1 -> inside (tpoly m t) i) /\
    (exists s, s0 <= s <= s1 /\ lo i = tpoly m s) /\ (exists s, s0 <= s <= s1 /\ hi i = tpoly m s).
Proof.
  intros T [c0 c1 c2 c3 r] t0 t1 s0 s1 H01. unfold tight_on. cbn [k0 k1 k2 k3 rem].
  fold s0. fold s1. clearbody s0 s1. clear t0 t1.
  set (V := fun x => exists s, s0 <= s <= s1 /\ x = tpoly (TM c0 c1 c2 c3 r) s).
  assert (Vi : forall s, s0 <= s <= s1 -> V (tpoly (TM c0 c1 c2 c3 r) s)) by (intros s Hs; exists s; auto).
  change (exists s, s0 <= s <= s1 /\ ?x = tpoly (TM c0 c1 c2 c3 r) s) with (V x).
  assert (Goal' : forall i, inside (tpoly (TM c0 c1 c2 c3 r) s0) i -> inside (tpoly (TM c0 c1 c2 c3 r) s1) i ->
    (forall s, s0 < s < s1 -> c1 + 2 * c2 * s + 3 * c3 * s ^ 2 = 0 -> inside (tpoly (TM c0 c1 c2 c3 r) s) i) ->
    V (lo i) -> V (hi i) ->
    exists i', iadd i r = iadd i' r /\ (forall t, s0 <= t <= s1 -> inside (tpoly (TM c0 c1 c2 c3 r) t) i') /\ V (lo i') /\ V (hi i')).
  { intros i I0 I1 Ic Vl Vh. exists i. split; [reflexivity|]. split; [|auto]. unfold tpoly. cbn.
    intros t Ht. apply (poly_range c0 c1 c2 c3 s0 s1); auto. }
  assert (V0 := Vi s0 ltac:(lra)). assert (V1 := Vi s1 ltac:(lra)).
  destruct (Req_EM_T c3 0) as [E3|N3].
  - assert (Q : forall t, c0 + t * (c1 + t * c2) = tpoly (TM c0 c1 c2 c3 r) t).
    { intros t. unfold tpoly, poly. cbn. rewrite E3. ring. }
    rewrite !Q. clear Q.
    destruct (Req_EM_T c2 0) as [E2|N2].
    { apply Goal'; try (unfold inside; dec_all; lra); try (dec_all; assumption).
      intros s Hs E. rewrite E2, E3 in E. assert (c1 = 0) by lra.
      assert (tpoly (TM c0 c1 c2 c3 r) s = tpoly (TM c0 c1 c2 c3 r) s0) as -> by (unfold tpoly, poly; cbn; subst; ring).
      unfold inside; dec_all; lra. }
    assert (Ha : forall s, c1 + 2 * c2 * s + 3 * c3 * s ^ 2 = 0 -> s = - c1 / (2 * c2)).
    { intros s E. rewrite E3 in E. apply (Rmult_eq_reg_l (2 * c2)); [|lra]. field_simplify; [lra|lra]. }
    set (a := - c1 / (2 * c2)) in *.
    destruct (Rle_dec a s1) as [L1|L1]; [destruct (Rle_dec s0 a) as [L0|L0]|].
    + assert (Va := Vi a ltac:(lra)).
      set (pa := tpoly (TM c0 c1 c2 c3 r) a) in *. set (p0 := tpoly (TM c0 c1 c2 c3 r) s0) in *. set (p1 := tpoly (TM c0 c1 c2 c3 r) s1) in *.
      destruct (Rlt_dec p1 p0);
      (apply Goal'; try (unfold inside; dec_all; lra); try (dec_all; assumption);
      intros s Hs E; rewrite (Ha s E); fold pa; unfold inside; dec_all; lra).
    + apply Goal'; try (unfold inside; dec_all; lra); try (dec_all; assumption).
      intros s Hs E. rewrite (Ha s E) in Hs. lra.
    + apply Goal'; try (unfold inside; dec_all; lra); try (dec_all; assumption).
      intros s Hs E. rewrite (Ha s E) in Hs. lra.
  - change (poly c0 c1 c2 c3) with (tpoly (TM c0 c1 c2 c3 r)).
    set (i0 := if Rlt_dec (tpoly (TM c0 c1 c2 c3 r) s1) (tpoly (TM c0 c1 c2 c3 r) s0) then Iv _ _ else Iv _ _).
    assert (I0 : lo i0 <= hi i0 /\ inside (tpoly (TM c0 c1 c2 c3 r) s0) i0 /\ inside (tpoly (TM c0 c1 c2 c3 r) s1) i0 /\ V (lo i0) /\ V (hi i0)).
    { unfold i0, inside. dec_all; repeat split; try assumption; lra. }
    destruct I0 as (Il & I0 & I1 & Vl & Vh). clearbody i0.
    destruct (Rlt_dec (c2 * c2 - 3 * c1 * c3) 0) as [D|D].
    + apply Goal'; auto. intros s Hs E. exfalso.
      assert (c2 * c2 - 3 * c1 * c3 = (3 * c3 * s + c2) ^ 2) by (replace c1 with (- (2 * c2 * s + 3 * c3 * s ^ 2)) by lra; ring).
      pose proof (pow2_ge_0 (3 * c3 * s + c2)). lra.
    + set (delta := c2 * c2 - 3 * c1 * c3) in *.
      assert (Hr : forall s, c1 + 2 * c2 * s + 3 * c3 * s ^ 2 = 0 ->
                s = (- c2 - sqrt delta) / (3 * c3) \/ s = (- c2 + sqrt delta) / (3 * c3)).
      { intros s E. pose proof (sqrt_sqrt delta ltac:(lra)) as Hsq.
        assert (Hz : (3 * c3 * s + c2 + sqrt delta) * (3 * c3 * s + c2 - sqrt delta) = 0).
        { transitivity ((3 * c3 * s + c2) ^ 2 - sqrt delta * sqrt delta); [ring|]. rewrite Hsq. unfold delta.
          replace c1 with (- (2 * c2 * s + 3 * c3 * s ^ 2)) by lra. ring. }
        apply Rmult_integral in Hz. destruct Hz as [Hz|Hz]; [left|right];
          apply (Rmult_eq_reg_l (3 * c3)); try lra; field_simplify; lra. }
      set (r1 := (- c2 - sqrt delta) / (3 * c3)) in *. set (r2 := (- c2 + sqrt delta) / (3 * c3)) in *.
      clearbody delta r1 r2.
      assert (Step : forall ra i, lo i <= hi i -> V (lo i) -> V (hi i) ->
        let i' := if Rle_dec ra s1 then if Rle_dec s0 ra then widen (tpoly (TM c0 c1 c2 c3 r) ra) i else i else i in
        lo i' <= hi i' /\ V (lo i') /\ V (hi i') /\ (forall x, inside x i -> inside x i') /\
        (s0 <= ra <= s1 -> inside (tpoly (TM c0 c1 c2 c3 r) ra) i')).
      { intros ra i Hi Hl Hh. cbn zeta. destruct (Rle_dec ra s1); [destruct (Rle_dec s0 ra)|];
          [|split; [exact Hi|split; [exact Hl|split; [exact Hh|split; [auto|intros; lra]]]]..].
        destruct (widen_in (tpoly (TM c0 c1 c2 c3 r) ra) i Hi) as (W1 & W2 & W3).
        destruct (widen_from (tpoly (TM c0 c1 c2 c3 r) ra) i V) as (W4 & W5);
          [apply Vi; lra|exact Hl|exact Hh|].
        split; [exact W2|split; [exact W4|split; [exact W5|split; [exact W3|intros _; exact W1]]]]. }
      destruct (Step r1 i0 Il Vl Vh) as (A1 & A2 & A3 & A4 & A5).
      set (i1 := if Rle_dec r1 s1 then _ else _) in *. clearbody i1.
      destruct (Step r2 i1 A1 A2 A3) as (B1 & B2 & B3 & B4 & B5).
      set (i2 := if Rle_dec r2 s1 then _ else _) in *. clearbody i2.
      apply Goal'; auto. intros s Hs E. destruct (Hr s E) as [->| ->]; [apply B4, A5|apply B5]; lra.
Qed.

(** ** Lemmas: cosine *)

Definition Fcos (w q : R) (n : nat) (t : R) : R := w ^ n * cos (w * t + q + INR n * (PI / 2)).

Lemma Fcos_derive : forall w q n t, is_derive (Fcos w q n) t (Fcos w q (S n) t).
Proof.
  intros w q n t. unfold Fcos. auto_derive; [exact I|].
  replace (w * t + q + INR (S n) * (PI / 2)) with (PI / 2 + (w * t + q + INR n * (PI / 2))) by (rewrite S_INR; field).
  assert (H : forall x, cos (PI / 2 + x) = - sin x) by (intros; rewrite cos_plus, cos_PI2, sin_PI2; ring).
  rewrite H. cbn [pow]. ring.
Qed.

Lemma Fcos_derive_n : forall w q n t, is_derive_n (fun t => cos (w * t + q)) n t (Fcos w q n t).
Proof.
  intros w q n. induction n as [|n IH]; intros t.
  - cbn. unfold Fcos. cbn. rewrite Rmult_0_l, Rplus_0_r, Rmult_1_l. reflexivity.
  - cbn. apply (is_derive_ext (Fcos w q n)); [|apply Fcos_derive].
    intros s. symmetry. apply is_derive_n_unique. apply IH.
Qed.

Definition taylor3 (a fa fda fdda fddda t : R) : R :=
  fa + fda * (t - a) + fdda / 2 * (t - a) ^ 2 + fddda / 6 * (t - a) ^ 3.

(** Third order expansion of cos(wt+q) at [a] with the remainder in Lagrange form. *)
Lemma cos_taylor_right : forall w q a t, a < t -> exists z, a < z < t /\
  cos (w * t + q) = taylor3 a (cos (w * a + q)) (- w * sin (w * a + q)) (- (w * w) * cos (w * a + q)) (w * w * w * sin (w * a + q)) t
     + w ^ 4 * cos (w * z + q) * (t - a) ^ 4 / 24.
Proof.
  intros w q a t Hat.
  destruct (Taylor_Lagrange (fun t => cos (w * t + q)) 3 a t Hat) as (z & Hz & E).
  { intros s _ k _. destruct k as [|k]; [exact I|]. exists (Fcos w q (S k) s). exact (Fcos_derive_n w q (S k) s). }
  exists z. split; [exact Hz|]. rewrite E. cbn [sum_f_R0].
  rewrite !(is_derive_n_unique _ _ _ _ (Fcos_derive_n w q _ _)). unfold Fcos.
  replace (INR 0) with 0 by reflexivity. replace (INR 1) with 1 by reflexivity.
  replace (INR 2) with 2 by (cbn; ring). replace (INR 3) with 3 by (cbn; ring). replace (INR 4) with 4 by (cbn; ring).
  replace (INR (fact 0)) with 1 by reflexivity. replace (INR (fact 1)) with 1 by reflexivity.
  replace (INR (fact 2)) with 2 by (cbn; ring). replace (INR (fact 3)) with 6 by (cbn; ring). replace (INR (fact 4)) with 24 by (cbn; ring).
  assert (H1 : forall x, cos (x + 1 * (PI / 2)) = - sin x) by (intros; rewrite Rmult_1_l, cos_plus, cos_PI2, sin_PI2; ring).
  assert (H2 : forall x, cos (x + 2 * (PI / 2)) = - cos x) by (intros x; replace (2 * (PI / 2)) with PI by field; apply neg_cos).
  assert (H3 : forall x, cos (x + 3 * (PI / 2)) = sin x).
  { intros x. replace (x + 3 * (PI / 2)) with (x + PI + 1 * (PI / 2)) by field. rewrite H1, neg_sin. ring. }
  assert (H4 : forall x, cos (x + 4 * (PI / 2)) = cos x).
  { intros x. replace (x + 4 * (PI / 2)) with (x + 2 * PI) by field. rewrite cos_plus, cos_2PI, sin_2PI. ring. }
  rewrite Rmult_0_l, Rplus_0_r, H1, H2, H3, H4. unfold taylor3. field.
Qed.

Lemma cos_taylor : forall w q a t, exists z, (a <= z <= t \/ t <= z <= a) /\
  cos (w * t + q) = taylor3 a (cos (w * a + q)) (- w * sin (w * a + q)) (- (w * w) * cos (w * a + q)) (w * w * w * sin (w * a + q)) t
     + w ^ 4 * cos (w * z + q) * (t - a) ^ 4 / 24.
Proof.
  intros w q a t. destruct (Rtotal_order a t) as [H|[->|H]].
  - destruct (cos_taylor_right w q a t H) as (z & Hz & E). exists z. split; [lra|exact E].
  - exists t. split; [lra|]. unfold taylor3. field.
  - destruct (cos_taylor_right (- w) (w * (2 * a) + q) a (2 * a - t) ltac:(lra)) as (z & Hz & E).
    exists (2 * a - z). split; [lra|].
    replace (- w * (2 * a - t) + (w * (2 * a) + q)) with (w * t + q) in E by ring.
    replace (- w * a + (w * (2 * a) + q)) with (w * a + q) in E by ring.
    replace (- w * z + (w * (2 * a) + q)) with (w * (2 * a - z) + q) in E by ring.
    rewrite E. unfold taylor3. field.
Qed.

Lemma expansion_poly : forall a fa fda fdda fddda r t, tpoly (expansion a fa fda fdda fddda r) t = taylor3 a fa fda fdda fddda t.
Proof. intros. unfold tpoly, poly, expansion, taylor3. cbn. field. Qed.

(** floor and ceil see an integer strictly between their arguments. *)
Lemma gap_iff : forall x y, (1 < ceil y - floor x)%Z <-> exists n, x < IZR n < y.
Proof.
  intros x y. unfold ceil, floor. pose proof (base_Int_part x) as [A1 A2]. pose proof (base_Int_part (- y)) as [B1 B2].
  set (n := Int_part x) in *. set (k := Int_part (- y)) in *. split.
  - intros H. exists (n + 1)%Z. rewrite plus_IZR. split; [lra|].
    assert (Hk : (n + 1 <= - k - 1)%Z) by lia. apply IZR_le in Hk. rewrite plus_IZR, minus_IZR, opp_IZR in Hk. lra.
  - intros (p & H1 & H2). assert (n < p)%Z by (apply lt_IZR; lra). assert (k < - p)%Z by (apply lt_IZR; rewrite opp_IZR; lra). lia.
Qed.

(** A value of the cosine above those at both ends comes with a multiple of 2 PI
    strictly inside. *)
Lemma cos_max : forall A B x, A <= x <= B -> cos A < cos x -> cos B < cos x -> exists n, A < IZR n * (2 * PI) < B.
Proof.
  intros A B x Hx HA HB.
  destruct (continuity_ab_maj cos A B ltac:(lra)) as (s & Hs & Hi).
  { intros c _. apply continuity_cos. }
  pose proof (Hs x Hx) as Hm.
  assert (NA : s <> A) by (intros ->; lra). assert (NB : s <> B) by (intros ->; lra).
  assert (pr : derivable_pt cos s) by apply derivable_pt_cos.
  assert (E := deriv_maximum cos A B s pr ltac:(lra) ltac:(lra) ltac:(intros; apply Hs; lra)).
  assert (Sn : sin s = 0).
  { assert (E2 : derive_pt cos s pr = - sin s) by (apply derive_pt_eq_0, derivable_pt_lim_cos). lra. }
  destruct (sin_eq_0_0 s Sn) as (k & Ek). destruct (Zeven_odd_dec k) as [He|Ho].
  - apply Zeven_ex in He. destruct He as (n & ->). exists n. rewrite mult_IZR in Ek.
    replace (IZR n * (2 * PI)) with s by (rewrite Ek; ring). lra.
  - exfalso. apply Zodd_ex in Ho. destruct Ho as (n & ->). rewrite plus_IZR, mult_IZR in Ek.
    assert (cos s = -1).
    { rewrite Ek. replace ((2 * IZR n + 1) * PI) with (2 * IZR n * PI + PI) by ring. rewrite neg_cos.
      assert (cos (2 * IZR n * PI) = 1); [|lra].
      assert (S0 : sin (IZR n * PI) = 0) by (apply sin_eq_0_1; exists n; reflexivity).
      replace (2 * IZR n * PI) with (2 * (IZR n * PI)) by ring. rewrite cos_2a_sin, S0. ring. }
    pose proof (COS_bound A). lra.
Qed.

Lemma cos_at_multiple : forall n, cos (IZR n * (2 * PI)) = 1.
Proof.
  intros n. assert (S0 : sin (IZR n * PI) = 0) by (apply sin_eq_0_1; exists n; reflexivity).
  replace (IZR n * (2 * PI)) with (2 * (IZR n * PI)) by ring. rewrite cos_2a_sin, S0. ring.
Qed.

Lemma cos_min : forall A B x, A <= x <= B -> cos x < cos A -> cos x < cos B ->
  exists n, A < IZR n * (2 * PI) + PI < B.
Proof.
  intros A B x Hx HA HB.
  assert (N : forall y, cos (y - PI) = - cos y).
  { intros y. replace (cos y) with (cos (y - PI + PI)) by (f_equal; ring). rewrite neg_cos. ring. }
  destruct (cos_max (A - PI) (B - PI) (x - PI)) as (n & Hn); rewrite ?N; try lra. exists n. lra.
Qed.

Lemma fourth_swap : forall vl vr k1 k2, fourth_bounds vl vr k1 k2 false = fourth_bounds vr vl k2 k1 true.
Proof.
  intros vl vr k1 k2. unfold fourth_bounds.
  assert (E : (if Rlt_dec vl vr then Iv vl vr else Iv vr vl) = (if Rlt_dec vr vl then Iv vr vl else Iv vl vr)).
  { dec_all; try reflexivity; try lra. assert (vl = vr) as -> by lra. reflexivity. }
  rewrite E. reflexivity.
Qed.

Lemma eps15_pos : 0 < eps15.
Proof. unfold eps15. apply Rinv_0_lt_compat. apply pow_lt. lra. Qed.

Lemma two_pi_pos : 0 < 2 * PI.
Proof. pose proof PI_RGT_0. lra. Qed.

Lemma gap_angle : forall A B, (1 < ceil (B / (2 * PI)) - floor (A / (2 * PI)))%Z <-> exists n, A < IZR n * (2 * PI) < B.
Proof.
  intros A B. rewrite gap_iff. pose proof two_pi_pos as P.
  assert (E : forall x, x = x / (2 * PI) * (2 * PI)) by (intros; field; pose proof PI_RGT_0; lra).
  split; intros (n & H1 & H2); exists n.
  - rewrite (E A), (E B). split; apply Rmult_lt_compat_r; assumption.
  - rewrite (E A), (E B) in *. split; (eapply Rmult_lt_reg_r; [exact P|]; rewrite <- E; lra).
Qed.

Lemma gap_angle_half : forall A B, (1 < ceil (B / (2 * PI) - / 2) - floor (A / (2 * PI) - / 2))%Z <->
  exists n, A < IZR n * (2 * PI) + PI < B.
Proof.
  intros A B. pose proof PI_RGT_0 as P.
  assert (E : forall x, x / (2 * PI) - / 2 = (x - PI) / (2 * PI)) by (intros; field; lra).
  rewrite !E, gap_angle. split; intros (n & H); exists n; lra.
Qed.

(** The bounds of the cosine over an interval of angles. *)
Lemma fourth_sound : forall A B x, A <= x <= B ->
  inside (cos x) (fourth_bounds (cos A) (cos B) (A / (2 * PI)) (B / (2 * PI)) true).
Proof.
  intros A B x Hx. unfold fourth_bounds. pose proof eps15_pos as Pe. pose proof (COS_bound x) as Hc.
  set (b := if Rlt_dec (cos A) (cos B) then _ else _).
  assert (Hb : (lo b = cos A \/ lo b = cos B) /\ (hi b = cos A \/ hi b = cos B) /\
               lo b <= cos A /\ lo b <= cos B /\ cos A <= hi b /\ cos B <= hi b).
  { unfold b. dec_all; lra. }
  clearbody b.
  assert (U : (1 < ceil (B / (2 * PI)) - floor (A / (2 * PI)))%Z \/ cos x <= hi b).
  { destruct (Rlt_dec (hi b) (cos x)); [left|right; lra]. apply gap_angle, (cos_max A B x); lra. }
  assert (L : (1 < ceil (B / (2 * PI) - / 2) - floor (A / (2 * PI) - / 2))%Z \/ lo b <= cos x).
  { destruct (Rlt_dec (cos x) (lo b)); [left|right; lra]. apply gap_angle_half, (cos_min A B x); lra. }
  destruct (Z.ltb_spec 1 (ceil (B / (2 * PI)) - floor (A / (2 * PI)))%Z);
  destruct (Z.ltb_spec 1 (ceil (B / (2 * PI) - / 2) - floor (A / (2 * PI) - / 2))%Z);
    unfold inside; cbn [lo hi]; (destruct U; [try lia|]); (destruct L; [try lia|]); lra.
Qed.

(** If the cosine keeps a sign, so do the bounds. *)
Lemma fourth_positive : forall A B, A <= B -> (forall x, A <= x <= B -> eps15 < cos x) ->
  0 < lo (fourth_bounds (cos A) (cos B) (A / (2 * PI)) (B / (2 * PI)) true).
Proof.
  intros A B H01 Hp. unfold fourth_bounds. pose proof eps15_pos as Pe.
  pose proof (Hp A ltac:(lra)). pose proof (Hp B ltac:(lra)).
  destruct (Z.ltb_spec 1 (ceil (B / (2 * PI) - / 2) - floor (A / (2 * PI) - / 2))%Z) as [G|G].
  - exfalso. apply gap_angle_half in G. destruct G as (n & Hn). pose proof (Hp (IZR n * (2 * PI) + PI) ltac:(lra)) as Hx.
    rewrite neg_cos, cos_at_multiple in Hx. lra.
  - destruct (Z.ltb 1 _); dec_all; lra.
Qed.

Lemma fourth_negative : forall A B, A <= B -> (forall x, A <= x <= B -> cos x <= - eps15) ->
  hi (fourth_bounds (cos A) (cos B) (A / (2 * PI)) (B / (2 * PI)) true) <= 0.
Proof.
  intros A B H01 Hp. unfold fourth_bounds. pose proof eps15_pos as Pe.
  pose proof (Hp A ltac:(lra)). pose proof (Hp B ltac:(lra)).
  destruct (Z.ltb_spec 1 (ceil (B / (2 * PI)) - floor (A / (2 * PI)))%Z) as [G|G].
  - exfalso. apply gap_angle in G. destruct G as (n & Hn). pose proof (Hp (IZR n * (2 * PI)) ltac:(lra)) as Hx.
    rewrite cos_at_multiple in Hx. lra.
  - destruct (Z.ltb 1 _); dec_all; lra.
Qed.

Lemma cos_bounds_in : forall T w q0 t, w <> 0 -> inside t (T1 T) -> inside (cos (w * t + q0)) (cos_bounds T w q0).
Proof.
  intros T w q0 t Hw [H1 H2]. unfold cos_bounds. destruct (Req_EM_T w 0); [contradiction|].
  unfold pos. destruct (Rlt_dec 0 w).
  - apply fourth_sound. nra.
  - rewrite fourth_swap. apply fourth_sound. nra.
Qed.

(** The cosine has one sign over the time interval, with a margin. *)
Definition one_sign (T : tint) (w q0 : R) : Prop :=
  (forall t, inside t (T1 T) -> eps15 < cos (w * t + q0)) \/ (forall t, inside t (T1 T) -> cos (w * t + q0) <= - eps15).

Lemma cos_bounds_sign : forall T w q0, w <> 0 -> lo (T1 T) <= hi (T1 T) -> one_sign T w q0 ->
  0 < lo (cos_bounds T w q0) \/ hi (cos_bounds T w q0) <= 0.
Proof.
  intros T w q0 Hw HT Hs. unfold cos_bounds. destruct (Req_EM_T w 0); [contradiction|].
  assert (Inv : forall x, exists t, x = w * t + q0).
  { intros x. exists ((x - q0) / w). field. exact Hw. }
  unfold pos. destruct (Rlt_dec 0 w) as [P|P].
  - assert (AB : lo (T1 T) * w + q0 <= hi (T1 T) * w + q0) by nra.
    assert (In : forall t, lo (T1 T) * w + q0 <= w * t + q0 <= hi (T1 T) * w + q0 -> inside t (T1 T)) by (intros t Ht; unfold inside; nra).
    destruct Hs as [Hs|Hs]; [left; apply fourth_positive|right; apply fourth_negative]; try exact AB;
      intros x Hx; destruct (Inv x) as (t & ->); apply Hs, In, Hx.
  - assert (P' : w < 0) by lra. rewrite fourth_swap.
    assert (AB : hi (T1 T) * w + q0 <= lo (T1 T) * w + q0) by nra.
    assert (In : forall t, hi (T1 T) * w + q0 <= w * t + q0 <= lo (T1 T) * w + q0 -> inside t (T1 T)) by (intros t Ht; unfold inside; nra).
    destruct Hs as [Hs|Hs]; [left; apply fourth_positive|right; apply fourth_negative]; try exact AB;
      intros x Hx; destruct (Inv x) as (t & ->); apply Hs, In, Hx.
Qed.

Lemma rem_of_in : forall b v u m4, inside v b -> 0 <= u <= m4 -> 0 <= lo b \/ hi b <= 0 -> inside (v * u / 24) (rem_of b m4).
Proof.
  intros [b0 b1] v u m4 [H1 H2] Hu Hs. unfold rem_of, inside. cbn in *.
  dec_all; split; try nra.
Qed.

Lemma gen_cos_models : forall T w q0, lo (T1 T) <= hi (T1 T) -> w = 0 \/ one_sign T w q0 ->
  models T (gen_cos T w q0) (fun t => cos (w * t + q0)).
Proof.
  intros T w q0 HT Hs t Ht. unfold gen_cos. rewrite expansion_poly. unfold expansion. cbn [rem].
  set (a := icenter (T1 T)).
  destruct (cos_taylor w q0 a t) as (z & Hz & E). rewrite E.
  replace (- (w * w) * (- w * sin (w * a + q0))) with (w * w * w * sin (w * a + q0)) by ring.
  assert (Ha : inside a (T1 T)) by (unfold a, icenter, inside in *; lra).
  assert (Hzi : inside z (T1 T)) by (unfold inside in *; lra).
  assert (H4 : 0 <= (t - a) ^ 4 <= mid4 T).
  { unfold mid4. set (m := / 2 * (hi (T1 T) - lo (T1 T))).
    assert (Hm : - m <= t - a <= m) by (unfold m, a, icenter, inside in *; lra).
    replace ((t - a) ^ 4) with ((t - a) * (t - a) * ((t - a) * (t - a))) by ring.
    assert (0 <= (t - a) * (t - a) <= m * m) by nra. nra. }
  destruct (Req_EM_T w 0) as [->|Hw].
  - unfold cos_bounds. destruct (Req_EM_T 0 0) as [_|n]; [|congruence].
    unfold rem_of, iscale, inside. cbn [lo hi]. dec_all; unfold taylor3; try lra; split; lra.
  - destruct Hs as [Hs|Hs]; [contradiction|].
    assert (W4 : 0 < w * w * (w * w)) by (pose proof (Rsqr_pos_lt w Hw); unfold Rsqr in *; nra).
    apply (inside_eq (cos (w * z + q0) * (w * w * (w * w)) * (t - a) ^ 4 / 24)).
    + unfold taylor3. field.
    + apply rem_of_in; [apply iscale_in, cos_bounds_in; assumption|exact H4|].
      destruct (cos_bounds_sign T w q0 Hw HT Hs) as [H|H]; unfold iscale; destruct (Rle_dec 0 (w * w * (w * w))); try lra; cbn; [left|right]; nra.
Qed.

Lemma sin_as_cos : forall x, sin x = cos (x - PI / 2).
Proof. intros x. rewrite cos_minus, cos_PI2, sin_PI2. ring. Qed.
Lemma cos_as_sin : forall x, cos x = - sin (x - PI / 2).
Proof. intros x. rewrite sin_minus, cos_PI2, sin_PI2. ring. Qed.

(** The sine model is the cosine model with a phase, except for w = 0. *)
Lemma gen_sin_cos : forall T w q0 old, w <> 0 -> gen_sin T w q0 old = gen_cos T w (q0 - PI / 2).
Proof.
  intros T w q0 old Hw. unfold gen_sin, gen_cos, sin_bounds, cos_bounds.
  destruct (Req_EM_T w 0); [contradiction|].
  assert (P := PI_RGT_0).
  replace ((lo (T1 T) * w + q0) / (2 * PI) - / 4) with ((lo (T1 T) * w + (q0 - PI / 2)) / (2 * PI)) by (field; lra).
  replace ((hi (T1 T) * w + q0) / (2 * PI) - / 4) with ((hi (T1 T) * w + (q0 - PI / 2)) / (2 * PI)) by (field; lra).
  rewrite (sin_as_cos (w * lo (T1 T) + q0)), (sin_as_cos (w * hi (T1 T) + q0)), (sin_as_cos (w * icenter (T1 T) + q0)), (cos_as_sin (w * icenter (T1 T) + q0)).
  replace (w * lo (T1 T) + q0 - PI / 2) with (lo (T1 T) * w + (q0 - PI / 2)) by ring.
  replace (w * hi (T1 T) + q0 - PI / 2) with (hi (T1 T) * w + (q0 - PI / 2)) by ring.
  replace (w * icenter (T1 T) + q0 - PI / 2) with (w * icenter (T1 T) + (q0 - PI / 2)) by ring.
  replace (w * - sin (w * icenter (T1 T) + (q0 - PI / 2))) with (- w * sin (w * icenter (T1 T) + (q0 - PI / 2))) by ring.
  reflexivity.
Qed.

(** ** Vectors and matrices of Taylor models *)

(** TVector3: dot, cross, product with a model (taylor_vector-inl.h 197-270,
    326-329) *)
Definition tvdot (T : tint) (u v : tri tm) : tm :=
  tadd (tadd (tmul T (e0 u) (e0 v)) (tmul T (e1 u) (e1 v))) (tmul T (e2 u) (e2 v)).
Definition tvdot_r (u : tri tm) (v : tri R) : tm :=
  tadd (tadd (tscale (e0 u) (e0 v)) (tscale (e1 u) (e1 v))) (tscale (e2 u) (e2 v)).
Definition tvcross (T : tint) (u v : tri tm) : tri tm :=
  T3 (tsub (tmul T (e1 u) (e2 v)) (tmul T (e2 u) (e1 v)))
     (tsub (tmul T (e2 u) (e0 v)) (tmul T (e0 u) (e2 v)))
     (tsub (tmul T (e0 u) (e1 v)) (tmul T (e1 u) (e0 v))).
Definition tvadd : tri tm -> tri tm -> tri tm := tmap2 tadd.
Definition tvsub : tri tm -> tri tm -> tri tm := tmap2 tsub.
Definition tvadd_r : tri tm -> tri R -> tri tm := tmap2 tadd_r.
Definition tvopp : tri tm -> tri tm := tmap topp.
(** Vector3 - TVector3 (385-388) *)
Definition trvsub (v : tri R) (u : tri tm) : tri tm := tvadd_r (tvopp u) v.
(** getTightBound (308-311) *)
Definition tvtight (T : tint) (u : tri tm) : tri ivl := tmap (tight_all T) u.

(** TMatrix3: products with matrices and vectors (taylor_matrix-inl.h 174-215),
    sums and differences (272-344) *)
Definition tmm_r (m : tri (tri tm)) (n : tri (tri R)) : tri (tri tm) := tmap (fun r => tmap (tvdot_r r) (tcols n)) m.
Definition tmm (T : tint) (m n : tri (tri tm)) : tri (tri tm) := tmap (fun r => tmap (tvdot T r) (tcols n)) m.
Definition tmv_r (m : tri (tri tm)) (v : tri R) : tri tm := tmap (fun r => tvdot_r r v) m.
Definition tmv (T : tint) (m : tri (tri tm)) (v : tri tm) : tri tm := tmap (fun r => tvdot T r v) m.
Definition tmadd : tri (tri tm) -> tri (tri tm) -> tri (tri tm) := tmap2 (tmap2 tadd).
Definition tmsub : tri (tri tm) -> tri (tri tm) -> tri (tri tm) := tmap2 (tmap2 tsub).
Definition tmadd_r : tri (tri tm) -> tri (tri R) -> tri (tri tm) := tmap2 (tmap2 tadd_r).

(** Matrix3 * TaylorModel (512-530): the third entry of each row is stored over
    the second, the third column keeps the zero of the constructor. *)
Definition rm_tm (m : tri (tri R)) (a : tm) : tri (tri tm) :=
  tmap (fun r => T3 (tscale a (e0 r)) (tscale a (e2 r)) (tconst 0)) m.

(** rotationConstrain, the member (449-475) and the free function (479-508),
    which starts from default models. *)
Definition tconstrain1 (m : tm) : tm :=
  let r := Iv (clamp (lo (rem m))) (clamp (hi (rem m))) in
  if Req_EM_T (lo r) (-1) then if Req_EM_T (hi r) 1 then TM 0 0 0 0 r else TM (k0 m) (k1 m) (k2 m) (k3 m) r
  else TM (k0 m) (k1 m) (k2 m) (k3 m) r.
Definition tconstrain1_free (m : tm) : tm := TM 0 0 0 0 (Iv (clamp0 (lo (rem m))) (clamp0 (hi (rem m)))).

Definition modelsv (T : tint) (u : tri tm) (f : R -> tri R) : Prop :=
  models T (e0 u) (fun t => e0 (f t)) /\ models T (e1 u) (fun t => e1 (f t)) /\ models T (e2 u) (fun t => e2 (f t)).
Definition modelsm (T : tint) (m : tri (tri tm)) (f : R -> tri (tri R)) : Prop :=
  modelsv T (e0 m) (fun t => e0 (f t)) /\ modelsv T (e1 m) (fun t => e1 (f t)) /\ modelsv T (e2 m) (fun t => e2 (f t)).

Lemma tvdot_models : forall T u v f g, good_time T -> modelsv T u f -> modelsv T v g ->
  models T (tvdot T u v) (fun t => rdot (f t) (g t)).
Proof.
  intros T u v f g HT (?&?&?) (?&?&?). unfold tvdot.
  apply (tadd_models T _ _ (fun t => e0 (f t) * e0 (g t) + e1 (f t) * e1 (g t)) (fun t => e2 (f t) * e2 (g t))).
  - apply (tadd_models T _ _ (fun t => e0 (f t) * e0 (g t)) (fun t => e1 (f t) * e1 (g t))); apply (tmul_models T _ _ _ _ HT); assumption.
  - apply (tmul_models T _ _ _ _ HT); assumption.
Qed.

Lemma tvdot_r_models : forall T u v f, modelsv T u f -> models T (tvdot_r u v) (fun t => rdot (f t) v).
Proof.
  intros T u v f (?&?&?). unfold tvdot_r.
  apply (tadd_models T _ _ (fun t => e0 (f t) * e0 v + e1 (f t) * e1 v) (fun t => e2 (f t) * e2 v)).
  - apply (tadd_models T _ _ (fun t => e0 (f t) * e0 v) (fun t => e1 (f t) * e1 v)); apply tscale_models; assumption.
  - apply tscale_models; assumption.
Qed.
