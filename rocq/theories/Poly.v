(** Polynomial equations of degree one to three.  Source: /repo/include/fcl/math/detail/polysolver-inl.h.
    Scalars are real numbers, PI is the real number, sqrt, acos and cos are the real functions (the
    code uses floating point and a 20-digit constant).  The near-zero threshold is the parameter
    [th] (lines 193-197: 1e-9).  The roots are returned as a list, of length the returned count. *)
From Coq Require Import Reals Lra List Psatz.
Import ListNotations.
Local Open Scope R_scope.

(** isZero, lines 177-181 *)
Definition near0 (th v : R) : bool := if Rlt_dec v th then if Rlt_dec (- th) v then true else false else false.
(** cbrt, lines 183-188.  Its return type is bool, so the result of pow is converted: zero gives
    0, anything else (also the NaN of a negative argument) gives 1. *)
Definition cbrt (v : R) : R := if Req_EM_T v 0 then 0 else 1.

(** solveLinear, lines 56-63; coefficients c[0], c[1] *)
Definition solve_linear (th a0 a1 : R) : list R := if near0 th a1 then [] else [- a0 / a1].

(** solveQuadric, lines 65-101.  For a double root s[1] is also written; only s[0] is counted. *)
Definition solve_quadric (th a0 a1 a2 : R) : list R :=
  if near0 th a2 then solve_linear th a0 a1
  else
    let p := a1 / (2 * a2) in let q := a0 / a2 in let D := p * p - q in
    if near0 th D then [- p]
    else if Rlt_dec D 0 then [] else [sqrt D - p; - sqrt D - p].

(** lines 116-127: the coefficients p and q of the depressed cubic y^3 + 3 p y + 2 q = 0 *)
Definition cub_p (a1 a2 a3 : R) : R := (- (1 / 3) * (a2 / a3 * (a2 / a3)) + a1 / a3) * (1 / 3).
Definition cub_q (a0 a1 a2 a3 : R) : R :=
  1 / 2 * (2 / 27 * (a2 / a3) * (a2 / a3 * (a2 / a3)) - 1 / 3 * (a2 / a3) * (a1 / a3) + a0 / a3).
Definition cub_D (p q : R) : R := q * q + p * p * p.

(** lines 130-170: the roots of the depressed cubic *)
Definition solve_depressed (th p q : R) : list R :=
  let D := cub_D p q in
  if near0 th D then
    if near0 th q then [0] else let u := cbrt (- q) in [2 * u; - u]
  else if Rlt_dec D 0 then
    let phi := 1 / 3 * acos (- q / sqrt (- (p * p * p))) in
    let t := 2 * sqrt (- p) in
    [t * cos phi; - t * cos (phi + PI / 3); - t * cos (phi - PI / 3)]
  else
    let u := cbrt (sqrt D + Rabs q) in
    if Rlt_dec 0 q then [- u + p / u] else [u - p / u].

(** solveCubic, lines 103-175 *)
Definition solve_cubic (th a0 a1 a2 a3 : R) : list R :=
  if near0 th a3 then solve_quadric th a0 a1 a2
  else map (fun s => s - 1 / 3 * (a2 / a3)) (solve_depressed th (cub_p a1 a2 a3) (cub_q a0 a1 a2 a3)).
