(** GJK and the distance iteration of the libccd extension
    (include/fcl/narrowphase/detail/convexity_based_algorithm/gjk_libccd-inl.h). *)
From Coq Require Import Reals Lra Lia List Bool.
From Verif Require Import VecR Support Gjk.
Import ListNotations.
Open Scope R_scope.

(** ccd_support_t of libccd: a point of the Minkowski difference with the points of the two objects it
    comes from *)
Record sp := Sp { sv : v3; sv1 : v3; sv2 : v3 }.

(** What doSimplex* return: 1, -1, 0 with the new direction *)
Inductive step := Hit | Miss | Go (dir : v3).
(** Why __ccdGJK returned: 0 for [Inside]; -1 for all the others, which the code does not tell apart
    (the support point is behind the origin seen along [dir]; the simplex is degenerate; the direction is
    almost zero; the iteration limit). *)
Inductive why := Inside | Apart (dir : v3) | Degenerate | NoDir | Limit.

Section Ccd.
(** CCD_EPS of libccd, numeric_limits::epsilon, constants::eps *)
Variables ceps meps feps : R.
(** ccdVec3PointTriDist2(P, a, b, c) of libccd: squared distance from P to the triangle and its nearest
    point.  libccd is not in the repository: the theorems say what they assume of it. *)
Variable tri : v3 -> v3 -> v3 -> v3 -> R * v3.
(** ccdVec3Eq of libccd *)
Variable veq : v3 -> v3 -> bool.
(** __ccdSupport of libccd: v1 from the first object along dir, v2 from the second along -dir, v = v1 - v2 *)
Variable sup : v3 -> sp.

(** isAbsValueLessThanEpsSquared, 420-423 *)
Definition tiny2 (x : R) : bool := if Rlt_dec (Rabs x) (meps * meps) then true else false.
(** ccdIsZero(x) || x > CCD_ZERO *)
Definition ahead (x : R) : bool := (ccd_zero ceps x || if Rlt_dec 0 x then true else false)%bool.
(** tripleCross, 264-269 *)
Definition triple_cross (a b c : v3) : v3 := cross (cross a b) c.

(** doSimplex2, 354-411; a is the last point.  [None]: the assertion of line 376 fails. *)
Definition do2 (b a : sp) : option (step * list sp) :=
  let A := sv a in let B := sv b in
  if Rle_dec (dot A B) (norm2 B * feps) then
    let AB := vsub B A in
    let n := cross B AB in
    if Rlt_dec (norm2 n) (norm2 AB * norm2 B * feps * feps) then Some (Hit, [b; a])
    else Some (Go (cross (normalized n) AB), [b; a])
  else None.

(** The label ccd_do_simplex3_45 of doSimplex3, 478-490 *)
Definition do3_45 (b a : sp) : step * list sp :=
  let AO := vneg (sv a) in let AB := vsub (sv b) (sv a) in
  if ahead (dot AB AO) then (Go (triple_cross AB AO AB), [b; a]) else (Go AO, [a]).
(** doSimplex3, 429-513; ps[0] = c, ps[1] = b, a the last point *)
Definition do3 (c b a : sp) : step * list sp :=
  if tiny2 (fst (tri vzero (sv a) (sv b) (sv c))) then (Hit, [c; b; a])
  else if (veq (sv a) (sv b) || veq (sv a) (sv c))%bool then (Miss, [c; b; a])
  else
    let AO := vneg (sv a) in let AB := vsub (sv b) (sv a) in let AC := vsub (sv c) (sv a) in
    let ABC := cross AB AC in
    if ahead (dot (cross ABC AC) AO) then
      if ahead (dot AC AO) then (Go (triple_cross AC AO AC), [c; a]) else do3_45 b a
    else if ahead (dot (cross AB ABC) AO) then do3_45 b a
    else if ahead (dot ABC AO) then (Go ABC, [c; b; a]) else (Go (vneg ABC), [b; c; a]).

(** doSimplex4, 515-602; ps[0] = d, ps[1] = c, ps[2] = b, a the last point *)
Definition do4 (d c b a : sp) : step * list sp :=
  let A := sv a in let B := sv b in let C := sv c in let D := sv d in
  if tiny2 (fst (tri A B C D)) then (Miss, [d; c; b; a])
  else if tiny2 (fst (tri vzero A B C)) then (Hit, [d; c; b; a])
  else if tiny2 (fst (tri vzero A C D)) then (Hit, [d; c; b; a])
  else if tiny2 (fst (tri vzero A B D)) then (Hit, [d; c; b; a])
  else if tiny2 (fst (tri vzero B C D)) then (Hit, [d; c; b; a])
  else
    let AO := vneg A in let AB := vsub B A in let AC := vsub C A in let AD := vsub D A in
    let ABC := cross AB AC in let ACD := cross AC AD in let ADB := cross AD AB in
    let same x y := if Req_EM_T (ccd_sign ceps x) (ccd_sign ceps y) then true else false in
    let AB_O := same (dot ACD AO) (dot ACD AB) in
    let AC_O := same (dot ADB AO) (dot ADB AC) in
    let AD_O := same (dot ABC AO) (dot ABC AD) in
    if (AB_O && AC_O && AD_O)%bool then (Hit, [d; c; b; a])
    else if negb AB_O then do3 d c a
    else if negb AC_O then do3 b d a
    else do3 c b a.

(** doSimplex, 604-616; [None]: a size the code does not expect *)
Definition do_simplex (s : list sp) : option (step * list sp) :=
  match s with
  | [b; a] => do2 b a
  | [c; b; a] => Some (do3 c b a)
  | [d; c; b; a] => Some (do4 d c b a)
  | _ => None
  end.
(** ccdSimplexAdd of libccd; ccd_simplex_t has room for four points, [None]: written past its end *)
Definition add (s : list sp) (p : sp) : option (list sp) := if Nat.ltb (length s) 4 then Some (s ++ [p]) else None.

(** The loop of __ccdGJK, 1649-1676, with [n] iterations left *)
Fixpoint gjk_loop (n : nat) (dir : v3) (s : list sp) : option (why * list sp) :=
  match n with
  | O => Some (Limit, s)
  | S n' =>
      let l := sup dir in
      if Rlt_dec (dot (sv l) dir) 0 then Some (Apart dir, s)
      else match add s l with
           | None => None
           | Some s1 =>
               match do_simplex s1 with
               | None => None
               | Some (Hit, s2) => Some (Inside, s2)
               | Some (Miss, s2) => Some (Degenerate, s2)
               | Some (Go d, s2) => if ccd_zero ceps (norm2 d) then Some (NoDir, s2) else gjk_loop n' d s2
               end
           end
  end.
(** __ccdGJK, 1626-1680; first_dir is a callback of libccd *)
Definition ccd_gjk (n : nat) (first_dir : v3) : option (why * list sp) :=
  let l := sup first_dir in gjk_loop n (vneg (sv l)) [l].

(** ** The distance iteration *)
(** ccdVec3PointSegmentDist2(P, a, b) of libccd, like [tri] *)
Variable seg : v3 -> v3 -> v3 -> R * v3.

(** One turn of the loop of simplexReduceToTriangle, 241-256: the best distance, the index of the point to
    replace, its witness; [None] for best = -1 and best_witness not written *)
Definition reduce_step (st : R * option (nat * v3)) (i : nat) (a b c : sp) : R * option (nat * v3) :=
  let t := tri vzero (sv a) (sv b) (sv c) in
  if Rlt_dec (sqrt (fst t)) (fst st) then (sqrt (fst t), Some (i, snd t)) else st.
(** simplexReduceToTriangle, 231-261 *)
Definition reduce (last : R) (p0 p1 p2 p3 : sp) : R * option v3 * list sp :=
  let st := reduce_step (reduce_step (reduce_step (last, None) 0 p3 p1 p2) 1 p0 p3 p2) 2 p0 p1 p3 in
  match snd st with
  | None => (fst st, None, [p0; p1; p2])
  | Some (i, w) => (fst st, Some w, match i with 0%nat => [p3; p1; p2] | 1%nat => [p0; p3; p2] | _ => [p0; p1; p3] end)
  end.
(** The nearest point of the simplex, 2084-2109; [None] for closest_p if it is not written.  A size the code
    does not expect gives no result. *)
Definition nearest (last : R) (s : list sp) : option (R * option v3 * list sp) :=
  match s with
  | [a] => Some (sqrt (norm2 (sv a)), Some (sv a), s)
  | [a; b] => let t := seg vzero (sv a) (sv b) in Some (sqrt (fst t), Some (snd t), s)
  | [a; b; c] => let t := tri vzero (sv a) (sv b) (sv c) in Some (sqrt (fst t), Some (snd t), s)
  | [a; b; c; d] => Some (reduce last a b c d)
  | _ => None
  end.

(** are_coincident, 943-965 *)
Definition coincident (p q : v3) : bool :=
  let far x y := if Rlt_dec (Rmax (Rmax 1 (Rabs x)) (Rabs y) * feps) (Rabs (x - y)) then true else false in
  negb (far (c0 p) (c0 q) || far (c1 p) (c1 q) || far (c2 p) (c2 q))%bool.
(** triangle_area_is_zero, 974-1000; ccdVec3Normalize divides by the length (not called on a zero vector
    here, the points are not coincident) *)
Definition area_zero (a b c : v3) : bool :=
  (coincident a b || coincident a c ||
   let n := cross (normalized (vsub b a)) (normalized (vsub c a)) in
   if Rlt_dec (norm2 n) (feps * feps) then true else false)%bool.
(** calc_p, 1897-1904 *)
Definition calc_p (a b : v3) (s : R) : v3 := vadd a (vscale s (vsub b a)).
(** extractObjectPointsFromSegment, 1850-1918 *)
Definition extract_segment (a b : sp) (p : v3) : v3 * v3 :=
  let AB := vsub (sv b) (sv a) in
  let x := Rabs (c0 AB) in let y := Rabs (c1 AB) in let z := Rabs (c2 AB) in
  let f := if Rle_dec y x then if Rle_dec z x then c0 else if Rle_dec z y then c1 else c2
           else if Rle_dec z y then c1 else c2 in
  if Rlt_dec (Rabs (f AB)) feps then (sv1 a, sv2 a)
  else let s := (f p - f (sv a)) / f AB in (calc_p (sv1 a) (sv1 b) s, calc_p (sv2 a) (sv2 b) s).
(** interpolate, 2024-2039 *)
Definition interpolate (beta gamma : R) (a b c : v3) : v3 :=
  vadd (vadd a (vscale beta (vsub b a))) (vscale gamma (vsub c a)).
(** extractClosestPoints, 1926-2048 *)
Definition extract (s : list sp) (p : v3) : option (v3 * v3) :=
  match s with
  | [a] => Some (sv1 a, sv2 a)
  | [a; b] => Some (extract_segment a b p)
  | [a; b; c] =>
      if area_zero (sv a) (sv b) (sv c) then
        let ab := norm2 (vsub (sv b) (sv a)) in let ac := norm2 (vsub (sv c) (sv a)) in let bc := norm2 (vsub (sv c) (sv b)) in
        Some (if (if Rle_dec ac ab then if Rle_dec bc ab then true else false else false) then extract_segment a b p
              else if (if Rle_dec ab ac then if Rle_dec bc ac then true else false else false) then extract_segment a c p
              else extract_segment b c p)
      else
        let AB := vsub (sv b) (sv a) in let AC := vsub (sv c) (sv a) in let n := cross AB AC in
        let Ap := vsub p (sv a) in
        let beta := dot n (cross Ap AC) / norm2 n in
        let gamma := dot n (cross AB Ap) / norm2 n in
        Some (interpolate beta gamma (sv1 a) (sv1 b) (sv1 c), interpolate beta gamma (sv2 a) (sv2 b) (sv2 c))
  | _ => None
  end.

(** What _ccdDist returns: a distance with the points on the objects, a distance after closest_p was read
    without having been written (the points are then undefined, and so is the direction of the next
    search), or -1.  [ZeroDir]: closest_p is zero and is divided by its length, the code goes on with
    values that are not numbers.  [Broken]: the simplex has a size the code does not expect. *)
Inductive dres := Dist (d : R) (p1 p2 : v3) | DistUnset (d : R) | NoDist | ZeroDir | Broken.
Definition answer (d : R) (s : list sp) (w : option v3) : dres :=
  match w with
  | None => DistUnset d
  | Some p => match extract s p with Some (p1, p2) => Dist d p1 p2 | None => Broken end
  end.
(** ccd->dist_tolerance *)
Variable tol : R.
(** The loop of _ccdDist, 2074-2147.  The direction is -closest_p, normalised by dividing by its length.
    If closest_p was not written but the loop goes on, the run has no defined result; this needs
    last_dist - last_dist >= dist_tolerance and cannot happen with a positive tolerance. *)
Fixpoint dist_loop (n : nat) (last : R) (s : list sp) : dres :=
  match n with
  | O => NoDist
  | S n' =>
      match nearest last s with
      | None => Broken
      | Some (d, w, s1) =>
          if Rlt_dec (last - d) tol then answer d s1 w
          else match w with
               | None => DistUnset d
               | Some p =>
                   if Req_EM_T (norm2 p) 0 then ZeroDir else
                   let l := sup (normalized (vneg p)) in
                   if Rlt_dec (Rabs (d - norm (sv l))) tol then answer d s1 w
                   else match add s1 l with None => Broken | Some s2 => dist_loop n' d s2 end
               end
      end
  end.
(** ccdGJKDist2, 2281-2292; [big] is CCD_REAL_MAX *)
Variable big : R.
Definition ccd_dist2 (n : nat) (first_dir : v3) : dres :=
  match ccd_gjk n first_dir with
  | None => Broken
  | Some (Inside, _) => NoDist
  | Some (_, s) => dist_loop n big s
  end.
End Ccd.
