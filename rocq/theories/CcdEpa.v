(** EPA of the libccd extension and the signed distance
    (include/fcl/narrowphase/detail/convexity_based_algorithm/gjk_libccd-inl.h).  Release build: the
    assertions and the degeneracy test of faceNormalPointingOutward (1018-1029) are not executed. *)
From Coq Require Import Reals Lra Lia List Bool Arith.
From Verif Require Import VecR Support Gjk CcdGjk CcdPoly.
Import ListNotations.
Open Scope R_scope.

(** ccd_pt_el_t: a vertex, an edge or a face *)
Inductive el := EV (v : nat) | EE (e : nat) | EF (f : nat).

Section Epa.
(** CCD_EPS, constants::eps, CCD_REAL_MAX; dist_tol of faceNormalPointingOutward is 0.01 *)
Variables ceps meps feps big : R.
Definition dist_tol : R := 1 / 100.
Variable tri : v3 -> v3 -> v3 -> v3 -> R * v3.
Variable seg : v3 -> v3 -> v3 -> R * v3.
Variable veq : v3 -> v3 -> bool.
Variable sup : v3 -> sp.
(** ccd->epa_tolerance *)
Variable tol : R.

Definition pos (P : pt) (v : nat) : v3 := sv (pv P v).
Definition from (P : pt) (e : nat) : v3 := pos P (ea (pe P e)).
Definition into (P : pt) (e : nat) : v3 := pos P (eb (pe P e)).
(** The vertices of a face: both of edge 0 and the one of edge 1 that is new (ccdPtFaceVec3 of libccd;
    penEPAPosClosest, 2178-2198) *)
Definition third (P : pt) (f : nat) : nat :=
  let a := ea (pe P (side P f 0)) in let b := eb (pe P (side P f 0)) in let u := ea (pe P (side P f 1)) in
  if (Nat.eqb u a || Nat.eqb u b)%bool then eb (pe P (side P f 1)) else u.

(** faceNormalPointingOutward, 1013-1115.  With a zero normal the code divides by zero and compares values that
    are not numbers; it returns the zero vector, and so does the model. *)
Definition raw_normal (P : pt) (f : nat) : v3 :=
  cross (vsub (into P (side P f 0)) (from P (side P f 0))) (vsub (into P (side P f 1)) (from P (side P f 1))).
Fixpoint flip_scan (u : v3) (od : R) (ps : list v3) (mx mn : R) : bool :=
  match ps with
  | [] => if Rlt_dec (Rabs mn) mx then true else false
  | p :: ps' =>
      let d := dot u p - od in
      if Rlt_dec dist_tol d then true
      else if Rlt_dec d (- dist_tol) then false
      else flip_scan u od ps' (Rmax mx d) (Rmin mn d)
  end.
Definition normal (P : pt) (f : nat) : v3 :=
  let dir := raw_normal P f in
  let u := vscale (1 / sqrt (norm2 dir)) dir in
  let od := dot u (from P (side P f 0)) in
  if Rlt_dec od (- dist_tol) then vneg dir
  else if Rle_dec od dist_tol then
    if flip_scan u od (map (pos P) (vs P)) (- big) big then vneg dir else dir
  else dir.
(** isOutsidePolytopeFace, 1123-1130 *)
Definition outside (P : pt) (f : nat) (q : v3) : bool :=
  if Rlt_dec 0 (dot (normal P f) (vsub q (from P (side P f 0)))) then true else false.
(** The visibility test of ComputeVisiblePatchRecursive, 1282-1297 *)
Definition seen (P : pt) (q : v3) (g e : nat) : bool :=
  (outside P g q || area_zero feps q (from P e) (into P e))%bool.

(** dist and witness of an element, written by ccdPtAddVertex, ccdPtAddEdge, ccdPtAddFace of libccd *)
Definition el_pair (P : pt) (x : el) : R * v3 :=
  match x with
  | EV v => (norm2 (pos P v), pos P v)
  | EE e => seg vzero (from P e) (into P e)
  | EF f => tri vzero (from P (side P f 0)) (into P (side P f 0)) (pos P (third P f))
  end.
Definition el_dist (P : pt) (x : el) : R := fst (el_pair P x).
Definition witness (P : pt) (x : el) : v3 := snd (el_pair P x).

(** [Throws]: FCL_THROW_FAILED_AT_THIS_CONFIGURATION; [Bad]: a null pointer is used or a zero vector is
    normalised *)
Inductive out (A : Type) := Ok (a : A) | Throws | Bad.
Arguments Ok {A}. Arguments Throws {A}. Arguments Bad {A}.

(** supportEPADirection, 1520-1563 *)
Definition support_dir (P : pt) (x : el) : out v3 :=
  let unit v := if Req_EM_T (norm2 v) 0 then Bad else Ok (normalized v) in
  if ccd_zero ceps (el_dist P x) then
    match x with
    | EV _ => Throws
    | EE e => match l0 (pe P e) with Some f => unit (normal P f) | None => Bad end
    | EF f => unit (normal P f)
    end
  else unit (witness P x).
(** nextSupport, 1584-1623; [None]: no further point (-1) *)
Definition next_support (P : pt) (x : el) : out (option sp) :=
  match x with
  | EV _ => Ok None
  | _ =>
      match support_dir P x with
      | Throws => Throws
      | Bad => Bad
      | Ok dir =>
          let q := sup dir in
          if Rlt_dec (dot (sv q) dir - sqrt (el_dist P x)) tol then Ok None
          else
            let d2 := match x with
                      | EE e => fst (seg (sv q) (from P e) (into P e))
                      | EF f => fst (tri (sv q) (from P (side P f 0)) (into P (side P f 0)) (pos P (third P f)))
                      | EV _ => 0
                      end in
            if Rlt_dec (sqrt d2) tol then Ok None else Ok (Some q)
      end
  end.

Section Order.
(** The order of an unordered_set *)
Variable ord : list nat -> list nat.
(** expandPolytope, 1402-1510 *)
Definition start_face (P : pt) (x : el) (q : v3) : out nat :=
  match x with
  | EV _ => Throws
  | EF f => Ok f
  | EE e => match l0 (pe P e), l1 (pe P e) with
            | Some f, Some g => if outside P f q then Ok f else if outside P g q then Ok g else Throws
            | _, _ => Bad
            end
  end.
Definition expand (P : pt) (x : el) (q : sp) : out pt :=
  match start_face P x (sv q) with
  | Ok f => match visible_patch P (seen P (sv q)) f with
            | Seen s => Ok (patch_in ord P s q)
            | Twice => Throws
            | _ => Bad
            end
  | Throws => Throws
  | Bad => Bad
  end.
(** validateNearestFeatureOfPolytopeBeingEdge, 1699-1777, for the nearest edge e: the element that is the
    nearest one afterwards *)
Definition validate (P : pt) (e : nat) : out el :=
  let keps := 2 * feps in
  match l0 (pe P e), l1 (pe P e) with
  | Some f, Some g =>
      if Req_EM_T (norm2 (normal P f)) 0 then Bad else if Req_EM_T (norm2 (normal P g)) 0 then Bad else
      let v0 := from P e in
      let thr := keps * Rmax 1 (sqrt (norm2 v0)) in
      let d0 := - dot (normalized (normal P f)) v0 in
      let d1 := - dot (normalized (normal P g)) v0 in
      if Rlt_dec thr d0 then Throws else if Rlt_dec thr d1 then Throws
      else if Rlt_dec (el_dist P (EE e)) (keps * keps) then Ok (EE e)
      else Ok (EF (if Rlt_dec d0 d1 then g else f))
  | _, _ => Bad
  end.
(** ccdPtNearest of libccd in the k-th turn; the theorems say what they assume of it *)
Variable near : nat -> pt -> el.
(** The loop of __ccdEPA, 1808-1829; it has no iteration limit, [None] if it does not end within [n] turns *)
Fixpoint epa_loop (n k : nat) (P : pt) : option (out (el * pt)) :=
  match n with
  | O => None
  | S n' =>
      match (match near k P with EE e => validate P e | x => Ok x end) with
      | Throws => Some Throws
      | Bad => Some Bad
      | Ok x =>
          match next_support P x with
          | Throws => Some Throws
          | Bad => Some Bad
          | Ok None => Some (Ok (x, P))
          | Ok (Some q) =>
              match expand P x q with
              | Throws => Some Throws
              | Bad => Some Bad
              | Ok P' => epa_loop n' (S k) P'
              end
          end
      end
  end.

(** convert2SimplexToTetrahedron, 766-853: a polytope to expand, or the nearest element of a touching contact *)
Definition from3 (a b c : sp) : pt * option el :=
  let dir := cross (vsub (sv b) (sv a)) (vsub (sv c) (sv a)) in
  let d := sup dir in let d2 := sup (vneg dir) in
  let x := fst (tri (sv d) (sv a) (sv b) (sv c)) in
  let y := fst (tri (sv d2) (sv a) (sv b) (sv c)) in
  if (ccd_zero ceps x || ccd_zero ceps y)%bool then
    let (v0, P) := add_vertex empty a in let (v1, P) := add_vertex P b in let (v2, P) := add_vertex P c in
    let (e0, P) := add_edge P v0 v1 in let (e1, P) := add_edge P v1 v2 in let (e2, P) := add_edge P v2 v0 in
    (add_face P e0 e1 e2, Some (EF (nx P)))
  else if Rlt_dec (Rabs y) (Rabs x) then (tetra false a b c d, None) else (tetra false a b c d2, None).
(** simplexToPolytope4, 857-935 *)
Definition from4 (a b c d : sp) : pt * option el :=
  if tiny2 meps (fst (tri vzero (sv a) (sv b) (sv c))) then from3 a b c
  else if tiny2 meps (fst (tri vzero (sv a) (sv c) (sv d))) then from3 a c d
  else if tiny2 meps (fst (tri vzero (sv a) (sv b) (sv d))) then from3 a b d
  else if tiny2 meps (fst (tri vzero (sv b) (sv c) (sv d))) then from3 b c d
  else (tetra true a b c d, None).
(** simplexToPolytope2, 620-722; [dirs] is ccd_points_on_sphere of libccd *)
Variable dirs : list v3.
Definition from2 (a b : sp) : pt * option el :=
  let new p := negb (veq (sv a) (sv p) || veq (sv b) (sv p))%bool in
  let touching :=
    let (v0, P) := add_vertex empty a in let (v1, P) := add_vertex P b in
    let (e, P) := add_edge P v0 v1 in (P, Some (EE e)) in
  match find (fun d => new (sup d)) dirs with
  | None => touching
  | Some d0 =>
      let s0 := sup d0 in
      let s1 := sup (vneg (sv s0)) in
      if new s1 then
        let dir := cross (vsub (sv s0) (sv a)) (vsub (sv s1) (sv a)) in
        let s2 := sup dir in
        if new s2 then
          let s3 := sup (vneg dir) in
          if new s3 then (octa a s0 b s1 s2 s3, None) else touching
        else touching
      else touching
  end.
(** __ccdEPA, 1779-1832.  A simplex of another size than 2, 3, 4 is treated as one of size 2; GJK does not
    return one ([Bad]). *)
Definition ccd_epa (n : nat) (s : list sp) : option (out (el * pt)) :=
  let go st := match snd st with Some x => Some (Ok (x, fst st)) | None => epa_loop n 0 (fst st) end in
  match s with
  | [a; b] => go (from2 a b)
  | [a; b; c] => go (from3 a b c)
  | [a; b; c; d] => go (from4 a b c d)
  | _ => Some Bad
  end.

(** penEPAPosClosest, 2162-2215 *)
Definition el_simplex (P : pt) (x : el) : list sp :=
  match x with
  | EV v => [pv P v]
  | EE e => [pv P (ea (pe P e)); pv P (eb (pe P e))]
  | EF f => [pv P (ea (pe P (side P f 0))); pv P (eb (pe P (side P f 0))); pv P (third P f)]
  end.
Definition pen_points (P : pt) (x : el) : option (v3 * v3) := extract feps (el_simplex P x) (witness P x).
(** ccdGJKSignedDist, 2217-2261.  [Pen d p1 p2]: the depth as a negative number and the points; [Sep r]: what
    _ccdDist returned; [Fail]: exception or undefined *)
Inductive sres := Pen (d : R) (p1 p2 : v3) | Sep (r : dres) | Fail.
Definition signed_dist (dtol : R) (n m : nat) (first_dir : v3) : option sres :=
  match ccd_gjk ceps meps feps tri veq sup n first_dir with
  | None => Some Fail
  | Some (Inside, s) =>
      match ccd_epa m s with
      | None => None
      | Some (Ok (x, P)) =>
          match pen_points P x with Some (p1, p2) => Some (Pen (- sqrt (el_dist P x)) p1 p2) | None => Some Fail end
      | Some _ => Some Fail
      end
  | Some (_, s) => Some (Sep (dist_loop feps tri sup seg dtol n big s))
  end.
End Order.
End Epa.
Arguments Ok {A}. Arguments Throws {A}. Arguments Bad {A}.
