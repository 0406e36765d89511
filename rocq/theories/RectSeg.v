(** The helpers of the distance of two rectangles, used by the distance and overlap tests of RSS and OBBRSS (include/fcl/math/bv/RSS-inl.h).
    rectDistance (512-1222); the overload with a transform (1225-1934) is the same text with other declarations and is not modelled separately. *)
From Coq Require Import Reals List Bool.
From Verif Require Import VecR Obb Motion.
Import ListNotations.
Open Scope R_scope.

(** clipToRange (449-454) *)
Definition clip_to_range (val a b : R) : R := if Rlt_dec val a then a else if Rlt_dec b val then b else val.

(** segCoords (457-483): t and u.  Division is only done by numbers that are not zero. *)
Definition seg_coords (a b AB AT BT : R) : R * R :=
  let denom := 1 - AB * AB in
  let t := if Req_EM_T denom 0 then 0 else clip_to_range ((AT - BT * AB) / denom) 0 a in
  let u := t * AB - BT in
  if Rlt_dec u 0 then (clip_to_range AT 0 a, 0)
  else if Rlt_dec b u then (clip_to_range (b * AB + AT) 0 a, b)
  else (t, u).

(** inVoronoi (485-509); the constant 1e-7 is exact here *)
Definition tiny : R := 1 / 10000000.
Definition in_voronoi (a b AnB AnT AB AT BT : R) : bool :=
  if Rlt_dec (Rabs AnB) tiny then false
  else
    let u := clip_to_range (- AnT / AnB) 0 b in
    let t := clip_to_range (u * AB + AT) 0 a in
    let v := t * AB - BT in
    if Rlt_dec 0 AnB then if Rlt_dec (u + tiny) v then true else false
    else if Rlt_dec v (u - tiny) then true else false.

(** ** rectDistance *)
(** The first rectangle is 0 <= x <= a0, 0 <= y <= a1, z = 0 in its own frame; the second one has its corner at Tab and its sides, of lengths b0 and b1, along the first two
    columns of Rab.  Names are those of the code: U and L are the upper and lower sides, x and y the coordinate along the sides of the other rectangle. *)
Definition gt (x y : R) : bool := if Rlt_dec y x then true else false.
Definition pick (x y p q : R) : R := if Rlt_dec x y then p else q.
(** One case: the two tests before, the two shortcuts, the two Voronoi tests, the coordinates, D and P.  [None]: not this pair of sides; otherwise P, Q and the distance. *)
Definition edge_case (pre1 pre2 all1 all2 vor1 vor2 : bool) (tu : R * R) (D : R -> R -> v3) (P : R -> v3) : option (v3 * v3 * R) :=
  if pre1 && pre2 && ((all1 || vor1) && (all2 || vor2)) then let '(t, u) := tu in Some (P t, vadd (D t u) (P t), norm (D t u)) else None.
Section Rectangles.
Variables (Rab : mat3) (Tab : v3) (a0 a1 b0 b1 : R).
(** The numbers (512-583, 694-737, 853-891, 1006-1036) *)
Definition A0B0 : R := c0 (m0 Rab).
Definition A0B1 : R := c0 (m1 Rab).
Definition A1B0 : R := c1 (m0 Rab).
Definition A1B1 : R := c1 (m1 Rab).
Definition Tba0 : R := dot (m0 Rab) Tab.
Definition Tba1 : R := dot (m1 Rab) Tab.
Definition Tba2 : R := dot (m2 Rab) Tab.
Definition ALL_x : R := -Tba0.
Definition ALU_x : R := ALL_x + (a1 * A1B0).
Definition AUL_x : R := ALL_x + (a0 * A0B0).
Definition AUU_x : R := ALU_x + (a0 * A0B0).
Definition BLL_x : R := (c0 Tab).
Definition BLU_x : R := BLL_x + (b1 * A0B1).
Definition BUL_x : R := BLL_x + (b0 * A0B0).
Definition BUU_x : R := BLU_x + (b0 * A0B0).
Definition ALL_y : R := -Tba1.
Definition ALU_y : R := ALL_y + (a1 * A1B1).
Definition AUL_y : R := ALL_y + (a0 * A0B1).
Definition AUU_y : R := ALU_y + (a0 * A0B1).
Definition BLL_y : R := (c1 Tab).
Definition BLU_y : R := BLL_y + (b1 * A1B1).
Definition BUL_y : R := BLL_y + (b0 * A1B0).
Definition BUU_y : R := BLU_y + (b0 * A1B0).
Definition LA1_lx : R := pick ALL_x ALU_x ALL_x ALU_x.
Definition LA1_ux : R := pick ALL_x ALU_x ALU_x ALL_x.
Definition UA1_lx : R := pick ALL_x ALU_x AUL_x AUU_x.
Definition UA1_ux : R := pick ALL_x ALU_x AUU_x AUL_x.
Definition LB1_lx : R := pick BLL_x BLU_x BLL_x BLU_x.
Definition LB1_ux : R := pick BLL_x BLU_x BLU_x BLL_x.
Definition UB1_lx : R := pick BLL_x BLU_x BUL_x BUU_x.
Definition UB1_ux : R := pick BLL_x BLU_x BUU_x BUL_x.
Definition LA1_ly : R := pick ALL_y ALU_y ALL_y ALU_y.
Definition LA1_uy : R := pick ALL_y ALU_y ALU_y ALL_y.
Definition UA1_ly : R := pick ALL_y ALU_y AUL_y AUU_y.
Definition UA1_uy : R := pick ALL_y ALU_y AUU_y AUL_y.
Definition LB0_lx : R := pick BLL_x BUL_x BLL_x BUL_x.
Definition LB0_ux : R := pick BLL_x BUL_x BUL_x BLL_x.
Definition UB0_lx : R := pick BLL_x BUL_x BLU_x BUU_x.
Definition UB0_ux : R := pick BLL_x BUL_x BUU_x BLU_x.
Definition LA0_lx : R := pick ALL_x AUL_x ALL_x AUL_x.
Definition LA0_ux : R := pick ALL_x AUL_x AUL_x ALL_x.
Definition UA0_lx : R := pick ALL_x AUL_x ALU_x AUU_x.
Definition UA0_ux : R := pick ALL_x AUL_x AUU_x ALU_x.
Definition LB1_ly : R := pick BLL_y BLU_y BLL_y BLU_y.
Definition LB1_uy : R := pick BLL_y BLU_y BLU_y BLL_y.
Definition UB1_ly : R := pick BLL_y BLU_y BUL_y BUU_y.
Definition UB1_uy : R := pick BLL_y BLU_y BUU_y BUL_y.
Definition LA0_ly : R := pick ALL_y AUL_y ALL_y AUL_y.
Definition LA0_uy : R := pick ALL_y AUL_y AUL_y ALL_y.
Definition UA0_ly : R := pick ALL_y AUL_y ALU_y AUU_y.
Definition UA0_uy : R := pick ALL_y AUL_y AUU_y ALU_y.
Definition LB0_ly : R := pick BLL_y BUL_y BLL_y BUL_y.
Definition LB0_uy : R := pick BLL_y BUL_y BUL_y BLL_y.
Definition UB0_ly : R := pick BLL_y BUL_y BLU_y BUU_y.
Definition UB0_uy : R := pick BLL_y BUL_y BUU_y BLU_y.
(** UA1, UB1 (585) *)
Definition edge_UA1_UB1 : option (v3 * v3 * R) :=
  edge_case (gt UA1_ux b0) (gt UB1_ux a0) (gt UA1_lx b0) (gt UB1_lx a0)
    (in_voronoi (b1) (a1) (A1B0) ((a0 * A0B0) - b0 - Tba0) (A1B1) ((a0 * A0B1) - Tba1) (-(c1 Tab) - (b0 * A1B0)))
    (in_voronoi (a1) (b1) (A0B1) ((c0 Tab) + (b0 * A0B0) - a0) (A1B1) ((c1 Tab) + (b0 * A1B0)) (Tba1 - (a0 * A0B1)))
    (seg_coords (a1) (b1) (A1B1) ((c1 Tab) + (b0 * A1B0)) (Tba1 - (a0 * A0B1)))
    (fun t u => mk3 ((c0 Tab) + (c0 (m0 Rab)) * b0 + (c0 (m1 Rab)) * u - a0) ((c1 Tab) + (c1 (m0 Rab)) * b0 + (c1 (m1 Rab)) * u - t) ((c2 Tab) + (c2 (m0 Rab)) * b0 + (c2 (m1 Rab)) * u)) (fun t => mk3 (a0) (t) (0)).
(** UA1, LB1 (616) *)
Definition edge_UA1_LB1 : option (v3 * v3 * R) :=
  edge_case (gt 0 UA1_lx) (gt LB1_ux a0) (gt 0 UA1_ux) (gt LB1_lx a0)
    (in_voronoi (b1) (a1) (-A1B0) (Tba0 - (a0 * A0B0)) (A1B1) ((a0 * A0B1) - Tba1) (-(c1 Tab)))
    (in_voronoi (a1) (b1) (A0B1) ((c0 Tab) - a0) (A1B1) ((c1 Tab)) (Tba1 - (a0 * A0B1)))
    (seg_coords (a1) (b1) (A1B1) ((c1 Tab)) (Tba1 - (a0 * A0B1)))
    (fun t u => mk3 ((c0 Tab) + (c0 (m1 Rab)) * u - a0) ((c1 Tab) + (c1 (m1 Rab)) * u - t) ((c2 Tab) + (c2 (m1 Rab)) * u)) (fun t => mk3 (a0) (t) (0)).
(** LA1, UB1 (644) *)
Definition edge_LA1_UB1 : option (v3 * v3 * R) :=
  edge_case (gt LA1_ux b0) (gt 0 UB1_lx) (gt LA1_lx b0) (gt 0 UB1_ux)
    (in_voronoi (b1) (a1) (A1B0) (-Tba0 - b0) (A1B1) (-Tba1) (-(c1 Tab) - (b0 * A1B0)))
    (in_voronoi (a1) (b1) (-A0B1) (-(c0 Tab) - (b0 * A0B0)) (A1B1) ((c1 Tab) + (b0 * A1B0)) (Tba1))
    (seg_coords (a1) (b1) (A1B1) ((c1 Tab) + (b0 * A1B0)) (Tba1))
    (fun t u => mk3 ((c0 Tab) + (c0 (m0 Rab)) * b0 + (c0 (m1 Rab)) * u) ((c1 Tab) + (c1 (m0 Rab)) * b0 + (c1 (m1 Rab)) * u - t) ((c2 Tab) + (c2 (m0 Rab)) * b0 + (c2 (m1 Rab)) * u)) (fun t => mk3 (0) (t) (0)).
(** LA1, LB1 (672) *)
Definition edge_LA1_LB1 : option (v3 * v3 * R) :=
  edge_case (gt 0 LA1_lx) (gt 0 LB1_lx) (gt 0 LA1_ux) (gt 0 LB1_ux)
    (in_voronoi (b1) (a1) (-A1B0) (Tba0) (A1B1) (-Tba1) (-(c1 Tab)))
    (in_voronoi (a1) (b1) (-A0B1) (-(c0 Tab)) (A1B1) ((c1 Tab)) (Tba1))
    (seg_coords (a1) (b1) (A1B1) ((c1 Tab)) (Tba1))
    (fun t u => mk3 ((c0 Tab) + (c0 (m1 Rab)) * u) ((c1 Tab) + (c1 (m1 Rab)) * u - t) ((c2 Tab) + (c2 (m1 Rab)) * u)) (fun t => mk3 (0) (t) (0)).
(** UA1, UB0 (739) *)
Definition edge_UA1_UB0 : option (v3 * v3 * R) :=
  edge_case (gt UA1_uy b1) (gt UB0_ux a0) (gt UA1_ly b1) (gt UB0_lx a0)
    (in_voronoi (b0) (a1) (A1B1) ((a0 * A0B1) - Tba1 - b1) (A1B0) ((a0 * A0B0) - Tba0) (-(c1 Tab) - (b1 * A1B1)))
    (in_voronoi (a1) (b0) (A0B0) ((c0 Tab) - a0 + (b1 * A0B1)) (A1B0) ((c1 Tab) + (b1 * A1B1)) (Tba0 - (a0 * A0B0)))
    (seg_coords (a1) (b0) (A1B0) ((c1 Tab) + (b1 * A1B1)) (Tba0 - (a0 * A0B0)))
    (fun t u => mk3 ((c0 Tab) + (c0 (m1 Rab)) * b1 + (c0 (m0 Rab)) * u - a0) ((c1 Tab) + (c1 (m1 Rab)) * b1 + (c1 (m0 Rab)) * u - t) ((c2 Tab) + (c2 (m1 Rab)) * b1 + (c2 (m0 Rab)) * u)) (fun t => mk3 (a0) (t) (0)).
(** UA1, LB0 (768) *)
Definition edge_UA1_LB0 : option (v3 * v3 * R) :=
  edge_case (gt 0 UA1_ly) (gt LB0_ux a0) (gt 0 UA1_uy) (gt LB0_lx a0)
    (in_voronoi (b0) (a1) (-A1B1) (Tba1 - (a0 * A0B1)) (A1B0) ((a0 * A0B0) - Tba0) (-(c1 Tab)))
    (in_voronoi (a1) (b0) (A0B0) ((c0 Tab) - a0) (A1B0) ((c1 Tab)) (Tba0 - (a0 * A0B0)))
    (seg_coords (a1) (b0) (A1B0) ((c1 Tab)) (Tba0 - (a0 * A0B0)))
    (fun t u => mk3 ((c0 Tab) + (c0 (m0 Rab)) * u - a0) ((c1 Tab) + (c1 (m0 Rab)) * u - t) ((c2 Tab) + (c2 (m0 Rab)) * u)) (fun t => mk3 (a0) (t) (0)).
(** LA1, UB0 (796) *)
Definition edge_LA1_UB0 : option (v3 * v3 * R) :=
  edge_case (gt LA1_uy b1) (gt 0 UB0_lx) (gt LA1_ly b1) (gt 0 UB0_ux)
    (in_voronoi (b0) (a1) (A1B1) (-Tba1 - b1) (A1B0) (-Tba0) (-(c1 Tab) - (b1 * A1B1)))
    (in_voronoi (a1) (b0) (-A0B0) (-(c0 Tab) - (b1 * A0B1)) (A1B0) ((c1 Tab) + (b1 * A1B1)) (Tba0))
    (seg_coords (a1) (b0) (A1B0) ((c1 Tab) + (b1 * A1B1)) (Tba0))
    (fun t u => mk3 ((c0 Tab) + (c0 (m1 Rab)) * b1 + (c0 (m0 Rab)) * u) ((c1 Tab) + (c1 (m1 Rab)) * b1 + (c1 (m0 Rab)) * u - t) ((c2 Tab) + (c2 (m1 Rab)) * b1 + (c2 (m0 Rab)) * u)) (fun t => mk3 (0) (t) (0)).
(** LA1, LB0 (826) *)
Definition edge_LA1_LB0 : option (v3 * v3 * R) :=
  edge_case (gt 0 LA1_ly) (gt 0 LB0_lx) (gt 0 LA1_uy) (gt 0 LB0_ux)
    (in_voronoi (b0) (a1) (-A1B1) (Tba1) (A1B0) (-Tba0) (-(c1 Tab)))
    (in_voronoi (a1) (b0) (-A0B0) (-(c0 Tab)) (A1B0) ((c1 Tab)) (Tba0))
    (seg_coords (a1) (b0) (A1B0) ((c1 Tab)) (Tba0))
    (fun t u => mk3 ((c0 Tab) + (c0 (m0 Rab)) * u) ((c1 Tab) + (c1 (m0 Rab)) * u - t) ((c2 Tab) + (c2 (m0 Rab)) * u)) (fun t => mk3 (0) (t) (0)).
(** UA0, UB1 (893) *)
Definition edge_UA0_UB1 : option (v3 * v3 * R) :=
  edge_case (gt UA0_ux b0) (gt UB1_uy a1) (gt UA0_lx b0) (gt UB1_ly a1)
    (in_voronoi (b1) (a0) (A0B0) ((a1 * A1B0) - Tba0 - b0) (A0B1) ((a1 * A1B1) - Tba1) (-(c0 Tab) - (b0 * A0B0)))
    (in_voronoi (a0) (b1) (A1B1) ((c1 Tab) - a1 + (b0 * A1B0)) (A0B1) ((c0 Tab) + (b0 * A0B0)) (Tba1 - (a1 * A1B1)))
    (seg_coords (a0) (b1) (A0B1) ((c0 Tab) + (b0 * A0B0)) (Tba1 - (a1 * A1B1)))
    (fun t u => mk3 ((c0 Tab) + (c0 (m0 Rab)) * b0 + (c0 (m1 Rab)) * u - t) ((c1 Tab) + (c1 (m0 Rab)) * b0 + (c1 (m1 Rab)) * u - a1) ((c2 Tab) + (c2 (m0 Rab)) * b0 + (c2 (m1 Rab)) * u)) (fun t => mk3 (t) (a1) (0)).
(** UA0, LB1 (922) *)
Definition edge_UA0_LB1 : option (v3 * v3 * R) :=
  edge_case (gt 0 UA0_lx) (gt LB1_uy a1) (gt 0 UA0_ux) (gt LB1_ly a1)
    (in_voronoi (b1) (a0) (-A0B0) (Tba0 - (a1 * A1B0)) (A0B1) ((a1 * A1B1) - Tba1) (-(c0 Tab)))
    (in_voronoi (a0) (b1) (A1B1) ((c1 Tab) - a1) (A0B1) ((c0 Tab)) (Tba1 - (a1 * A1B1)))
    (seg_coords (a0) (b1) (A0B1) ((c0 Tab)) (Tba1 - (a1 * A1B1)))
    (fun t u => mk3 ((c0 Tab) + (c0 (m1 Rab)) * u - t) ((c1 Tab) + (c1 (m1 Rab)) * u - a1) ((c2 Tab) + (c2 (m1 Rab)) * u)) (fun t => mk3 (t) (a1) (0)).
(** LA0, UB1 (950) *)
Definition edge_LA0_UB1 : option (v3 * v3 * R) :=
  edge_case (gt LA0_ux b0) (gt 0 UB1_ly) (gt LA0_lx b0) (gt 0 UB1_uy)
    (in_voronoi (b1) (a0) (A0B0) (-b0 - Tba0) (A0B1) (-Tba1) (-(b0 * A0B0) - (c0 Tab)))
    (in_voronoi (a0) (b1) (-A1B1) (-(c1 Tab) - (b0 * A1B0)) (A0B1) ((c0 Tab) + (b0 * A0B0)) (Tba1))
    (seg_coords (a0) (b1) (A0B1) ((c0 Tab) + (b0 * A0B0)) (Tba1))
    (fun t u => mk3 ((c0 Tab) + (c0 (m0 Rab)) * b0 + (c0 (m1 Rab)) * u - t) ((c1 Tab) + (c1 (m0 Rab)) * b0 + (c1 (m1 Rab)) * u) ((c2 Tab) + (c2 (m0 Rab)) * b0 + (c2 (m1 Rab)) * u)) (fun t => mk3 (t) (0) (0)).
(** LA0, LB1 (978) *)
Definition edge_LA0_LB1 : option (v3 * v3 * R) :=
  edge_case (gt 0 LA0_lx) (gt 0 LB1_ly) (gt 0 LA0_ux) (gt 0 LB1_uy)
    (in_voronoi (b1) (a0) (-A0B0) (Tba0) (A0B1) (-Tba1) (-(c0 Tab)))
    (in_voronoi (a0) (b1) (-A1B1) (-(c1 Tab)) (A0B1) ((c0 Tab)) (Tba1))
    (seg_coords (a0) (b1) (A0B1) ((c0 Tab)) (Tba1))
    (fun t u => mk3 ((c0 Tab) + (c0 (m1 Rab)) * u - t) ((c1 Tab) + (c1 (m1 Rab)) * u) ((c2 Tab) + (c2 (m1 Rab)) * u)) (fun t => mk3 (t) (0) (0)).
(** UA0, UB0 (1038) *)
Definition edge_UA0_UB0 : option (v3 * v3 * R) :=
  edge_case (gt UA0_uy b1) (gt UB0_uy a1) (gt UA0_ly b1) (gt UB0_ly a1)
    (in_voronoi (b0) (a0) (A0B1) ((a1 * A1B1) - Tba1 - b1) (A0B0) ((a1 * A1B0) - Tba0) (-(c0 Tab) - (b1 * A0B1)))
    (in_voronoi (a0) (b0) (A1B0) ((c1 Tab) - a1 + (b1 * A1B1)) (A0B0) ((c0 Tab) + (b1 * A0B1)) (Tba0 - (a1 * A1B0)))
    (seg_coords (a0) (b0) (A0B0) ((c0 Tab) + (b1 * A0B1)) (Tba0 - (a1 * A1B0)))
    (fun t u => mk3 ((c0 Tab) + (c0 (m1 Rab)) * b1 + (c0 (m0 Rab)) * u - t) ((c1 Tab) + (c1 (m1 Rab)) * b1 + (c1 (m0 Rab)) * u - a1) ((c2 Tab) + (c2 (m1 Rab)) * b1 + (c2 (m0 Rab)) * u)) (fun t => mk3 (t) (a1) (0)).
(** UA0, LB0 (1067) *)
Definition edge_UA0_LB0 : option (v3 * v3 * R) :=
  edge_case (gt 0 UA0_ly) (gt LB0_uy a1) (gt 0 UA0_uy) (gt LB0_ly a1)
    (in_voronoi (b0) (a0) (-A0B1) (Tba1 - (a1 * A1B1)) (A0B0) ((a1 * A1B0) - Tba0) (-(c0 Tab)))
    (in_voronoi (a0) (b0) (A1B0) ((c1 Tab) - a1) (A0B0) ((c0 Tab)) (Tba0 - (a1 * A1B0)))
    (seg_coords (a0) (b0) (A0B0) ((c0 Tab)) (Tba0 - (a1 * A1B0)))
    (fun t u => mk3 ((c0 Tab) + (c0 (m0 Rab)) * u - t) ((c1 Tab) + (c1 (m0 Rab)) * u - a1) ((c2 Tab) + (c2 (m0 Rab)) * u)) (fun t => mk3 (t) (a1) (0)).
(** LA0, UB0 (1095) *)
Definition edge_LA0_UB0 : option (v3 * v3 * R) :=
  edge_case (gt LA0_uy b1) (gt 0 UB0_ly) (gt LA0_ly b1) (gt 0 UB0_uy)
    (in_voronoi (b0) (a0) (A0B1) (-Tba1 - b1) (A0B0) (-Tba0) (-(c0 Tab) - (b1 * A0B1)))
    (in_voronoi (a0) (b0) (-A1B0) (-(c1 Tab) - (b1 * A1B1)) (A0B0) ((c0 Tab) + (b1 * A0B1)) (Tba0))
    (seg_coords (a0) (b0) (A0B0) ((c0 Tab) + (b1 * A0B1)) (Tba0))
    (fun t u => mk3 ((c0 Tab) + (c0 (m1 Rab)) * b1 + (c0 (m0 Rab)) * u - t) ((c1 Tab) + (c1 (m1 Rab)) * b1 + (c1 (m0 Rab)) * u) ((c2 Tab) + (c2 (m1 Rab)) * b1 + (c2 (m0 Rab)) * u)) (fun t => mk3 (t) (0) (0)).
(** LA0, LB0 (1124) *)
Definition edge_LA0_LB0 : option (v3 * v3 * R) :=
  edge_case (gt 0 LA0_ly) (gt 0 LB0_ly) (gt 0 LA0_uy) (gt 0 LB0_uy)
    (in_voronoi (b0) (a0) (-A0B1) (Tba1) (A0B0) (-Tba0) (-(c0 Tab)))
    (in_voronoi (a0) (b0) (-A1B0) (-(c1 Tab)) (A0B0) ((c0 Tab)) (Tba0))
    (seg_coords (a0) (b0) (A0B0) ((c0 Tab)) (Tba0))
    (fun t u => mk3 ((c0 Tab) + (c0 (m0 Rab)) * u - t) ((c1 Tab) + (c1 (m0 Rab)) * u) ((c2 Tab) + (c2 (m0 Rab)) * u)) (fun t => mk3 (t) (0) (0)).
(** The first case that applies, in the order of the code *)
Definition first_some (l : list (option (v3 * v3 * R))) : option (v3 * v3 * R) := fold_right (fun o r => match o with Some x => Some x | None => r end) None l.
Definition rect_edges : option (v3 * v3 * R) :=
  first_some [edge_UA1_UB1; edge_UA1_LB1; edge_LA1_UB1; edge_LA1_LB1; edge_UA1_UB0; edge_UA1_LB0; edge_LA1_UB0; edge_LA1_LB0; edge_UA0_UB1; edge_UA0_LB1; edge_LA0_UB1; edge_LA0_LB1; edge_UA0_UB0; edge_UA0_LB0; edge_LA0_UB0; edge_LA0_LB0].
(** The separation along the normals (1154-1182) *)
Definition sep1 : R :=
  if Rlt_dec 0 (c2 Tab) then c2 Tab + (if Rlt_dec (c2 (m0 Rab)) 0 then b0 * c2 (m0 Rab) else 0) + (if Rlt_dec (c2 (m1 Rab)) 0 then b1 * c2 (m1 Rab) else 0)
  else - c2 Tab - (if Rlt_dec 0 (c2 (m0 Rab)) then b0 * c2 (m0 Rab) else 0) - (if Rlt_dec 0 (c2 (m1 Rab)) then b1 * c2 (m1 Rab) else 0).
Definition sep2 : R :=
  if Rlt_dec Tba2 0 then - Tba2 + (if Rlt_dec (c0 (m2 Rab)) 0 then a0 * c0 (m2 Rab) else 0) + (if Rlt_dec (c1 (m2 Rab)) 0 then a1 * c1 (m2 Rab) else 0)
  else Tba2 - (if Rlt_dec 0 (c0 (m2 Rab)) then a0 * c0 (m2 Rab) else 0) - (if Rlt_dec 0 (c1 (m2 Rab)) then a1 * c1 (m2 Rab) else 0).
(** The number returned (1219-1221), and P and Q (1184-1217): [None] if they are not written *)
Definition rect_distance : R :=
  match rect_edges with Some (_, _, d) => d | None => let sep := if Rlt_dec sep2 sep1 then sep1 else sep2 in if Rlt_dec 0 sep then sep else 0 end.
Definition rect_points : option (v3 * v3) :=
  match rect_edges with
  | Some (P, Q, _) => Some (P, Q)
  | None =>
      if Rle_dec sep1 sep2 then if Rle_dec 0 sep2 then Some (vadd (vscale (if Rlt_dec Tba2 0 then sep2 else - sep2) (m2 Rab)) Tab, Tab) else None
      else if Rle_dec 0 sep1 then Some (vzero, mk3 0 0 (if Rlt_dec 0 (c2 Tab) then sep1 else - sep1)) else None
  end.
End Rectangles.

(** RSS::overlap(other) (108-118) and RSS::distance (432-446): the second rectangle is given in the frame of the first one.  *)
Definition rss_gap (b1 b2 : rss) : R :=
  rect_distance (mtmul (rax b1) (rax b2)) (mtapply (rax b1) (vsub (To b2) (To b1))) (rl0 b1) (rl1 b1) (rl0 b2) (rl1 b2).
Definition rss_overlap (b1 b2 : rss) : bool := if Rle_dec (rss_gap b1 b2) (rr b1 + rr b2) then true else false.
Definition rss_distance (b1 b2 : rss) : R := let d := rss_gap b1 b2 - (rr b1 + rr b2) in if Rlt_dec d 0 then 0 else d.

(** overlap(R0, T0, b1, b2) (1937-1953) and distance(R0, T0, b1, b2) (1956-1974): the second volume is moved by R0, T0 *)
Definition rss_gap_rt (X : tf) (b1 b2 : rss) : R :=
  rect_distance (mtmul (rax b1) (mmul (tf_rot X) (rax b2))) (mtapply (rax b1) (vsub (vadd (mapply (tf_rot X) (To b2)) (tf_tr X)) (To b1))) (rl0 b1) (rl1 b1) (rl0 b2) (rl1 b2).
Definition rss_overlap_rt (X : tf) (b1 b2 : rss) : bool := if Rle_dec (rss_gap_rt X b1 b2) (rr b1 + rr b2) then true else false.
Definition rss_distance_rt (X : tf) (b1 b2 : rss) : R := let e := rss_gap_rt X b1 b2 - (rr b1 + rr b2) in if Rlt_dec e 0 then 0 else e.
