(** Triangle meshes made from shapes:
    include/fcl/geometry/geometric_shape_to_BVH_model-inl.h (generateBVHModel, addTriangles).
    Vertex numbers are [nat]: they are [unsigned int] (sphere, ellipsoid, caps) or [int] (sides of the
    cylinder and cone) in the code, which is the same as long as they stay below 2^31.  Loop bounds
    written [n - 1] on [unsigned int] do wrap at 0 ([dec]).  Coordinates are real numbers. *)
From Coq Require Import Reals ZArith Lra Lia List Bool.
From Verif Require Import VecR BvhModel.
Import ListNotations.
Open Scope R_scope.

(** [n - 1] for [unsigned int n] *)
Definition dec (n : nat) : nat := if Nat.eqb n 0 then Z.to_nat (2 ^ 32 - 1) else (n - 1)%nat.
(** [(j == n - 1) ? 0 : (j + 1)] *)
Definition nxt (n j : nat) : nat := if Nat.eqb j (dec n) then 0%nat else (j + 1)%nat.
(** The double loop [for i < n, for j < k] appending [f i j] *)
Definition loop2 {A : Type} (n k : nat) (f : nat -> nat -> list A) : list A :=
  flat_map (fun i => flat_map (f i) (seq 0 k)) (seq 0 n).
Definition loop {A : Type} (n : nat) (f : nat -> A) : list A := map f (seq 0 n).

(** ** Box (68-106) *)
Definition box_points (side : v3) : list v3 :=
  let a := c0 side in let b := c1 side in let c := c2 side in
  [mk3 (1/2 * a) (- (1/2) * b) (1/2 * c); mk3 (1/2 * a) (1/2 * b) (1/2 * c);
   mk3 (- (1/2) * a) (1/2 * b) (1/2 * c); mk3 (- (1/2) * a) (- (1/2) * b) (1/2 * c);
   mk3 (1/2 * a) (- (1/2) * b) (- (1/2) * c); mk3 (1/2 * a) (1/2 * b) (- (1/2) * c);
   mk3 (- (1/2) * a) (1/2 * b) (- (1/2) * c); mk3 (- (1/2) * a) (- (1/2) * b) (- (1/2) * c)].
Definition box_tris : list tri :=
  [(0, 4, 1); (1, 4, 5); (2, 6, 3); (3, 6, 7); (3, 0, 2); (2, 0, 1);
   (6, 5, 7); (7, 5, 4); (1, 5, 2); (2, 5, 6); (3, 7, 0); (0, 7, 4)]%nat.

(** ** Sphere (110-171) and ellipsoid (188-252): the same code but for the radii *)
Definition ell_points (a b c : R) (seg ring : nat) : list v3 :=
  let phid := PI * 2 / INR seg in
  let thetad := PI / INR (ring + 1) in
  loop2 ring seg (fun i j =>
    let th := 0 + thetad * INR (i + 1) in
    [mk3 (a * sin th * cos (0 + INR j * phid)) (b * sin th * sin (0 + INR j * phid)) (c * cos th)])
  ++ [mk3 0 0 c; mk3 0 0 (- c)].
Definition sphere_points (r : R) (seg ring : nat) : list v3 := ell_points r r r seg ring.
(** The quad of rows [i], [i+1] (139-151): [(a, c, b)], [(b, c, d)] *)
Definition ball_quad (seg i j : nat) : list tri :=
  let a := (i * seg + j)%nat in
  let b := if Nat.eqb j (dec seg) then (i * seg)%nat else (i * seg + j + 1)%nat in
  let c := ((i + 1) * seg + j)%nat in
  let d := if Nat.eqb j (dec seg) then ((i + 1) * seg)%nat else ((i + 1) * seg + j + 1)%nat in
  [(a, c, b); (b, c, d)].
(** The caps (153-163); [dec ring * seg] wraps for [ring = 0] *)
Definition ball_caps (seg ring j : nat) : list tri :=
  let b := nxt seg j in
  let a' := (dec ring * seg + j)%nat in
  let b' := if Nat.eqb j (dec seg) then (dec ring * seg)%nat else (dec ring * seg + j + 1)%nat in
  [((ring * seg)%nat, j, b); (a', (ring * seg + 1)%nat, b')].
Definition ball_tris (seg ring : nat) : list tri :=
  loop2 (dec ring) seg (ball_quad seg) ++ flat_map (ball_caps seg ring) (seq 0 seg).

(** ** Cylinder (276-338) *)
Definition circle (r z : R) (tot j : nat) : v3 :=
  let phid := PI * 2 / INR tot in mk3 (r * cos (0 + phid * INR j)) (r * sin (0 + phid * INR j)) z.
Definition cyl_points (r h : R) (tot num : nat) : list v3 :=
  let hd := h / INR num in
  loop tot (circle r (h / 2) tot)
  ++ loop2 (dec num) tot (fun i j => [circle r (h / 2 - INR (i + 1) * hd) tot j])
  ++ loop tot (circle r (- h / 2) tot)
  ++ [mk3 0 0 (h / 2); mk3 0 0 (- h / 2)].
(** The quad of rows [i], [i+1] (316-330): [(b, a, c)], [(b, c, d)] *)
Definition side_quad (tot i j : nat) : list tri :=
  let a := j in let b := nxt tot j in
  let c := (j + tot)%nat in let d := if Nat.eqb j (dec tot) then tot else (j + 1 + tot)%nat in
  let start := (i * tot)%nat in
  [((start + b)%nat, (start + a)%nat, (start + c)%nat); ((start + b)%nat, (start + c)%nat, (start + d)%nat)].
Definition cyl_tris (tot num : nat) : list tri :=
  loop tot (fun i => (((num + 1) * tot)%nat, i, nxt tot i))
  ++ loop tot (fun i => (((num + 1) * tot + 1)%nat, (num * tot + nxt tot i)%nat, (num * tot + i)%nat))
  ++ loop2 num tot (side_quad tot).

(** ** Cone (360-423) *)
Definition cone_points (r h : R) (tot num : nat) : list v3 :=
  let hd := h / INR num in
  loop2 (dec num) tot (fun i j =>
    let hi := h / 2 - INR (i + 1) * hd in [circle (r * (1/2 - hi / h)) hi tot j])
  ++ loop tot (circle r (- h / 2) tot)
  ++ [mk3 0 0 (h / 2); mk3 0 0 (- h / 2)].
Definition cone_tris (tot num : nat) : list tri :=
  loop tot (fun i => ((num * tot)%nat, i, nxt tot i))
  ++ loop tot (fun i => ((num * tot + 1)%nat, (dec num * tot + nxt tot i)%nat, (dec num * tot + i)%nat))
  ++ loop2 (dec num) tot (side_quad tot).

(** ** Resolutions chosen from a count for the unit shape *)
(** std::ceil; the conversion to unsigned int is exact in range *)
Definition ceil (x : R) : nat := Z.to_nat (- Int_part (- x)).
(** sphere (174-185), ellipsoid (255-273; [ratio] is the p-mean of the products of radii) *)
Definition ball_split (n : nat) (scale : R) : nat := ceil (sqrt (INR n / 2) * scale).
Definition sphere_split (n : nat) (r : R) : nat := ball_split n (r * r).
(** cylinder (341-357), cone (426-443): the circle count is truncated, and when it is 0 the edge
    length is infinite and the number of layers 0. *)
Definition trunc (x : R) : nat := Z.to_nat (Int_part x).
Definition circle_split (tot : nat) (r : R) : nat := trunc (INR tot * r).
Definition layer_split (tot : nat) (r h : R) : nat :=
  let k := circle_split tot r in if Nat.eqb k 0 then 0%nat else ceil (h / (PI * 2 / INR k * r)).

(** ** addTriangles (48-65), after the points are moved by the pose (100-103 etc.) *)
Section Add.
Variable BV : Type.
Variable fit : list v3 -> BV.
Variable plus : BV -> BV -> BV.
Variable split : (nat -> list v3) -> BV -> list nat -> nat -> bool.
Definition add_triangles (final : bool) (ps : list v3) (ts : list tri) (m : bvh v3 BV) : option (code * bvh v3 BV) :=
  match (match m_st m with SEmpty => bstep fit plus split (OBegin 0 0) m | _ => Some (COk, m) end) with
  | Some (COk, m1) =>
      match bstep fit plus split (OSubTris ps ts) m1 with
      | Some (COk, m2) => if final then bstep fit plus split OEnd m2 else Some (COk, m2)
      | r => r
      end
  | r => r
  end.
Definition generate (final : bool) (X : tf) (ps : list v3) (ts : list tri) (m : bvh v3 BV) : option (code * bvh v3 BV) :=
  add_triangles final (map (tf_apply X) ps) ts m.
End Add.
Arguments add_triangles {BV}. Arguments generate {BV}.
