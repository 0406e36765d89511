(** The expanding polytope of the libccd extension
    (include/fcl/narrowphase/detail/convexity_based_algorithm/gjk_libccd-inl.h) and the data structure it
    uses, ccd_pt_t of libccd (src/polytope.c there; libccd is not in the repository). *)
From Coq Require Import Reals Lra Lia List Bool Arith.
From Verif Require Import VecR Support Gjk CcdGjk.
Import ListNotations.
Open Scope R_scope.

(** ccd_pt_edge_t: vertex[0], vertex[1], faces[0], faces[1]; a null pointer is [None] *)
Record edge := Edge { ea : nat; eb : nat; l0 : option nat; l1 : option nat }.
(** ccd_pt_t: the lists of vertices, edges and faces, and what the pointers point to.  A pointer is a number;
    a new element gets one that was never used ([nx]; an allocator may use the address of a deleted element
    again, but no pointer to a deleted element is kept).  Memory does not run out.  dist and witness of an
    element are functions of its vertices; the field nearest is not part of the model ([near] below). *)
Record pt := Pt { vs : list nat; es : list nat; fs : list nat;
                  pv : nat -> sp; pe : nat -> edge; pf : nat -> nat * nat * nat; nx : nat }.
Definition upd {A} (m : nat -> A) (k : nat) (x : A) : nat -> A := fun i => if Nat.eqb i k then x else m i.
(** ccdPtInit *)
Definition empty : pt := Pt [] [] [] (fun _ => Sp vzero vzero vzero) (fun _ => Edge 0 0 None None) (fun _ => (0, 0, 0)%nat) 0.
(** ccdPtAddVertex, ccdPtAddEdge of libccd: the new element and the polytope *)
Definition add_vertex (P : pt) (s : sp) : nat * pt :=
  (nx P, Pt (vs P ++ [nx P]) (es P) (fs P) (upd (pv P) (nx P) s) (pe P) (pf P) (S (nx P))).
Definition add_edge (P : pt) (u w : nat) : nat * pt :=
  (nx P, Pt (vs P) (es P ++ [nx P]) (fs P) (pv P) (upd (pe P) (nx P) (Edge u w None None)) (pf P) (S (nx P))).
(** face->edge[i] *)
Definition side (P : pt) (f i : nat) : nat :=
  let '(a, b, c) := pf P f in match i with 0%nat => a | 1%nat => b | _ => c end.
(** The new face is written into the first free entry of edge->faces, or over the second one *)
Definition link (f : nat) (e : edge) : edge :=
  match l0 e with None => Edge (ea e) (eb e) (Some f) (l1 e) | Some g => Edge (ea e) (eb e) (Some g) (Some f) end.
(** ccdPtAddFace of libccd *)
Definition add_face (P : pt) (a b c : nat) : pt :=
  let f := nx P in
  let w m e := upd m e (link f (m e)) in
  Pt (vs P) (es P) (fs P ++ [f]) (pv P) (w (w (w (pe P) a) b) c) (upd (pf P) f (a, b, c)) (S f).
(** ccdPtDelFace of libccd: the entry of the face is taken out of edge->faces, the other one moves to the front *)
Definition unlink (f : nat) (e : edge) : edge :=
  match l0 e with
  | Some g => if Nat.eqb g f then Edge (ea e) (eb e) (l1 e) None else Edge (ea e) (eb e) (Some g) None
  | None => Edge (ea e) (eb e) None None
  end.
Definition del_face (P : pt) (f : nat) : pt :=
  let w m e := upd m e (unlink f (m e)) in
  Pt (vs P) (es P) (List.remove Nat.eq_dec f (fs P)) (pv P)
     (w (w (w (pe P) (side P f 0)) (side P f 1)) (side P f 2)) (pf P) (nx P).
(** ccdPtDelEdge of libccd: refused (-1, ignored by the caller) if the edge has a face *)
Definition del_edge (P : pt) (e : nat) : pt :=
  match l0 (pe P e) with
  | Some _ => P
  | None => Pt (vs P) (List.remove Nat.eq_dec e (es P)) (fs P) (pv P) (pe P) (pf P) (nx P)
  end.

(** ** The visible patch *)
(** The four sets of ComputeVisiblePatch, in the order of insertion *)
Record patch := Patch { border : list nat; vis : list nat; hid : list nat; inner : list nat }.
(** [Twice]: an edge is classified as border and as internal, exception; [NoFace]: the missing face of an
    edge is used (assertion of line 1256, otherwise a null pointer); [Fuel]: not a result of the code *)
Inductive pres := Seen (s : patch) | Twice | NoFace | Fuel.
Definition mem (x : nat) (l : list nat) : bool := existsb (Nat.eqb x) l.
Definition ins (x : nat) (l : list nat) : list nat := if mem x l then l else l ++ [x].
(** ClassifyBorderEdge, 1201-1210; ClassifyInternalEdge, 1219-1228 *)
Definition as_border (e : nat) (s : patch) : pres :=
  if mem e (inner s) then Twice else Seen (Patch (ins e (border s)) (vis s) (hid s) (inner s)).
Definition as_inner (e : nat) (s : patch) : pres :=
  if mem e (border s) then Twice else Seen (Patch (border s) (vis s) (hid s) (ins e (inner s))).
Definition bindp (r : pres) (k : patch -> pres) : pres := match r with Seen s => k s | _ => r end.

Section Patch.
Variable P : pt.
(** Whether face g is taken as visible when it is reached across edge e: isOutsidePolytopeFace or
    triangle_area_is_zero, 1282-1297 *)
Variable seen : nat -> nat -> bool.
(** The face on the other side of edge e of face f, 1255 *)
Definition across (f e : nat) : option nat :=
  match l0 (pe P e) with
  | Some g => if Nat.eqb g f then l1 (pe P e) else Some g
  | None => None
  end.
(** ComputeVisiblePatchRecursive, 1243-1318, for edge [i] of face [f]; [n] bounds the depth of the recursion *)
Fixpoint visit (n : nat) (f i : nat) (s : patch) : pres :=
  match n with
  | O => Fuel
  | S n' =>
      let e := side P f i in
      match across f e with
      | None => NoFace
      | Some g =>
          if mem g (vis s) then as_inner e s
          else if mem g (hid s) then as_border e s
          else if seen g e then
            let go k s := if Nat.eqb (side P g k) e then Seen s else visit n' g k s in
            bindp (as_inner e (Patch (border s) (ins g (vis s)) (hid s) (inner s))) (fun s1 =>
            bindp (go 0%nat s1) (fun s2 => bindp (go 1%nat s2) (go 2%nat)))
          else bindp (as_border e s) (fun s1 => Seen (Patch (border s1) (vis s1) (ins g (hid s1)) (inner s1)))
      end
  end.
(** ComputeVisiblePatch, 1346-1373, before the check *)
Definition visible_patch (f : nat) : pres :=
  let n := S (length (fs P)) in
  bindp (visit n f 0 (Patch [] [f] [] [])) (fun s => bindp (visit n f 1 s) (visit n f 2)).

(** ComputeVisiblePatchRecursiveSanityCheck, 1146-1192 *)
Definition sees (o : option nat) (s : patch) : bool := match o with Some f => mem f (vis s) | None => false end.
Definition sane (s : patch) : bool :=
  (forallb (fun f => negb (mem (side P f 0) (inner s) || mem (side P f 1) (inner s) || mem (side P f 2) (inner s)) || mem f (vis s)) (fs P) &&
   forallb (fun e => let a := sees (l0 (pe P e)) s in let b := sees (l1 (pe P e)) s in
                     if (a && b)%bool then mem e (inner s) else if (a || b)%bool then mem e (border s) else true) (es P) &&
   forallb (fun b => negb (mem b (inner s))) (border s))%bool.
End Patch.

(** ** Expanding the polytope *)
(** The new edge from the new vertex [v] to [u], 1489-1500; [m] is map_vertex_to_new_edge *)
Definition spoke (v : nat) (st : pt * (nat -> option nat)) (u : nat) : nat * (pt * (nat -> option nat)) :=
  match snd st u with
  | Some e => (e, st)
  | None => let (e, P) := add_edge (fst st) v u in (e, (P, upd (snd st) u (Some e)))
  end.
(** One border edge, 1485-1504 *)
Definition join (v : nat) (st : pt * (nat -> option nat)) (b : nat) : pt * (nat -> option nat) :=
  let (x, st1) := spoke v st (ea (pe (fst st) b)) in
  let (y, st2) := spoke v st1 (eb (pe (fst st) b)) in
  (add_face (fst st2) b x y, snd st2).
Section Expand.
(** The order in which an unordered_set is run through *)
Variable ord : list nat -> list nat.
(** The part of expandPolytope after the patch, 1451-1507; [q] is the new support point *)
Definition cut (P : pt) (s : patch) : pt := fold_left del_edge (ord (inner s)) (fold_left del_face (ord (vis s)) P).
Definition patch_in (P : pt) (s : patch) (q : sp) : pt :=
  let (v, P1) := add_vertex (cut P s) q in
  fst (fold_left (join v) (ord (border s)) (P1, fun _ => None)).
End Expand.

(** ** Initial polytopes *)
(** The tetrahedron of FormTetrahedron, 820-848, and of simplexToPolytope4, 911-933 (there the edges 3-5 start
    at the fourth vertex, [flip]) *)
Definition tetra (flip : bool) (a b c d : sp) : pt :=
  let (v0, P) := add_vertex empty a in let (v1, P) := add_vertex P b in
  let (v2, P) := add_vertex P c in let (v3, P) := add_vertex P d in
  let (e0, P) := add_edge P v0 v1 in let (e1, P) := add_edge P v1 v2 in let (e2, P) := add_edge P v2 v0 in
  let up P v := if flip then add_edge P v3 v else add_edge P v v3 in
  let (e3, P) := up P v0 in let (e4, P) := up P v1 in let (e5, P) := up P v2 in
  add_face (add_face (add_face (add_face P e0 e1 e2) e3 e4 e0) e4 e5 e1) e5 e3 e2.
(** The octahedron of simplexToPolytope2, 689-720 *)
Definition octa (a s0 b s1 s2 s3 : sp) : pt :=
  let (v0, P) := add_vertex empty a in let (v1, P) := add_vertex P s0 in let (v2, P) := add_vertex P b in
  let (v3, P) := add_vertex P s1 in let (v4, P) := add_vertex P s2 in let (v5, P) := add_vertex P s3 in
  let (e0, P) := add_edge P v0 v1 in let (e1, P) := add_edge P v1 v2 in
  let (e2, P) := add_edge P v2 v3 in let (e3, P) := add_edge P v3 v0 in
  let (e4, P) := add_edge P v4 v0 in let (e5, P) := add_edge P v4 v1 in
  let (e6, P) := add_edge P v4 v2 in let (e7, P) := add_edge P v4 v3 in
  let (e8, P) := add_edge P v5 v0 in let (e9, P) := add_edge P v5 v1 in
  let (e10, P) := add_edge P v5 v2 in let (e11, P) := add_edge P v5 v3 in
  let P := add_face (add_face (add_face (add_face P e4 e5 e0) e5 e6 e1) e6 e7 e2) e7 e4 e3 in
  add_face (add_face (add_face (add_face P e8 e9 e0) e9 e10 e1) e10 e11 e2) e11 e8 e3.
