(** Convex: include/fcl/geometry/shape/convex-inl.h (constructor 60-82, FindVertexNeighbors
    434-465, ValidateMesh and ValidateTopology 350-430, findExtremeVertex 265-313) and convex.h.
    The ints of the arrays are natural numbers (a negative one is outside the model); an access
    beyond an array is [None].  The texts of the error messages are left out. *)
From Coq Require Import Reals List Bool Arith.
From Verif Require Import VecR.
Import ListNotations.
Open Scope nat_scope.

Definition bind {A B} (x : option A) (f : A -> option B) : option B := match x with Some a => f a | None => None end.
Fixpoint upd {A} (i : nat) (x : A) (l : list A) : list A :=
  match l, i with [], _ => [] | _ :: l', 0 => x :: l' | y :: l', S i' => y :: upd i' x l' end.

(** The loop over the faces common to FindVertexNeighbors 442-455, ValidateTopology 393-404 and the
    integrals: face [f] starts at [at_] with its number of vertices. *)
Fixpoint decode (num at_ : nat) (faces : list nat) : option (list (list nat)) :=
  match num with
  | 0 => Some []
  | S num' =>
      bind (nth_error faces at_) (fun cnt =>
      if at_ + cnt <? length faces
      then bind (decode num' (at_ + cnt + 1) faces) (fun fs => Some (firstn cnt (skipn (at_ + 1) faces) :: fs))
      else None)
  end.
(** How the encoding is documented (convex.h 137-144). *)
Definition encode (fs : list (list nat)) : list nat := flat_map (fun f => length f :: f) fs.

(** the pairs (v, prev_v) the inner loops see, 445-453 and 397-402 *)
Fixpoint steps_from (prev : nat) (f : list nat) : list (nat * nat) :=
  match f with [] => [] | v :: f' => (v, prev) :: steps_from v f' end.
Definition steps (f : list nat) : list (nat * nat) := steps_from (last f 0) f.

(** std::set<int> as an ascending list: insert *)
Fixpoint ins (x : nat) (l : list nat) : list nat :=
  match l with
  | [] => [x]
  | y :: l' => if x <? y then x :: l else if x =? y then l else y :: ins x l'
  end.
Definition insert_at (ns : list (list nat)) (i x : nat) : option (list (list nat)) :=
  if i <? length ns then Some (upd i (ins x (nth i ns [])) ns) else None.
(** 449-450 *)
Definition link (ns : list (list nat)) (e : nat * nat) : option (list (list nat)) :=
  bind (insert_at ns (fst e) (snd e)) (fun ns' => insert_at ns' (snd e) (fst e)).
Fixpoint links (ns : list (list nat)) (es : list (nat * nat)) : option (list (list nat)) :=
  match es with [] => Some ns | e :: es' => bind (link ns e) (fun ns' => links ns' es') end.
Definition neighbor_sets (vcount : nat) (fs : list (list nat)) : option (list (list nat)) :=
  links (repeat [] vcount) (flat_map steps fs).
(** 457-464 *)
Fixpoint pack (v : nat) (arr : list nat) (ns : list (list nat)) : list nat :=
  match ns with [] => arr | s :: ns' => pack (S v) (upd v (length arr) arr ++ length s :: s) ns' end.
(** FindVertexNeighbors *)
Definition find_neighbors (vcount : nat) (fs : list (list nat)) : option (list nat) :=
  bind (neighbor_sets vcount fs) (fun ns => Some (pack 0 (repeat 0 vcount) ns)).
(** reading the encoding: 282-286, 374-385 *)
Definition neigh (arr : list nat) (v : nat) : option (list nat) :=
  bind (nth_error arr v) (fun start =>
  bind (nth_error arr start) (fun cnt =>
  if start + cnt <? length arr then Some (firstn cnt (skipn (start + 1) arr)) else None)).

(** make_edge 363-366 *)
Definition edge (v0 v1 : nat) : nat * nat := if v1 <? v0 then (v1, v0) else (v0, v1).
Definition edge_eqb (a b : nat * nat) : bool := (fst a =? fst b) && (snd a =? snd b).
(** std::map<std::pair<int, int>, int>: the entry of [e] becomes [k] of itself, starting from 0 *)
Fixpoint put (e : nat * nat) (k : nat -> nat) (m : list ((nat * nat) * nat)) : list ((nat * nat) * nat) :=
  match m with
  | [] => [(e, k 0)]
  | (e', c) :: m' => if edge_eqb e e' then (e', k c) :: m' else (e', c) :: put e k m'
  end.
(** the loop over the vertices, 373-387: (all_connected, per_edge_face_count) *)
Fixpoint prepare (arr : list nat) (vs : list nat) (st : bool * list ((nat * nat) * nat)) : option (bool * list ((nat * nat) * nat)) :=
  match vs with
  | [] => Some st
  | v :: vs' =>
      bind (neigh arr v) (fun ns =>
      prepare arr vs' (fst st && negb (length ns =? 0), fold_left (fun m n => put (edge v n) (fun _ => 0) m) ns (snd st)))
  end.
(** ValidateTopology: (is_watertight, all_connected) *)
Definition validate (vcount : nat) (arr : list nat) (fs : list (list nat)) : option (bool * bool) :=
  bind (prepare arr (seq 0 vcount) (true, [])) (fun st =>
  let m := fold_left (fun m e => put (edge (fst e) (snd e)) S m) (flat_map steps fs) (snd st) in
  Some (forallb (fun ec => snd ec =? 2) m, fst st)).

(** The constructor.  [Undefined]: an access out of bounds. *)
Inductive built := Undefined | Throws | Built (neighbors : list nat) (via_neighbors : bool).
Definition construct (vcount num : nat) (faces : list nat) (throw_if_invalid : bool) : built :=
  match decode num 0 faces with
  | None => Undefined
  | Some fs =>
      match find_neighbors vcount fs with
      | None => Undefined
      | Some arr =>
          match validate vcount arr fs with
          | None => Undefined
          | Some (wt, conn) =>
              let has_error := negb (wt && conn) in
              if has_error && throw_if_invalid then Throws else Built arr ((32 <? vcount) && negb has_error)
          end
      end
  end.

(** findExtremeVertex.  [ge i j] is "the value of vertex i is at least that of vertex j":
    extreme_value is always the value of extreme_index.  The state of the inner loop: visited,
    keep_searching, extreme_index (288-307). *)
Definition scan_step (ge : nat -> nat -> bool) (st : list bool * bool * nat) (n : nat) : list bool * bool * nat :=
  let '(visited, keep, ext) := st in
  if nth n visited false then st
  else if ge n ext then (upd n true visited, true, n) else (upd n true visited, keep, ext).
(** 280-308; the fuel is shown to suffice *)
Fixpoint walk (fuel : nat) (arr : list nat) (ge : nat -> nat -> bool) (visited : list bool) (ext : nat) : option nat :=
  match fuel with
  | 0 => None
  | S fuel' =>
      bind (neigh arr ext) (fun ns =>
      let '(visited', keep, ext') := fold_left (scan_step ge) ns (visited, false, ext) in
      if keep then walk fuel' arr ge visited' ext' else Some ext')
  end.
(** 311-317 *)
Definition linear (vcount : nat) (ge : nat -> nat -> bool) : nat :=
  fold_left (fun e i => if negb (ge e i) then i else e) (seq 1 (vcount - 1)) 0.
Definition find_index (vcount : nat) (arr : list nat) (via : bool) (ge : nat -> nat -> bool) : option nat :=
  if vcount =? 0 then None
  else if via then walk (S vcount) arr ge (repeat false vcount) 0 else Some (linear vcount ge).

Open Scope R_scope.
Definition vert (vs : list v3) (i : nat) : v3 := nth i vs vzero.
Definition ge_dot (vs : list v3) (d : v3) (i j : nat) : bool := if Rle_dec (dot d (vert vs j)) (dot d (vert vs i)) then true else false.
Definition find_extreme (vs : list v3) (arr : list nat) (via : bool) (d : v3) : option v3 :=
  bind (find_index (length vs) arr via (ge_dot vs d)) (fun i => Some (vert vs i)).
