(** * Construction protocol of a mesh hierarchy

    Model of the building interface of [BVHModel<BV>]
    (/repo/include/fcl/geometry/bvh/BVH_model-inl.h): constructor (61-79),
    beginModel (206-252), addVertex (256-283), addTriangle (287-342),
    addSubModel (346-445), endModel (449-516), beginReplaceModel (520-539),
    replaceVertex/Triangle/SubModel (543-589), endReplaceModel (593-619),
    beginUpdateModel (623-648), updateVertex/Triangle/SubModel (652-698),
    endUpdateModel (702-733), getModelType (49-58).

    Arrays are lists of optional cells whose length is the size they were
    allocated with; [None] cells are uninitialised.  The counters
    [num_vertices_allocated], ... are separate fields, as in the code, because
    they are not always the size of the array.  A step that reads or writes
    outside an array, or reads an uninitialised cell, returns [None]
    (undefined behaviour).  Allocation never fails; memory leaks and the copy
    constructor are not modelled; messages on cerr are dropped. *)

From Coq Require Import List Arith Lia ZArith Bool Permutation.
From Verif Require Import BvhBuild.
Import ListNotations.

(** Array writes [a[k], a[k+1], ... = xs], one cell at a time. *)
Fixpoint awrite {A : Type} (a : list (option A)) (k : nat) (xs : list A) : option (list (option A)) :=
  match xs with
  | [] => Some a
  | x :: xs' => match aset a k (Some x) with
                | Some a' => awrite a' (S k) xs'
                | None => None
                end
  end.

(** Reallocation: [new T[cap]] then [std::copy(old, old + n, temp)]. *)
Definition realloc {A : Type} (old : list (option A)) (n cap : nat) : option (list (option A)) :=
  if (n <=? length old) && (n <=? cap) then Some (firstn n old ++ repeat None (cap - n)) else None.

(** [a[i]] *)
Definition aread {A : Type} (a : list (option A)) (i : nat) : option A :=
  match nth_error a i with Some (Some x) => Some x | _ => None end.

Fixpoint omap {A B : Type} (f : A -> option B) (l : list A) : option (list B) :=
  match l with
  | [] => Some []
  | x :: l' => match f x, omap f l' with Some y, Some ys => Some (y :: ys) | _, _ => None end
  end.

(** BVHBuildState (BVH_internal.h 52-60) *)
Inductive bstate := SEmpty | SBegun | SProcessed | SUpdateBegun | SUpdated | SReplaceBegun.

(** BVHReturnCode (BVH_internal.h 63-74), the codes that are returned here *)
Inductive code := COk | COutOfSequence | CEmptyModel | CEmptyPrevious | CIncorrectData.

Definition tri := (nat * nat * nat)%type.

Section Model.
Variables (V BV : Type).
Variable fit : list V -> BV.
Variable plus : BV -> BV -> BV.
(** The split rule may look at all points; see BvhBuild. *)
Variable split : (nat -> list V) -> BV -> list nat -> nat -> bool.

Record bvh := Bvh {
  m_st : bstate;
  m_verts : list (option V); m_vcap : nat; m_nv : nat;   (* vertices, num_vertices_allocated, num_vertices *)
  m_prev : option (list (option V));                      (* prev_vertices *)
  m_tris : list (option tri); m_tcap : nat; m_nt : nat;   (* tri_indices, num_tris_allocated, num_tris *)
  m_bvs : list (option (node BV)); m_nb : nat;            (* bvs, num_bvs *)
  m_pcap : nat; m_prims : list nat;                       (* primitive_indices *)
  m_upd : nat }.                                          (* num_vertex_updated *)

(** Constructor 61-79 *)
Definition fresh : bvh := Bvh SEmpty [] 0 0 None [] 0 0 [] 0 0 [] 0.

(** getModelType (49-58): triangles need both triangles and vertices; points
    need vertices; otherwise the type is unknown. *)
Inductive mtype := TTris | TPoints | TUnknown.
Definition model_type (m : bvh) : mtype :=
  if negb (m_nt m =? 0) && negb (m_nv m =? 0) then TTris
  else if negb (m_nv m =? 0) then TPoints
  else TUnknown.

Definition num_prims (m : bvh) : nat :=
  match model_type m with TTris => m_nt m | TPoints => m_nv m | TUnknown => 0 end.

(** The points of primitive [i] in a vertex array. *)
Definition pts_in (ty : mtype) (tris : list (option tri)) (vs : list (option V)) (i : nat) : option (list V) :=
  match ty with
  | TTris =>
      match aread tris i with
      | Some (a, b, c) => omap (aread vs) [a; b; c]
      | None => None
      end
  | TPoints => omap (aread vs) [i]
  | TUnknown => None
  end.

(** ... and in the previous frame as well when there is one. *)
Definition pts_both (m : bvh) (i : nat) : option (list V) :=
  match m_prev m with
  | None => pts_in (model_type m) (m_tris m) (m_verts m) i
  | Some pv =>
      match pts_in (model_type m) (m_tris m) pv i, pts_in (model_type m) (m_tris m) (m_verts m) i with
      | Some l, Some l' => Some (l ++ l')
      | _, _ => None
      end
  end.

Definition pts_fun (L : list (list V)) (i : nat) : list V := nth i L [].

(** buildTree: the root fit reads every primitive first. *)
Definition do_build (m : bvh) : option bvh :=
  match model_type m with
  | TUnknown =>
      Some (Bvh (m_st m) (m_verts m) (m_vcap m) (m_nv m) (m_prev m) (m_tris m) (m_tcap m) (m_nt m)
                (m_bvs m) 1 (m_pcap m) (m_prims m) (m_upd m))
  | _ =>
      match omap (pts_in (model_type m) (m_tris m) (m_verts m)) (seq 0 (num_prims m)) with
      | None => None
      | Some L =>
          match build fit (split (pts_fun L)) (pts_fun L) (m_bvs m) (m_pcap m) (num_prims m) with
          | None => None
          | Some s =>
              Some (Bvh (m_st m) (m_verts m) (m_vcap m) (m_nv m) (m_prev m) (m_tris m) (m_tcap m) (m_nt m)
                        (b_bvs s) (b_nb s) (m_pcap m) (b_prims s) (m_upd m))
          end
      end
  end.

(** refitTree(bottomup): reads the points of the primitives in the tree. *)
Definition do_refit (bottomup : bool) (m : bvh) : option bvh :=
  match omap (pts_both m) (seq 0 (length (m_prims m))) with
  | None => None
  | Some L =>
      match (if bottomup then refit_up fit plus (pts_fun L) (m_nb m) 0 (m_bvs m)
             else refit_down fit (pts_fun L) (m_prims m) (m_nb m) (m_bvs m)) with
      | None => None
      | Some bvs' =>
          Some (Bvh (m_st m) (m_verts m) (m_vcap m) (m_nv m) (m_prev m) (m_tris m) (m_tcap m) (m_nt m)
                    bvs' (m_nb m) (m_pcap m) (m_prims m) (m_upd m))
      end
  end.

Definition set_st (s : bstate) (m : bvh) : bvh :=
  Bvh s (m_verts m) (m_vcap m) (m_nv m) (m_prev m) (m_tris m) (m_tcap m) (m_nt m)
      (m_bvs m) (m_nb m) (m_pcap m) (m_prims m) (m_upd m).

Definition ok (m : bvh) : option (code * bvh) := Some (COk, m).

(** beginModel (206-252) *)
Definition begin_model (t v : Z) (m : bvh) : option (code * bvh) :=
  let t' := Z.to_nat (if (t <? 0)%Z then 8 else t) in
  let v' := Z.to_nat (if (v <=? 0)%Z then 8 else v) in
  let alloc (base : bvh) (s : bstate) :=
    Bvh s (repeat None v') v' (m_nv base) (m_prev base)
        (if t' =? 0 then m_tris base else repeat None t') t' (m_nt base)
        (m_bvs base) (m_nb base) (m_pcap base) (m_prims base) (m_upd base) in
  match m_st m with
  | SEmpty => Some (COk, alloc m SBegun)
  | _ => Some (COutOfSequence, alloc (Bvh SEmpty [] 0 0 None [] 0 0 [] 0 0 [] (m_upd m)) SEmpty)
  end.

(** Making room for vertices: reallocation to [cap] cells when [full]. *)
Definition room_v (full : bool) (cap : nat) (m : bvh) : option bvh :=
  if full then
    match realloc (m_verts m) (m_nv m) cap with
    | Some vs => Some (Bvh (m_st m) vs cap (m_nv m) (m_prev m) (m_tris m) (m_tcap m) (m_nt m)
                           (m_bvs m) (m_nb m) (m_pcap m) (m_prims m) (m_upd m))
    | None => None
    end
  else Some m.

Definition push_v (ps : list V) (m : bvh) : option bvh :=
  match awrite (m_verts m) (m_nv m) ps with
  | Some vs => Some (Bvh (m_st m) vs (m_vcap m) (m_nv m + length ps) (m_prev m) (m_tris m) (m_tcap m) (m_nt m)
                         (m_bvs m) (m_nb m) (m_pcap m) (m_prims m) (m_upd m))
  | None => None
  end.

(** Making room for [k] triangles: 319-336 and 418-436.  [num_tris_allocated]
    is set to 1 when it is 0; the new size is twice that plus [k - 1]. *)
Definition room_t (k : nat) (m : bvh) : option bvh :=
  if m_tcap m + 1 <=? m_nt m + k then
    let cap := (if m_tcap m =? 0 then 1 else m_tcap m) * 2 + k - 1 in
    match realloc (m_tris m) (m_nt m) cap with
    | Some ts => Some (Bvh (m_st m) (m_verts m) (m_vcap m) (m_nv m) (m_prev m) ts cap (m_nt m)
                           (m_bvs m) (m_nb m) (m_pcap m) (m_prims m) (m_upd m))
    | None => None
    end
  else Some m.

Definition push_t (ts : list tri) (m : bvh) : option bvh :=
  match awrite (m_tris m) (m_nt m) ts with
  | Some ts' => Some (Bvh (m_st m) (m_verts m) (m_vcap m) (m_nv m) (m_prev m) ts' (m_tcap m) (m_nt m + length ts)
                          (m_bvs m) (m_nb m) (m_pcap m) (m_prims m) (m_upd m))
  | None => None
  end.

Definition obind {A B : Type} (x : option A) (f : A -> option B) : option B :=
  match x with Some a => f a | None => None end.

(** addVertex (256-283) *)
Definition add_vertex (p : V) (m : bvh) : option (code * bvh) :=
  match m_st m with
  | SBegun =>
      obind (room_v (m_vcap m <=? m_nv m) (m_vcap m * 2) m) (fun m1 =>
      obind (push_v [p] m1) ok)
  | _ => Some (COutOfSequence, m)
  end.

(** addTriangle (287-342) *)
Definition add_triangle (p1 p2 p3 : V) (m : bvh) : option (code * bvh) :=
  match m_st m with
  | SProcessed => Some (COutOfSequence, m)
  | _ =>
      let off := m_nv m in
      obind (room_v (m_vcap m <=? m_nv m + 2) (m_vcap m * 2 + 2) m) (fun m1 =>
      obind (push_v [p1; p2; p3] m1) (fun m2 =>
      obind (room_t 1 m2) (fun m3 =>
      obind (push_t [(off, off + 1, off + 2)] m3) ok)))
  end.

(** addSubModel(ps) (346-378): the test [num + n - 1 >= allocated] is on int. *)
Definition add_points (ps : list V) (m : bvh) : option bvh :=
  obind (room_v (m_vcap m + 1 <=? m_nv m + length ps) (m_vcap m * 2 + length ps - 1) m) (push_v ps).

Definition add_sub (ps : list V) (m : bvh) : option (code * bvh) :=
  match m_st m with
  | SProcessed => Some (COutOfSequence, m)
  | _ => obind (add_points ps m) ok
  end.

Definition shift (off : nat) (t : tri) : tri :=
  match t with (a, b, c) => (a + off, b + off, c + off) end.

(** addSubModel(ps, ts) (382-445) *)
Definition add_sub_tris (ps : list V) (ts : list tri) (m : bvh) : option (code * bvh) :=
  match m_st m with
  | SProcessed => Some (COutOfSequence, m)
  | _ =>
      let off := m_nv m in
      obind (add_points ps m) (fun m1 =>
      obind (room_t (length ts) m1) (fun m2 =>
      obind (push_t (map (shift off) ts) m2) ok))
  end.

(** endModel (449-516) *)
Definition end_model (m : bvh) : option (code * bvh) :=
  match m_st m with
  | SBegun =>
      if (m_nt m =? 0) && (m_nv m =? 0) then Some (CEmptyModel, m)
      else
        let n := if m_nt m =? 0 then m_nv m else m_nt m in
        obind (if m_nt m <? m_tcap m then obind (realloc (m_tris m) (m_nt m) (m_nt m)) (fun ts => Some (ts, m_nt m))
               else Some (m_tris m, m_tcap m)) (fun t =>
        obind (if m_nv m <? m_vcap m then obind (realloc (m_verts m) (m_nv m) (m_nv m)) (fun vs => Some (vs, m_nv m))
               else Some (m_verts m, m_vcap m)) (fun v =>
        obind (do_build (Bvh (m_st m) (fst v) (snd v) (m_nv m) (m_prev m) (fst t) (snd t) (m_nt m)
                             (repeat None (2 * n - 1)) 0 (2 * n - 1) [] (m_upd m)))
              (fun m' => ok (set_st SProcessed m'))))
  | _ => Some (COutOfSequence, m)
  end.

(** beginReplaceModel (520-539) *)
Definition begin_replace (m : bvh) : option (code * bvh) :=
  match m_st m with
  | SProcessed =>
      ok (Bvh SReplaceBegun (m_verts m) (m_vcap m) (m_nv m) None (m_tris m) (m_tcap m) (m_nt m)
              (m_bvs m) (m_nb m) (m_pcap m) (m_prims m) 0)
  | _ => Some (CEmptyPrevious, m)
  end.

(** [vertices[num_vertex_updated] = p; num_vertex_updated++] for each point. *)
Definition overwrite (ps : list V) (m : bvh) : option bvh :=
  match awrite (m_verts m) (m_upd m) ps with
  | Some vs => Some (Bvh (m_st m) vs (m_vcap m) (m_nv m) (m_prev m) (m_tris m) (m_tcap m) (m_nt m)
                         (m_bvs m) (m_nb m) (m_pcap m) (m_prims m) (m_upd m + length ps))
  | None => None
  end.

(** replaceVertex, replaceTriangle, replaceSubModel (543-589) for 1, 3 or any
    number of points. *)
Definition replace_pts (ps : list V) (m : bvh) : option (code * bvh) :=
  match m_st m with
  | SReplaceBegun => obind (overwrite ps m) ok
  | _ => Some (COutOfSequence, m)
  end.

(** endReplaceModel (593-619) *)
Definition end_replace (refit bottomup : bool) (m : bvh) : option (code * bvh) :=
  match m_st m with
  | SReplaceBegun =>
      if m_upd m =? m_nv m then
        obind (if refit then do_refit bottomup m else do_build m) (fun m' => ok (set_st SProcessed m'))
      else Some (CIncorrectData, m)
  | _ => Some (COutOfSequence, m)
  end.

(** beginUpdateModel (623-648) *)
Definition begin_update (m : bvh) : option (code * bvh) :=
  match m_st m with
  | SProcessed | SUpdated =>
      let vs := match m_prev m with Some pv => pv | None => repeat None (m_nv m) end in
      ok (Bvh SUpdateBegun vs (m_vcap m) (m_nv m) (Some (m_verts m)) (m_tris m) (m_tcap m) (m_nt m)
              (m_bvs m) (m_nb m) (m_pcap m) (m_prims m) 0)
  | _ => Some (CEmptyPrevious, m)
  end.

(** updateVertex, updateTriangle, updateSubModel (652-698) *)
Definition update_pts (ps : list V) (m : bvh) : option (code * bvh) :=
  match m_st m with
  | SUpdateBegun => obind (overwrite ps m) ok
  | _ => Some (COutOfSequence, m)
  end.

(** endUpdateModel (702-733) *)
Definition end_update (refit bottomup : bool) (m : bvh) : option (code * bvh) :=
  match m_st m with
  | SUpdateBegun =>
      if m_upd m =? m_nv m then
        obind (if refit then do_refit bottomup m else obind (do_build m) (do_refit bottomup))
              (fun m' => ok (set_st SUpdated m'))
      else Some (CIncorrectData, m)
  | _ => Some (COutOfSequence, m)
  end.

(** ** Histories *)

Inductive bop :=
| OBegin (t v : Z) | OVertex (p : V) | OTriangle (p1 p2 p3 : V)
| OSub (ps : list V) | OSubTris (ps : list V) (ts : list tri) | OEnd
| OBeginReplace | OReplaceVertex (p : V) | OReplaceTriangle (p1 p2 p3 : V) | OReplaceSub (ps : list V)
| OEndReplace (refit bottomup : bool)
| OBeginUpdate | OUpdateVertex (p : V) | OUpdateTriangle (p1 p2 p3 : V) | OUpdateSub (ps : list V)
| OEndUpdate (refit bottomup : bool).

Definition bstep (o : bop) (m : bvh) : option (code * bvh) :=
  match o with
  | OBegin t v => begin_model t v m
  | OVertex p => add_vertex p m
  | OTriangle a b c => add_triangle a b c m
  | OSub ps => add_sub ps m
  | OSubTris ps ts => add_sub_tris ps ts m
  | OEnd => end_model m
  | OBeginReplace => begin_replace m
  | OReplaceVertex p => replace_pts [p] m
  | OReplaceTriangle a b c => replace_pts [a; b; c] m
  | OReplaceSub ps => replace_pts ps m
  | OEndReplace r b => end_replace r b m
  | OBeginUpdate => begin_update m
  | OUpdateVertex p => update_pts [p] m
  | OUpdateTriangle a b c => update_pts [a; b; c] m
  | OUpdateSub ps => update_pts ps m
  | OEndUpdate r b => end_update r b m
  end.

Fixpoint brun (os : list bop) (m : bvh) : option (list code * bvh) :=
  match os with
  | [] => Some ([], m)
  | o :: os' =>
      match bstep o m with
      | None => None
      | Some (c, m1) => match brun os' m1 with
                        | None => None
                        | Some (cs, m2) => Some (c :: cs, m2)
                        end
      end
  end.

(** ** The protocol seen by a user

    What the documentation of the states promises
    (BVH_internal.h 48-51: empty -> begun -> processed -> replace_begun ->
    processed ..., processed -> update_begun -> updated ...), with plain lists
    instead of arrays.  [a_new] is what has been written since the last
    beginReplaceModel or beginUpdateModel. *)
Record spec := Spec { a_st : bstate; a_verts : list V; a_tris : list tri;
                      a_old : list V; a_new : list V }.

Definition spec0 : spec := Spec SEmpty [] [] [] [].

Definition a_add (ps : list V) (ts : list tri) (a : spec) : code * spec :=
  match a_st a with
  | SBegun => (COk, Spec SBegun (a_verts a ++ ps) (a_tris a ++ map (shift (length (a_verts a))) ts) [] [])
  | _ => (COutOfSequence, a)
  end.

Definition a_write (s : bstate) (ps : list V) (a : spec) : code * spec :=
  if match s, a_st a with SReplaceBegun, SReplaceBegun | SUpdateBegun, SUpdateBegun => true | _, _ => false end
  then (COk, Spec (a_st a) (a_verts a) (a_tris a) (a_old a) (a_new a ++ ps))
  else (COutOfSequence, a).

Definition astep (o : bop) (a : spec) : code * spec :=
  match o with
  | OBegin _ _ =>
      match a_st a with
      | SEmpty => (COk, Spec SBegun [] [] [] [])
      | _ => (COutOfSequence, spec0)
      end
  | OVertex p => a_add [p] [] a
  | OTriangle p q r => a_add [p; q; r] [(0, 1, 2)] a
  | OSub ps => a_add ps [] a
  | OSubTris ps ts => a_add ps ts a
  | OEnd =>
      match a_st a with
      | SBegun => match a_verts a with
                  | [] => (CEmptyModel, a)
                  | _ => (COk, Spec SProcessed (a_verts a) (a_tris a) [] [])
                  end
      | _ => (COutOfSequence, a)
      end
  | OBeginReplace =>
      match a_st a with
      | SProcessed => (COk, Spec SReplaceBegun (a_verts a) (a_tris a) [] [])
      | _ => (CEmptyPrevious, a)
      end
  | OReplaceVertex p => a_write SReplaceBegun [p] a
  | OReplaceTriangle p q r => a_write SReplaceBegun [p; q; r] a
  | OReplaceSub ps => a_write SReplaceBegun ps a
  | OEndReplace _ _ =>
      match a_st a with
      | SReplaceBegun => if length (a_new a) =? length (a_verts a)
                         then (COk, Spec SProcessed (a_new a) (a_tris a) [] [])
                         else (CIncorrectData, a)
      | _ => (COutOfSequence, a)
      end
  | OBeginUpdate =>
      match a_st a with
      | SProcessed | SUpdated => (COk, Spec SUpdateBegun (a_verts a) (a_tris a) [] [])
      | _ => (CEmptyPrevious, a)
      end
  | OUpdateVertex p => a_write SUpdateBegun [p] a
  | OUpdateTriangle p q r => a_write SUpdateBegun [p; q; r] a
  | OUpdateSub ps => a_write SUpdateBegun ps a
  | OEndUpdate _ _ =>
      match a_st a with
      | SUpdateBegun => if length (a_new a) =? length (a_verts a)
                        then (COk, Spec SUpdated (a_new a) (a_tris a) (a_verts a) [])
                        else (CIncorrectData, a)
      | _ => (COutOfSequence, a)
      end
  end.

Fixpoint arun (os : list bop) (a : spec) : list code * spec :=
  match os with
  | [] => ([], a)
  | o :: os' => let (c, a1) := astep o a in let (cs, a2) := arun os' a1 in (c :: cs, a2)
  end.

(** Calls that the code neither supports nor rejects: adding triangles or
    sub-models in a state other than BEGUN and PROCESSED, writing more new
    positions than there are vertices, and triangle indices that do not refer
    to the vertices of the sub-model. *)
Definition tri_in (n : nat) (t : tri) : Prop :=
  match t with (a, b, c) => a < n /\ b < n /\ c < n end.

Definition proper (o : bop) (a : spec) : Prop :=
  match o with
  | OTriangle _ _ _ | OSub _ => a_st a = SBegun \/ a_st a = SProcessed
  | OSubTris ps ts => (a_st a = SBegun /\ Forall (tri_in (length ps)) ts) \/ a_st a = SProcessed
  | OReplaceVertex _ => a_st a = SReplaceBegun -> length (a_new a) + 1 <= length (a_verts a)
  | OReplaceTriangle _ _ _ => a_st a = SReplaceBegun -> length (a_new a) + 3 <= length (a_verts a)
  | OReplaceSub ps => a_st a = SReplaceBegun -> length (a_new a) + length ps <= length (a_verts a)
  | OUpdateVertex _ => a_st a = SUpdateBegun -> length (a_new a) + 1 <= length (a_verts a)
  | OUpdateTriangle _ _ _ => a_st a = SUpdateBegun -> length (a_new a) + 3 <= length (a_verts a)
  | OUpdateSub ps => a_st a = SUpdateBegun -> length (a_new a) + length ps <= length (a_verts a)
  | _ => True
  end.

Fixpoint proper_history (os : list bop) (a : spec) : Prop :=
  match os with
  | [] => True
  | o :: os' => proper o a /\ proper_history os' (snd (astep o a))
  end.

(** ** Lemmas on arrays *)

Lemma aset_eq : forall A (l : list A) i x, i < length l ->
  aset l i x = Some (firstn i l ++ x :: skipn (S i) l).
Proof. intros. unfold aset. destruct (Nat.ltb_spec i (length l)); [reflexivity|lia]. Qed.

Lemma awrite_eq : forall A (xs : list A) (a : list (option A)) k, k + length xs <= length a ->
  awrite a k xs = Some (firstn k a ++ map Some xs ++ skipn (k + length xs) a).
Proof.
  intros A xs. induction xs as [|x xs IH]; intros a k H; cbn [awrite length map app] in *.
  - rewrite Nat.add_0_r, firstn_skipn. reflexivity.
  - rewrite aset_eq by lia.
    assert (Hf : length (firstn k a) = k) by (rewrite firstn_length; lia).
    rewrite IH.
    + f_equal. rewrite firstn_app, Hf. rewrite (firstn_all2 (firstn k a)) by lia.
      replace (S k - k) with 1 by lia. cbn [firstn].
      rewrite <- app_assoc. cbn [app]. do 3 f_equal.
      rewrite skipn_app, Hf. rewrite skipn_all2 by lia. cbn [app].
      replace (S k + length xs - k) with (S (length xs)) by lia. rewrite skipn_cons.
      rewrite skipn_add. f_equal. lia.
    + rewrite app_length, Hf. cbn [length]. rewrite skipn_length. lia.
Qed.

Lemma awrite_none : forall A (xs : list A) (a : list (option A)) k,
  length a < k + length xs -> 0 < length xs -> awrite a k xs = None.
Proof.
  intros A xs. induction xs as [|x xs IH]; intros a k H H0; [cbn in H0; lia|].
  cbn [awrite]. destruct (Nat.lt_ge_cases k (length a)) as [Hk|Hk].
  - destruct (aset_some _ a k (Some x) Hk) as (a' & -> & Hl & _).
    destruct xs as [|y xs]; [cbn in H; lia|]. apply IH; cbn [length] in *; lia.
  - rewrite aset_none by lia. reflexivity.
Qed.

Lemma realloc_eq : forall A (a : list (option A)) n cap, n <= length a -> n <= cap ->
  realloc a n cap = Some (firstn n a ++ repeat None (cap - n)).
Proof.
  intros. unfold realloc.
  destruct (Nat.leb_spec n (length a)); [|lia]. destruct (Nat.leb_spec n cap); [reflexivity|lia].
Qed.

Lemma aread_map : forall A (l : list A) i, aread (map Some l) i = nth_error l i.
Proof.
  intros A l i. unfold aread. rewrite nth_error_map. destruct (nth_error l i); reflexivity.
Qed.

Lemma aread_firstn : forall A (a : list (option A)) n i, i < n -> aread (firstn n a) i = aread a i.
Proof.
  intros A a n i H. unfold aread.
  assert (E : nth_error (firstn n a) i = nth_error a i); [|rewrite E; reflexivity].
  destruct (Nat.lt_ge_cases i (length a)) as [Hi|Hi].
  - rewrite <- (firstn_skipn n a) at 2. rewrite nth_error_app1; [reflexivity|]. rewrite firstn_length. lia.
  - rewrite (proj2 (nth_error_None a i)) by lia. apply nth_error_None. rewrite firstn_length. lia.
Qed.

Lemma omap_some : forall A B (f : A -> option B) (g : A -> B) l,
  (forall x, In x l -> f x = Some (g x)) -> omap f l = Some (map g l).
Proof.
  intros A B f g l. induction l as [|x l IH]; intros H; [reflexivity|].
  cbn [omap map]. rewrite H by (left; reflexivity). rewrite IH; [reflexivity|].
  intros y Hy. apply H. right. exact Hy.
Qed.

(** ** What the arrays hold, in terms of the protocol *)

Definition get1 (vs : list V) (k : nat) : list V :=
  match nth_error vs k with Some v => [v] | None => [] end.

(** The points of primitive [i] of a mesh given by plain lists. *)
Definition prim_points (vs : list V) (ts : list tri) (i : nat) : list V :=
  match ts with
  | [] => get1 vs i
  | _ => match nth_error ts i with
         | Some (a, b, c) => get1 vs a ++ get1 vs b ++ get1 vs c
         | None => []
         end
  end.

Definition prim_count (vs : list V) (ts : list tri) : nat :=
  match ts with [] => length vs | _ => length ts end.

(** The hierarchy of [m] over [n] primitives has the right shape, and the
    bounding volume of every node satisfies [E] for all primitives below. *)
Definition tree_ok (E : BV -> nat -> Prop) (n : nat) (m : bvh) : Prop :=
  length (m_bvs m) = 2 * n - 1 /\ m_pcap m = 2 * n - 1 /\ m_nb m = 2 * n - 1 /\
  Permutation (m_prims m) (seq 0 n) /\
  exists t, tid t = 0 /\ tleaves t = m_prims m /\ Permutation (tids t) (seq 0 (2 * n - 1)) /\
            good E (m_bvs m) t 0.

Variable inb : BV -> V -> Prop.

(** The mesh data shared by all states from BEGUN on. *)
Definition mesh_ok (m : bvh) (a : spec) : Prop :=
  m_nv m = length (a_verts a) /\ m_nt m = length (a_tris a) /\
  firstn (m_nt m) (m_tris m) = map Some (a_tris a) /\
  Forall (tri_in (length (a_verts a))) (a_tris a).

Definition ready (m : bvh) (a : spec) : Prop :=
  mesh_ok m a /\ a_verts a <> [] /\ m_vcap m = m_nv m.

(** The refinement relation. *)
Definition rel (m : bvh) (a : spec) : Prop :=
  m_st m = a_st a /\
  match a_st a with
  | SEmpty => m_nv m = 0 /\ m_nt m = 0 /\ m_prev m = None
  | SBegun => mesh_ok m a /\ m_prev m = None /\ m_vcap m = length (m_verts m) /\ 1 <= m_vcap m /\
      m_tcap m <= length (m_tris m) /\ m_nt m <= m_tcap m /\ m_nv m <= m_vcap m /\
      firstn (m_nv m) (m_verts m) = map Some (a_verts a)
  | SProcessed => ready m a /\ m_prev m = None /\ m_verts m = map Some (a_verts a) /\
      tree_ok (encl inb (prim_points (a_verts a) (a_tris a))) (prim_count (a_verts a) (a_tris a)) m
  | SReplaceBegun => ready m a /\ m_prev m = None /\ m_upd m = length (a_new a) /\
      length (a_new a) <= length (a_verts a) /\
      m_verts m = map Some (a_new a ++ skipn (length (a_new a)) (a_verts a)) /\
      tree_ok (fun _ _ => True) (prim_count (a_verts a) (a_tris a)) m
  | SUpdateBegun => ready m a /\ m_prev m = Some (map Some (a_verts a)) /\ m_upd m = length (a_new a) /\
      length (a_new a) <= length (a_verts a) /\
      length (m_verts m) = length (a_verts a) /\ firstn (m_upd m) (m_verts m) = map Some (a_new a) /\
      tree_ok (fun _ _ => True) (prim_count (a_verts a) (a_tris a)) m
  | SUpdated => ready m a /\ m_prev m = Some (map Some (a_old a)) /\ length (a_old a) = length (a_verts a) /\
      m_verts m = map Some (a_verts a) /\
      tree_ok (fun bv p => encl inb (prim_points (a_old a) (a_tris a)) bv p /\
                           encl inb (prim_points (a_verts a) (a_tris a)) bv p)
              (prim_count (a_verts a) (a_tris a)) m
  end.

Hypothesis fit_encl : forall l x, In x l -> inb (fit l) x.
Hypothesis plus_l : forall a b x, inb a x -> inb (plus a b) x.
Hypothesis plus_r : forall a b x, inb b x -> inb (plus a b) x.

Lemma model_type_eq : forall m a, mesh_ok m a -> a_verts a <> [] ->
  model_type m = match a_tris a with [] => TPoints | _ => TTris end.
Proof using Type.
  intros m a (Hnv & Hnt & _) Hne. unfold model_type. rewrite Hnv, Hnt.
  destruct (a_tris a), (a_verts a); try congruence; reflexivity.
Qed.

Lemma num_prims_eq : forall m a, mesh_ok m a -> a_verts a <> [] ->
  num_prims m = prim_count (a_verts a) (a_tris a).
Proof using Type.
  intros m a Hm Hne. unfold num_prims. rewrite (model_type_eq m a) by assumption.
  destruct Hm as (Hnv & Hnt & _). unfold prim_count. destruct (a_tris a); assumption.
Qed.

Lemma prim_count_pos : forall (vs : list V) ts, vs <> [] -> 1 <= prim_count vs ts.
Proof using Type.
  intros vs ts H. unfold prim_count. destruct ts; cbn [length]; [|lia].
  destruct vs; [congruence|cbn; lia].
Qed.

Lemma pts_in_eq : forall m a vs, mesh_ok m a -> a_verts a <> [] -> length vs = length (a_verts a) ->
  forall i, i < prim_count (a_verts a) (a_tris a) ->
  pts_in (model_type m) (m_tris m) (map Some vs) i = Some (prim_points vs (a_tris a) i).
Proof using Type.
  intros m a vs Hm Hne Hl i Hi. rewrite (model_type_eq m a) by assumption.
  destruct Hm as (Hnv & Hnt & Htr & Hv). unfold prim_count in Hi. unfold prim_points.
  assert (Hget : forall k, k < length (a_verts a) -> exists v, nth_error vs k = Some v).
  { intros k Hk. destruct (nth_error vs k) eqn:E; [eauto|]. apply nth_error_None in E. lia. }
  destruct (a_tris a) as [|t0 ts] eqn:Et.
  - cbn [pts_in omap]. rewrite aread_map. unfold get1.
    destruct (Hget i Hi) as (v & ->). reflexivity.
  - cbn [pts_in]. rewrite <- (aread_firstn _ (m_tris m) (m_nt m)) by lia.
    rewrite Htr, aread_map. rewrite <- Et in Hi, Hv |- *.
    destruct (nth_error (a_tris a) i) as [[[x y] z]|] eqn:En.
    2:{ apply nth_error_None in En. lia. }
    rewrite Forall_forall in Hv. destruct (Hv _ (nth_error_In _ _ En)) as (Hx & Hy & Hz).
    cbn [omap]. rewrite !aread_map. unfold get1.
    destruct (Hget x Hx) as (vx & ->). destruct (Hget y Hy) as (vy & ->). destruct (Hget z Hz) as (vz & ->).
    reflexivity.
Qed.

Lemma pts_fun_map : forall (g : nat -> list V) n i, i < n -> pts_fun (map g (seq 0 n)) i = g i.
Proof using Type.
  intros g n i H. unfold pts_fun.
  rewrite (nth_indep _ [] (g 0)) by (rewrite map_length, seq_length; exact H).
  rewrite (map_nth g). rewrite seq_nth by exact H. reflexivity.
Qed.

Lemma tree_ok_weak : forall (E E' : BV -> nat -> Prop) n m,
  (forall bv p, p < n -> E bv p -> E' bv p) -> tree_ok E n m -> tree_ok E' n m.
Proof using Type.
  intros E E' n m H (H1 & H2 & H3 & H4 & t & H5 & H6 & H7 & H8).
  split; [exact H1|]. split; [exact H2|]. split; [exact H3|]. split; [exact H4|].
  exists t. repeat (split; [assumption|]). eapply good_mono; [|exact H8].
  intros bv p Hp. apply H. rewrite H6 in Hp. apply (Permutation_in _ H4) in Hp. apply in_seq in Hp. lia.
Qed.

Lemma do_build_ok : forall m a vs, mesh_ok m a -> a_verts a <> [] -> length vs = length (a_verts a) ->
  m_verts m = map Some vs ->
  length (m_bvs m) = 2 * prim_count (a_verts a) (a_tris a) - 1 ->
  m_pcap m = 2 * prim_count (a_verts a) (a_tris a) - 1 ->
  exists m', do_build m = Some m' /\
    m_st m' = m_st m /\ m_verts m' = m_verts m /\ m_vcap m' = m_vcap m /\ m_nv m' = m_nv m /\
    m_prev m' = m_prev m /\ m_tris m' = m_tris m /\ m_tcap m' = m_tcap m /\ m_nt m' = m_nt m /\
    m_upd m' = m_upd m /\
    tree_ok (encl inb (prim_points vs (a_tris a))) (prim_count (a_verts a) (a_tris a)) m'.
Proof using fit_encl.
  intros m a vs Hm Hne Hl Hvs Hb Hp.
  set (n := prim_count (a_verts a) (a_tris a)) in *.
  assert (Hn : 1 <= n) by (apply prim_count_pos; exact Hne).
  unfold do_build. rewrite (num_prims_eq m a) by assumption. fold n.
  rewrite (omap_some _ _ _ (prim_points vs (a_tris a))).
  2:{ intros i Hi. apply in_seq in Hi. rewrite Hvs. apply pts_in_eq; try assumption. fold n. lia. }
  set (L := map (prim_points vs (a_tris a)) (seq 0 n)).
  unfold build. destruct (Nat.leb_spec n (m_pcap m)) as [_|H]; [|lia].
  destruct (build_rec_spec V BV fit (split (pts_fun L)) (pts_fun L) inb fit_encl n n 0 0
             (Bst (m_bvs m) 1 (seq 0 n)))
    as (s' & t & Hr & Hnb & Hbl & Hre & Htid & Htl & Hids & _ & Hg);
    cbn [b_prims b_nb b_bvs]; [lia|lia|rewrite seq_length; lia|lia|lia|].
  rewrite Hr. cbn [b_prims b_nb b_bvs] in *.
  destruct Hre as (Hr1 & _ & _ & Hr4). rewrite seq_length in Hr1.
  unfold seg in Hr4, Htl. cbn [skipn] in Hr4, Htl.
  rewrite firstn_all2 in Hr4 by (rewrite seq_length; lia).
  rewrite firstn_all2 in Hr4 by lia. rewrite firstn_all2 in Htl by lia.
  assert (Hmt : model_type m <> TUnknown).
  { rewrite (model_type_eq m a) by assumption. destruct (a_tris a); discriminate. }
  eexists. split; [destruct (model_type m); [reflexivity|reflexivity|congruence]|].
  cbn [m_st m_verts m_vcap m_nv m_prev m_tris m_tcap m_nt m_upd]. repeat (split; [reflexivity|]).
  split; [cbn [m_bvs]; lia|]. split; [exact Hp|]. split; [cbn [m_nb]; lia|].
  cbn [m_prims m_bvs]. split; [symmetry; exact Hr4|].
  exists t. split; [exact Htid|]. split; [exact Htl|]. split.
  - rewrite Hids. replace (2 * n - 1) with (S (2 * (n - 1))) by lia. reflexivity.
  - eapply good_mono; [|exact Hg]. intros bv p Hpl H x Hx. apply H.
    unfold L. rewrite pts_fun_map; [exact Hx|]. rewrite Htl in Hpl.
    apply (Permutation_in _ (Permutation_sym Hr4)) in Hpl. apply in_seq in Hpl. lia.
Qed.

Lemma do_refit_ok : forall b m a vs pv E (g : nat -> list V), mesh_ok m a -> a_verts a <> [] ->
  length vs = length (a_verts a) -> m_verts m = map Some vs ->
  (m_prev m = None /\ g = prim_points vs (a_tris a) \/
   length pv = length (a_verts a) /\ m_prev m = Some (map Some pv) /\
   g = (fun i => prim_points pv (a_tris a) i ++ prim_points vs (a_tris a) i)) ->
  tree_ok E (prim_count (a_verts a) (a_tris a)) m ->
  exists m', do_refit b m = Some m' /\
    m_st m' = m_st m /\ m_verts m' = m_verts m /\ m_vcap m' = m_vcap m /\ m_nv m' = m_nv m /\
    m_prev m' = m_prev m /\ m_tris m' = m_tris m /\ m_tcap m' = m_tcap m /\ m_nt m' = m_nt m /\
    m_upd m' = m_upd m /\ m_prims m' = m_prims m /\
    tree_ok (encl inb g) (prim_count (a_verts a) (a_tris a)) m'.
Proof using fit_encl plus_l plus_r.
  intros b m a vs pv E g Hm Hne Hl Hvs Hprev (T1 & T2 & T3 & T4 & t & T5 & T6 & T7 & T8).
  set (n := prim_count (a_verts a) (a_tris a)) in *.
  assert (Hn : 1 <= n) by (apply prim_count_pos; exact Hne).
  assert (Hlen : length (m_prims m) = n) by (rewrite (Permutation_length T4), seq_length; reflexivity).
  assert (Hnd : NoDup (tids t)) by (eapply Permutation_NoDup; [symmetry; exact T7|apply seq_NoDup]).
  unfold do_refit. rewrite (omap_some _ _ _ g).
  2:{ intros i Hi. apply in_seq in Hi. unfold pts_both. rewrite Hvs.
      destruct Hprev as [[-> ->]|(Hlp & -> & ->)].
      - apply pts_in_eq; try assumption. fold n. lia.
      - rewrite (pts_in_eq m a pv), (pts_in_eq m a vs); try assumption; try reflexivity; fold n; lia. }
  rewrite Hlen. set (L := map g (seq 0 n)).
  assert (Hfin : forall bvs', length bvs' = length (m_bvs m) -> good (encl inb (pts_fun L)) bvs' t 0 ->
    tree_ok (encl inb g) n (Bvh (m_st m) (m_verts m) (m_vcap m) (m_nv m) (m_prev m) (m_tris m) (m_tcap m) (m_nt m)
                    bvs' (m_nb m) (m_pcap m) (m_prims m) (m_upd m))).
  { intros bvs' Hb' Hg'. split; [cbn [m_bvs]; lia|]. split; [exact T2|]. split; [exact T3|]. split; [exact T4|].
    exists t. cbn [m_prims m_bvs]. repeat (split; [assumption|]).
    eapply good_mono; [|exact Hg']. intros bv p Hp H x Hx. apply H.
    unfold L. rewrite pts_fun_map; [exact Hx|]. rewrite T6 in Hp.
    apply (Permutation_in _ T4) in Hp. apply in_seq in Hp. lia. }
  destruct b.
  - destruct (refit_up_spec V BV fit plus (pts_fun L) inb fit_encl plus_l plus_r t E (m_bvs m) 0 (m_nb m))
      as (bvs' & Hr & Hl' & _ & Hg'); [exact Hnd| |exact T8|].
    { pose proof (depth_le t). rewrite T6, Hlen in H. lia. }
    rewrite T5 in Hr. rewrite Hr. eexists. split; [reflexivity|].
    cbn [m_st m_verts m_vcap m_nv m_prev m_tris m_tcap m_nt m_upd m_prims]. repeat (split; [reflexivity|]).
    apply Hfin; assumption.
  - unfold refit_down.
    destruct (refit_loop_spec V BV fit (pts_fun L) (m_prims m) (seq 0 (m_nb m)) (m_bvs m))
      as (bvs' & Hr & Hl' & _ & Hv).
    { apply seq_NoDup. }
    { intros i Hi. eapply good_cell; [exact T8|]. eapply Permutation_in; [symmetry; exact T7|].
      rewrite T3 in Hi. exact Hi. }
    rewrite Hr. eexists. split; [reflexivity|].
    cbn [m_st m_verts m_vcap m_nv m_prev m_tris m_tcap m_nt m_upd m_prims]. repeat (split; [reflexivity|]).
    apply Hfin; [assumption|].
    eapply good_refit_down; [exact fit_encl|exact T8| |].
    + rewrite T6. unfold seg. cbn [skipn]. rewrite firstn_all. reflexivity.
    + intros i nd Hi. apply Hv. rewrite T3. eapply Permutation_in; [exact T7|exact Hi].
Qed.

(** ** Adding geometry *)

Definition begun (m : bvh) (vs : list V) (ts : list tri) : Prop :=
  m_st m = SBegun /\ m_nv m = length vs /\ m_nt m = length ts /\
  firstn (m_nt m) (m_tris m) = map Some ts /\ m_prev m = None /\
  m_vcap m = length (m_verts m) /\ 1 <= m_vcap m /\
  m_tcap m <= length (m_tris m) /\ m_nt m <= m_tcap m /\ m_nv m <= m_vcap m /\
  firstn (m_nv m) (m_verts m) = map Some vs.

Lemma begun_rel : forall m a, a_st a = SBegun -> a_old a = [] -> a_new a = [] ->
  (rel m a <-> begun m (a_verts a) (a_tris a) /\ Forall (tri_in (length (a_verts a))) (a_tris a)).
Proof using Type.
  intros m a Ha Ho Hn. unfold rel. rewrite Ha. unfold mesh_ok, begun. tauto.
Qed.

Lemma room_v_ok : forall m vs ts (full : bool) cap, begun m vs ts -> length vs <= cap -> 1 <= cap ->
  exists m1, room_v full cap m = Some m1 /\ begun m1 vs ts /\ m_vcap m1 = (if full then cap else m_vcap m).
Proof using Type.
  intros m vs ts full cap (H1 & H2 & H3 & H4 & H5 & H6 & H7 & H8 & H9 & H10 & H11) Hc H1c.
  destruct full; cbn [room_v].
  - unfold room_v. rewrite realloc_eq by lia. eexists. split; [reflexivity|].
    split; [|reflexivity]. unfold begun. cbn [m_st m_nv m_nt m_tris m_prev m_vcap m_verts m_tcap].
    assert (Hf : length (firstn (m_nv m) (m_verts m)) = m_nv m) by (rewrite firstn_length; lia).
    repeat split; try assumption; try lia.
    + rewrite app_length, repeat_length, Hf. lia.
    + rewrite firstn_app, Hf, Nat.sub_diag. cbn [firstn]. rewrite app_nil_r, firstn_firstn, Nat.min_id. exact H11.
  - exists m. repeat split; assumption.
Qed.

Lemma push_v_ok : forall m vs ts ps, begun m vs ts -> length vs + length ps <= m_vcap m ->
  exists m1, push_v ps m = Some m1 /\ begun m1 (vs ++ ps) ts.
Proof using Type.
  intros m vs ts ps (H1 & H2 & H3 & H4 & H5 & H6 & H7 & H8 & H9 & H10 & H11) Hc.
  unfold push_v. rewrite awrite_eq by lia. eexists. split; [reflexivity|].
  unfold begun. cbn [m_st m_nv m_nt m_tris m_prev m_vcap m_verts m_tcap].
  assert (Hf : length (firstn (m_nv m) (m_verts m)) = m_nv m) by (rewrite firstn_length; lia).
  repeat split; try assumption; try lia.
  - rewrite app_length. lia.
  - rewrite !app_length, map_length, skipn_length, Hf. lia.
  - rewrite app_assoc, firstn_app_l by (rewrite app_length, map_length; lia).
    rewrite firstn_all2 by (rewrite app_length, map_length; lia). rewrite H11, map_app. reflexivity.
Qed.

Lemma room_t_ok : forall m vs ts k, begun m vs ts ->
  exists m1, room_t k m = Some m1 /\ begun m1 vs ts /\ length ts + k <= m_tcap m1.
Proof using Type.
  intros m vs ts k (H1 & H2 & H3 & H4 & H5 & H6 & H7 & H8 & H9 & H10 & H11).
  unfold room_t. destruct (Nat.leb_spec (m_tcap m + 1) (m_nt m + k)) as [Hk|Hk].
  - set (c := if m_tcap m =? 0 then 1 else m_tcap m).
    assert (Hc : m_nt m <= c /\ 1 <= c /\ (k = 0 -> m_nt m <= m_tcap m)).
    { unfold c. destruct (Nat.eqb_spec (m_tcap m) 0); lia. }
    rewrite realloc_eq by lia. eexists. split; [reflexivity|].
    unfold begun. cbn [m_st m_nv m_nt m_tris m_prev m_vcap m_verts m_tcap].
    assert (Hf : length (firstn (m_nt m) (m_tris m)) = m_nt m) by (rewrite firstn_length; lia).
    repeat split; try assumption; try lia.
    + rewrite firstn_app, Hf, Nat.sub_diag. cbn [firstn]. rewrite app_nil_r, firstn_firstn, Nat.min_id. exact H4.
    + rewrite app_length, repeat_length, Hf. lia.
  - exists m. split; [reflexivity|]. split; [repeat split; assumption|lia].
Qed.

Lemma push_t_ok : forall m vs ts k, begun m vs ts -> length ts + length k <= m_tcap m ->
  exists m1, push_t k m = Some m1 /\ begun m1 vs (ts ++ k).
Proof using Type.
  intros m vs ts k (H1 & H2 & H3 & H4 & H5 & H6 & H7 & H8 & H9 & H10 & H11) Hc.
  unfold push_t. rewrite awrite_eq by lia. eexists. split; [reflexivity|].
  unfold begun. cbn [m_st m_nv m_nt m_tris m_prev m_vcap m_verts m_tcap].
  assert (Hf : length (firstn (m_nt m) (m_tris m)) = m_nt m) by (rewrite firstn_length; lia).
  repeat split; try assumption; try lia.
  - rewrite app_length. lia.
  - rewrite app_assoc, firstn_app_l by (rewrite app_length, map_length; lia).
    rewrite firstn_all2 by (rewrite app_length, map_length; lia). rewrite H4, map_app. reflexivity.
  - rewrite !app_length, map_length, skipn_length, Hf. lia.
Qed.

Lemma add_points_ok : forall m vs ts ps, begun m vs ts ->
  exists m1, add_points ps m = Some m1 /\ begun m1 (vs ++ ps) ts.
Proof using Type.
  intros m vs ts ps H. unfold add_points.
  pose proof H as (H1 & H2 & H3 & H4 & H5 & H6 & H7 & H8 & H9 & H10 & H11).
  destruct (room_v_ok m vs ts (m_vcap m + 1 <=? m_nv m + length ps) (m_vcap m * 2 + length ps - 1) H)
    as (m1 & E1 & Hb & Hc); [lia|lia|].
  rewrite E1. cbn [obind]. apply push_v_ok; [exact Hb|]. rewrite Hc.
  destruct (Nat.leb_spec (m_vcap m + 1) (m_nv m + length ps)); lia.
Qed.

Lemma tri_in_app : forall n k t, tri_in n t -> tri_in (n + k) t.
Proof using Type. intros n k [[a b] c] (H1 & H2 & H3). cbn. lia. Qed.

Lemma tri_in_shift : forall n k t, tri_in k t -> tri_in (n + k) (shift n t).
Proof using Type. intros n k [[a b] c] (H1 & H2 & H3). cbn. lia. Qed.

Lemma tris_grow : forall n k ts ts', Forall (tri_in n) ts -> Forall (tri_in k) ts' ->
  Forall (tri_in (n + k)) (ts ++ map (shift n) ts').
Proof using Type.
  intros n k ts ts' H H'. apply Forall_app. split.
  - eapply Forall_impl; [|exact H]. intros t. apply tri_in_app.
  - apply Forall_map. eapply Forall_impl; [|exact H']. intros t. apply tri_in_shift.
Qed.

(** The states in which the refinement relation fixes [a_old] and [a_new]. *)
Definition a_wf (a : spec) : Prop :=
  match a_st a with
  | SEmpty | SBegun | SProcessed => a_old a = [] /\ a_new a = [] /\ (a_st a = SEmpty -> a_verts a = [] /\ a_tris a = [])
  | SUpdated => a_new a = []
  | SReplaceBegun | SUpdateBegun => a_old a = []
  end.

Lemma a_wf_step : forall o a, a_wf a -> a_wf (snd (astep o a)).
Proof using Type.
  intros o [st vs ts old new] H. destruct o, st; cbn in *; try exact H; try (repeat split; congruence);
    try (intuition congruence).
  - destruct vs; cbn; [exact H|repeat split; congruence].
  - destruct (length new =? length vs); cbn; [repeat split; congruence|exact H].
  - destruct (length new =? length vs); cbn; [repeat split; congruence|exact H].
Qed.

Lemma replace_rel : forall ps m a, rel m a ->
  (a_st a = SReplaceBegun -> length (a_new a) + length ps <= length (a_verts a)) ->
  exists m', replace_pts ps m = Some (fst (a_write SReplaceBegun ps a), m') /\
             rel m' (snd (a_write SReplaceBegun ps a)).
Proof using Type.
  intros ps m a Hrel Hp. pose proof Hrel as [Hst Hr]. unfold replace_pts, a_write. rewrite Hst.
  destruct (a_st a) eqn:Ea; try (eexists; split; [reflexivity|exact Hrel]).
  specialize (Hp eq_refl). destruct Hr as (Hrd & Hpv & Hu & Hle & Hvs & Htree).
  assert (Hlv : length (m_verts m) = length (a_verts a))
    by (rewrite Hvs, map_length, app_length, skipn_length; lia).
  unfold overwrite. rewrite awrite_eq by lia. cbn [obind]. eexists. split; [reflexivity|].
  cbn [snd]. unfold rel. cbn [a_st a_verts a_tris a_new a_old m_st].
  split; [exact Hst|]. split; [exact Hrd|]. split; [exact Hpv|].
  split; [cbn [m_upd]; rewrite app_length; lia|]. split; [rewrite app_length; lia|].
  split; [|exact Htree].
  cbn [m_verts]. rewrite Hvs, Hu, firstn_map, skipn_map, <- !map_app. f_equal.
  rewrite firstn_app_l by lia. rewrite firstn_all.
  rewrite <- app_assoc. f_equal. f_equal. rewrite skipn_app_r by lia.
  rewrite skipn_add, app_length. f_equal. lia.
Qed.

Lemma update_rel : forall ps m a, rel m a ->
  (a_st a = SUpdateBegun -> length (a_new a) + length ps <= length (a_verts a)) ->
  exists m', update_pts ps m = Some (fst (a_write SUpdateBegun ps a), m') /\
             rel m' (snd (a_write SUpdateBegun ps a)).
Proof using Type.
  intros ps m a Hrel Hp. pose proof Hrel as [Hst Hr]. unfold update_pts, a_write. rewrite Hst.
  destruct (a_st a) eqn:Ea; try (eexists; split; [reflexivity|exact Hrel]).
  specialize (Hp eq_refl). destruct Hr as (Hrd & Hpv & Hu & Hle & Hlv & Hvs & Htree).
  unfold overwrite. rewrite awrite_eq by lia. cbn [obind]. eexists. split; [reflexivity|].
  cbn [snd]. unfold rel. cbn [a_st a_verts a_tris a_new a_old m_st].
  assert (Hf : length (firstn (m_upd m) (m_verts m)) = m_upd m) by (rewrite firstn_length; lia).
  split; [exact Hst|]. split; [exact Hrd|]. split; [exact Hpv|].
  split; [cbn [m_upd]; rewrite app_length; lia|]. split; [rewrite app_length; lia|].
  cbn [m_verts m_upd]. split.
  - rewrite !app_length, map_length, skipn_length, Hf. lia.
  - split; [|exact Htree].
    rewrite app_assoc, firstn_app_l by (rewrite app_length, map_length; lia).
    rewrite firstn_all2 by (rewrite app_length, map_length; lia). rewrite Hvs, map_app. reflexivity.
Qed.

Lemma step_rel : forall o m a, a_wf a -> rel m a -> proper o a ->
  exists m', bstep o m = Some (fst (astep o a), m') /\ rel m' (snd (astep o a)).
Proof using fit_encl plus_l plus_r.
  intros o m a Hwf Hrel Hp.
  pose proof Hrel as [Hst _].
  destruct o as [t v|p|p1 p2 p3|ps|ps ts| | |p|p1 p2 p3|ps|rf bu| |p|p1 p2 p3|ps|rf bu]; cbn [bstep astep].
  - (* beginModel *)
    unfold begin_model. rewrite Hst.
    set (t' := Z.to_nat (if (t <? 0)%Z then 8%Z else t)).
    set (v' := Z.to_nat (if (v <=? 0)%Z then 8%Z else v)).
    assert (Hv' : 1 <= v') by (unfold v'; destruct (Z.leb_spec v 0); lia).
    destruct (a_st a) eqn:Ea; eexists; (split; [reflexivity|]); cbn [snd]; unfold rel; cbn [a_st m_st spec0];
      (split; [reflexivity|]); try (cbn [m_nv m_nt m_prev]; repeat split; reflexivity).
    destruct Hrel as [_ Hr]. rewrite Ea in Hr. destruct Hr as (Hnv & Hnt & Hprev).
    unfold mesh_ok. cbn [m_nv m_nt m_tris a_verts a_tris m_prev m_vcap m_verts m_tcap map length].
    rewrite Hnv, Hnt. cbn [firstn]. repeat split; try assumption; try lia; try constructor.
    + rewrite repeat_length. reflexivity.
    + destruct (Nat.eqb_spec t' 0); [lia|]. rewrite repeat_length. lia.
  - (* addVertex *)
    unfold add_vertex, a_add. rewrite Hst.
    destruct (a_st a) eqn:Ea; try (eexists; split; [reflexivity|exact Hrel]).
    assert (Ho : a_old a = [] /\ a_new a = []) by (unfold a_wf in Hwf; rewrite Ea in Hwf; tauto).
    apply begun_rel in Hrel; try tauto. destruct Hrel as [Hb Ht].
    pose proof Hb as (H1 & H2 & H3 & H4 & H5 & H6 & H7 & H8 & H9 & H10 & H11).
    destruct (room_v_ok m _ _ (m_vcap m <=? m_nv m) (m_vcap m * 2) Hb) as (m1 & E1 & Hb1 & Hc1); [lia|lia|].
    rewrite E1. cbn [obind].
    destruct (push_v_ok m1 _ _ [p] Hb1) as (m2 & E2 & Hb2).
    { rewrite Hc1. cbn [length]. destruct (Nat.leb_spec (m_vcap m) (m_nv m)); lia. }
    rewrite E2. cbn [obind]. eexists. split; [reflexivity|]. cbn [snd].
    apply begun_rel; try reflexivity. cbn [a_verts a_tris map]. rewrite app_nil_r. split; [exact Hb2|].
    rewrite app_length. eapply Forall_impl; [|exact Ht]. intros t. apply tri_in_app.
  - (* addTriangle *)
    unfold add_triangle, a_add. rewrite Hst.
    destruct Hp as [Ea|Ea]; rewrite Ea; [|eexists; split; [reflexivity|exact Hrel]].
    assert (Ho : a_old a = [] /\ a_new a = []) by (unfold a_wf in Hwf; rewrite Ea in Hwf; tauto).
    apply begun_rel in Hrel; try tauto. destruct Hrel as [Hb Ht].
    pose proof Hb as (H1 & H2 & H3 & H4 & H5 & H6 & H7 & H8 & H9 & H10 & H11).
    destruct (room_v_ok m _ _ (m_vcap m <=? m_nv m + 2) (m_vcap m * 2 + 2) Hb) as (m1 & E1 & Hb1 & Hc1); [lia|lia|].
    rewrite E1. cbn [obind].
    destruct (push_v_ok m1 _ _ [p1; p2; p3] Hb1) as (m2 & E2 & Hb2).
    { rewrite Hc1. cbn [length]. destruct (Nat.leb_spec (m_vcap m) (m_nv m + 2)); lia. }
    rewrite E2. cbn [obind].
    destruct (room_t_ok m2 _ _ 1 Hb2) as (m3 & E3 & Hb3 & Hc3). rewrite E3. cbn [obind].
    destruct (push_t_ok m3 _ _ [(m_nv m, m_nv m + 1, m_nv m + 2)] Hb3 ltac:(exact Hc3)) as (m4 & E4 & Hb4).
    rewrite E4. cbn [obind]. eexists. split; [reflexivity|]. cbn [snd].
    apply begun_rel; try reflexivity. cbn [a_verts a_tris map shift]. split.
    + rewrite H2 in Hb4. rewrite !(Nat.add_comm _ (length (a_verts a))) , Nat.add_0_r. exact Hb4.
    + rewrite app_length. apply (tris_grow _ 3 _ [(0, 1, 2)] Ht). repeat constructor.
  - (* addSubModel(ps) *)
    unfold add_sub, a_add. rewrite Hst.
    destruct Hp as [Ea|Ea]; rewrite Ea; [|eexists; split; [reflexivity|exact Hrel]].
    assert (Ho : a_old a = [] /\ a_new a = []) by (unfold a_wf in Hwf; rewrite Ea in Hwf; tauto).
    apply begun_rel in Hrel; try tauto. destruct Hrel as [Hb Ht].
    destruct (add_points_ok m _ _ ps Hb) as (m1 & E1 & Hb1). rewrite E1. cbn [obind].
    eexists. split; [reflexivity|]. cbn [snd].
    apply begun_rel; try reflexivity. cbn [a_verts a_tris map]. rewrite app_nil_r. split; [exact Hb1|].
    rewrite app_length. eapply Forall_impl; [|exact Ht]. intros t. apply tri_in_app.
  - (* addSubModel(ps, ts) *)
    unfold add_sub_tris, a_add. rewrite Hst.
    destruct Hp as [[Ea Hts]|Ea]; rewrite Ea; [|eexists; split; [reflexivity|exact Hrel]].
    assert (Ho : a_old a = [] /\ a_new a = []) by (unfold a_wf in Hwf; rewrite Ea in Hwf; tauto).
    apply begun_rel in Hrel; try tauto. destruct Hrel as [Hb Ht].
    destruct (add_points_ok m _ _ ps Hb) as (m1 & E1 & Hb1). rewrite E1. cbn [obind].
    destruct (room_t_ok m1 _ _ (length ts) Hb1) as (m3 & E3 & Hb3 & Hc3). rewrite E3. cbn [obind].
    destruct (push_t_ok m3 _ _ (map (shift (m_nv m)) ts) Hb3 ltac:(rewrite map_length; exact Hc3)) as (m4 & E4 & Hb4).
    rewrite E4. cbn [obind]. eexists. split; [reflexivity|]. cbn [snd].
    apply begun_rel; try reflexivity. cbn [a_verts a_tris]. split.
    + destruct Hb as (_ & H2 & _). rewrite H2 in Hb4. exact Hb4.
    + rewrite app_length. apply tris_grow; assumption.
  - (* endModel *)
    unfold end_model. rewrite Hst.
    destruct (a_st a) eqn:Ea; try (eexists; split; [reflexivity|exact Hrel]).
    assert (Ho : a_old a = [] /\ a_new a = []) by (unfold a_wf in Hwf; rewrite Ea in Hwf; tauto).
    pose proof Hrel as Hrel0.
    apply begun_rel in Hrel; try tauto. destruct Hrel as [Hb Ht].
    pose proof Hb as (H1 & H2 & H3 & H4 & H5 & H6 & H7 & H8 & H9 & H10 & H11).
    rewrite H2, H3.
    assert (Hemp : (length (a_tris a) =? 0) && (length (a_verts a) =? 0) =
                   match a_verts a with [] => true | _ => false end).
    { destruct (a_verts a) as [|v0 vs].
      - destruct (a_tris a) as [|[[x y] z] ts]; [reflexivity|]. inversion Ht as [|? ? Hx _]. cbn in Hx. lia.
      - cbn [length Nat.eqb]. apply andb_false_r. }
    rewrite Hemp. destruct (a_verts a) as [|v0 vs] eqn:Ev.
    + eexists. split; [reflexivity|]. exact Hrel0.
    + rewrite <- Ev in *. clear Hemp.
      assert (Hne : a_verts a <> []) by (rewrite Ev; discriminate).
      assert (Htr : exists T tc, (if length (a_tris a) <? m_tcap m
                then obind (realloc (m_tris m) (length (a_tris a)) (length (a_tris a))) (fun ts => Some (ts, length (a_tris a)))
                else Some (m_tris m, m_tcap m)) = Some (T, tc) /\ firstn (length (a_tris a)) T = map Some (a_tris a)).
      { destruct (Nat.ltb_spec (length (a_tris a)) (m_tcap m)).
        - rewrite realloc_eq by lia. cbn [obind]. eexists _, _. split; [reflexivity|].
          rewrite Nat.sub_diag. cbn [repeat]. rewrite app_nil_r, firstn_firstn, Nat.min_id. rewrite <- H3. exact H4.
        - eexists _, _. split; [reflexivity|]. rewrite <- H3. exact H4. }
      destruct Htr as (T & tc & -> & HT). cbn [obind].
      assert (Hvr : (if length (a_verts a) <? m_vcap m
                then obind (realloc (m_verts m) (length (a_verts a)) (length (a_verts a))) (fun ts => Some (ts, length (a_verts a)))
                else Some (m_verts m, m_vcap m)) = Some (map Some (a_verts a), length (a_verts a))).
      { destruct (Nat.ltb_spec (length (a_verts a)) (m_vcap m)).
        - rewrite realloc_eq by lia. cbn [obind]. rewrite Nat.sub_diag. cbn [repeat]. rewrite app_nil_r.
          rewrite <- H2, H11. reflexivity.
        - rewrite H2 in H11, H10. rewrite firstn_all2 in H11 by lia. rewrite H11. do 2 f_equal. lia. }
      rewrite Hvr. cbn [obind fst snd].
      set (n := if length (a_tris a) =? 0 then length (a_verts a) else length (a_tris a)).
      assert (Hn : n = prim_count (a_verts a) (a_tris a)).
      { unfold n, prim_count. destruct (a_tris a); reflexivity. }
      match goal with |- context [do_build ?x] => set (m0 := x) end.
      assert (Hm0 : mesh_ok m0 a).
      { unfold mesh_ok, m0. cbn [m_nv m_nt m_tris]. repeat split; assumption. }
      destruct (do_build_ok m0 a (a_verts a) Hm0 Hne eq_refl eq_refl)
        as (m' & E' & B1 & B2 & B3 & B4 & B5 & B6 & B7 & B8 & B9 & B10).
      { unfold m0. cbn [m_bvs]. rewrite repeat_length, Hn. reflexivity. }
      { unfold m0. cbn [m_pcap]. rewrite Hn. reflexivity. }
      rewrite E'. cbn [obind]. eexists. rewrite Ev. split; [reflexivity|]. cbn [snd]. rewrite <- Ev.
      unfold rel. cbn [a_st a_verts a_tris]. split; [reflexivity|].
      split; [|split; [|split]].
      * unfold ready, mesh_ok, set_st. cbn [m_nv m_nt m_tris m_vcap a_verts a_tris].
        rewrite B3, B4, B6, B8. unfold m0. cbn [m_nv m_nt m_tris m_vcap]. repeat split; assumption.
      * unfold set_st. cbn [m_prev]. rewrite B5. exact H5.
      * unfold set_st. cbn [m_verts]. rewrite B2. reflexivity.
      * exact B10.
  - (* beginReplaceModel *)
    unfold begin_replace. rewrite Hst.
    destruct (a_st a) eqn:Ea; try (eexists; split; [reflexivity|exact Hrel]).
    eexists. split; [reflexivity|]. cbn [snd]. destruct Hrel as [_ Hr]. rewrite Ea in Hr.
    destruct Hr as (Hrd & Hpv & Hvs & Htree). unfold rel. cbn [a_st a_verts a_tris a_new m_st].
    split; [reflexivity|]. split; [exact Hrd|]. split; [reflexivity|]. split; [reflexivity|].
    split; [cbn; lia|]. split; [exact Hvs|]. eapply tree_ok_weak; [|exact Htree]. auto.
  - apply replace_rel; [exact Hrel|exact Hp].
  - apply replace_rel; [exact Hrel|exact Hp].
  - apply replace_rel; [exact Hrel|exact Hp].
  - (* endReplaceModel *)
    unfold end_replace. rewrite Hst.
    destruct (a_st a) eqn:Ea; try (eexists; split; [reflexivity|exact Hrel]).
    pose proof Hrel as [_ Hr]. rewrite Ea in Hr.
    destruct Hr as (Hrd & Hpv & Hu & Hle & Hvs & Htree). destruct Hrd as (Hm & Hne & Hvc).
    rewrite Hu, (proj1 Hm). destruct (Nat.eqb_spec (length (a_new a)) (length (a_verts a))) as [Hl|Hl];
      [|eexists; split; [reflexivity|exact Hrel]].
    rewrite Hl in Hvs. rewrite skipn_all, app_nil_r in Hvs.
    assert (Hne' : a_new a <> []) by (intros H; rewrite H in Hl; destruct (a_verts a); [congruence|discriminate]).
    assert (Hcnt : prim_count (a_new a) (a_tris a) = prim_count (a_verts a) (a_tris a))
      by (unfold prim_count; destruct (a_tris a); congruence).
    assert (Hres : exists m', (if rf then do_refit bu m else do_build m) = Some m' /\
        m_verts m' = m_verts m /\ m_vcap m' = m_vcap m /\ m_nv m' = m_nv m /\
        m_prev m' = m_prev m /\ m_tris m' = m_tris m /\ m_nt m' = m_nt m /\
        tree_ok (encl inb (prim_points (a_new a) (a_tris a))) (prim_count (a_verts a) (a_tris a)) m').
    { destruct rf.
      - destruct (do_refit_ok bu m a (a_new a) [] _ (prim_points (a_new a) (a_tris a)) Hm Hne Hl Hvs
                    (or_introl (conj Hpv eq_refl)) Htree)
          as (m' & E' & B1 & B2 & B3 & B4 & B5 & B6 & B7 & B8 & B9 & B10 & B11).
        exists m'. repeat (split; [assumption|]). exact B11.
      - destruct (do_build_ok m a (a_new a) Hm Hne Hl Hvs (proj1 Htree) (proj1 (proj2 Htree)))
          as (m' & E' & B1 & B2 & B3 & B4 & B5 & B6 & B7 & B8 & B9 & B10).
        exists m'. repeat (split; [assumption|]). exact B10. }
    destruct Hres as (m' & E' & B2 & B3 & B4 & B5 & B6 & B8 & B10).
    rewrite E'. cbn [obind]. eexists. split; [reflexivity|]. cbn [snd].
    unfold rel. cbn [a_st a_verts a_tris]. split; [reflexivity|].
    split; [|split; [|split]].
    + unfold ready, mesh_ok, set_st. cbn [m_nv m_nt m_tris m_vcap a_verts a_tris].
      rewrite B3, B4, B6, B8, Hl. destruct Hm as (M1 & M2 & M3 & M4). repeat split; assumption.
    + unfold set_st. cbn [m_prev]. rewrite B5. exact Hpv.
    + unfold set_st. cbn [m_verts]. rewrite B2. exact Hvs.
    + rewrite Hcnt. exact B10.
  - (* beginUpdateModel *)
    unfold begin_update. rewrite Hst.
    destruct (a_st a) eqn:Ea; try (eexists; split; [reflexivity|exact Hrel]).
    + eexists. split; [reflexivity|]. cbn [snd]. destruct Hrel as [_ Hr]. rewrite Ea in Hr.
      destruct Hr as (Hrd & Hpv & Hvs & Htree). unfold rel. cbn [a_st a_verts a_tris a_new m_st].
      split; [reflexivity|]. split; [exact Hrd|]. cbn [m_prev m_verts m_upd]. rewrite Hvs.
      split; [reflexivity|]. split; [reflexivity|]. split; [cbn; lia|].
      rewrite Hpv. split; [rewrite repeat_length; apply Hrd|]. split; [reflexivity|].
      eapply tree_ok_weak; [|exact Htree]. auto.
    + eexists. split; [reflexivity|]. cbn [snd]. destruct Hrel as [_ Hr]. rewrite Ea in Hr.
      destruct Hr as (Hrd & Hpv & Hlo & Hvs & Htree). unfold rel. cbn [a_st a_verts a_tris a_new m_st].
      split; [reflexivity|]. split; [exact Hrd|]. cbn [m_prev m_verts m_upd]. rewrite Hvs.
      split; [reflexivity|]. split; [reflexivity|]. split; [cbn; lia|].
      rewrite Hpv. split; [rewrite map_length; exact Hlo|]. split; [reflexivity|].
      eapply tree_ok_weak; [|exact Htree]. auto.
  - apply update_rel; [exact Hrel|exact Hp].
  - apply update_rel; [exact Hrel|exact Hp].
  - apply update_rel; [exact Hrel|exact Hp].
  - (* endUpdateModel *)
    unfold end_update. rewrite Hst.
    destruct (a_st a) eqn:Ea; try (eexists; split; [reflexivity|exact Hrel]).
    pose proof Hrel as [_ Hr]. rewrite Ea in Hr.
    destruct Hr as (Hrd & Hpv & Hu & Hle & Hlv & Hvs & Htree). destruct Hrd as (Hm & Hne & Hvc).
    rewrite Hu, (proj1 Hm). destruct (Nat.eqb_spec (length (a_new a)) (length (a_verts a))) as [Hl|Hl];
      [|eexists; split; [reflexivity|exact Hrel]].
    rewrite Hu, Hl, <- Hlv, firstn_all in Hvs.
    assert (Hne' : a_new a <> []) by (intros H; rewrite H in Hl; destruct (a_verts a); [congruence|discriminate]).
    assert (Hcnt : prim_count (a_new a) (a_tris a) = prim_count (a_verts a) (a_tris a))
      by (unfold prim_count; destruct (a_tris a); congruence).
    set (g := fun i => prim_points (a_verts a) (a_tris a) i ++ prim_points (a_new a) (a_tris a) i).
    assert (Hres : exists m', (if rf then do_refit bu m else obind (do_build m) (do_refit bu)) = Some m' /\
        m_verts m' = m_verts m /\ m_vcap m' = m_vcap m /\ m_nv m' = m_nv m /\
        m_prev m' = m_prev m /\ m_tris m' = m_tris m /\ m_nt m' = m_nt m /\
        tree_ok (encl inb g) (prim_count (a_verts a) (a_tris a)) m').
    { destruct rf.
      - destruct (do_refit_ok bu m a (a_new a) (a_verts a) _ g Hm Hne Hl Hvs
                    (or_intror (conj eq_refl (conj Hpv eq_refl))) Htree)
          as (m' & E' & B1 & B2 & B3 & B4 & B5 & B6 & B7 & B8 & B9 & B10 & B11).
        exists m'. repeat (split; [assumption|]). exact B11.
      - destruct (do_build_ok m a (a_new a) Hm Hne Hl Hvs (proj1 Htree) (proj1 (proj2 Htree)))
          as (m' & E' & B1 & B2 & B3 & B4 & B5 & B6 & B7 & B8 & B9 & B10).
        rewrite E'. cbn [obind].
        assert (Hm' : mesh_ok m' a).
        { unfold mesh_ok. rewrite B4, B6, B8. exact Hm. }
        destruct (do_refit_ok bu m' a (a_new a) (a_verts a) _ g Hm' Hne Hl ltac:(congruence)
                    (or_intror (conj eq_refl (conj (eq_trans B5 Hpv) eq_refl))) B10)
          as (m2 & E2 & D1 & D2 & D3 & D4 & D5 & D6 & D7 & D8 & D9 & D10 & D11).
        exists m2. split; [exact E2|]. repeat (split; [congruence|]). exact D11. }
    destruct Hres as (m' & E' & B2 & B3 & B4 & B5 & B6 & B8 & B10).
    rewrite E'. cbn [obind]. eexists. split; [reflexivity|]. cbn [snd].
    unfold rel. cbn [a_st a_verts a_tris a_old]. split; [reflexivity|].
    split; [|split; [|split; [|split]]].
    + unfold ready, mesh_ok, set_st. cbn [m_nv m_nt m_tris m_vcap a_verts a_tris].
      rewrite B3, B4, B6, B8, Hl. destruct Hm as (M1 & M2 & M3 & M4). repeat split; assumption.
    + unfold set_st. cbn [m_prev]. rewrite B5. exact Hpv.
    + symmetry. exact Hl.
    + unfold set_st. cbn [m_verts]. rewrite B2. exact Hvs.
    + rewrite Hcnt. eapply tree_ok_weak; [|exact B10].
      intros bv q _ H. split; intros x Hx; apply H; unfold g; apply in_or_app; auto.
Qed.

Lemma run_rel : forall os m a, a_wf a -> rel m a -> proper_history os a ->
  exists m', brun os m = Some (fst (arun os a), m') /\ rel m' (snd (arun os a)).
Proof using fit_encl plus_l plus_r.
  induction os as [|o os IH]; intros m a Hwf Hrel Hp.
  - exists m. split; [reflexivity|exact Hrel].
  - destruct Hp as [Hp Hps]. cbn [brun arun].
    destruct (step_rel o m a Hwf Hrel Hp) as (m1 & E1 & Hrel1).
    pose proof (a_wf_step o a Hwf) as Hwf1.
    destruct (astep o a) as [c a1] eqn:Ea. cbn [fst snd] in *.
    rewrite E1. destruct (IH m1 a1 Hwf1 Hrel1 Hps) as (m2 & E2 & Hrel2).
    rewrite E2. destruct (arun os a1) as [cs a2]. cbn [fst snd] in *.
    exists m2. split; [reflexivity|exact Hrel2].
Qed.

Lemma rel_fresh : rel fresh spec0.
Proof using Type. repeat split. Qed.

End Model.

Arguments Bvh {V BV}. Arguments m_st {V BV}. Arguments m_verts {V BV}. Arguments m_vcap {V BV}.
Arguments m_nv {V BV}. Arguments m_prev {V BV}. Arguments m_tris {V BV}. Arguments m_tcap {V BV}.
Arguments m_nt {V BV}. Arguments m_bvs {V BV}. Arguments m_nb {V BV}. Arguments m_pcap {V BV}.
Arguments m_prims {V BV}. Arguments m_upd {V BV}.
Arguments fresh {V BV}.
Arguments OBegin {V}. Arguments OVertex {V}. Arguments OTriangle {V}. Arguments OSub {V}. Arguments OSubTris {V}.
Arguments OEnd {V}. Arguments OBeginReplace {V}. Arguments OReplaceVertex {V}. Arguments OReplaceTriangle {V}.
Arguments OReplaceSub {V}. Arguments OEndReplace {V}. Arguments OBeginUpdate {V}. Arguments OUpdateVertex {V}.
Arguments OUpdateTriangle {V}. Arguments OUpdateSub {V}. Arguments OEndUpdate {V}.
Arguments Spec {V}. Arguments a_st {V}. Arguments a_verts {V}. Arguments a_tris {V}. Arguments a_old {V}. Arguments a_new {V}.
Arguments spec0 {V}. Arguments astep {V}. Arguments arun {V}. Arguments proper {V}. Arguments proper_history {V}.
Arguments bstep {V BV}. Arguments brun {V BV}. Arguments prim_points {V}. Arguments prim_count {V}.
Arguments tree_ok {V BV}. Arguments rel {V BV}.
