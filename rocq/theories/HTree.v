(** HierarchyTree<AABB>: the dynamic bounding volume tree
    (include/fcl/broadphase/detail/hierarchy_tree-inl.h).

    The tree is modelled functionally: the shape, boxes, node identities of the leaves and
    their data.  Parent pointers are implicit (a child's parent is the node above it) and the
    one-node free list (createNode/deleteNode, 990-1020) is not modelled.  Interior nodes have
    no identity; [sort] (773-797), which exchanges the memory positions of an interior node
    and its parent together with their boxes, is then the identity on trees. *)
From Coq Require Import ZArith List Bool Lia Permutation Arith.
From Verif Require Import AabbZ Broadphase.
Import ListNotations.
Local Open Scope Z_scope.

(** NodeBase<AABB> (node_base.h): a leaf has an address [id], a box and the user data. *)
Inductive tree :=
| Leaf (id : nat) (bv : aabb) (data : obj)
| Node (bv : aabb) (l r : tree).

Definition bvof (t : tree) : aabb := match t with Leaf _ b _ => b | Node b _ _ => b end.
Definition is_leaf (t : tree) : bool := match t with Leaf _ _ _ => true | _ => false end.

(** The leaves, left to right: fetchLeaves with depth -1 (929-942), extractLeaves (301-311). *)
Fixpoint leaves (t : tree) : list (nat * aabb * obj) :=
  match t with
  | Leaf i b d => [(i, b, d)]
  | Node _ l r => leaves l ++ leaves r
  end.
Definition leaf_id (x : nat * aabb * obj) : nat := fst (fst x).
Definition leaf_bv (x : nat * aabb * obj) : aabb := snd (fst x).
Definition leaf_data (x : nat * aabb * obj) : obj := snd x.
Definition mk_leaf (x : nat * aabb * obj) : tree := Leaf (leaf_id x) (leaf_bv x) (leaf_data x).

(** What the C++ standard or rounding leaves open. *)
Record env := {
  (** AABB::equal, approximate comparison (AABB-inl.h:319-323): any predicate. *)
  e_equal : aabb -> aabb -> bool;
  (** std::nth_element by centre along an axis: any rearrangement (axis, n, range). *)
  e_nth : nat -> nat -> list tree -> list tree;
  (** Morton code of the centre of a box within a bounding box. *)
  e_code : aabb -> aabb -> N;
  (** std::sort by code. *)
  e_sort : (tree -> N) -> list tree -> list tree;
  (** numeric_limits<S>::max() *)
  e_max : Z;
  (** bu_threshold and topdown_level (hierarchy_tree.h:262-265) *)
  e_bu : Z;
  e_level : Z;
  (** max_lookahead_level (always -1 in the code) *)
  e_look : Z
}.
Definition env_ok (e : env) : Prop :=
  (forall a n l, Permutation (e_nth e a n l) l) /\
  (forall f l, Permutation (e_sort e f l) l).

(** select(node, node1, node2) and select(bv, node1, node2) (1086-1131):
    0 when the first box is closer; [true] stands for index 1. *)
Definition manhattan (a b : aabb) : Z :=
  Z.abs (vx (bmin a) + vx (bmax a) - (vx (bmin b) + vx (bmax b))) +
  Z.abs (vy (bmin a) + vy (bmax a) - (vy (bmin b) + vy (bmax b))) +
  Z.abs (vz (bmin a) + vz (bmax a) - (vz (bmin b) + vz (bmax b))).
Definition select (q : aabb) (t1 t2 : tree) : bool :=
  negb (manhattan q (bvof t1) <? manhattan q (bvof t2)).

(** insertLeaf (801-870).  [guide] is the path from the root to [sub_root]; below it the
    sibling is chosen by [select].  The boolean says whether the climbing loop (843-852)
    is still running when it reaches the parent. *)
Fixpoint insert_rec (leaf : tree) (guide : list bool) (t : tree) : tree * bool :=
  match t with
  | Leaf _ _ _ => (Node (merge (bvof leaf) (bvof t)) t leaf, true)
  | Node bv l r =>
      let '(dir, g) := match guide with
                       | d :: g => (d, g)
                       | [] => (select (bvof leaf) l r, [])
                       end in
      if dir then
        let (r', c) := insert_rec leaf g r in
        if c then
          if contain bv (bvof r') then (Node bv l r', false)
          else (Node (merge (bvof l) (bvof r')) l r', true)
        else (Node bv l r', false)
      else
        let (l', c) := insert_rec leaf g l in
        if c then
          if contain bv (bvof l') then (Node bv l' r, false)
          else (Node (merge (bvof l') (bvof r)) l' r, true)
        else (Node bv l' r, false)
  end.
Definition insert_leaf (leaf : tree) (guide : list bool) (root : option tree) : tree :=
  match root with
  | None => leaf
  | Some t => fst (insert_rec leaf guide t)
  end.

(** removeLeaf (874-925).  [RGone]: the subtree was the leaf itself.  [RFound t c p]: the leaf
    was below; [c] tells whether the tightening loop (903-912) is still running; [p] is the
    path to the node the function returns. *)
Inductive rm :=
| RNone
| RGone
| RFound (t : tree) (running : bool) (path : list bool).
Definition tighten (e : env) (bv : aabb) (l r : tree) (c dir : bool) (p : list bool) : rm :=
  if c then
    let nb := merge (bvof l) (bvof r) in
    if e_equal e nb bv then RFound (Node bv l r) false []
    else RFound (Node nb l r) true []
  else RFound (Node bv l r) false (dir :: p).
Fixpoint remove_rec (e : env) (id : nat) (t : tree) : rm :=
  match t with
  | Leaf i _ _ => if Nat.eqb i id then RGone else RNone
  | Node bv l r =>
      match remove_rec e id l with
      | RGone => RFound r true []
      | RFound l' c p => tighten e bv l' r c false p
      | RNone =>
          match remove_rec e id r with
          | RGone => RFound l true []
          | RFound r' c p => tighten e bv l r' c true p
          | RNone => RNone
          end
      end
  end.
(** The new root and the path to the returned node; [None] when the leaf is not in the tree
    (a dangling pointer in C++). *)
Definition remove_leaf (e : env) (id : nat) (root : option tree) : option (option tree * list bool) :=
  match root with
  | None => None
  | Some t =>
      match remove_rec e id t with
      | RNone => None
      | RGone => Some (None, [])
      | RFound t' _ p => Some (Some t', p)
      end
  end.

(** Moving [n] parents up from the node at path [p] (146-147, 763-766). *)
Definition climb (n : nat) (p : list bool) : list bool := firstn (length p - n) p.

(** The leaf node with a given address. *)
Fixpoint find_leaf (id : nat) (t : tree) : option (aabb * obj) :=
  match t with
  | Leaf i b d => if Nat.eqb i id then Some (b, d) else None
  | Node _ l r => match find_leaf id l with Some x => Some x | None => find_leaf id r end
  end.

(** update(leaf, lookahead_level) (129-160). *)
Definition update_look (e : env) (id : nat) (look : Z) (root : option tree) : option (option tree) :=
  match root with
  | None => None
  | Some t =>
      match find_leaf id t, remove_leaf e id root with
      | Some (b, d), Some (root', p) =>
          let p' := if 0 <? look then climb (Z.to_nat look) p else [] in
          Some (Some (insert_leaf (Leaf id b d) p' root'))
      | _, _ => None
      end
  end.

(** update_(leaf, bv) (756-772). *)
Definition update_bv (e : env) (id : nat) (bv : aabb) (root : option tree) : option (option tree) :=
  match root with
  | None => None
  | Some t =>
      match find_leaf id t, remove_leaf e id root with
      | Some (_, d), Some (root', p) =>
          let p' := if 0 <=? e_look e then climb (Z.to_nat (e_look e)) p else [] in
          Some (Some (insert_leaf (Leaf id bv d) p' root'))
      | _, _ => None
      end
  end.
(** update(leaf, bv) (164-169): nothing if the stored box contains the new one. *)
Definition update_contain (e : env) (id : nat) (bv : aabb) (root : option tree)
  : option (option tree) :=
  match root with
  | None => None
  | Some t =>
      match find_leaf id t with
      | Some (b, _) => if contain b bv then Some root else update_bv e id bv root
      | None => None
      end
  end.

(** bottomup (344-381): repeatedly join the two nodes whose common box is smallest. *)
Fixpoint best_in (x : tree) (i : nat) (l : list tree) (j : nat) (best : option (nat * nat) * Z)
  : option (nat * nat) * Z :=
  match l with
  | [] => best
  | y :: l' =>
      let s := bsize (merge (bvof x) (bvof y)) in
      best_in x i l' (S j) (if s <? snd best then (Some (i, j), s) else best)
  end.
Fixpoint best_pair (l : list tree) (i : nat) (best : option (nat * nat) * Z) : option (nat * nat) * Z :=
  match l with
  | [] => best
  | x :: l' => best_pair l' (S i) (best_in x i l' (S i) best)
  end.
Fixpoint set_nth {A} (n : nat) (x : A) (l : list A) : list A :=
  match l, n with
  | [], _ => []
  | _ :: l', 0%nat => x :: l'
  | y :: l', S n' => y :: set_nth n' x l'
  end.
(** One iteration; [None] is the use of the uninitialised iterators when no pair has a
    finite size. *)
Definition bottomup_step (e : env) (l : list tree) : option (list tree) :=
  match fst (best_pair l 0 (None, e_max e)) with
  | None => None
  | Some (i, j) =>
      match nth_error l i, nth_error l j, nth_error l (length l - 1) with
      | Some ni, Some nj, Some last =>
          let p := Node (merge (bvof ni) (bvof nj)) ni nj in
          Some (firstn (length l - 1) (set_nth j last (set_nth i p l)))
      | _, _, _ => None
      end
  end.
Fixpoint bottomup (e : env) (fuel : nat) (l : list tree) : option (list tree) :=
  match fuel with
  | O => None
  | S f =>
      if (1 <? Z.of_nat (length l)) then
        match bottomup_step e l with Some l' => bottomup e f l' | None => None end
      else Some l
  end.
(** bottomup followed by reading the first element. *)
Definition bottomup_root (e : env) (l : list tree) : option tree :=
  match bottomup e (S (length l)) l with Some (t :: _) => Some t | _ => None end.

(** The box of a range: vol in topdown_0/1 (431-433, 469-478). *)
Definition vol_of (l : list tree) : aabb :=
  match l with
  | [] => Box (V 0 0 0) (V 0 0 0)
  | t :: l' => fold_left (fun v x => merge v (bvof x)) l' (bvof t)
  end.
Definition bwidth (b : aabb) := vx (bmax b) - vx (bmin b).
Definition bheight (b : aabb) := vy (bmax b) - vy (bmin b).
Definition bdepth (b : aabb) := vz (bmax b) - vz (bmin b).
Definition best_axis0 (v : aabb) : nat :=
  let a := if bwidth v <? bheight v then 1%nat else 0%nat in
  let ext := if bwidth v <? bheight v then bheight v else bwidth v in
  if ext <? bdepth v then 2%nat else a.

(** topdown_0 (423-455).  [None] on an empty range (reads past the range) or out of fuel. *)
Fixpoint topdown0 (e : env) (fuel : nat) (l : list tree) : option tree :=
  match fuel with
  | O => None
  | S f =>
      match l with
      | [] => None
      | [t] => Some t
      | _ =>
          if (e_bu e <? Z.of_nat (length l)) then
            let v := vol_of l in
            let h := (length l / 2)%nat in
            let l' := e_nth e (best_axis0 v) h l in
            match topdown0 e f (firstn h l'), topdown0 e f (skipn h l') with
            | Some c0, Some c1 => Some (Node v c0 c1)
            | _, _ => None
            end
          else bottomup_root e l
      end
  end.

(** Twice the centre of a box along an axis. *)
Definition cen2 (a : nat) (t : tree) : Z := coord a (bmin (bvof t)) + coord a (bmax (bvof t)).
Definition zsum (l : list Z) : Z := fold_right Z.add 0 l.
(** How many leaves have centre at most / above the mean along an axis (482-487); compared
    after multiplying by 2 * num_leaves. *)
Definition count_above (a : nat) (l : list tree) : Z :=
  Z.of_nat (length (filter (fun t => zsum (map (cen2 a) l) <? Z.of_nat (length l) * cen2 a t) l)).
Definition count_below (a : nat) (l : list tree) : Z :=
  Z.of_nat (length (filter (fun t => negb (zsum (map (cen2 a) l) <? Z.of_nat (length l) * cen2 a t)) l)).
Definition axis_step (l : list tree) (best : Z * Z) (a : nat) : Z * Z :=
  let c0 := count_below a l in let c1 := count_above a l in
  if (0 <? c0) && (0 <? c1) then
    let midp := Z.abs (c0 - c1) in
    if midp <? snd best then (Z.of_nat a, midp) else best
  else best.
(** The chosen axis (489-502). *)
Definition best_axis1 (l : list tree) : nat :=
  let b := fst (fold_left (axis_step l) [0%nat; 1%nat; 2%nat] (-1, Z.of_nat (length l))) in
  if b <? 0 then 0%nat else Z.to_nat b.
(** The in-place partition (504-515), as the two resulting parts; their order inside the
    vector is immaterial to the recursion except through ties, which the partition keeps. *)
Definition part_lt (a : nat) (l : list tree) : list tree :=
  filter (fun t => Z.of_nat (length l) * cen2 a t <? zsum (map (cen2 a) l)) l.
Definition part_ge (a : nat) (l : list tree) : list tree :=
  filter (fun t => negb (Z.of_nat (length l) * cen2 a t <? zsum (map (cen2 a) l))) l.
(** topdown_1 (459-527), exact arithmetic for the mean.  The order of the second part differs
    from the C++ swap order; nothing proved depends on it.  When the first part is empty the
    recursive call on it reads the element at its start, which is the first of the second
    part; when the second part is empty the read is past the range ([None]). *)
Fixpoint topdown1 (e : env) (fuel : nat) (l : list tree) : option tree :=
  match fuel with
  | O => None
  | S f =>
      match l with
      | [] => None
      | [t] => Some t
      | _ =>
          if (e_bu e <? Z.of_nat (length l)) then
            let v := vol_of l in
            let a := best_axis1 l in
            match (match part_lt a l with [] => hd_error (part_ge a l) | l0 => topdown1 e f l0 end),
                  topdown1 e f (part_ge a l) with
            | Some c0, Some c1 => Some (Node v c0 c1)
            | _, _ => None
            end
          else bottomup_root e l
      end
  end.
(** topdown (385-399). *)
Definition topdown (e : env) (l : list tree) : option tree :=
  if e_level e =? 1 then topdown1 e (S (length l)) l else topdown0 e (S (length l)) l.

(** recurseRefit (1046-1057). *)
Fixpoint refit (t : tree) : tree :=
  match t with
  | Leaf _ _ _ => t
  | Node _ l r => let l' := refit l in let r' := refit r in Node (merge (bvof l') (bvof r')) l' r'
  end.

(** A node created without a box (mortonRecurse); [refit] sets it. *)
Definition raw_node (l r : tree) : tree := Node (bvof l) l r.
(** std::lower_bound on a range sorted by code: the first position not below [split]. *)
Fixpoint lower_bound (code : tree -> N) (split : N) (l : list tree) : nat :=
  match l with
  | [] => 0
  | t :: l' => if (code t <? split)%N then S (lower_bound code split l') else 0%nat
  end.
(** (split & ~(1 << bits)) | (1 << (bits-1)) and split | (1 << (bits-1)); [b] is bits-1. *)
Definition split_lo (split : N) (b : nat) : N :=
  N.lor (N.ldiff split (N.shiftl 1 (N.of_nat (S b)))) (N.shiftl 1 (N.of_nat b)).
Definition split_hi (split : N) (b : nat) : N := N.lor split (N.shiftl 1 (N.of_nat b)).
(** mortonRecurse_0 (613-657): at zero bits it falls back to topdown. *)
Fixpoint morton0 (e : env) (code : tree -> N) (bits : nat) (split : N) (l : list tree) : option tree :=
  match l with
  | [] => None
  | [t] => Some t
  | _ =>
      match bits with
      | O => topdown e l
      | S b =>
          let c := lower_bound code split l in
          if Nat.eqb c 0 then morton0 e code b (split_hi split b) l
          else if Nat.eqb c (length l) then morton0 e code b (split_lo split b) l
          else match morton0 e code b (split_lo split b) (firstn c l),
                     morton0 e code b (split_hi split b) (skipn c l) with
               | Some c1, Some c2 => Some (raw_node c1 c2)
               | _, _ => None
               end
      end
  end.
(** mortonRecurse_2 (711-732): halve the range. *)
Fixpoint morton2 (fuel : nat) (l : list tree) : option tree :=
  match fuel with
  | O => None
  | S f =>
      match l with
      | [] => None
      | [t] => Some t
      | _ =>
          let h := (length l / 2)%nat in
          match morton2 f (firstn h l), morton2 f (skipn h l) with
          | Some c1, Some c2 => Some (raw_node c1 c2)
          | _, _ => None
          end
      end
  end.
(** mortonRecurse_1 (661-707): as mortonRecurse_0, but halving at zero bits (and below, as
    negative bits stay non-positive). *)
Fixpoint morton1 (code : tree -> N) (bits : nat) (split : N) (l : list tree) : option tree :=
  match l with
  | [] => None
  | [t] => Some t
  | _ =>
      match bits with
      | O => morton2 (S (length l)) l
      | S b =>
          let c := lower_bound code split l in
          if Nat.eqb c 0 then morton1 code b (split_hi split b) l
          else if Nat.eqb c (length l) then morton1 code b (split_lo split b) l
          else match morton1 code b (split_lo split b) (firstn c l),
                     morton1 code b (split_hi split b) (skipn c l) with
               | Some c1, Some c2 => Some (raw_node c1 c2)
               | _, _ => None
               end
      end
  end.
(** init (68-88), init_0..init_3 (531-609); morton_functor<S, uint32>::bits() is 30. *)
Definition init_tree (e : env) (level : Z) (ls : list (nat * aabb * obj)) : option tree :=
  let l := map mk_leaf ls in
  let code t := e_code e (vol_of l) (bvof t) in
  let s := e_sort e code l in
  if level =? 1 then option_map refit (morton0 e code 29 (N.shiftl 1 29) s)
  else if level =? 2 then option_map refit (morton1 code 29 (N.shiftl 1 29) s)
  else if level =? 3 then option_map refit (morton2 (S (length s)) s)
  else topdown e l.

(** balanceBottomup, balanceTopdown (223-248). *)
Definition balance_bottomup (e : env) (root : option tree) : option (option tree) :=
  match root with
  | None => Some None
  | Some t => option_map Some (bottomup_root e (map mk_leaf (leaves t)))
  end.
Definition balance_topdown (e : env) (root : option tree) : option (option tree) :=
  match root with
  | None => Some None
  | Some t => option_map Some (topdown e (map mk_leaf (leaves t)))
  end.

(** The leaf reached by following the bits of opath (261-265); bit counts modulo 32. *)
Fixpoint path_leaf (opath : N) (bit : N) (t : tree) : nat :=
  match t with
  | Leaf i _ _ => i
  | Node _ l r =>
      path_leaf opath (N.land (bit + 1) 31) (if N.testbit opath bit then r else l)
  end.
(** The loop of balanceIncremental (257-269), [n] iterations; opath is a 32-bit counter. *)
Fixpoint balance_inc (e : env) (n : nat) (opath : N) (root : option tree)
  : option (option tree * N) :=
  match n with
  | O => Some (root, opath)
  | S n' =>
      match root with
      | None => Some (root, opath)
      | Some t =>
          match update_look e (path_leaf opath 0 t) (-1) root with
          | Some root' => balance_inc e n' ((opath + 1) mod 2 ^ 32)%N root'
          | None => None
          end
      end
  end.

(** getMaxHeight (403-414). *)
Fixpoint height (t : tree) : nat :=
  match t with Leaf _ _ _ => 0 | Node _ l r => S (Nat.max (height l) (height r)) end.

(** Overwriting the box of a leaf in place (node->bv = ..., as the managers do). *)
Fixpoint set_bv (id : nat) (b : aabb) (t : tree) : tree :=
  match t with
  | Leaf i b0 d => if Nat.eqb i id then Leaf i b d else t
  | Node bv l r => Node bv (set_bv id b l) (set_bv id b r)
  end.

(** ** Specification: the hierarchy invariant *)

(** Every interior box contains its children's boxes. *)
Fixpoint wf (t : tree) : Prop :=
  match t with
  | Leaf _ _ _ => True
  | Node b l r => contain b (bvof l) = true /\ contain b (bvof r) = true /\ wf l /\ wf r
  end.
(** All boxes below a node, leaves and interior nodes alike. *)
Fixpoint boxes_below (t : tree) : list aabb :=
  match t with
  | Leaf _ b _ => [b]
  | Node b l r => b :: boxes_below l ++ boxes_below r
  end.
(** A subtree. *)
Inductive subtree : tree -> tree -> Prop :=
| sub_refl t : subtree t t
| sub_l s b l r : subtree s l -> subtree s (Node b l r)
| sub_r s b l r : subtree s r -> subtree s (Node b l r).
(** The property users rely on: each node's box contains every box anywhere below it. *)
Definition encloses (t : tree) : Prop :=
  forall s b, subtree s t -> In b (boxes_below s) -> contain (bvof s) b = true.

Lemma wf_below t : wf t -> forall b, In b (boxes_below t) -> contain (bvof t) b = true.
Proof.
  induction t as [i b0 d|b0 l IHl r IHr]; cbn [boxes_below wf]; intros H b Hb.
  - destruct Hb as [<-|[]]. apply contain_refl.
  - destruct H as (H1 & H2 & H3 & H4). destruct Hb as [<-|Hb]; [apply contain_refl|].
    apply in_app_iff in Hb as [Hb|Hb].
    + eapply contain_trans; [exact H1|]. auto.
    + eapply contain_trans; [exact H2|]. auto.
Qed.

Lemma wf_sub s t : subtree s t -> wf t -> wf s.
Proof. induction 1; cbn; intuition. Qed.

Lemma wf_encloses t : wf t -> encloses t.
Proof. intros H s b Hs Hb. apply wf_below; auto. eapply wf_sub; eauto. Qed.

Lemma bvof_below t : In (bvof t) (boxes_below t).
Proof. destruct t; cbn; auto. Qed.

Lemma encloses_wf t : encloses t -> wf t.
Proof.
  induction t as [i b0 d|b0 l IHl r IHr]; cbn [wf]; auto. intros H.
  repeat split.
  - apply (H (Node b0 l r)); [constructor|]. cbn; right. apply in_app_iff; left. apply bvof_below.
  - apply (H (Node b0 l r)); [constructor|]. cbn; right. apply in_app_iff; right. apply bvof_below.
  - apply IHl. intros s b Hs. apply H. apply sub_l; auto.
  - apply IHr. intros s b Hs. apply H. apply sub_r; auto.
Qed.

Lemma leaf_below t x : In x (leaves t) -> In (leaf_bv x) (boxes_below t).
Proof.
  induction t as [i b0 d|b0 l IHl r IHr]; cbn [boxes_below leaves]; intros H.
  - destruct H as [<-|[]]. cbn; auto.
  - right. rewrite in_app_iff in *. intuition.
Qed.

Lemma wf_leaf t x : wf t -> In x (leaves t) -> contain (bvof t) (leaf_bv x) = true.
Proof. intros H Hx. apply wf_below; auto. apply leaf_below; auto. Qed.

Lemma leaves_nonempty t : leaves t <> [].
Proof. induction t; cbn; [discriminate|]. destruct (leaves t1); [congruence|discriminate]. Qed.

(** ** insertLeaf *)

Lemma insert_rec_leaves leaf x g t : leaves leaf = [x] ->
  Permutation (leaves (fst (insert_rec leaf g t))) (x :: leaves t).
Proof.
  intros Hx. revert g; induction t as [i b d|b l IHl r IHr]; intros g; cbn [insert_rec].
  - cbn. rewrite Hx. apply perm_swap.
  - destruct (match g with [] => _ | _ => _ end) as [dir g'].
    destruct dir.
    + specialize (IHr g'). destruct (insert_rec leaf g' r) as [r' c]. cbn [fst] in IHr.
      assert (Permutation (leaves l ++ leaves r') (x :: leaves l ++ leaves r)).
      { rewrite IHr. symmetry. apply Permutation_middle. }
      destruct c; [destruct (contain b (bvof r'))|]; cbn; auto.
    + specialize (IHl g'). destruct (insert_rec leaf g' l) as [l' c]. cbn [fst] in IHl.
      assert (Permutation (leaves l' ++ leaves r) (x :: leaves l ++ leaves r)).
      { rewrite IHl. reflexivity. }
      destruct c; [destruct (contain b (bvof l'))|]; cbn; auto.
Qed.

Lemma insert_rec_wf leaf g t : is_leaf leaf = true -> wf t ->
  let '(t', c) := insert_rec leaf g t in
  wf t' /\ (c = false -> bvof t' = bvof t).
Proof.
  intros Hl. assert (Hwl : wf leaf) by (destruct leaf; cbn in *; auto; discriminate).
  revert g; induction t as [i b d|b l IHl r IHr]; intros g Hw; cbn [insert_rec].
  - split; [|discriminate]. cbn. rewrite merge_contains_r, merge_contains_l. cbn; auto.
  - destruct Hw as (H1 & H2 & H3 & H4).
    destruct (match g with [] => _ | _ => _ end) as [dir g']. destruct dir.
    + specialize (IHr g' H4). destruct (insert_rec leaf g' r) as [r' c].
      destruct IHr as (Wr & Er).
      destruct c; [destruct (contain b (bvof r')) eqn:Ec|]; cbn.
      * rewrite H1, Ec; auto 10.
      * rewrite merge_contains_l, merge_contains_r. split; [auto 10|discriminate].
      * rewrite Er by auto. auto 10.
    + specialize (IHl g' H3). destruct (insert_rec leaf g' l) as [l' c].
      destruct IHl as (Wr & Er).
      destruct c; [destruct (contain b (bvof l')) eqn:Ec|]; cbn.
      * rewrite H2, Ec; auto 10.
      * rewrite merge_contains_l, merge_contains_r. split; [auto 10|discriminate].
      * rewrite Er by auto. auto 10.
Qed.

Definition oleaves (r : option tree) : list (nat * aabb * obj) :=
  match r with None => [] | Some t => leaves t end.
Definition owf (r : option tree) : Prop := match r with None => True | Some t => wf t end.

Lemma insert_leaf_ok i b d g root : owf root ->
  wf (insert_leaf (Leaf i b d) g root) /\
  Permutation (leaves (insert_leaf (Leaf i b d) g root)) ((i, b, d) :: oleaves root).
Proof.
  destruct root as [t|]; cbn [insert_leaf owf oleaves]; intros H.
  - pose proof (insert_rec_wf (Leaf i b d) g t eq_refl H) as Hw.
    pose proof (insert_rec_leaves (Leaf i b d) (i, b, d) g t eq_refl) as Hp.
    destruct (insert_rec (Leaf i b d) g t); cbn in *; tauto.
  - split; cbn; auto.
Qed.

(** ** removeLeaf *)

Definition ids (t : tree) : list nat := map leaf_id (leaves t).
Definition oids (r : option tree) : list nat := map leaf_id (oleaves r).

Lemma merge_sub b l r : contain b l = true -> contain b r = true -> contain b (merge l r) = true.
Proof. apply merge_least. Qed.

Lemma remove_rec_ok e id t : wf t ->
  match remove_rec e id t with
  | RNone => ~ In id (ids t)
  | RGone => exists b d, t = Leaf id b d
  | RFound t' c p =>
      wf t' /\ contain (bvof t) (bvof t') = true /\
      (c = false -> bvof t' = bvof t) /\
      exists x, leaf_id x = id /\ find_leaf id t = Some (leaf_bv x, leaf_data x) /\
                Permutation (leaves t) (x :: leaves t')
  end.
Proof.
  induction t as [i b d|b l IHl r IHr]; intros Hw; cbn [remove_rec].
  - destruct (Nat.eqb_spec i id) as [->|Hne]; [eauto|]. cbn. intuition.
  - destruct Hw as (H1 & H2 & H3 & H4). specialize (IHl H3). specialize (IHr H4).
    cbn [find_leaf].
    destruct (remove_rec e id l) as [| |l' c p] eqn:El.
    + (* not in l *)
      assert (Hnf : find_leaf id l = None).
      { clear -IHl. induction l as [i b d|b l Hl r Hr]; cbn in *.
        - destruct (Nat.eqb_spec i id); auto. subst; tauto.
        - unfold ids in *; cbn in *. rewrite map_app, in_app_iff in IHl.
          rewrite Hl by tauto. rewrite Hr by tauto. reflexivity. }
      rewrite Hnf.
      destruct (remove_rec e id r) as [| |r' c p] eqn:Er.
      * unfold ids in *; cbn. rewrite map_app, in_app_iff. tauto.
      * destruct IHr as (b' & d' & ->). split; [auto|]. split; [exact H1|].
        split; [discriminate|]. exists (id, b', d'). split; auto.
        cbn. rewrite Nat.eqb_refl. split; auto. apply Permutation_app_comm.
      * destruct IHr as (W & S & Eq & x & Hid & Hf & Hp).
        assert (P : Permutation (leaves l ++ leaves r) (x :: leaves l ++ leaves r')).
        { rewrite Hp. symmetry. apply Permutation_middle. }
        assert (C : contain b (bvof r') = true) by (apply (contain_trans b (bvof r)); auto).
        unfold tighten. destruct c; [destruct (e_equal e _ _)|].
        -- cbn. rewrite contain_refl. repeat split; auto. exists x; auto.
        -- cbn. rewrite merge_contains_l, merge_contains_r, merge_sub by auto.
           repeat split; auto; try discriminate. exists x; auto.
        -- cbn. rewrite contain_refl. repeat split; auto. exists x; auto.
    + destruct IHl as (b' & d' & ->). split; [auto|]. split; [exact H2|].
      split; [discriminate|]. exists (id, b', d'). split; auto.
      cbn. rewrite Nat.eqb_refl. split; auto.
    + destruct IHl as (W & S & Eq & x & Hid & Hf & Hp). rewrite Hf.
      assert (P : Permutation (leaves l ++ leaves r) (x :: leaves l' ++ leaves r)).
      { rewrite Hp. reflexivity. }
      assert (C : contain b (bvof l') = true) by (apply (contain_trans b (bvof l)); auto).
      unfold tighten. destruct c; [destruct (e_equal e _ _)|].
      * cbn. rewrite contain_refl. repeat split; auto. exists x; auto.
      * cbn. rewrite merge_contains_l, merge_contains_r, merge_sub by auto.
        repeat split; auto; try discriminate. exists x; auto.
      * cbn. rewrite contain_refl. repeat split; auto. exists x; auto.
Qed.

Lemma find_leaf_in id t b d : find_leaf id t = Some (b, d) -> In (id, b, d) (leaves t).
Proof.
  induction t as [i b0 d0|b0 l IHl r IHr]; cbn.
  - destruct (Nat.eqb_spec i id) as [->|]; [|discriminate]. intros [= -> ->]; auto.
  - rewrite in_app_iff. destruct (find_leaf id l) as [[b1 d1]|]; [|auto].
    intros [= -> ->]; auto.
Qed.

Lemma find_leaf_some id t : In id (ids t) -> exists b d, find_leaf id t = Some (b, d).
Proof.
  unfold ids. induction t as [i b0 d0|b0 l IHl r IHr]; cbn.
  - intros [->|[]]. rewrite Nat.eqb_refl; eauto.
  - rewrite map_app, in_app_iff. intros [H|H].
    + destruct (IHl H) as (b & d & ->); eauto.
    + destruct (find_leaf id l) as [[? ?]|]; eauto.
Qed.

(** Removing a leaf that is in the tree. *)
Lemma remove_leaf_ok e id t : wf t -> In id (ids t) ->
  exists root' p b d,
    remove_leaf e id (Some t) = Some (root', p) /\
    find_leaf id t = Some (b, d) /\
    owf root' /\ Permutation (leaves t) ((id, b, d) :: oleaves root').
Proof.
  intros Hw Hin. cbn [remove_leaf]. pose proof (remove_rec_ok e id t Hw) as H.
  destruct (remove_rec e id t) as [| |t' c p].
  - tauto.
  - destruct H as (b & d & ->). exists None, [], b, d. cbn. rewrite Nat.eqb_refl. auto.
  - destruct H as (W & _ & _ & [[i b] d] & Hid & Hf & Hp). cbn in Hid, Hf; subst i.
    exists (Some t'), p, b, d. auto.
Qed.

Lemma remove_leaf_none e id root : owf root -> ~ In id (oids root) -> remove_leaf e id root = None.
Proof.
  destruct root as [t|]; [|reflexivity]. cbn [owf]. intros Hw Hn. unfold remove_leaf.
  pose proof (remove_rec_ok e id t Hw) as H. destruct (remove_rec e id t) as [| |t' c p]; auto.
  - destruct H as (b & d & ->). cbn in Hn. tauto.
  - destruct H as (_ & _ & _ & x & Hid & _ & Hp). exfalso. apply Hn.
    unfold oids; cbn. apply in_map_iff. exists x. split; auto.
    rewrite Hp. left; auto.
Qed.

(** ** update *)

Lemma update_look_ok e id look t : wf t -> In id (ids t) ->
  exists t', update_look e id look (Some t) = Some (Some t') /\ wf t' /\
             Permutation (leaves t') (leaves t).
Proof.
  intros Hw Hin. destruct (remove_leaf_ok e id t Hw Hin) as (root' & p & b & d & Hr & Hf & Ho & Hp).
  unfold update_look. rewrite Hf, Hr.
  set (g := if 0 <? look then _ else _).
  destruct (insert_leaf_ok id b d g root' Ho) as (W & P).
  eexists; repeat split; eauto. rewrite P. symmetry; auto.
Qed.

Lemma update_bv_ok e id bv t : wf t -> In id (ids t) ->
  exists t' b d rest, update_bv e id bv (Some t) = Some (Some t') /\ wf t' /\
    Permutation (leaves t) ((id, b, d) :: rest) /\
    Permutation (leaves t') ((id, bv, d) :: rest).
Proof.
  intros Hw Hin. destruct (remove_leaf_ok e id t Hw Hin) as (root' & p & b & d & Hr & Hf & Ho & Hp).
  unfold update_bv. rewrite Hf, Hr.
  set (g := if 0 <=? e_look e then _ else _).
  destruct (insert_leaf_ok id bv d g root' Ho) as (W & P).
  exists (insert_leaf (Leaf id bv d) g root'), b, d, (oleaves root'). auto.
Qed.

(** ** refit and set_bv *)

Lemma refit_leaves t : leaves (refit t) = leaves t.
Proof. induction t; cbn; auto. rewrite IHt1, IHt2; auto. Qed.
Lemma refit_wf t : wf (refit t).
Proof.
  induction t as [|b l IHl r IHr]; cbn; auto.
  rewrite merge_contains_l, merge_contains_r; auto.
Qed.
Lemma set_bv_leaves id b t :
  leaves (set_bv id b t) =
  map (fun x => if Nat.eqb (leaf_id x) id then (leaf_id x, b, leaf_data x) else x) (leaves t).
Proof.
  induction t as [i b0 d|b0 l IHl r IHr]; cbn.
  - destruct (Nat.eqb i id); reflexivity.
  - rewrite map_app, IHl, IHr; auto.
Qed.

(** ** Construction from a list of nodes *)

Definition all_leaves (l : list tree) : list (nat * aabb * obj) := flat_map leaves l.
Definition all_wf (l : list tree) : Prop := forall t, In t l -> wf t.
(** [t] is a correct tree over the nodes [l]: same leaves, hierarchy invariant, and a box no
    larger than any box containing the nodes. *)
Definition built (l : list tree) (t : tree) : Prop :=
  Permutation (leaves t) (all_leaves l) /\ wf t /\
  (forall b, (forall x, In x l -> contain b (bvof x) = true) -> contain b (bvof t) = true).

Lemma all_leaves_perm l l' : Permutation l l' -> Permutation (all_leaves l) (all_leaves l').
Proof.
  unfold all_leaves. induction 1; cbn; auto.
  - apply Permutation_app_head; auto.
  - rewrite !app_assoc. apply Permutation_app_tail. apply Permutation_app_comm.
  - etransitivity; eauto.
Qed.

Lemma all_leaves_app l l' : all_leaves (l ++ l') = all_leaves l ++ all_leaves l'.
Proof. unfold all_leaves. apply flat_map_app. Qed.

Lemma vol_of_contains l x : In x l -> contain (vol_of l) (bvof x) = true.
Proof.
  destruct l as [|t l]; [intros []|]. cbn [vol_of].
  assert (H : forall l v, contain (fold_left (fun v x => merge v (bvof x)) l v) v = true /\
             forall y, In y l -> contain (fold_left (fun v x => merge v (bvof x)) l v) (bvof y) = true).
  { clear. induction l as [|z l IH]; intros v; cbn.
    - split; [apply contain_refl|intros y []].
    - destruct (IH (merge v (bvof z))) as [A B]. split.
      + eapply contain_trans; [exact A|]. apply merge_contains_l.
      + intros y [<-|Hy]; [|auto]. eapply contain_trans; [exact A|]. apply merge_contains_r. }
  intros [<-|Hx]; [apply (proj1 (H l (bvof t)))|apply (proj2 (H l (bvof t))); auto].
Qed.

Lemma vol_of_least l b : l <> [] ->
  (forall x, In x l -> contain b (bvof x) = true) -> contain b (vol_of l) = true.
Proof.
  destruct l as [|t l]; [congruence|]. intros _ H. cbn [vol_of].
  assert (G : forall l v, contain b v = true -> (forall x, In x l -> contain b (bvof x) = true) ->
              contain b (fold_left (fun v x => merge v (bvof x)) l v) = true).
  { clear. induction l as [|z l IH]; intros v Hv Hl; cbn; auto.
    apply IH; [|intros; apply Hl; right; auto]. apply merge_least; auto. apply Hl; left; auto. }
  apply G; [apply H; left; auto|intros; apply H; right; auto].
Qed.

Lemma built_single t : wf t -> built [t] t.
Proof.
  intros H. split; [cbn; rewrite app_nil_r; auto|]. split; auto. intros b Hb; apply Hb; left; auto.
Qed.

Lemma built_node v l0 l1 l c0 c1 : Permutation (l0 ++ l1) l -> l <> [] ->
  built l0 c0 -> built l1 c1 ->
  (forall x, In x l -> contain v (bvof x) = true) ->
  (forall b, (forall x, In x l -> contain b (bvof x) = true) -> contain b v = true) ->
  built l (Node v c0 c1).
Proof.
  intros Hp Hne (P0 & W0 & L0) (P1 & W1 & L1) Hv Hl. split; [|split].
  - cbn. rewrite P0, P1, <- all_leaves_app. apply all_leaves_perm; auto.
  - cbn. split; [|split; [|auto]].
    + apply L0. intros x Hx. apply Hv. rewrite <- Hp. apply in_app_iff; auto.
    + apply L1. intros x Hx. apply Hv. rewrite <- Hp. apply in_app_iff; auto.
  - cbn. auto.
Qed.

Lemma all_wf_perm l l' : Permutation l l' -> all_wf l -> all_wf l'.
Proof. intros H W t Ht. apply W. rewrite H; auto. Qed.

(** bottomup *)
Lemma best_in_inv x i n l : forall j best,
  (forall p, fst best = Some p -> (fst p < snd p < n)%nat) ->
  (i < j)%nat -> (j + length l <= n)%nat ->
  forall p, fst (best_in x i l j best) = Some p -> (fst p < snd p < n)%nat.
Proof.
  induction l as [|y l IH]; intros j best Hb Hi Hn p; cbn [best_in].
  - apply Hb.
  - apply IH; cbn in Hn; try lia.
    destruct (_ <? _); [|auto]. cbn. intros q [= <-]. cbn. lia.
Qed.
Lemma best_pair_inv n l : forall i best,
  (forall p, fst best = Some p -> (fst p < snd p < n)%nat) ->
  (i + length l <= n)%nat ->
  forall p, fst (best_pair l i best) = Some p -> (fst p < snd p < n)%nat.
Proof.
  induction l as [|y l IH]; intros i best Hb Hn p; cbn [best_pair].
  - apply Hb.
  - cbn in Hn. apply IH; [|lia]. apply best_in_inv; auto; cbn; lia.
Qed.

(** Splitting a list at two positions. *)
Lemma nth_split2 {A} (l : list A) i j x y : (i < j)%nat ->
  nth_error l i = Some x -> nth_error l j = Some y ->
  exists l1 l2 l3, l = l1 ++ x :: l2 ++ y :: l3 /\ length l1 = i /\ (length l1 + S (length l2) = j)%nat.
Proof.
  intros Hij Hi Hj.
  destruct (nth_error_split l i Hi) as (l1 & l' & -> & <-).
  rewrite nth_error_app2 in Hj by lia.
  remember (j - length l1)%nat as k. destruct k as [|k]; [lia|]. cbn in Hj.
  destruct (nth_error_split l' k Hj) as (l2 & l3 & -> & <-).
  exists l1, l2, l3. repeat split; auto. lia.
Qed.

Lemma set_nth_app {A} (l1 l2 : list A) x y : set_nth (length l1) y (l1 ++ x :: l2) = l1 ++ y :: l2.
Proof. induction l1; cbn; congruence. Qed.

Lemma set_nth_length {A} n (x : A) l : length (set_nth n x l) = length l.
Proof. revert n; induction l; intros [|n]; cbn; auto. Qed.

Local Ltac len := repeat (rewrite app_length || cbn [length]); lia.
Lemma perm_pull2 {A} (l1 l2 l3 : list A) x y :
  Permutation (l1 ++ x :: l2 ++ y :: l3) (x :: y :: l1 ++ l2 ++ l3).
Proof.
  etransitivity; [symmetry; apply Permutation_middle|]. apply perm_skip.
  rewrite app_assoc. etransitivity; [symmetry; apply Permutation_middle|].
  rewrite app_assoc. reflexivity.
Qed.

Lemma bottomup_step_perm e l l' : bottomup_step e l = Some l' ->
  exists x y rest, Permutation l (x :: y :: rest) /\
                   Permutation l' (Node (merge (bvof x) (bvof y)) x y :: rest).
Proof.
  unfold bottomup_step.
  destruct (fst (best_pair l 0 (None, e_max e))) as [[i j]|] eqn:Eb; [|discriminate].
  assert (Hij : (i < j < length l)%nat).
  { apply (best_pair_inv (length l) l 0 (None, e_max e)) in Eb; auto; cbn; congruence. }
  destruct (nth_error l i) as [ni|] eqn:Ei; [|discriminate].
  destruct (nth_error l j) as [nj|] eqn:Ej; [|discriminate].
  destruct (nth_error l (length l - 1)) as [lst|] eqn:El; [|discriminate].
  intros [= <-].
  destruct (nth_split2 l i j ni nj ltac:(lia) Ei Ej) as (l1 & l2 & l3 & -> & Hl1 & Hl2).
  subst i. rewrite set_nth_app.
  set (p := Node (merge (bvof ni) (bvof nj)) ni nj).
  replace (l1 ++ p :: l2 ++ nj :: l3) with ((l1 ++ p :: l2) ++ nj :: l3) by (rewrite <- app_assoc; reflexivity).
  replace j with (length (l1 ++ p :: l2)) by (rewrite app_length; cbn; lia).
  rewrite set_nth_app.
  exists ni, nj.
  destruct l3 as [|z l3] using rev_ind.
  - (* j is the last position *)
    exists (l1 ++ l2). split.
    + rewrite perm_pull2, app_nil_r. reflexivity.
    + rewrite firstn_app. rewrite firstn_all2 by len.
      replace (length (l1 ++ ni :: l2 ++ [nj]) - 1 - length (l1 ++ p :: l2))%nat with 0%nat by len.
      cbn [firstn]. rewrite app_nil_r. symmetry. apply Permutation_middle.
  - clear IHl3.
    assert (lst = z).
    { rewrite nth_error_app2 in El by len.
      replace (length (l1 ++ ni :: l2 ++ nj :: l3 ++ [z]) - 1 - length l1)%nat
        with (S (length l2 + S (length l3)))%nat in El
        by len.
      cbn in El. rewrite nth_error_app2 in El by lia.
      replace (length l2 + S (length l3) - length l2)%nat with (S (length l3)) in El by lia.
      cbn in El. rewrite nth_error_app2 in El by lia.
      rewrite Nat.sub_diag in El. cbn in El. congruence. }
    subst lst. exists (l1 ++ l2 ++ l3 ++ [z]). split.
    + apply perm_pull2.
    + replace ((l1 ++ p :: l2) ++ z :: l3 ++ [z]) with (((l1 ++ p :: l2) ++ z :: l3) ++ [z])
        by (rewrite <- app_assoc; reflexivity).
      rewrite firstn_app.
      rewrite firstn_all2 by len.
      replace (length (l1 ++ ni :: l2 ++ nj :: l3 ++ [z]) - 1 - length ((l1 ++ p :: l2) ++ z :: l3))%nat
        with 0%nat by len.
      cbn [firstn]. rewrite app_nil_r.
      rewrite <- app_assoc. cbn. rewrite <- Permutation_middle. apply perm_skip.
      apply Permutation_app_head. apply Permutation_app_head.
      change (z :: l3) with ([z] ++ l3). apply Permutation_app_comm.
Qed.

Lemma bottomup_step_built e l l' t : all_wf l -> bottomup_step e l = Some l' ->
  all_wf l' /\ length l = S (length l') /\ (built l' t -> built l t).
Proof.
  intros Hw H. destruct (bottomup_step_perm e l l' H) as (x & y & rest & P & P').
  assert (W' : all_wf l').
  { apply (all_wf_perm (Node (merge (bvof x) (bvof y)) x y :: rest)); [symmetry; auto|].
    assert (W2 : all_wf (x :: y :: rest)) by (eapply all_wf_perm; eauto).
    intros z [<-|Hz]; [|apply W2; cbn; auto].
    cbn. rewrite merge_contains_l, merge_contains_r. repeat split; apply W2; cbn; auto. }
  split; auto. split.
  - apply Permutation_length in P. apply Permutation_length in P'. cbn in *. lia.
  - intros (B1 & B2 & B3). split; [|split; auto].
    + rewrite B1. rewrite (all_leaves_perm _ _ P), (all_leaves_perm _ _ P').
      unfold all_leaves; cbn. rewrite <- app_assoc. reflexivity.
    + intros b Hb. apply B3. intros z Hz. rewrite P' in Hz. destruct Hz as [<-|Hz].
      * cbn. apply merge_least; apply Hb; rewrite P; cbn; auto.
      * apply Hb. rewrite P. cbn; auto.
Qed.

Lemma bottomup_built e fuel l l' : all_wf l -> l <> [] -> bottomup e fuel l = Some l' ->
  exists t, l' = [t] /\ built l t.
Proof.
  revert l; induction fuel as [|f IH]; intros l Hw Hne; cbn [bottomup]; [discriminate|].
  destruct (Z.ltb_spec 1 (Z.of_nat (length l))) as [H1|H1].
  - destruct (bottomup_step e l) as [l1|] eqn:E; [|discriminate]. intros H.
    destruct (bottomup_step_built e l l1 (Leaf 0 (Box (V 0 0 0) (V 0 0 0)) 0%nat) Hw E) as (W1 & L1 & _).
    destruct (IH l1 W1) as (t & -> & Bt); auto.
    { destruct l1; [cbn in L1; lia|discriminate]. }
    exists t. split; auto. destruct (bottomup_step_built e l l1 t Hw E) as (_ & _ & HB). auto.
  - intros [= <-]. destruct l as [|t [|? ?]]; [congruence| |cbn in H1; lia].
    exists t; split; auto. apply built_single. apply Hw; left; auto.
Qed.

Lemma bottomup_root_built e l t : all_wf l -> bottomup_root e l = Some t -> built l t.
Proof.
  unfold bottomup_root. intros Hw. destruct l as [|x l]; [discriminate|].
  destruct (bottomup e _ (x :: l)) as [l'|] eqn:E; [|discriminate].
  destruct (bottomup_built e _ (x :: l) l' Hw ltac:(discriminate) E) as (t' & -> & B).
  intros [= <-]; auto.
Qed.

Lemma all_wf_app l l' : all_wf (l ++ l') -> all_wf l /\ all_wf l'.
Proof. intros H; split; intros t Ht; apply H; apply in_app_iff; auto. Qed.

Lemma topdown0_built e fuel l t : env_ok e -> all_wf l -> topdown0 e fuel l = Some t -> built l t.
Proof.
  intros (Hn & _). revert l t; induction fuel as [|f IH]; intros l t Hw; cbn [topdown0]; [discriminate|].
  destruct l as [|x [|y l]]; [discriminate| |].
  - intros [= <-]. apply built_single. apply Hw; left; auto.
  - remember (x :: y :: l) as L eqn:EL.
    assert (HL : L <> []) by (subst; discriminate).
    destruct (e_bu e <? Z.of_nat (length L)); [|apply bottomup_root_built; auto].
    pose proof (Hn (best_axis0 (vol_of L)) (length L / 2)%nat L) as P.
    set (L' := e_nth e _ _ L) in *. set (h := (length L / 2)%nat) in *.
    assert (W : all_wf (firstn h L') /\ all_wf (skipn h L')).
    { apply all_wf_app. rewrite firstn_skipn. eapply all_wf_perm; [symmetry; eauto|auto]. }
    destruct (topdown0 e f (firstn h L')) as [c0|] eqn:E0; [|discriminate].
    destruct (topdown0 e f (skipn h L')) as [c1|] eqn:E1; [|discriminate].
    intros [= <-]. apply built_node with (firstn h L') (skipn h L'); auto.
    + rewrite firstn_skipn; auto.
    + apply IH; tauto.
    + apply IH; tauto.
    + intros z Hz. apply vol_of_contains; auto.
    + intros b Hb. apply vol_of_least; auto.
Qed.

Lemma filter_split {A} (f : A -> bool) l :
  Permutation (filter f l ++ filter (fun x => negb (f x)) l) l.
Proof.
  induction l as [|x l IH]; cbn; auto. destruct (f x); cbn.
  - apply perm_skip; auto.
  - etransitivity; [symmetry; apply Permutation_middle|]. apply perm_skip; auto.
Qed.

(** Nodes with equal centres cannot be split by topdown_1. *)
Lemma part_lt_equal a l x : (forall t, In t l -> cen2 a t = x) -> part_lt a l = [] /\ part_ge a l = l.
Proof.
  intros H. assert (S : zsum (map (cen2 a) l) = Z.of_nat (length l) * x).
  { clear -H. induction l as [|t l IH]; [cbn; lia|]. cbn [map length zsum fold_right].
    unfold zsum in IH. rewrite IH by (intros; apply H; cbn; auto). rewrite (H t) by (cbn; auto). rewrite Nat2Z.inj_succ. ring. }
  unfold part_lt, part_ge. rewrite S. split.
  - revert H. generalize (Z.of_nat (length l)) as n. intros n H. clear S.
    induction l as [|t l IH]; cbn; auto. rewrite (H t) by (cbn; auto).
    rewrite Z.ltb_irrefl. apply IH. intros; apply H; cbn; auto.
  - revert H. generalize (Z.of_nat (length l)) as n. intros n H. clear S.
    induction l as [|t l IH]; cbn; auto. rewrite (H t) by (cbn; auto).
    rewrite Z.ltb_irrefl. cbn. f_equal. apply IH. intros; apply H; cbn; auto.
Qed.

(** When the first part is empty, topdown_1 recurses on the same range forever. *)
Lemma part_ge_all a l : part_lt a l = [] -> part_ge a l = l.
Proof.
  unfold part_lt, part_ge. generalize (Z.of_nat (length l)) (zsum (map (cen2 a) l)). intros n s.
  induction l as [|t l IH]; cbn; auto. destruct (n * cen2 a t <? s); cbn; [discriminate|].
  intros H. rewrite IH; auto.
Qed.
Lemma topdown1_loops e l : (1 < length l)%nat -> e_bu e < Z.of_nat (length l) ->
  part_lt (best_axis1 l) l = [] -> forall fuel, topdown1 e fuel l = None.
Proof.
  intros Hl Hbu Hp. induction fuel as [|f IH]; cbn [topdown1]; auto.
  destruct l as [|y [|z l]]; cbn in Hl; try lia. remember (y :: z :: l) as L.
  apply Z.ltb_lt in Hbu. rewrite Hbu, Hp, (part_ge_all _ _ Hp), IH.
  destruct (hd_error L); reflexivity.
Qed.
Lemma topdown1_diverges e l x : (1 < length l)%nat -> e_bu e < Z.of_nat (length l) ->
  (forall t a, In t l -> cen2 a t = coord a x) ->
  forall fuel, topdown1 e fuel l = None.
Proof.
  intros Hl Hbu Hc. apply topdown1_loops; auto.
  apply (part_lt_equal (best_axis1 l) l (coord (best_axis1 l) x)). intros; apply Hc; auto.
Qed.

Lemma topdown1_built e fuel l t : all_wf l -> topdown1 e fuel l = Some t -> built l t.
Proof.
  revert l t; induction fuel as [|f IH]; intros l t Hw; cbn [topdown1]; [discriminate|].
  destruct l as [|x [|y l]]; [discriminate| |].
  - intros [= <-]. apply built_single. apply Hw; left; auto.
  - remember (x :: y :: l) as L eqn:EL.
    assert (HL : L <> []) by (subst; discriminate).
    destruct (e_bu e <? Z.of_nat (length L)) eqn:Ebu; [|apply bottomup_root_built; auto].
    set (a := best_axis1 L).
    assert (P : Permutation (part_lt a L ++ part_ge a L) L) by apply filter_split.
    destruct (all_wf_app _ _ (all_wf_perm _ _ (Permutation_sym P) Hw)) as [W0 W1].
    destruct (part_lt a L) as [|z0 l0] eqn:E.
    { rewrite (part_ge_all _ _ E). destruct (hd_error L); [|discriminate].
      rewrite (topdown1_loops e L); [discriminate|subst L; cbn; lia|apply Z.ltb_lt; auto|auto]. }
    rewrite <- E in *.
    destruct (topdown1 e f (part_lt a L)) as [c0|] eqn:E0; [|discriminate].
    destruct (topdown1 e f (part_ge a L)) as [c1|] eqn:E1; [|discriminate].
    intros [= <-]. apply built_node with (part_lt a L) (part_ge a L); auto.
    + intros z Hz. apply vol_of_contains; auto.
    + intros b Hb. apply vol_of_least; auto.
Qed.

Lemma topdown_built e l t : env_ok e -> all_wf l -> topdown e l = Some t -> built l t.
Proof.
  intros He Hw. unfold topdown. destruct (e_level e =? 1).
  - apply topdown1_built; auto.
  - apply topdown0_built; auto.
Qed.

(** The Morton recursions only need the same leaves: refit restores the boxes. *)
Lemma raw_perm l0 l1 l c0 c1 : l0 ++ l1 = l ->
  Permutation (leaves c0) (all_leaves l0) -> Permutation (leaves c1) (all_leaves l1) ->
  Permutation (leaves (raw_node c0 c1)) (all_leaves l).
Proof. intros <- H0 H1. cbn. rewrite H0, H1, all_leaves_app. auto. Qed.

Lemma single_perm t : Permutation (leaves t) (all_leaves [t]).
Proof. cbn. rewrite app_nil_r. auto. Qed.

Lemma morton2_leaves fuel l t : morton2 fuel l = Some t -> Permutation (leaves t) (all_leaves l).
Proof.
  revert l t; induction fuel as [|f IH]; intros l t; cbn [morton2]; [discriminate|].
  destruct l as [|x [|y l]]; [discriminate|intros [= <-]; apply single_perm|].
  remember (x :: y :: l) as L. set (h := (length L / 2)%nat).
  destruct (morton2 f (firstn h L)) as [c0|] eqn:E0; [|discriminate].
  destruct (morton2 f (skipn h L)) as [c1|] eqn:E1; [|discriminate].
  intros [= <-]. apply raw_perm with (firstn h L) (skipn h L); auto. apply firstn_skipn.
Qed.

Lemma morton0_leaves e code bits : env_ok e -> forall split l t, all_wf l ->
  morton0 e code bits split l = Some t -> Permutation (leaves t) (all_leaves l).
Proof.
  intros He. induction bits as [|b IH]; intros split l t Hw; cbn [morton0].
  - destruct l as [|x [|y l]]; [discriminate|intros [= <-]; apply single_perm|].
    intros H. apply topdown_built in H; auto. apply H.
  - destruct l as [|x [|y l]]; [discriminate|intros [= <-]; apply single_perm|].
    remember (x :: y :: l) as L. set (c := lower_bound code split L).
    destruct (Nat.eqb c 0); [apply IH; auto|]. destruct (Nat.eqb c (length L)); [apply IH; auto|].
    destruct (morton0 e code b _ (firstn c L)) as [c0|] eqn:E0; [|discriminate].
    destruct (morton0 e code b _ (skipn c L)) as [c1|] eqn:E1; [|discriminate].
    intros [= <-]. apply raw_perm with (firstn c L) (skipn c L); [apply firstn_skipn| |].
    + eapply IH; eauto. intros z Hz. apply Hw. rewrite <- (firstn_skipn c L). apply in_app_iff; auto.
    + eapply IH; eauto. intros z Hz. apply Hw. rewrite <- (firstn_skipn c L). apply in_app_iff; auto.
Qed.

Lemma morton1_leaves code bits : forall split l t,
  morton1 code bits split l = Some t -> Permutation (leaves t) (all_leaves l).
Proof.
  induction bits as [|b IH]; intros split l t; cbn [morton1].
  - destruct l as [|x [|y l]]; [discriminate|intros [= <-]; apply single_perm|].
    apply morton2_leaves.
  - destruct l as [|x [|y l]]; [discriminate|intros [= <-]; apply single_perm|].
    remember (x :: y :: l) as L. set (c := lower_bound code split L).
    destruct (Nat.eqb c 0); [apply IH; auto|]. destruct (Nat.eqb c (length L)); [apply IH; auto|].
    destruct (morton1 code b _ (firstn c L)) as [c0|] eqn:E0; [|discriminate].
    destruct (morton1 code b _ (skipn c L)) as [c1|] eqn:E1; [|discriminate].
    intros [= <-]. apply raw_perm with (firstn c L) (skipn c L); eauto. apply firstn_skipn.
Qed.

Lemma all_leaves_mk ls : all_leaves (map mk_leaf ls) = ls.
Proof.
  induction ls as [|[[i b] d] ls IH]; cbn; auto. unfold all_leaves in IH. rewrite IH. reflexivity.
Qed.
Lemma all_wf_mk ls : all_wf (map mk_leaf ls).
Proof. intros t H. apply in_map_iff in H as (x & <- & _). cbn; auto. Qed.

Lemma init_tree_ok e level ls t : env_ok e -> init_tree e level ls = Some t ->
  wf t /\ Permutation (leaves t) ls.
Proof.
  intros He. unfold init_tree.
  set (l := map mk_leaf ls). set (code := fun t => e_code e (vol_of l) (bvof t)). set (s := e_sort e code l).
  assert (Ps : Permutation s l) by apply He.
  assert (Ws : all_wf s) by (eapply all_wf_perm; [symmetry; eauto|apply all_wf_mk]).
  assert (Q : Permutation (all_leaves s) ls).
  { rewrite (all_leaves_perm _ _ Ps). unfold l. rewrite all_leaves_mk. auto. }
  destruct (level =? 1); [|destruct (level =? 2); [|destruct (level =? 3)]].
  - destruct (morton0 e code 29 _ s) eqn:E; [|discriminate]. intros [= <-].
    split; [apply refit_wf|]. rewrite refit_leaves. apply morton0_leaves in E; auto. rewrite E; auto.
  - destruct (morton1 code 29 _ s) eqn:E; [|discriminate]. intros [= <-].
    split; [apply refit_wf|]. rewrite refit_leaves. apply morton1_leaves in E; auto. rewrite E; auto.
  - destruct (morton2 _ s) eqn:E; [|discriminate]. intros [= <-].
    split; [apply refit_wf|]. rewrite refit_leaves. apply morton2_leaves in E; auto. rewrite E; auto.
  - intros H. apply topdown_built in H; auto; [|apply all_wf_mk].
    destruct H as (P & W & _). split; auto. rewrite P. unfold l. rewrite all_leaves_mk. auto.
Qed.

Lemma balance_topdown_ok e root root' : env_ok e -> balance_topdown e root = Some root' ->
  owf root' /\ Permutation (oleaves root') (oleaves root).
Proof.
  intros He. destruct root as [t|]; cbn [balance_topdown].
  - destruct (topdown e _) as [t'|] eqn:E; [|discriminate]. intros [= <-].
    apply topdown_built in E; auto; [|apply all_wf_mk]. destruct E as (P & W & _).
    rewrite all_leaves_mk in P. split; auto.
  - intros [= <-]. cbn; auto.
Qed.

Lemma balance_bottomup_ok e root root' : balance_bottomup e root = Some root' ->
  owf root' /\ Permutation (oleaves root') (oleaves root).
Proof.
  destruct root as [t|]; cbn [balance_bottomup].
  - destruct (bottomup_root e _) as [t'|] eqn:E; [|discriminate]. intros [= <-].
    apply bottomup_root_built in E; auto; [|apply all_wf_mk]. destruct E as (P & W & _).
    rewrite all_leaves_mk in P. split; auto.
  - intros [= <-]. cbn; auto.
Qed.

Lemma path_leaf_in opath bit t : In (path_leaf opath bit t) (ids t).
Proof.
  revert bit; induction t as [i b d|b l IHl r IHr]; intros bit; cbn [path_leaf].
  - cbn; auto.
  - unfold ids in *; cbn [leaves]. rewrite map_app, in_app_iff.
    destruct (N.testbit opath bit); auto.
Qed.

Lemma balance_inc_ok e n opath root : owf root ->
  exists root' op', balance_inc e n opath root = Some (root', op') /\
    owf root' /\ Permutation (oleaves root') (oleaves root).
Proof.
  revert opath root; induction n as [|n IH]; intros opath root Hw; cbn [balance_inc].
  - eauto.
  - destruct root as [t|]; [|eauto].
    destruct (update_look_ok e (path_leaf opath 0 t) (-1) t Hw (path_leaf_in opath 0 t))
      as (t' & -> & Wt & Pt).
    destruct (IH ((opath + 1) mod 2 ^ 32)%N (Some t') Wt) as (r' & op' & E & W & P).
    exists r', op'. split; auto. split; auto. etransitivity; eauto.
Qed.

(** ** The construction functions do return a tree *)

(** All boxes are proper, lie in a box [B] and [B] has finite size. *)
Definition fits (e : env) (B : aabb) (l : list tree) : Prop :=
  bsize B < e_max e /\
  forall t, In t l -> nonempty (bvof t) /\ contain B (bvof t) = true.

Lemma bsize_mono b B : nonempty b -> contain B b = true -> bsize b <= bsize B.
Proof.
  intros Hn Hc. apply nonempty_ineq in Hn. apply contain_ineq in Hc.
  unfold bsize. destruct b as [[a1 a2 a3] [b1 b2 b3]], B as [[c1 c2 c3] [d1 d2 d3]]; cbn in *.
  assert (0 <= b1 - a1 <= d1 - c1) by lia.
  assert (0 <= b2 - a2 <= d2 - c2) by lia.
  assert (0 <= b3 - a3 <= d3 - c3) by lia.
  assert (Hsq : forall u v, 0 <= u <= v -> u * u <= v * v) by (intros; nia).
  pose proof (Hsq _ _ H). pose proof (Hsq _ _ H0). pose proof (Hsq _ _ H1). lia.
Qed.

Lemma merge_nonempty a b : nonempty a -> nonempty b -> nonempty (merge a b).
Proof.
  rewrite !nonempty_ineq. destruct a as [[? ? ?] [? ? ?]], b as [[? ? ?] [? ? ?]]; cbn. lia.
Qed.

Lemma best_in_some x i l j best : fst best <> None -> fst (best_in x i l j best) <> None.
Proof.
  revert j best; induction l as [|y l IH]; intros j best H; cbn; auto.
  apply IH. destruct (_ <? _); cbn; congruence.
Qed.
Lemma best_pair_some l i best : fst best <> None -> fst (best_pair l i best) <> None.
Proof.
  revert i best; induction l as [|y l IH]; intros i best H; cbn; auto.
  apply IH. apply best_in_some; auto.
Qed.

Lemma bottomup_step_some e B l : fits e B l -> (1 < length l)%nat -> exists l', bottomup_step e l = Some l'.
Proof.
  intros (HB & HF) Hl. unfold bottomup_step.
  destruct (fst (best_pair l 0 (None, e_max e))) as [[i j]|] eqn:Eb.
  - apply (best_pair_inv (length l) l 0 (None, e_max e)) in Eb; auto; [|cbn; congruence].
    cbn in Eb.
    destruct (nth_error l i) eqn:Ei; [|apply nth_error_None in Ei; lia].
    destruct (nth_error l j) eqn:Ej; [|apply nth_error_None in Ej; lia].
    destruct (nth_error l (length l - 1)) eqn:El; [|apply nth_error_None in El; lia].
    eauto.
  - exfalso. revert Eb. destruct l as [|x [|y l]]; cbn in Hl; try lia.
    cbn [best_pair best_in snd].
    assert (Hs : bsize (merge (bvof x) (bvof y)) < e_max e).
    { eapply Z.le_lt_trans; [|exact HB].
      destruct (HF x (or_introl eq_refl)), (HF y (or_intror (or_introl eq_refl))).
      apply bsize_mono; [apply merge_nonempty; auto|apply merge_least; auto]. }
    apply Z.ltb_lt in Hs. rewrite Hs. apply best_pair_some, best_in_some, best_in_some. discriminate.
Qed.

Lemma fits_step e B l l' : fits e B l -> bottomup_step e l = Some l' -> fits e B l'.
Proof.
  intros (HB & HF) H. destruct (bottomup_step_perm e l l' H) as (x & y & rest & P & P').
  split; auto. intros t Ht. rewrite P' in Ht.
  assert (HF' : forall t, In t (x :: y :: rest) -> nonempty (bvof t) /\ contain B (bvof t) = true).
  { intros z Hz. apply HF. rewrite P. auto. }
  destruct Ht as [<-|Ht]; [|apply HF'; cbn; auto].
  destruct (HF' x), (HF' y); cbn; auto. split; [apply merge_nonempty|apply merge_least]; auto.
Qed.

Lemma bottomup_some e B fuel l : fits e B l -> l <> [] -> (length l <= fuel)%nat ->
  all_wf l -> exists l', bottomup e fuel l = Some l'.
Proof.
  revert l; induction fuel as [|f IH]; intros l HF Hne Hl Hw.
  - destruct l; [congruence|cbn in Hl; lia].
  - cbn [bottomup]. destruct (Z.ltb_spec 1 (Z.of_nat (length l))); [|eauto].
    destruct (bottomup_step_some e B l HF ltac:(lia)) as (l1 & E1). rewrite E1.
    destruct (bottomup_step_built e l l1 (Leaf 0 (Box (V 0 0 0) (V 0 0 0)) 0%nat) Hw E1) as (W1 & L1 & _).
    apply IH; auto; [eapply fits_step; eauto| |lia]. destruct l1; [cbn in L1; lia|discriminate].
Qed.

Lemma bottomup_root_some e B l : fits e B l -> l <> [] -> all_wf l -> exists t, bottomup_root e l = Some t.
Proof.
  intros HF Hne Hw. unfold bottomup_root.
  destruct (bottomup_some e B (S (length l)) l HF Hne ltac:(lia) Hw) as (l' & E). rewrite E.
  destruct (bottomup_built e _ l l' Hw Hne E) as (t & -> & _). eauto.
Qed.

Lemma half_bounds n : (2 <= n)%nat -> (1 <= n / 2 < n)%nat.
Proof.
  intros H. pose proof (Nat.div_lt n 2 ltac:(lia) ltac:(lia)).
  pose proof (Nat.div_le_lower_bound n 2 1 ltac:(lia) ltac:(lia)). lia.
Qed.

Lemma topdown0_some e B fuel l : env_ok e -> fits e B l -> l <> [] -> all_wf l ->
  (length l <= fuel)%nat -> exists t, topdown0 e fuel l = Some t.
Proof.
  intros He. revert l; induction fuel as [|f IH]; intros l HF Hne Hw Hl.
  - destruct l; [congruence|cbn in Hl; lia].
  - cbn [topdown0]. destruct l as [|x [|y l]]; [congruence|eauto|].
    remember (x :: y :: l) as L.
    assert (HL : (2 <= length L)%nat) by (subst; cbn; lia).
    destruct (e_bu e <? Z.of_nat (length L)); [|eapply bottomup_root_some; eauto].
    pose proof (proj1 He (best_axis0 (vol_of L)) (length L / 2)%nat L) as P.
    set (L' := e_nth e _ _ L) in *. set (h := (length L / 2)%nat) in *.
    assert (Hh : (1 <= h < length L)%nat) by (apply half_bounds; auto).
    assert (HL' : length L' = length L) by (apply Permutation_length; auto).
    assert (Sub : forall z, In z (firstn h L' ++ skipn h L') -> In z L).
    { intros z Hz. rewrite firstn_skipn in Hz. rewrite <- P. auto. }
    clearbody L'. clearbody h.
    destruct (IH (firstn h L')) as (c0 & E0).
    { split; [apply HF|]. intros z Hz. apply HF, Sub, in_app_iff; auto. }
    { intros E. apply (f_equal (@length _)) in E. rewrite firstn_length in E. cbn [length] in E. lia. }
    { intros z Hz. apply Hw, Sub, in_app_iff; auto. }
    { rewrite firstn_length. lia. }
    destruct (IH (skipn h L')) as (c1 & E1).
    { split; [apply HF|]. intros z Hz. apply HF, Sub, in_app_iff; auto. }
    { intros E. apply (f_equal (@length _)) in E. rewrite skipn_length in E. cbn [length] in E. lia. }
    { intros z Hz. apply Hw, Sub, in_app_iff; auto. }
    { rewrite skipn_length. lia. }
    rewrite E0, E1. eauto.
Qed.


(** topdown_1 does terminate on nodes with pairwise distinct centres. *)
Definition cen3 (t : tree) : Z * Z * Z := (cen2 0 t, cen2 1 t, cen2 2 t).

Lemma sum_nonneg_zero (f : tree -> Z) l : (forall t, In t l -> 0 <= f t) ->
  zsum (map f l) <= 0 -> forall t, In t l -> f t = 0.
Proof.
  induction l as [|x l IH]; cbn; intros Hf Hs t; [intros []|].
  assert (Hp : 0 <= zsum (map f l)).
  { clear -Hf. assert (forall t, In t l -> 0 <= f t) by auto. clear Hf.
    induction l as [|y l IH]; cbn; [lia|]. pose proof (H y (or_introl eq_refl)).
    unfold zsum in IH. specialize (IH (fun t Ht => H t (or_intror Ht))). lia. }
  unfold zsum in *. pose proof (Hf x (or_introl eq_refl)).
  intros [<-|Ht]; [lia|]. apply IH; auto. lia.
Qed.

Lemma zsum_affine (c : tree -> Z) n s l :
  zsum (map (fun t => n * c t - s) l) = n * zsum (map c l) - Z.of_nat (length l) * s.
Proof.
  induction l as [|x l IH]; cbn [map zsum fold_right length]; [lia|].
  unfold zsum in IH. rewrite IH, Nat2Z.inj_succ. ring.
Qed.

Lemma mean_all_ge a l :
  (forall t, In t l -> zsum (map (cen2 a) l) <= Z.of_nat (length l) * cen2 a t) ->
  forall t, In t l -> Z.of_nat (length l) * cen2 a t = zsum (map (cen2 a) l).
Proof.
  intros H t Ht. set (s := zsum (map (cen2 a) l)) in *. set (n := Z.of_nat (length l)) in *.
  enough (n * cen2 a t - s = 0) by lia.
  apply (sum_nonneg_zero (fun t => n * cen2 a t - s) l); auto.
  - intros u Hu. specialize (H u Hu). lia.
  - rewrite zsum_affine. fold s n. lia.
Qed.
Lemma mean_all_le a l :
  (forall t, In t l -> Z.of_nat (length l) * cen2 a t <= zsum (map (cen2 a) l)) ->
  forall t, In t l -> Z.of_nat (length l) * cen2 a t = zsum (map (cen2 a) l).
Proof.
  intros H t Ht. set (s := zsum (map (cen2 a) l)) in *. set (n := Z.of_nat (length l)) in *.
  enough (s - n * cen2 a t = 0) by lia.
  assert (E : forall m, zsum (map (fun t => s - n * cen2 a t) m) = - zsum (map (fun t => n * cen2 a t - s) m)).
  { induction m as [|x m IH]; cbn; [lia|]. unfold zsum in IH. lia. }
  apply (sum_nonneg_zero (fun t => s - n * cen2 a t) l); auto.
  - intros u Hu. specialize (H u Hu). lia.
  - rewrite E, zsum_affine. fold s n. lia.
Qed.

Lemma filter_pos {A} (f : A -> bool) l : 0 < Z.of_nat (length (filter f l)) <-> exists x, In x l /\ f x = true.
Proof.
  split.
  - destruct (filter f l) as [|x r] eqn:E; cbn; [lia|]. intros _. exists x.
    apply filter_In. rewrite E. cbn; auto.
  - intros (x & Hx & Hf). assert (H : In x (filter f l)) by (apply filter_In; auto).
    destruct (filter f l); [destruct H|cbn; lia].
Qed.

(** If both counts are positive the partition is proper. *)
Lemma counts_split a l : 0 < count_below a l -> 0 < count_above a l ->
  part_lt a l <> [] /\ part_ge a l <> [].
Proof.
  intros _ H. unfold count_above in H. apply filter_pos in H as (t & Ht & Hlt). apply Z.ltb_lt in Hlt.
  split.
  - intros E. assert (G : forall u, In u l -> zsum (map (cen2 a) l) <= Z.of_nat (length l) * cen2 a u).
    { intros u Hu. destruct (Z.le_gt_cases (zsum (map (cen2 a) l)) (Z.of_nat (length l) * cen2 a u)); auto.
      exfalso. assert (X : In u (part_lt a l)) by (apply filter_In; split; auto; apply Z.ltb_lt; lia).
      rewrite E in X. destruct X. }
    pose proof (mean_all_ge a l G t Ht). lia.
  - intros E. assert (X : In t (part_ge a l)).
    { apply filter_In; split; auto. destruct (Z.ltb_spec (Z.of_nat (length l) * cen2 a t) (zsum (map (cen2 a) l))); auto; lia. }
    rewrite E in X. destruct X.
Qed.

Lemma counts_zero a l : ~ (0 < count_below a l /\ 0 < count_above a l) ->
  forall t, In t l -> Z.of_nat (length l) * cen2 a t = zsum (map (cen2 a) l).
Proof.
  intros H t Ht. unfold count_below, count_above in H. rewrite !filter_pos in H.
  set (s := zsum (map (cen2 a) l)) in *. set (n := Z.of_nat (length l)) in *.
  destruct (Z.lt_total (n * cen2 a t) s) as [C|[C|C]]; auto.
  - (* t below: then none above *)
    apply mean_all_le; auto. fold s n. intros u Hu.
    destruct (Z.le_gt_cases (n * cen2 a u) s); auto. exfalso. apply H. split.
    + exists t. split; auto. apply negb_true_iff, Z.ltb_ge. lia.
    + exists u. split; auto. apply Z.ltb_lt. lia.
  - apply mean_all_ge; auto. fold s n. intros u Hu.
    destruct (Z.le_gt_cases s (n * cen2 a u)); auto. exfalso. apply H. split.
    + exists u. split; auto. apply negb_true_iff, Z.ltb_ge. lia.
    + exists t. split; auto. apply Z.ltb_lt. lia.
Qed.

Lemma count_total a l : count_below a l + count_above a l = Z.of_nat (length l).
Proof.
  unfold count_below, count_above.
  pose proof (Permutation_length (filter_split (fun t => zsum (map (cen2 a) l) <? Z.of_nat (length l) * cen2 a t) l)) as H.
  rewrite app_length in H. lia.
Qed.

Lemma axis_step_some l best a :
  (0 < count_below a l /\ 0 < count_above a l) ->
  (fst best = -1 -> snd best = Z.of_nat (length l)) -> -1 <= fst best ->
  0 <= fst (axis_step l best a).
Proof.
  intros [H0 H1] Hb Hf. unfold axis_step.
  apply Z.ltb_lt in H0, H1. rewrite H0, H1. cbn [andb]. apply Z.ltb_lt in H0, H1.
  destruct (Z.ltb_spec (Z.abs (count_below a l - count_above a l)) (snd best)); cbn; [lia|].
  destruct (Z.eq_dec (fst best) (-1)) as [E|]; [|lia]. specialize (Hb E).
  pose proof (count_total a l). lia.
Qed.

Lemma best_axis1_split l : (2 <= length l)%nat -> NoDup (map cen3 l) ->
  part_lt (best_axis1 l) l <> [] /\ part_ge (best_axis1 l) l <> [].
Proof.
  intros Hl Hnd.
  (* the accumulator: -1, or an axis with both counts positive *)
  set (ok := fun best : Z * Z =>
      (fst best = -1 /\ snd best = Z.of_nat (length l)) \/
      (exists a, (a < 3)%nat /\ fst best = Z.of_nat a /\ 0 < count_below a l /\ 0 < count_above a l)).
  assert (Step : forall best a, (a < 3)%nat -> ok best -> ok (axis_step l best a)).
  { intros best a Ha Hb. unfold axis_step.
    destruct (Z.ltb_spec 0 (count_below a l)), (Z.ltb_spec 0 (count_above a l)); cbn [andb]; auto.
    destruct (_ <? _); auto. right. exists a. cbn; auto. }
  set (b := fold_left (axis_step l) [0%nat; 1%nat; 2%nat] (-1, Z.of_nat (length l))).
  assert (Hb : ok b). { unfold b; cbn [fold_left]. repeat (apply Step; [lia|]). left; cbn; auto. }
  assert (E : best_axis1 l = if fst b <? 0 then 0%nat else Z.to_nat (fst b)) by reflexivity.
  destruct Hb as [[Hb1 Hb2]|(a & Ha & Hb & H0 & H1)].
  - exfalso.
    assert (None3 : forall a, (a < 3)%nat -> ~ (0 < count_below a l /\ 0 < count_above a l)).
    { intros a Ha C.
      (* once non-negative the accumulator stays non-negative *)
      assert (Pos : forall best a, 0 <= fst best -> 0 <= fst (axis_step l best a)).
      { intros best a' Hp. unfold axis_step. destruct (_ && _); auto. destruct (Z.abs _ <? snd best); cbn [fst]; [lia|auto]. }
      assert (Okge : forall best, ok best -> (fst best = -1 -> snd best = Z.of_nat (length l)) /\ -1 <= fst best).
      { intros best [[-> ->]|(a' & _ & -> & _)]; split; auto; lia. }
      set (b0 := (-1, Z.of_nat (length l))) in *.
      assert (O0 : ok b0) by (left; cbn; auto).
      set (b1 := axis_step l b0 0). assert (O1 : ok b1) by (apply Step; auto; lia).
      set (b2 := axis_step l b1 1). assert (O2 : ok b2) by (apply Step; auto; lia).
      assert (0 <= fst b); [|lia]. change b with (axis_step l b2 2).
      destruct (Okge _ O0), (Okge _ O1), (Okge _ O2).
      destruct a as [|[|[|a]]]; [| | |lia].
      - apply Pos, Pos. apply axis_step_some; auto.
      - apply Pos. apply axis_step_some; auto.
      - apply axis_step_some; auto. }
    assert (Same : forall a t u, (a < 3)%nat -> In t l -> In u l -> cen2 a t = cen2 a u).
    { intros a t u Ha Ht Hu. pose proof (counts_zero a l (None3 a Ha) t Ht).
      pose proof (counts_zero a l (None3 a Ha) u Hu). nia. }
    destruct l as [|x [|y l']]; cbn in Hl; try lia. cbn in Hnd. inversion Hnd as [|? ? Hn _]; subst.
    apply Hn. left. unfold cen3.
    rewrite (Same 0%nat y x), (Same 1%nat y x), (Same 2%nat y x); auto; cbn; auto; lia.
  - rewrite E, Hb. destruct (Z.ltb_spec (Z.of_nat a) 0); [lia|]. rewrite Nat2Z.id.
    apply counts_split; auto.
Qed.

Lemma NoDup_map_filter {A B} (f : A -> B) (p : A -> bool) l : NoDup (map f l) -> NoDup (map f (filter p l)).
Proof.
  induction l as [|x l IH]; cbn; auto. intros H; inversion H; subst.
  destruct (p x); auto. cbn. constructor; auto.
  rewrite in_map_iff in *. intros (y & E & Hy). apply filter_In in Hy. apply H2. exists y; tauto.
Qed.

Lemma topdown1_some e B fuel l : fits e B l -> l <> [] -> all_wf l -> NoDup (map cen3 l) ->
  (length l <= fuel)%nat -> exists t, topdown1 e fuel l = Some t.
Proof.
  revert l; induction fuel as [|f IH]; intros l HF Hne Hw Hnd Hl.
  - destruct l; [congruence|cbn in Hl; lia].
  - cbn [topdown1]. destruct l as [|x [|y l]]; [congruence|eauto|].
    remember (x :: y :: l) as L.
    assert (HL : (2 <= length L)%nat) by (subst; cbn; lia).
    destruct (e_bu e <? Z.of_nat (length L)); [|eapply bottomup_root_some; eauto].
    destruct (best_axis1_split L HL Hnd) as [N0 N1]. set (a := best_axis1 L) in *.
    assert (P : Permutation (part_lt a L ++ part_ge a L) L) by apply filter_split.
    assert (Hlen := Permutation_length P). rewrite app_length in Hlen.
    destruct (IH (part_lt a L)) as (c0 & E0); auto.
    { split; [apply HF|]. intros z Hz. apply HF. rewrite <- P. apply in_app_iff; auto. }
    { intros z Hz. apply Hw. rewrite <- P. apply in_app_iff; auto. }
    { apply NoDup_map_filter; auto. }
    { destruct (part_ge a L); [congruence|cbn in Hlen; lia]. }
    destruct (IH (part_ge a L)) as (c1 & E1); auto.
    { split; [apply HF|]. intros z Hz. apply HF. rewrite <- P. apply in_app_iff; auto. }
    { intros z Hz. apply Hw. rewrite <- P. apply in_app_iff; auto. }
    { apply NoDup_map_filter; auto. }
    { destruct (part_lt a L); [congruence|cbn in Hlen; lia]. }
    destruct (part_lt a L) as [|z0 l0]; [congruence|]. rewrite E0, E1. eauto.
Qed.

Lemma morton2_some fuel l : l <> [] -> (length l <= fuel)%nat -> exists t, morton2 fuel l = Some t.
Proof.
  revert l; induction fuel as [|f IH]; intros l Hne Hl.
  - destruct l; [congruence|cbn in Hl; lia].
  - cbn [morton2]. destruct l as [|x [|y l]]; [congruence|eauto|].
    remember (x :: y :: l) as L.
    assert (HL : (2 <= length L)%nat) by (subst; cbn; lia).
    pose proof (half_bounds (length L) HL) as Hh. set (h := (length L / 2)%nat) in *. clearbody h.
    destruct (IH (firstn h L)) as (c0 & E0).
    { intros E. apply (f_equal (@length _)) in E. rewrite firstn_length in E. cbn [length] in E. lia. }
    { rewrite firstn_length. lia. }
    destruct (IH (skipn h L)) as (c1 & E1).
    { intros E. apply (f_equal (@length _)) in E. rewrite skipn_length in E. cbn [length] in E. lia. }
    { rewrite skipn_length. lia. }
    rewrite E0, E1; eauto.
Qed.

Lemma lower_bound_le code split l : (lower_bound code split l <= length l)%nat.
Proof. induction l; cbn; auto. destruct (_ <? _)%N; lia. Qed.

Lemma morton1_some code bits : forall split l, l <> [] -> exists t, morton1 code bits split l = Some t.
Proof.
  induction bits as [|b IH]; intros split l Hne; cbn [morton1].
  - destruct l as [|x [|y l]]; [congruence|eauto|]. apply morton2_some; auto.
  - destruct l as [|x [|y l]]; [congruence|eauto|]. remember (x :: y :: l) as L.
    pose proof (lower_bound_le code split L) as Hc. set (c := lower_bound code split L) in *. clearbody c.
    destruct (Nat.eqb_spec c 0); [apply IH; auto|].
    destruct (Nat.eqb_spec c (length L)); [apply IH; auto|].
    destruct (IH (split_lo split b) (firstn c L)) as (c0 & E0).
    { intros E. apply (f_equal (@length _)) in E. rewrite firstn_length in E. cbn [length] in E.
      destruct L; [congruence|]. cbn [length] in *. lia. }
    destruct (IH (split_hi split b) (skipn c L)) as (c1 & E1).
    { intros E. apply (f_equal (@length _)) in E. rewrite skipn_length in E. cbn [length] in E. lia. }
    rewrite E0, E1; eauto.
Qed.

(** The inputs for which topdown is total. *)
Definition level_ok (e : env) (l : list tree) : Prop := e_level e = 1 -> NoDup (map cen3 l).

Lemma topdown_some e B l : env_ok e -> level_ok e l -> fits e B l -> l <> [] -> all_wf l ->
  exists t, topdown e l = Some t.
Proof.
  intros He Hlv HF Hne Hw. unfold topdown. destruct (Z.eqb_spec (e_level e) 1).
  - eapply topdown1_some; eauto.
  - eapply topdown0_some; eauto.
Qed.

Lemma NoDup_map_app {A B} (f : A -> B) l1 l2 : NoDup (map f (l1 ++ l2)) -> NoDup (map f l1) /\ NoDup (map f l2).
Proof.
  rewrite map_app. intros H. split.
  - induction l1 as [|x l1 IH]; cbn in *; [constructor|]. inversion H; subst.
    constructor; auto. intros Hx. apply H2. apply in_app_iff; auto.
  - induction l1 as [|x l1 IH]; cbn in *; auto. inversion H; auto.
Qed.

Lemma morton0_some e B code bits : env_ok e -> forall split l,
  level_ok e l -> fits e B l -> l <> [] -> all_wf l -> exists t, morton0 e code bits split l = Some t.
Proof.
  intros He. induction bits as [|b IH]; intros split l Hlv HF Hne Hw; cbn [morton0].
  - destruct l as [|x [|y l]]; [congruence|eauto|]. eapply topdown_some; eauto.
  - destruct l as [|x [|y l]]; [congruence|eauto|]. remember (x :: y :: l) as L.
    pose proof (lower_bound_le code split L) as Hc. set (c := lower_bound code split L) in *. clearbody c.
    destruct (Nat.eqb_spec c 0); [apply IH; auto|].
    destruct (Nat.eqb_spec c (length L)); [apply IH; auto|].
    assert (Sub : forall z, In z (firstn c L ++ skipn c L) -> In z L) by (rewrite firstn_skipn; auto).
    destruct (IH (split_lo split b) (firstn c L)) as (c0 & E0).
    { intros El. specialize (Hlv El). rewrite <- (firstn_skipn c L) in Hlv. apply NoDup_map_app in Hlv. tauto. }
    { split; [apply HF|]. intros z Hz. apply HF, Sub, in_app_iff; auto. }
    { intros E. apply (f_equal (@length _)) in E. rewrite firstn_length in E. cbn [length] in E.
      destruct L; [congruence|]. cbn [length] in *. lia. }
    { intros z Hz. apply Hw, Sub, in_app_iff; auto. }
    destruct (IH (split_hi split b) (skipn c L)) as (c1 & E1).
    { intros El. specialize (Hlv El). rewrite <- (firstn_skipn c L) in Hlv. apply NoDup_map_app in Hlv. tauto. }
    { split; [apply HF|]. intros z Hz. apply HF, Sub, in_app_iff; auto. }
    { intros E. apply (f_equal (@length _)) in E. rewrite skipn_length in E. cbn [length] in E. lia. }
    { intros z Hz. apply Hw, Sub, in_app_iff; auto. }
    rewrite E0, E1; eauto.
Qed.

(** A list of leaf records fit for building. *)
Definition lfits (e : env) (B : aabb) (ls : list (nat * aabb * obj)) : Prop :=
  bsize B < e_max e /\ (forall x, In x ls -> nonempty (leaf_bv x) /\ contain B (leaf_bv x) = true).
Definition llevel (e : env) (ls : list (nat * aabb * obj)) : Prop :=
  e_level e = 1 -> NoDup (map (fun x => cen3 (mk_leaf x)) ls).

Lemma lfits_fits e B ls : lfits e B ls -> fits e B (map mk_leaf ls).
Proof.
  intros [H1 H2]; split; auto. intros t Ht. apply in_map_iff in Ht as (x & <- & Hx). apply H2; auto.
Qed.
Lemma llevel_ok e ls : llevel e ls -> level_ok e (map mk_leaf ls).
Proof. intros H El. rewrite map_map. apply H; auto. Qed.

Lemma level_ok_perm e l l' : Permutation l l' -> level_ok e l -> level_ok e l'.
Proof. intros P H El. eapply Permutation_NoDup; [apply Permutation_map; eauto|auto]. Qed.
Lemma fits_perm e B l l' : Permutation l l' -> fits e B l -> fits e B l'.
Proof. intros P [H1 H2]; split; auto. intros t Ht. apply H2. rewrite P; auto. Qed.

Lemma init_tree_some e B level ls : env_ok e -> lfits e B ls -> llevel e ls -> ls <> [] ->
  exists t, init_tree e level ls = Some t.
Proof.
  intros He HF HL Hne. unfold init_tree.
  set (l := map mk_leaf ls). set (code := fun t => e_code e (vol_of l) (bvof t)). set (s := e_sort e code l).
  assert (Ps : Permutation s l) by apply He.
  assert (Nl : l <> []) by (unfold l; destruct ls; [congruence|discriminate]).
  assert (Ns : s <> []).
  { intros E. rewrite E in Ps. apply Permutation_nil in Ps. auto. }
  assert (Ws : all_wf s) by (eapply all_wf_perm; [symmetry; eauto|apply all_wf_mk]).
  assert (Fs : fits e B s) by (eapply fits_perm; [symmetry; eauto|apply lfits_fits; auto]).
  assert (Ls : level_ok e s) by (eapply level_ok_perm; [symmetry; eauto|apply llevel_ok; auto]).
  destruct (level =? 1); [|destruct (level =? 2); [|destruct (level =? 3)]].
  - destruct (morton0_some e B code 29 He (N.shiftl 1 29) s Ls Fs Ns Ws) as (t & ->). cbn; eauto.
  - destruct (morton1_some code 29 (N.shiftl 1 29) s Ns) as (t & ->). cbn; eauto.
  - destruct (morton2_some (S (length s)) s Ns ltac:(lia)) as (t & ->). cbn; eauto.
  - eapply topdown_some; eauto using lfits_fits, llevel_ok, all_wf_mk.
Qed.
