(** * Bounding volume hierarchy of a mesh: construction and refitting

    Model of the tree part of [BVHModel<BV>]
    (/repo/include/fcl/geometry/bvh/BVH_model-inl.h): buildTree (832-863),
    recursiveBuildTree (867-937), refitTree_bottomup and
    recursiveRefitTree_bottomup (951-1024), refitTree_topdown (1063-1075).

    The arrays [bvs] and [primitive_indices] are lists whose length is the
    allocated capacity; a write outside an array makes the function return
    [None].  A cell of [bvs] that has not been written is [None].

    The bounding volume type, the fitter and the split rule are parameters:
    - [fit l] is what [bv_fitter->fit] (or the free function [fit]) computes
      from the points [l] of the primitives, in the order they are visited;
    - [plus] is [operator +] of the bounding volume;
    - [split bv seg i] is the answer of [bv_splitter->apply] on the centroid of
      primitive [i] after [computeRule(bv, seg)] ([true] = right side). *)

From Coq Require Import List Arith Lia ZArith Bool Permutation.
Import ListNotations.

(** ** Arrays *)

(** [a[i] = x]; [None] when [i] is outside the array. *)
Definition aset {A : Type} (l : list A) (i : nat) (x : A) : option (list A) :=
  if i <? length l then Some (firstn i l ++ x :: skipn (S i) l) else None.

Lemma aset_some : forall A (l : list A) i x, i < length l ->
  exists l', aset l i x = Some l' /\ length l' = length l /\
    nth_error l' i = Some x /\
    (forall j, j <> i -> nth_error l' j = nth_error l j).
Proof.
  intros A l i x H. unfold aset.
  destruct (Nat.ltb_spec i (length l)) as [H'|H']; [|lia].
  eexists. split; [reflexivity|].
  assert (Hf : length (firstn i l) = i) by (rewrite firstn_length; lia).
  split; [|split].
  - rewrite app_length. cbn [length]. rewrite skipn_length, Hf. lia.
  - rewrite nth_error_app2 by lia. rewrite Hf, Nat.sub_diag. reflexivity.
  - intros j Hj. destruct (Nat.lt_ge_cases j i) as [Hlt|Hge].
    + rewrite nth_error_app1 by lia.
      rewrite <- (firstn_skipn i l) at 2. rewrite nth_error_app1 by lia. reflexivity.
    + rewrite nth_error_app2 by lia. rewrite Hf.
      destruct (j - i) as [|k] eqn:E; [lia|]. cbn [nth_error].
      rewrite <- (firstn_skipn (S i) l) at 2.
      rewrite nth_error_app2 by (rewrite firstn_length; lia).
      rewrite firstn_length. f_equal. lia.
Qed.

Lemma aset_none : forall A (l : list A) i x, length l <= i -> aset l i x = None.
Proof.
  intros A l i x H. unfold aset. destruct (Nat.ltb_spec i (length l)); [lia|reflexivity].
Qed.

Lemma app_inj_len : forall A (a b c d : list A), a ++ b = c ++ d -> length a = length c -> a = c /\ b = d.
Proof.
  intros A a. induction a as [|x a IH]; intros b c d H Hl; destruct c as [|y c]; cbn in Hl; try lia.
  - auto.
  - cbn in H. injection H as -> H. destruct (IH b c d H ltac:(lia)) as [-> ->]. auto.
Qed.

(** ** Shape of a hierarchy, independent of the code

    A binary tree whose nodes carry their index in [bvs]; leaves carry the
    primitive. *)
Inductive btree : Type :=
| BLeaf (id : nat) (p : nat)
| BNode (id : nat) (l r : btree).

Definition tid (t : btree) : nat := match t with BLeaf i _ => i | BNode i _ _ => i end.

Fixpoint tleaves (t : btree) : list nat :=
  match t with BLeaf _ p => [p] | BNode _ l r => tleaves l ++ tleaves r end.

Fixpoint tids (t : btree) : list nat :=
  match t with BLeaf i _ => [i] | BNode i l r => i :: tids l ++ tids r end.

Lemma tleaves_pos : forall t, 1 <= length (tleaves t).
Proof. induction t; cbn; [lia|rewrite app_length; lia]. Qed.

Lemma tids_count : forall t, length (tids t) = 2 * length (tleaves t) - 1.
Proof.
  induction t as [i p|i l IHl r IHr]; cbn [tids tleaves length]; [reflexivity|].
  rewrite !app_length, IHl, IHr.
  pose proof (tleaves_pos l). pose proof (tleaves_pos r). lia.
Qed.

Lemma tid_in : forall t, In (tid t) (tids t).
Proof. destruct t; cbn; auto. Qed.

Section Bvh.
Variables (V BV : Type).

(** BVNode<BV>: the bounding volume and BVNodeBase (BV_node_base.h 49-77). *)
Record node := Node { n_bv : BV; n_first : nat; n_num : nat; n_child : Z }.

(** BVNodeBase::isLeaf, primitiveId, leftChild, rightChild
    (/repo/src/geometry/bvh/BV_node_base.cpp). *)
Definition is_leaf (n : node) : bool := (n_child n <? 0)%Z.
Definition prim_id (n : node) : nat := Z.to_nat (- (n_child n + 1)).
Definition left_child (n : node) : nat := Z.to_nat (n_child n).
Definition right_child (n : node) : nat := Z.to_nat (n_child n + 1).

(** Reading [bvs[i]]: [None] when outside the array or never written. *)
Definition cell (bvs : list (option node)) (i : nat) : option node :=
  match nth_error bvs i with Some (Some n) => Some n | _ => None end.

Variable fit : list V -> BV.
Variable plus : BV -> BV -> BV.
Variable split : BV -> list nat -> nat -> bool.

(** The points of primitive [i] read by the fitter. *)
Variable pts : nat -> list V.

(** The partition loop 893-927 on the segment of primitives, in place.  The
    prefix already visited is [g1 ++ g2] with [c1 = length g1]; the loop visits
    the head [x] of [rest].  [swap(cur[i], cur[c1])] puts [x] at the end of
    group 1 and the first element of group 2 (if there is one; otherwise
    [i = c1] and the swap does nothing) at index [i], i.e. at the end of
    group 2. *)
Fixpoint part_loop (right : nat -> bool) (g1 g2 rest : list nat) : list nat * nat :=
  match rest with
  | [] => (g1 ++ g2, length g1)
  | x :: rest' =>
      if right x then part_loop right g1 (g2 ++ [x]) rest'
      else match g2 with
           | [] => part_loop right (g1 ++ [x]) [] rest'
           | y :: ys => part_loop right (g1 ++ [x]) (ys ++ [y]) rest'
           end
  end.

(** Line 929: an empty side is replaced by the middle. *)
Definition cut (c1 n : nat) : nat :=
  if (c1 =? 0) || (c1 =? n) then n / 2 else c1.

(** The three pieces of memory changed by the construction: [bvs], [num_bvs]
    and [primitive_indices] (only its first [n] cells, which are initialised
    before the recursion starts). *)
Record bst := Bst { b_bvs : list (option node); b_nb : nat; b_prims : list nat }.

Definition seg (prims : list nat) (first num : nat) : list nat :=
  firstn num (skipn first prims).

(** recursiveBuildTree (867-937).  The model recurses on [fuel]; [None] is also
    returned when it runs out (with [num = 0] the C++ does not terminate). *)
Fixpoint build_rec (fuel bv_id first num : nat) (s : bst) : option bst :=
  match fuel with
  | O => None
  | S fuel' =>
      let cur := seg (b_prims s) first num in
      let bv := fit (flat_map pts cur) in
      if num =? 1 then
        match cur with
        | [p] =>
            match aset (b_bvs s) bv_id (Some (Node bv first num (- (Z.of_nat p + 1)))) with
            | Some bvs' => Some (Bst bvs' (b_nb s) (b_prims s))
            | None => None
            end
        | _ => None
        end
      else
        match aset (b_bvs s) bv_id (Some (Node bv first num (Z.of_nat (b_nb s)))) with
        | None => None
        | Some bvs' =>
            let child := b_nb s in
            let pl := part_loop (split bv cur) [] [] cur in
            let prims' := firstn first (b_prims s) ++ fst pl ++ skipn (first + num) (b_prims s) in
            let c1 := cut (snd pl) num in
            match build_rec fuel' child first c1 (Bst bvs' (b_nb s + 2) prims') with
            | None => None
            | Some s2 => build_rec fuel' (S child) (first + c1) (num - c1) s2
            end
        end
  end.

(** buildTree (832-863) for [n] primitives; [cap] is the capacity of
    [primitive_indices] (the initialisation loop 856-857 writes its first [n]
    cells). *)
Definition build (bvs : list (option node)) (cap n : nat) : option bst :=
  if n <=? cap then build_rec n 0 0 n (Bst bvs 1 (seq 0 n)) else None.

(** ** What a correct hierarchy is

    [good E bvs t first]: the tree [t] is stored in [bvs]; every node of [t]
    records the segment of [primitive_indices] that holds the primitives below
    it (which starts at [first]), inner nodes point to two adjacent children,
    leaves encode their primitive, and the bounding volume [bv] of each node
    satisfies [E bv p] for every primitive [p] below it. *)
Fixpoint good (E : BV -> nat -> Prop) (bvs : list (option node)) (t : btree) (first : nat) : Prop :=
  (exists bv child, cell bvs (tid t) = Some (Node bv first (length (tleaves t)) child) /\
    (forall p, In p (tleaves t) -> E bv p) /\
    match t with
    | BLeaf _ p => child = (- (Z.of_nat p + 1))%Z
    | BNode _ l r => child = Z.of_nat (tid l) /\ tid r = S (tid l)
    end) /\
  match t with
  | BLeaf _ _ => True
  | BNode _ l r => good E bvs l first /\ good E bvs r (first + length (tleaves l))
  end.

Lemma good_frame : forall E bvs bvs' t first,
  (forall i, In i (tids t) -> nth_error bvs' i = nth_error bvs i) ->
  good E bvs t first -> good E bvs' t first.
Proof.
  intros E bvs bvs' t. induction t as [i p|i l IHl r IHr]; intros first Hf [Hc Hs].
  - split; [|exact I]. destruct Hc as (bv & ch & Hcell & Hrest).
    exists bv, ch. split; [|exact Hrest]. unfold cell. rewrite Hf by (left; reflexivity). exact Hcell.
  - destruct Hs as [Hl Hr]. split.
    + destruct Hc as (bv & ch & Hcell & Hrest).
      exists bv, ch. split; [|exact Hrest]. unfold cell. rewrite Hf by (left; reflexivity). exact Hcell.
    + split; [apply IHl|apply IHr]; auto; intros j Hj; apply Hf; cbn; right; apply in_or_app; auto.
Qed.

Lemma good_mono : forall (E E' : BV -> nat -> Prop) bvs t first,
  (forall bv p, In p (tleaves t) -> E bv p -> E' bv p) -> good E bvs t first -> good E' bvs t first.
Proof.
  intros E E' bvs t. induction t as [i p|i l IHl r IHr]; intros first HE [Hc Hs].
  - split; [|exact I]. destruct Hc as (bv & ch & Hcell & Hin & Hrest).
    exists bv, ch. split; [exact Hcell|]. split; [|exact Hrest]. intros q Hq. apply HE; auto.
  - destruct Hs as [Hl Hr]. split.
    + destruct Hc as (bv & ch & Hcell & Hin & Hrest).
      exists bv, ch. split; [exact Hcell|]. split; [|exact Hrest]. intros q Hq. apply HE; auto.
    + split; [apply IHl|apply IHr]; auto; intros bv q Hq; apply HE; cbn; apply in_or_app; auto.
Qed.

(** ** Partition loop *)

Lemma part_loop_perm : forall right rest g1 g2,
  Permutation (fst (part_loop right g1 g2 rest)) (g1 ++ g2 ++ rest).
Proof.
  intros right rest. induction rest as [|x rest IH]; intros g1 g2; cbn [part_loop].
  - cbn [fst]. rewrite app_nil_r. reflexivity.
  - destruct (right x).
    + rewrite IH. rewrite <- app_assoc. reflexivity.
    + destruct g2 as [|y ys].
      * rewrite IH. rewrite <- app_assoc. reflexivity.
      * rewrite IH. rewrite <- !app_assoc. apply Permutation_app_head.
        cbn [app]. transitivity (x :: y :: ys ++ rest).
        -- constructor. symmetry. apply (Permutation_middle ys rest y).
        -- rewrite perm_swap. constructor. apply Permutation_middle.
Qed.

Lemma part_loop_le : forall right rest g1 g2,
  snd (part_loop right g1 g2 rest) <= length g1 + length rest.
Proof.
  intros right rest. induction rest as [|x rest IH]; intros g1 g2; cbn [part_loop].
  - cbn. lia.
  - destruct (right x).
    + specialize (IH g1 (g2 ++ [x])). cbn [length]. lia.
    + destruct g2 as [|y ys].
      * specialize (IH (g1 ++ [x]) []). rewrite app_length in IH. cbn [length] in *. lia.
      * specialize (IH (g1 ++ [x]) (ys ++ [y])). rewrite app_length in IH. cbn [length] in *. lia.
Qed.

(** The first [c1] primitives are exactly those on the left side. *)
Lemma part_loop_sides : forall right rest g1 g2,
  (forall x, In x g1 -> right x = false) -> (forall x, In x g2 -> right x = true) ->
  let pl := part_loop right g1 g2 rest in
  (forall x, In x (firstn (snd pl) (fst pl)) -> right x = false) /\
  (forall x, In x (skipn (snd pl) (fst pl)) -> right x = true).
Proof.
  intros right rest. induction rest as [|x rest IH]; intros g1 g2 H1 H2; cbn [part_loop].
  - cbn [fst snd]. rewrite firstn_app, Nat.sub_diag, firstn_all. cbn [firstn].
    rewrite app_nil_r, skipn_app, Nat.sub_diag, skipn_all. cbn [skipn app]. auto.
  - destruct (right x) eqn:Ex.
    + apply IH; auto. intros z Hz. apply in_app_or in Hz. destruct Hz as [Hz|[->|[]]]; auto.
    + destruct g2 as [|y ys].
      * apply IH; auto. intros z Hz. apply in_app_or in Hz. destruct Hz as [Hz|[->|[]]]; auto.
      * apply IH.
        -- intros z Hz. apply in_app_or in Hz. destruct Hz as [Hz|[->|[]]]; auto.
        -- intros z Hz. apply in_app_or in Hz. destruct Hz as [Hz|[->|[]]]; apply H2; cbn; auto.
Qed.

Lemma cut_bounds : forall c1 n, 2 <= n -> c1 <= n -> 1 <= cut c1 n <= n - 1.
Proof.
  intros c1 n Hn Hc. unfold cut.
  pose proof (Nat.div_mod n 2 ltac:(lia)) as Hd.
  pose proof (Nat.mod_upper_bound n 2 ltac:(lia)) as Hm.
  destruct (Nat.eqb_spec c1 0); cbn [orb]; [lia|].
  destruct (Nat.eqb_spec c1 n); lia.
Qed.

(** ** Segments *)

Lemma seg_length : forall prims first num, first + num <= length prims ->
  length (seg prims first num) = num.
Proof. intros. unfold seg. rewrite firstn_length, skipn_length. lia. Qed.

Lemma firstn_app_l : forall A (a b : list A) n, n <= length a -> firstn n (a ++ b) = firstn n a.
Proof.
  intros A a b n H. rewrite firstn_app.
  replace (n - length a) with 0 by lia. cbn. apply app_nil_r.
Qed.

Lemma skipn_app_r : forall A (a b : list A) n, length a <= n -> skipn n (a ++ b) = skipn (n - length a) b.
Proof.
  intros A a b n H. rewrite skipn_app. rewrite skipn_all2 by lia. reflexivity.
Qed.

Lemma skipn_add : forall A (l : list A) a b, skipn a (skipn b l) = skipn (b + a) l.
Proof.
  intros A l a b. revert l. induction b as [|b IH]; intros l; [reflexivity|].
  destruct l as [|x l]; [rewrite !skipn_nil; reflexivity|]. cbn. apply IH.
Qed.

Lemma firstn_add : forall A (l : list A) a b, firstn (a + b) l = firstn a l ++ firstn b (skipn a l).
Proof.
  intros A l a b. revert l. induction a as [|a IH]; intros l; [reflexivity|].
  destruct l as [|x l]; [cbn; rewrite firstn_nil; reflexivity|]. cbn. f_equal. apply IH.
Qed.

Lemma seg_split : forall prims first a b, seg prims first (a + b) = seg prims first a ++ seg prims (first + a) b.
Proof. intros. unfold seg. rewrite firstn_add. f_equal. rewrite skipn_add. reflexivity. Qed.

Lemma three_parts : forall (prims : list nat) first num,
  prims = firstn first prims ++ seg prims first num ++ skipn (first + num) prims.
Proof.
  intros. rewrite <- (firstn_skipn first prims) at 1. f_equal. unfold seg.
  rewrite <- (firstn_skipn num (skipn first prims)) at 1. f_equal. apply skipn_add.
Qed.

(** ** The construction is correct *)

(** [inseg] describes how [primitive_indices] may change: only inside the
    segment, by a permutation. *)
Definition rearr (first num : nat) (p p' : list nat) : Prop :=
  length p' = length p /\
  firstn first p' = firstn first p /\
  skipn (first + num) p' = skipn (first + num) p /\
  Permutation (seg p first num) (seg p' first num).

Lemma rearr_seg_before : forall first num p p' f k, rearr first num p p' ->
  f + k <= first -> seg p' f k = seg p f k.
Proof.
  intros first num p p' f k (Hl & Hf & Hs & Hp) H. unfold seg.
  assert (E : forall q : list nat, firstn k (skipn f q) = firstn k (skipn f (firstn (f + k) q))).
  { intros q. rewrite firstn_skipn_comm. rewrite (firstn_skipn_comm k f (firstn (f + k) q)).
    rewrite firstn_firstn, Nat.min_id. reflexivity. }
  rewrite (E p'), (E p).
  assert (E2 : forall q : list nat, firstn (f + k) q = firstn (f + k) (firstn first q))
    by (intros q; rewrite firstn_firstn, Nat.min_l by lia; reflexivity).
  rewrite (E2 p'), (E2 p), Hf. reflexivity.
Qed.

Lemma rearr_seg_after : forall first num p p' f k, rearr first num p p' ->
  first + num <= f -> seg p' f k = seg p f k.
Proof.
  intros first num p p' f k (Hl & Hf & Hs & Hp) H. unfold seg. f_equal.
  replace f with ((first + num) + (f - (first + num))) by lia.
  rewrite <- (skipn_add _ p' _ (first + num)), <- (skipn_add _ p _ (first + num)), Hs. reflexivity.
Qed.

Lemma perm_seg_flat : forall (l l' : list nat), Permutation l l' ->
  forall x, In x (flat_map pts l) -> In x (flat_map pts l').
Proof.
  intros l l' H x Hx. apply in_flat_map in Hx. destruct Hx as (y & Hy & Hxy).
  apply in_flat_map. exists y. split; [|exact Hxy]. eapply Permutation_in; eauto.
Qed.

Section Enclosing.
(** What enclosing a point means; [fit] is only required to enclose the points
    it is given. *)
Variable inb : BV -> V -> Prop.
Hypothesis fit_encl : forall l x, In x l -> inb (fit l) x.

Definition encl (ps : nat -> list V) (bv : BV) (p : nat) : Prop :=
  forall x, In x (ps p) -> inb bv x.

Lemma build_rec_spec : forall fuel num bv_id first s,
  num <= fuel -> 1 <= num -> first + num <= length (b_prims s) ->
  bv_id < b_nb s -> b_nb s + 2 * (num - 1) <= length (b_bvs s) ->
  exists s' t, build_rec fuel bv_id first num s = Some s' /\
    b_nb s' = b_nb s + 2 * (num - 1) /\ length (b_bvs s') = length (b_bvs s) /\
    rearr first num (b_prims s) (b_prims s') /\
    tid t = bv_id /\ tleaves t = seg (b_prims s') first num /\
    Permutation (tids t) (bv_id :: seq (b_nb s) (2 * (num - 1))) /\
    (forall i, ~ In i (tids t) -> nth_error (b_bvs s') i = nth_error (b_bvs s) i) /\
    good (encl pts) (b_bvs s') t first.
Proof using fit_encl.
  induction fuel as [|fuel IH]; intros num bv_id first s Hfuel Hnum Hlen Hid Hcap; [lia|].
  cbn [build_rec].
  set (cur := seg (b_prims s) first num).
  assert (Hcur : length cur = num) by (apply seg_length; exact Hlen).
  destruct (Nat.eqb_spec num 1) as [H1|H1].
  - subst cur num. destruct (seg (b_prims s) first 1) as [|p [|q cur']] eqn:Ecur; cbn in Hcur; try lia.
    destruct (aset_some _ (b_bvs s) bv_id (Some (Node (fit (flat_map pts [p])) first 1 (- (Z.of_nat p + 1))%Z)))
      as (bvs' & Ha & Hal & Hai & Hao); [lia|].
    rewrite Ha. exists (Bst bvs' (b_nb s) (b_prims s)), (BLeaf bv_id p).
    cbn [b_bvs b_nb b_prims tid tleaves tids].
    split; [reflexivity|]. split; [lia|]. split; [exact Hal|].
    split. { repeat split; reflexivity. }
    split; [reflexivity|]. split; [symmetry; exact Ecur|].
    split; [reflexivity|].
    split. { intros i Hi. apply Hao. intros ->. apply Hi. left. reflexivity. }
    split; [|exact I]. exists (fit (flat_map pts [p])), (- (Z.of_nat p + 1))%Z.
    split. { unfold cell. cbn [tid]. rewrite Hai. reflexivity. }
    split; [|reflexivity]. intros q [<-|[]] x Hx. apply fit_encl. cbn [flat_map].
    apply in_or_app. left. exact Hx.
  - assert (Hn2 : 2 <= num) by lia.
    set (bv := fit (flat_map pts cur)).
    destruct (aset_some _ (b_bvs s) bv_id (Some (Node bv first num (Z.of_nat (b_nb s)))))
      as (bvs' & Ha & Hal & Hai & Hao); [lia|].
    rewrite Ha.
    set (pl := part_loop (split bv cur) [] [] cur).
    assert (Hperm : Permutation (fst pl) cur) by apply (part_loop_perm (split bv cur) cur [] []).
    assert (Hplen : length (fst pl) = num) by (rewrite (Permutation_length Hperm); exact Hcur).
    set (prims' := firstn first (b_prims s) ++ fst pl ++ skipn (first + num) (b_prims s)).
    set (c1 := cut (snd pl) num).
    assert (Hsnd : snd pl <= num).
    { pose proof (part_loop_le (split bv cur) cur [] []) as H. fold pl in H. cbn [length] in H. lia. }
    assert (Hc1 : 1 <= c1 <= num - 1) by (apply cut_bounds; lia).
    assert (Hpre : length (firstn first (b_prims s)) = first) by (rewrite firstn_length; lia).
    assert (Hpl' : length prims' = length (b_prims s)).
    { unfold prims'. rewrite !app_length, Hpre, Hplen, skipn_length. lia. }
    assert (Hrearr : rearr first num (b_prims s) prims').
    { split; [exact Hpl'|]. split; [|split].
      - unfold prims'. rewrite firstn_app_l by lia. rewrite firstn_firstn, Nat.min_id. reflexivity.
      - unfold prims'. rewrite app_assoc.
        rewrite skipn_app_r by (rewrite app_length; lia).
        rewrite app_length, Hpre, Hplen, Nat.sub_diag. reflexivity.
      - fold cur. unfold seg, prims'. rewrite skipn_app_r by lia.
        rewrite Hpre, Nat.sub_diag. cbn [skipn]. rewrite firstn_app_l by lia.
        rewrite <- Hplen, firstn_all. symmetry. exact Hperm. }
    set (s1 := Bst bvs' (b_nb s + 2) prims').
    destruct (IH c1 (b_nb s) first s1) as (s2 & tl & Hr2 & Hnb2 & Hbl2 & Hre2 & Htid2 & Htl2 & Hids2 & Hfr2 & Hg2);
      [lia|lia|unfold s1; cbn [b_prims]; lia|unfold s1; cbn [b_nb]; lia
      |unfold s1; cbn [b_nb b_bvs]; rewrite Hal; lia|].
    rewrite Hr2.
    destruct Hre2 as (Hre2a & Hre2b & Hre2c & Hre2d). cbn [b_prims b_nb b_bvs s1] in *.
    destruct (IH (num - c1) (S (b_nb s)) (first + c1) s2)
      as (s3 & tr & Hr3 & Hnb3 & Hbl3 & Hre3 & Htid3 & Htl3 & Hids3 & Hfr3 & Hg3);
      [lia|lia|lia|lia|rewrite Hbl2, Hal, Hnb2; lia|].
    rewrite Hr3.
    pose proof Hre3 as (Hre3a & Hre3b & Hre3c & Hre3d).
    (* the left segment is not touched by the right recursion *)
    assert (Hleftseg : seg (b_prims s3) first c1 = seg (b_prims s2) first c1)
      by (eapply rearr_seg_before; [exact Hre3|lia]).
    assert (Hidsl : forall i, In i (tids tl) -> i = b_nb s \/ b_nb s + 2 <= i < b_nb s2).
    { intros i Hi. apply (Permutation_in _ Hids2) in Hi. cbn [In] in Hi.
      destruct Hi as [<-|Hi]; [left; reflexivity|]. apply in_seq in Hi. right. lia. }
    assert (Hidsr : forall i, In i (tids tr) -> i = S (b_nb s) \/ b_nb s2 <= i < b_nb s3).
    { intros i Hi. apply (Permutation_in _ Hids3) in Hi. cbn [In] in Hi.
      destruct Hi as [<-|Hi]; [left; reflexivity|]. apply in_seq in Hi. right. lia. }
    assert (Hleaves : tleaves tl ++ tleaves tr = seg (b_prims s3) first num).
    { rewrite Htl2, Htl3, <- Hleftseg. rewrite <- seg_split. f_equal. lia. }
    assert (Hsegperm : Permutation cur (seg (b_prims s3) first num)).
    { transitivity (seg prims' first num); [apply Hrearr|].
      replace num with (c1 + (num - c1)) by lia. rewrite !seg_split.
      apply Permutation_app.
      - rewrite Hre2d, Hleftseg. reflexivity.
      - rewrite <- Hre3d. erewrite (rearr_seg_after first c1 prims' (b_prims s2));
          [reflexivity| |lia]. repeat split; assumption. }
    exists s3, (BNode bv_id tl tr).
    split; [reflexivity|]. split; [lia|]. split; [rewrite Hbl3, Hbl2; exact Hal|].
    split.
    { split; [lia|]. split; [|split].
      - rewrite <- (proj1 (proj2 Hrearr)), <- Hre2b.
        assert (E : forall q : list nat, firstn first q = firstn first (firstn (first + c1) q))
          by (intros q; rewrite firstn_firstn, Nat.min_l by lia; reflexivity).
        rewrite (E (b_prims s3)), Hre3b, <- E. reflexivity.
      - replace (first + num) with ((first + c1) + (num - c1)) by lia.
        rewrite Hre3c. replace (first + c1 + (num - c1)) with ((first + c1) + (num - c1)) by lia.
        rewrite <- (skipn_add _ (b_prims s2)), Hre2c, skipn_add.
        replace (first + c1 + (num - c1)) with (first + num) by lia. apply Hrearr.
      - exact Hsegperm. }
    split; [reflexivity|]. split; [exact Hleaves|].
    split.
    { cbn [tids]. constructor. rewrite Hids2, Hids3, Hnb2.
      replace (2 * (num - 1)) with (2 + (2 * (c1 - 1) + 2 * (num - c1 - 1))) by lia.
      rewrite (seq_app 2). cbn [seq app]. rewrite seq_app.
      constructor. rewrite <- Permutation_middle. constructor. reflexivity. }
    split.
    { intros i Hi. rewrite Hfr3, Hfr2.
      - apply Hao. intros ->. apply Hi. left. reflexivity.
      - intros H. apply Hi. right. apply in_or_app. auto.
      - intros H. apply Hi. right. apply in_or_app. auto. }
    split.
    + exists bv, (Z.of_nat (b_nb s)).
      split.
      { unfold cell. cbn [tid tleaves]. rewrite Hfr3, Hfr2.
        - rewrite Hai. rewrite Hleaves, seg_length by lia. reflexivity.
        - intros H. apply Hidsl in H. lia.
        - intros H. apply Hidsr in H. lia. }
      split.
      { cbn [tleaves]. rewrite Hleaves. intros p Hp x Hx. apply fit_encl.
        apply in_flat_map. exists p. split; [|exact Hx].
        eapply Permutation_in; [symmetry; exact Hsegperm|exact Hp]. }
      split; [rewrite Htid2; reflexivity|]. rewrite Htid2, Htid3. reflexivity.
    + split.
      * eapply good_frame; [|exact Hg2]. intros i Hi. apply Hfr3. intros Hi'.
        apply Hidsl in Hi. apply Hidsr in Hi'. lia.
      * replace (length (tleaves tl)) with c1; [exact Hg3|].
        rewrite Htl2, seg_length by lia. reflexivity.
Qed.

End Enclosing.

(** ** Refitting *)

(** recursiveRefitTree_bottomup (960-1024). *)
Fixpoint refit_up (fuel : nat) (i : nat) (bvs : list (option node)) : option (list (option node)) :=
  match fuel with
  | O => None
  | S fuel' =>
      match cell bvs i with
      | None => None
      | Some n =>
          if is_leaf n then
            aset bvs i (Some (Node (fit (pts (prim_id n))) (n_first n) (n_num n) (n_child n)))
          else
            match refit_up fuel' (left_child n) bvs with
            | None => None
            | Some b1 =>
                match refit_up fuel' (right_child n) b1 with
                | None => None
                | Some b2 =>
                    match cell b2 (left_child n), cell b2 (right_child n) with
                    | Some nl, Some nr =>
                        aset b2 i (Some (Node (plus (n_bv nl) (n_bv nr)) (n_first n) (n_num n) (n_child n)))
                    | _, _ => None
                    end
                end
            end
      end
  end.

(** One step of the loop of refitTree_topdown (1067-1071). *)
Definition refit_one (prims : list nat) (bvs : list (option node)) (i : nat) : option (list (option node)) :=
  match cell bvs i with
  | None => None
  | Some n =>
      aset bvs i (Some (Node (fit (flat_map pts (seg prims (n_first n) (n_num n))))
                             (n_first n) (n_num n) (n_child n)))
  end.

Fixpoint refit_loop (prims : list nat) (is : list nat) (bvs : list (option node)) : option (list (option node)) :=
  match is with
  | [] => Some bvs
  | i :: is' => match refit_one prims bvs i with
                | None => None
                | Some b => refit_loop prims is' b
                end
  end.

(** refitTree_topdown: all nodes, in index order. *)
Definition refit_down (prims : list nat) (nb : nat) (bvs : list (option node)) : option (list (option node)) :=
  refit_loop prims (seq 0 nb) bvs.

(** Depth of a tree, the fuel needed by [refit_up]. *)
Fixpoint depth (t : btree) : nat :=
  match t with BLeaf _ _ => 1 | BNode _ l r => S (Nat.max (depth l) (depth r)) end.

Lemma depth_le : forall t, depth t <= length (tleaves t).
Proof.
  induction t as [i p|i l IHl r IHr]; cbn [depth tleaves]; [cbn; lia|].
  rewrite app_length. pose proof (tleaves_pos l). pose proof (tleaves_pos r). lia.
Qed.

Lemma cell_lt : forall bvs i n, cell bvs i = Some n -> i < length bvs.
Proof.
  intros bvs i n H. unfold cell in H. apply nth_error_Some. destruct (nth_error bvs i); congruence.
Qed.

Section RefitEncl.
Variable inb : BV -> V -> Prop.
Hypothesis fit_encl : forall l x, In x l -> inb (fit l) x.
Hypothesis plus_l : forall a b x, inb a x -> inb (plus a b) x.
Hypothesis plus_r : forall a b x, inb b x -> inb (plus a b) x.

Lemma refit_up_spec : forall t E bvs first fuel,
  NoDup (tids t) -> depth t <= fuel -> good E bvs t first ->
  exists bvs', refit_up fuel (tid t) bvs = Some bvs' /\ length bvs' = length bvs /\
    (forall i, ~ In i (tids t) -> nth_error bvs' i = nth_error bvs i) /\
    good (encl inb pts) bvs' t first.
Proof using fit_encl plus_l plus_r.
  induction t as [i p|i l IHl r IHr]; intros E bvs first fuel Hnd Hfuel [Hc Hs].
  - destruct fuel as [|fuel]; [cbn in Hfuel; lia|]. cbn [refit_up tid].
    destruct Hc as (bv & ch & Hcell & Hin & ->). cbn [tid] in Hcell.
    rewrite Hcell. unfold is_leaf. cbn [n_child].
    destruct (Z.ltb_spec (- (Z.of_nat p + 1)) 0) as [_|H]; [|lia].
    destruct (aset_some _ bvs i (Some (Node (fit (pts (prim_id (Node bv first (length (tleaves (BLeaf i p))) (- (Z.of_nat p + 1))))))
        first 1 (- (Z.of_nat p + 1))))) as (bvs' & Ha & Hal & Hai & Hao); [eapply cell_lt; eauto|].
    cbn [n_first n_num tleaves length] in *. rewrite Ha.
    exists bvs'. split; [reflexivity|]. split; [exact Hal|].
    split. { intros j Hj. apply Hao. intros ->. apply Hj. left. reflexivity. }
    split; [|exact I].
    eexists _, _. split; [unfold cell; cbn [tid]; rewrite Hai; reflexivity|].
    split; [|reflexivity]. intros q [<-|[]] x Hx. apply fit_encl.
    unfold prim_id. cbn [n_child].
    replace (- (- (Z.of_nat p + 1) + 1))%Z with (Z.of_nat p) by lia. rewrite Nat2Z.id. exact Hx.
  - destruct fuel as [|fuel]; [cbn in Hfuel; lia|]. cbn [refit_up].
    destruct Hc as (bv & ch & Hcell & Hin & Hch & Hadj). destruct Hs as [Hgl Hgr].
    cbn [tid] in *. rewrite Hcell. unfold is_leaf, left_child, right_child. cbn [n_child n_first n_num].
    subst ch. destruct (Z.ltb_spec (Z.of_nat (tid l)) 0) as [H|_]; [lia|].
    rewrite Nat2Z.id. replace (Z.to_nat (Z.of_nat (tid l) + 1)) with (tid r) by lia.
    cbn [tids] in Hnd. inversion Hnd as [|? ? Hni Hnd']; subst.
    cbn [depth] in Hfuel.
    assert (Hdisj : forall j, In j (tids l) -> In j (tids r) -> False).
    { intros j Hj1 Hj2. clear -Hnd' Hj1 Hj2. induction (tids l) as [|a q IH]; [contradiction|].
      cbn [app] in Hnd'. inversion Hnd' as [|? ? Hn Hd]; subst. destruct Hj1 as [->|Hj1].
      - apply Hn. apply in_or_app. auto.
      - apply IH; auto. }
    assert (Hndl : NoDup (tids l)).
    { clear -Hnd'. induction (tids l) as [|a q IH]; [constructor|].
      cbn [app] in Hnd'. inversion Hnd' as [|? ? Hn Hd]; subst. constructor; [|auto].
      intros H. apply Hn. apply in_or_app. auto. }
    assert (Hndr : NoDup (tids r)).
    { clear -Hnd'. induction (tids l) as [|a q IH]; [exact Hnd'|].
      cbn [app] in Hnd'. inversion Hnd' as [|? ? Hn Hd]; subst. auto. }
    destruct (IHl E bvs first fuel) as (b1 & Hr1 & Hl1 & Hf1 & Hg1); [assumption|lia|assumption|].
    rewrite Hr1.
    assert (Hgr1 : good E b1 r (first + length (tleaves l))).
    { eapply good_frame; [|exact Hgr]. intros j Hj. apply Hf1. intros Hj'. eapply Hdisj; eauto. }
    destruct (IHr E b1 (first + length (tleaves l)) fuel) as (b2 & Hr2 & Hl2 & Hf2 & Hg2); [assumption|lia|assumption|].
    rewrite Hr2.
    assert (Hgl2 : good (encl inb pts) b2 l first).
    { eapply good_frame; [|exact Hg1]. intros j Hj. apply Hf2. intros Hj'. eapply Hdisj; eauto. }
    assert (Hcl : exists bl cl, cell b2 (tid l) = Some (Node bl first (length (tleaves l)) cl) /\
                  (forall p, In p (tleaves l) -> encl inb pts bl p)).
    { destruct l; destruct Hgl2 as [(bl & cl & H1 & H2 & _) _]; eauto. }
    assert (Hcr : exists br cr, cell b2 (tid r) = Some (Node br (first + length (tleaves l)) (length (tleaves r)) cr) /\
                  (forall p, In p (tleaves r) -> encl inb pts br p)).
    { destruct r; destruct Hg2 as [(br & cr & H1 & H2 & _) _]; eauto. }
    destruct Hcl as (bl & cl & Hcl & Hil). destruct Hcr as (br & cr & Hcr & Hir).
    rewrite Hcl, Hcr. cbn [n_bv].
    destruct (aset_some _ b2 i (Some (Node (plus bl br) first (length (tleaves (BNode i l r))) (Z.of_nat (tid l)))))
      as (b3 & Ha & Hal & Hai & Hao); [rewrite Hl2, Hl1; eapply cell_lt; eauto|].
    rewrite Ha. exists b3. split; [reflexivity|]. split; [lia|].
    split.
    { intros j Hj. rewrite Hao, Hf2, Hf1; [reflexivity| | |].
      - intros H. apply Hj. cbn [tids]. right. apply in_or_app. auto.
      - intros H. apply Hj. cbn [tids]. right. apply in_or_app. auto.
      - intros ->. apply Hj. left. reflexivity. }
    split.
    + eexists _, _. split; [unfold cell; cbn [tid]; rewrite Hai; reflexivity|].
      split; [|split; [reflexivity|exact Hadj]].
      cbn [tleaves]. intros p Hp x Hx. apply in_app_or in Hp. destruct Hp as [Hp|Hp].
      * apply plus_l. eapply Hil; eauto.
      * apply plus_r. eapply Hir; eauto.
    + split.
      * eapply good_frame; [|exact Hgl2]. intros j Hj. apply Hao. intros ->. apply Hni. apply in_or_app. auto.
      * eapply good_frame; [|exact Hg2]. intros j Hj. apply Hao. intros ->. apply Hni. apply in_or_app. auto.
Qed.

(** Node-wise description of [good] used for the top-down refit. *)
Lemma good_cell : forall E bvs t first, good E bvs t first ->
  forall i, In i (tids t) -> exists n, cell bvs i = Some n.
Proof.
  intros E bvs t. induction t as [j p|j l IHl r IHr]; intros first [Hc Hs] i Hi.
  - destruct Hi as [<-|[]]. destruct Hc as (bv & ch & H & _). eauto.
  - destruct Hi as [<-|Hi]; [destruct Hc as (bv & ch & H & _); eauto|].
    destruct Hs as [Hl Hr]. apply in_app_or in Hi. destruct Hi as [Hi|Hi]; eauto.
Qed.

(** The loop over distinct existing nodes: every visited node is refitted once,
    keeping its structure fields; the others keep their cells. *)
Lemma refit_loop_spec : forall prims is bvs,
  NoDup is -> (forall i, In i is -> exists n, cell bvs i = Some n) ->
  exists bvs', refit_loop prims is bvs = Some bvs' /\ length bvs' = length bvs /\
    (forall i, ~ In i is -> nth_error bvs' i = nth_error bvs i) /\
    (forall i n, In i is -> cell bvs i = Some n ->
      cell bvs' i = Some (Node (fit (flat_map pts (seg prims (n_first n) (n_num n))))
                               (n_first n) (n_num n) (n_child n))).
Proof.
  intros prims is. induction is as [|i is IH]; intros bvs Hnd Hc.
  - exists bvs. cbn [refit_loop]. repeat split; auto. intros i n [].
  - inversion Hnd as [|? ? Hni Hnd']; subst. cbn [refit_loop]. unfold refit_one.
    destruct (Hc i (or_introl eq_refl)) as (n & Hn). rewrite Hn.
    destruct (aset_some _ bvs i (Some (Node (fit (flat_map pts (seg prims (n_first n) (n_num n))))
                             (n_first n) (n_num n) (n_child n)))) as (b & Ha & Hal & Hai & Hao);
      [eapply cell_lt; eauto|].
    rewrite Ha.
    destruct (IH b) as (b' & Hr & Hl & Hf & Hv); [assumption| |].
    { intros j Hj. destruct (Hc j (or_intror Hj)) as (m & Hm). exists m. unfold cell.
      rewrite Hao; [exact Hm|]. intros ->. contradiction. }
    exists b'. split; [exact Hr|]. split; [lia|]. split.
    + intros j Hj. rewrite Hf, Hao; [reflexivity| |]; intros H; apply Hj; [left; congruence|right; exact H].
    + intros j m [<-|Hj] Hm.
      * rewrite Hn in Hm. injection Hm as <-. unfold cell. rewrite Hf by assumption. rewrite Hai. reflexivity.
      * apply Hv; [assumption|]. unfold cell. rewrite Hao; [exact Hm|]. intros ->. contradiction.
Qed.

Lemma good_refit_down : forall prims t E bvs bvs' first,
  good E bvs t first -> tleaves t = seg prims first (length (tleaves t)) ->
  (forall i n, In i (tids t) -> cell bvs i = Some n ->
      cell bvs' i = Some (Node (fit (flat_map pts (seg prims (n_first n) (n_num n))))
                               (n_first n) (n_num n) (n_child n))) ->
  good (encl inb pts) bvs' t first.
Proof using fit_encl.
  intros prims t. induction t as [i p|i l IHl r IHr]; intros E bvs bvs' first [Hc Hs] Hseg Hv.
  - split; [|exact I]. destruct Hc as (bv & ch & Hcell & Hin & Hch).
    eexists _, _. split; [apply (fun H => Hv _ _ H Hcell); left; reflexivity|].
    split; [|exact Hch]. intros q Hq x Hx. apply fit_encl. cbn [n_first n_num].
    apply in_flat_map. exists q. split; [|exact Hx]. rewrite <- Hseg. exact Hq.
  - destruct Hs as [Hl Hr]. split.
    + destruct Hc as (bv & ch & Hcell & Hin & Hch).
      eexists _, _. split; [apply (fun H => Hv _ _ H Hcell); left; reflexivity|].
      split; [|exact Hch]. intros q Hq x Hx. apply fit_encl. cbn [n_first n_num].
      apply in_flat_map. exists q. split; [|exact Hx]. rewrite <- Hseg. exact Hq.
    + cbn [tleaves] in Hseg. rewrite app_length, seg_split in Hseg.
      assert (Hlen : length (tleaves l) = length (seg prims first (length (tleaves l)))).
      { assert (H : length (seg prims first (length (tleaves l))) <= length (tleaves l))
          by (unfold seg; rewrite firstn_length; lia).
        assert (H' : length (seg prims (first + length (tleaves l)) (length (tleaves r))) <= length (tleaves r))
          by (unfold seg; rewrite firstn_length; lia).
        apply (f_equal (@length nat)) in Hseg. rewrite !app_length in Hseg. lia. }
      assert (Hparts : tleaves l = seg prims first (length (tleaves l)) /\
                       tleaves r = seg prims (first + length (tleaves l)) (length (tleaves r))).
      { apply app_inj_len; [exact Hseg|exact Hlen]. }
      destruct Hparts as [Hp1 Hp2]. split.
      * eapply IHl; [exact Hl|exact Hp1|]. intros j n Hj. apply Hv. right. apply in_or_app. auto.
      * eapply IHr; [exact Hr|exact Hp2|]. intros j n Hj. apply Hv. right. apply in_or_app. auto.
Qed.

End RefitEncl.

End Bvh.

Arguments Node {BV}.
Arguments n_bv {BV}. Arguments n_first {BV}. Arguments n_num {BV}. Arguments n_child {BV}.
Arguments Bst {BV}. Arguments b_bvs {BV}. Arguments b_nb {BV}. Arguments b_prims {BV}.
Arguments cell {BV}. Arguments good {BV}. Arguments encl {V BV}.
Arguments build {V BV}. Arguments build_rec {V BV}. Arguments refit_up {V BV}. Arguments refit_down {V BV}.
Arguments is_leaf {BV}. Arguments prim_id {BV}. Arguments left_child {BV}. Arguments right_child {BV}.
