(** detail::IntervalTree: a red-black tree of intervals augmented with the largest upper end
    (include/fcl/broadphase/detail/interval_tree-inl.h).

    The pointer tree is modelled by its shape; the code walks up through parent pointers,
    which is a zipper here.  The shared sentinel [nil] has a colour that the code reads and
    writes: it is the boolean [nilred].  Rotating a node around a missing child overwrites the
    sentinel's links and unlinks the node's subtree: that outcome is [None]. *)
From Coq Require Import ZArith List Bool Lia Permutation Arith Sorted.
Import ListNotations.
Local Open Scope Z_scope.

(** IntervalTreeNode: colour, key = low end, high end, max_high, identity of stored_interval. *)
Record nd := Nd { n_red : bool; n_key : Z; n_high : Z; n_max : Z; n_iv : nat }.
Inductive itree := INil | INode (d : nd) (l r : itree).
(** A step of the way up: the focus is the left (right) child of the node [d]. *)
Inductive frame := FL (d : nd) (r : itree) | FR (d : nd) (l : itree).
Notation path := (list frame).

Definition set_red (c : bool) (d : nd) : nd := Nd c (n_key d) (n_high d) (n_max d) (n_iv d).
Definition set_max (m : Z) (d : nd) : nd := Nd (n_red d) (n_key d) (n_high d) m (n_iv d).
Definition paint (c : bool) (t : itree) : itree :=
  match t with INil => INil | INode d l r => INode (set_red c d) l r end.
(** node->red, for the sentinel its current colour. *)
Definition redt (nilred : bool) (t : itree) : bool := match t with INil => nilred | INode d _ _ => n_red d end.
(** node->red = c: effect on the sentinel's colour when the node is the sentinel. *)
Definition nil_paint (c nilred : bool) (t : itree) : bool := match t with INil => c | _ => nilred end.
Definition fdata (f : frame) : nd := match f with FL d _ | FR d _ => d end.
Definition fset_red (c : bool) (f : frame) : frame :=
  match f with FL d r => FL (set_red c d) r | FR d l => FR (set_red c d) l end.
Definition plug1 (t : itree) (f : frame) : itree :=
  match f with FL d r => INode d t r | FR d l => INode d l t end.
Definition plug (t : itree) (p : path) : itree := fold_left plug1 p t.

Section Tree.
  (** numeric_limits<double>::max(); the sentinel's max_high is [- MX]. *)
  Variable MX : Z.
  Definition imax (t : itree) : Z := match t with INil => - MX | INode d _ _ => n_max d end.
  (** max(high, left->max_high, right->max_high) *)
  Definition remax (d : nd) (l r : itree) : nd := set_max (Z.max (n_high d) (Z.max (imax l) (imax r))) d.
  Definition mk (d : nd) (l r : itree) : itree := INode (remax d l r) l r.

  (** leftRotate, rightRotate: interval_tree-inl.h:113-161. *)
  Definition lrot (t : itree) : option itree :=
    match t with
    | INode x a (INode y b c) => Some (mk y (mk x a b) c)
    | _ => None
    end.
  Definition rrot (t : itree) : option itree :=
    match t with
    | INode y (INode x a b) c => Some (mk x a (mk y b c))
    | _ => None
    end.

  (** recursiveInsert: the way down, interval_tree-inl.h:165-187. *)
  Fixpoint descend (key : Z) (t : itree) (p : path) : path :=
    match t with
    | INil => p
    | INode d l r => if key <? n_key d then descend key l (FL d r :: p) else descend key r (FR d l :: p)
    end.
  (** fixupMaxHigh from the parent of the focus, interval_tree-inl.h:191-199. *)
  Fixpoint fixup_max (t : itree) (p : path) : path :=
    match p with
    | [] => []
    | FL d r :: p' => FL (remax d t r) r :: fixup_max (mk d t r) p'
    | FR d l :: p' => FR (remax d l t) l :: fixup_max (mk d l t) p'
    end.

  (** The rebalancing loop of insert, interval_tree-inl.h:214-264, with the focus on x.  In the
      first branch the parent and the uncle are painted red (216-222), as the code has it. *)
  Fixpoint ins_fix (nilred : bool) (t : itree) (p : path) : option (itree * bool) :=
    match p with
    | [] => Some (t, nilred)
    | f1 :: p1 =>
        if n_red (fdata f1) then
          match p1 with
          | [] => None  (* grandparent is the root sentinel *)
          | FL g u :: rest =>
              if redt nilred u then
                ins_fix (nil_paint true nilred u)
                  (INode (set_red true g) (plug1 t (fset_red true f1)) (paint true u)) rest
              else
                let lp := match f1 with
                          | FL pd s => Some (INode pd t s)
                          | FR pd s => lrot (INode pd s t)
                          end in
                match lp with
                | None => None
                | Some lp' =>
                    match rrot (INode (set_red true g) (paint false lp') u) with
                    | None => None
                    | Some t' => Some (plug t' rest, nilred)
                    end
                end
          | FR g u :: rest =>
              if redt nilred u then
                ins_fix (nil_paint false nilred u)
                  (INode (set_red true g) (paint false u) (plug1 t (fset_red false f1))) rest
              else
                let lp := match f1 with
                          | FR pd s => Some (INode pd s t)
                          | FL pd s => rrot (INode pd t s)
                          end in
                match lp with
                | None => None
                | Some lp' =>
                    match lrot (INode (set_red true g) u (paint false lp')) with
                    | None => None
                    | Some t' => Some (plug t' rest, nilred)
                    end
                end
          end
        else Some (plug t p, nilred)
    end.

  (** The tree and the colour of the sentinel. *)
  Definition ist := (itree * bool)%type.
  (** insert, interval_tree-inl.h:203-268. *)
  Definition i_insert (key high : Z) (iv : nat) (s : ist) : option ist :=
    let (t, nilred) := s in
    let z := INode (Nd true key high high iv) INil INil in
    match ins_fix nilred z (fixup_max z (descend key t [])) with
    | None => None
    | Some (t', nr) => Some (paint false t', nr)
    end.

  (** recursiveSearch (preorder, by identity of the interval), interval_tree-inl.h:428-444. *)
  Fixpoint search (iv : nat) (t : itree) (p : path) : option (nd * itree * itree * path) :=
    match t with
    | INil => None
    | INode d l r =>
        if Nat.eqb (n_iv d) iv then Some (d, l, r, p)
        else match search iv l (FL d r :: p) with
             | Some x => Some x
             | None => search iv r (FR d l :: p)
             end
    end.

  (** The last part of deleteFixup for a left child x with parent [pd] and sibling [w] not
      having two black children, interval_tree-inl.h:365-377: the new subtree in place of
      the parent. *)
  Definition del_rot_l (nilred : bool) (x : itree) (pd : nd) (w : itree) : option (itree * bool) :=
    match w with
    | INil => None
    | INode wd wl wr =>
        let w' :=
          if redt nilred wr then Some (w, nilred)
          else match rrot (INode (set_red true wd) (paint false wl) wr) with
               | None => None
               | Some w' => Some (w', nilred)
               end in
        match w' with
        | Some (INode wd' wl' wr', nr) =>
            match lrot (INode (set_red false pd) x (INode (set_red (n_red pd) wd') wl' (paint false wr'))) with
            | None => None
            | Some t => Some (t, nil_paint false nr wr')
            end
        | _ => None
        end
    end.
  (** The mirror image, interval_tree-inl.h:392-404. *)
  Definition del_rot_r (nilred : bool) (x : itree) (pd : nd) (w : itree) : option (itree * bool) :=
    match w with
    | INil => None
    | INode wd wl wr =>
        let w' :=
          if redt nilred wl then Some (w, nilred)
          else match lrot (INode (set_red true wd) wl (paint false wr)) with
               | None => None
               | Some w' => Some (w', nilred)
               end in
        match w' with
        | Some (INode wd' wl' wr', nr) =>
            match rrot (INode (set_red false pd) (INode (set_red (n_red pd) wd') (paint false wl') wr') x) with
            | None => None
            | Some t => Some (t, nil_paint false nr wl')
            end
        | _ => None
        end
    end.
  (** w->right->red, w->left->red both black (the sentinel's children are the sentinel). *)
  Definition kids_black (nilred : bool) (w : itree) : bool :=
    match w with
    | INil => negb nilred
    | INode _ wl wr => negb (redt nilred wr) && negb (redt nilred wl)
    end.
  (** [x = root_left_node; x->red = false] at the end of the loop: the topmost node. *)
  Fixpoint top_black (p : path) : path :=
    match p with
    | [] => []
    | [f] => [fset_red false f]
    | f :: p' => f :: top_black p'
    end.

  (** deleteFixup, interval_tree-inl.h:340-413, focus on x.  After the first rotation of an
      iteration the parent is red, so whichever branch follows the loop ends in that
      iteration. *)
  Fixpoint del_fix (nilred : bool) (x : itree) (p : path) : option (itree * bool) :=
    if redt nilred x then Some (plug (paint false x) p, nil_paint false nilred x)
    else
      match p with
      | [] => Some (paint false x, nil_paint false nilred x)
      | FL pd w :: rest =>
          if redt nilred w then
            (* w red: leftRotate(x->parent), 350-356 *)
            match lrot (INode (set_red true pd) x (paint false w)) with
            | Some (INode wd (INode pd' x' w2) wr) =>
                if kids_black nilred w2 then
                  (* w->red = true; x = x->parent, which is red: the loop ends and paints it black *)
                  Some (plug (INode wd (INode (set_red false pd') x' (paint true w2)) wr) rest,
                        nil_paint true nilred w2)
                else
                  match del_rot_l nilred x' pd' w2 with
                  | None => None
                  | Some (t, nr) => Some (plug (INode wd t wr) (top_black rest), nr)
                  end
            | _ => None
            end
          else if kids_black nilred w then
            del_fix (nil_paint true nilred w) (INode pd x (paint true w)) rest
          else
            match del_rot_l nilred x pd w with
            | None => None
            | Some (t, nr) => Some (plug t (top_black rest), nr)
            end
      | FR pd w :: rest =>
          if redt nilred w then
            match rrot (INode (set_red true pd) (paint false w) x) with
            | Some (INode wd wl (INode pd' w2 x')) =>
                if kids_black nilred w2 then
                  Some (plug (INode wd wl (INode (set_red false pd') (paint true w2) x')) rest,
                        nil_paint true nilred w2)
                else
                  match del_rot_r nilred x' pd' w2 with
                  | None => None
                  | Some (t, nr) => Some (plug (INode wd wl t) (top_black rest), nr)
                  end
            | _ => None
            end
          else if kids_black nilred w then
            del_fix (nil_paint true nilred w) (INode pd (paint true w) x) rest
          else
            match del_rot_r nilred x pd w with
            | None => None
            | Some (t, nr) => Some (plug t (top_black rest), nr)
            end
      end.

  (** getSuccessor in the right subtree: leftmost node, its right child and the way to it,
      interval_tree-inl.h:272-284. *)
  Fixpoint leftmost (d : nd) (l r : itree) (p : path) : nd * itree * path :=
    match l with
    | INil => (d, r, p)
    | INode d' l' r' => leftmost d' l' r' (FL d r :: p)
    end.

  (** deleteNode(interval), interval_tree-inl.h:417-424, 448-504.  An interval that is not
      stored makes the code delete the sentinel: [None]. *)
  Definition i_delete (iv : nat) (s : ist) : option ist :=
    let (t, nilred) := s in
    match search iv t [] with
    | None => None
    | Some (z, l, r, p) =>
        match l, r with
        | INode _ _ _, INode rd rl rr =>
            let '(y, x, q) := leftmost rd rl rr [] in
            let p' := q ++ FR (set_red (n_red z) y) l :: p in
            let p'' := fixup_max x p' in
            if n_red y then Some (plug x p'', nilred) else del_fix nilred x p''
        | _, _ =>
            let x := match l with INil => r | _ => l end in
            let p'' := fixup_max x p in
            if n_red z then Some (plug x p'', nilred) else del_fix nilred x p''
        end
    end.

  (** overlap(a1, a2, b1, b2), interval_tree-inl.h:508-519. *)
  Definition iv_overlap (a1 a2 b1 b2 : Z) : bool := if a1 <=? b1 then b1 <=? a2 else a1 <=? b2.

  (** query, interval_tree-inl.h:523-572.  recursion_node_stack above slot 0 is a list, top
      first, of start_node (its right child) and try_right_branch; [current_parent] is always
      the topmost slot when it is used, so setting its flag sets the head's. *)
  Definition flag (c : bool) (st : list (itree * bool)) : list (itree * bool) :=
    match st with (r, b) :: s => (r, c || b) :: s | [] => [] end.
  (** The popping loop, 559-569: back to a pending right branch; [c]: the parent's flag is being
      set. *)
  Fixpoint pop (c : bool) (st : list (itree * bool)) : option (itree * list (itree * bool)) :=
    match st with
    | [] => None
    | (r, b) :: s =>
        if c || b then match r with INil => pop true s | _ => Some (r, flag true s) end
        else pop false s
    end.
  Fixpoint qloop (fuel : nat) (low high : Z) (x : itree) (st : list (itree * bool)) (acc : list nat)
    : option (list nat) :=
    match fuel with
    | O => None
    | S f =>
        match x with
        | INil => match pop false st with None => Some acc | Some (x', st') => qloop f low high x' st' acc end
        | INode d l r =>
            let hit := iv_overlap low high (n_key d) (n_high d) in
            let acc' := if hit then acc ++ [n_iv d] else acc in
            let st' := flag hit st in
            if low <=? imax l then qloop f low high l ((r, false) :: st') acc'
            else qloop f low high r st' acc'
        end
    end.
  Fixpoint isize (t : itree) : nat := match t with INil => 1 | INode _ l r => S (isize l + isize r) end.
  Definition i_query (low high : Z) (s : ist) : option (list nat) :=
    qloop (isize (fst s) + 1) low high (fst s) [] [].
End Tree.

(** Histories. *)
Inductive iop := IIns (key high : Z) (iv : nat) | IDel (iv : nat).
Definition i_step (MX : Z) (s : option ist) (op : iop) : option ist :=
  match s with
  | None => None
  | Some s => match op with IIns k h iv => i_insert MX k h iv s | IDel iv => i_delete MX iv s end
  end.
Definition i_run (MX : Z) (ops : list iop) : option ist := fold_left (i_step MX) ops (Some (INil, false)).


(** * Contents *)
Definition item (d : nd) : nat * (Z * Z) := (n_iv d, (n_key d, n_high d)).
Fixpoint elems (t : itree) : list (nat * (Z * Z)) :=
  match t with INil => [] | INode d l r => elems l ++ item d :: elems r end.
Definition ekey (e : nat * (Z * Z)) : Z := fst (snd e).
Definition ehigh (e : nat * (Z * Z)) : Z := snd (snd e).
Fixpoint before (p : path) : list (nat * (Z * Z)) :=
  match p with [] => [] | FL d r :: p' => before p' | FR d l :: p' => before p' ++ elems l ++ [item d] end.
Fixpoint after (p : path) : list (nat * (Z * Z)) :=
  match p with [] => [] | FL d r :: p' => item d :: elems r ++ after p' | FR d l :: p' => after p' end.

Lemma elems_plug p : forall t, elems (plug t p) = before p ++ elems t ++ after p.
Proof.
  induction p as [|f p IH]; intros t; cbn; [now rewrite app_nil_r|].
  unfold plug in *. cbn. rewrite IH. destruct f; cbn.
  - now rewrite <- !app_assoc.
  - now rewrite <- !app_assoc.
Qed.
Lemma item_set_red c d : item (set_red c d) = item d.
Proof. reflexivity. Qed.
Lemma item_set_max c d : item (set_max c d) = item d.
Proof. reflexivity. Qed.
Lemma elems_paint c t : elems (paint c t) = elems t.
Proof. destruct t; reflexivity. Qed.

Lemma NoDup_app_parts {A} (l1 l2 : list A) : NoDup (l1 ++ l2) ->
  NoDup l1 /\ NoDup l2 /\ (forall x, In x l1 -> ~ In x l2).
Proof.
  induction l1 as [|a l1 IH]; cbn; intros H; [split; [constructor|auto]|].
  apply NoDup_cons_iff in H as [N H]. destruct (IH H) as (A1 & A2 & A3). rewrite in_app_iff in N.
  split; [constructor; tauto|]. split; auto. intros x [<-|Hx]; auto.
Qed.
Section Proofs.
  Variable MX : Z.
  Notation imax := (imax MX). Notation mk := (mk MX).
  Fixpoint maxl (l : list (nat * (Z * Z))) : Z := match l with [] => - MX | e :: l' => Z.max (ehigh e) (maxl l') end.
  (** Every node's max_high is the largest high end below it. *)
  Fixpoint mok (t : itree) : Prop :=
    match t with
    | INil => True
    | INode d l r => n_max d = Z.max (n_high d) (Z.max (imax l) (imax r)) /\ mok l /\ mok r
    end.
  Fixpoint pok (m : Z) (p : path) : Prop :=
    match p with
    | [] => True
    | FL d r :: p' => n_max d = Z.max (n_high d) (Z.max m (imax r)) /\ mok r /\ pok (n_max d) p'
    | FR d l :: p' => n_max d = Z.max (n_high d) (Z.max (imax l) m) /\ mok l /\ pok (n_max d) p'
    end.
  Lemma maxl_lb l : - MX <= maxl l.
  Proof. induction l; cbn; lia. Qed.
  Lemma maxl_app_eq a b : maxl (a ++ b) = Z.max (maxl a) (maxl b).
  Proof. induction a; cbn; [pose proof (maxl_lb b); lia|lia]. Qed.
  Lemma imax_maxl t : mok t -> imax t = maxl (elems t).
  Proof.
    induction t as [|d l IHl r IHr]; cbn; auto. intros (H & Hl & Hr).
    rewrite maxl_app_eq. cbn. rewrite <- IHl, <- IHr by auto. unfold ehigh; cbn. lia.
  Qed.
  Lemma mok_plug p : forall t, mok (plug t p) <-> mok t /\ pok (imax t) p.
  Proof.
    induction p as [|f p IH]; intros t; cbn; [tauto|].
    unfold plug in *; cbn. rewrite IH. destruct f; cbn; tauto.
  Qed.
  Lemma mok_mk d l r : mok l -> mok r -> mok (mk d l r).
  Proof. cbn. auto. Qed.
  Lemma elems_mk d l r : elems (mk d l r) = elems l ++ item d :: elems r.
  Proof. reflexivity. Qed.
  Lemma mok_paint c t : mok (paint c t) <-> mok t.
  Proof. destruct t; cbn; tauto. Qed.
  Lemma imax_paint c t : imax (paint c t) = imax t.
  Proof. destruct t; reflexivity. Qed.
  Lemma imax_node d l r : imax (INode d l r) = n_max d.
  Proof. reflexivity. Qed.
  Lemma pok_ext m m' p : m = m' -> pok m p -> pok m' p.
  Proof. intros ->; auto. Qed.

  Lemma lrot_elems t t' : lrot MX t = Some t' -> elems t' = elems t.
  Proof.
    destruct t as [|x a [|y b c]]; cbn; try discriminate. intros [= <-]. cbn. now rewrite <- app_assoc.
  Qed.
  Lemma rrot_elems t t' : rrot MX t = Some t' -> elems t' = elems t.
  Proof.
    destruct t as [|x [|y b c] a]; cbn; try discriminate. intros [= <-]. cbn. now rewrite <- app_assoc.
  Qed.
  (** [good t]: the children of the root of [t] are in order (its own maximum may be stale). *)
  Definition kids_ok (t : itree) : Prop := match t with INil => True | INode _ l r => mok l /\ mok r end.
  Lemma mok_kids t : mok t -> kids_ok t.
  Proof. destruct t; cbn; tauto. Qed.
  Lemma lrot_mok t t' : lrot MX t = Some t' -> kids_ok t -> mok t'.
  Proof.
    destruct t as [|x a [|y b c]]; cbn [lrot]; try discriminate. intros [= <-] [Ha (_ & Hb & Hc)].
    repeat apply mok_mk; auto.
  Qed.
  Lemma rrot_mok t t' : rrot MX t = Some t' -> kids_ok t -> mok t'.
  Proof.
    destruct t as [|x [|y b c] a]; cbn [rrot]; try discriminate. intros [= <-] [(_ & Ha & Hb) Hc].
    repeat apply mok_mk; auto.
  Qed.


  Definition le_key (a b : nat * (Z * Z)) : Prop := ekey a <= ekey b.
  Lemma ss_split a x b : StronglySorted le_key (a ++ x :: b) ->
    StronglySorted le_key a /\ StronglySorted le_key b /\ Forall (fun e => ekey e <= ekey x) a /\
    Forall (fun e => ekey x <= ekey e) b.
  Proof.
    induction a as [|y a IH]; cbn; intros H; apply StronglySorted_inv in H as [H1 H2].
    - split; [constructor|]. split; auto.
    - apply IH in H1 as (A & B & C & E). apply Forall_app in H2 as [F1 F2]. apply Forall_cons_iff in F2 as [F2 F3].
      repeat split; auto; constructor; auto.
  Qed.
  Lemma ss_join a b : StronglySorted le_key a -> StronglySorted le_key b ->
    (forall x y, In x a -> In y b -> ekey x <= ekey y) -> StronglySorted le_key (a ++ b).
  Proof.
    induction a as [|x a IH]; cbn; intros Ha Hb H; auto.
    apply StronglySorted_inv in Ha as [Ha Hx]. constructor; auto.
    apply Forall_app. split; auto. apply Forall_forall. intros y Hy. apply H; auto.
  Qed.
  Lemma ss_sub a b : StronglySorted le_key (a ++ b) -> StronglySorted le_key a /\ StronglySorted le_key b.
  Proof.
    induction a as [|x a IH]; cbn; intros H; [split; auto; constructor|].
    apply StronglySorted_inv in H as [H1 H2]. apply IH in H1 as [A B]. apply Forall_app in H2 as [C E].
    split; auto. constructor; auto.
  Qed.

  Lemma descend_elems key t : forall p, StronglySorted le_key (elems t) ->
    exists a b, elems t = a ++ b /\ before (descend key t p) = before p ++ a /\
                after (descend key t p) = b ++ after p /\
                Forall (fun e => ekey e <= key) a /\ Forall (fun e => key <= ekey e) b.
  Proof.
    induction t as [|d l IHl r IHr]; intros p Hs; cbn [descend].
    - exists [], []. cbn. rewrite app_nil_r. auto.
    - cbn [elems] in Hs. apply ss_split in Hs as (Sl & Sr & Fl & Fr).
      destruct (Z.ltb_spec key (n_key d)) as [L|L].
      + destruct (IHl (FL d r :: p) Sl) as (a & b & E & B1 & A1 & Fa & Fb).
        exists a, (b ++ item d :: elems r). split; [cbn; rewrite E; now rewrite app_assoc|].
        split; auto. split; [rewrite A1; cbn; now rewrite <- app_assoc|]. split; auto.
        apply Forall_app. split; auto. constructor; [unfold ekey; cbn; lia|].
        eapply Forall_impl; [|apply Fr]. intros e He. unfold ekey at 1 in He. cbn in *. lia.
      + destruct (IHr (FR d l :: p) Sr) as (a & b & E & B1 & A1 & Fa & Fb).
        exists (elems l ++ item d :: a), b. split; [cbn; rewrite E; now rewrite <- app_assoc|].
        split; [rewrite B1; cbn; now rewrite <- !app_assoc|]. split; auto. split; auto.
        apply Forall_app. split.
        * eapply Forall_impl; [|apply Fl]. intros e He. unfold ekey at 2 in He. cbn in *. lia.
        * constructor; auto.
  Qed.

  Fixpoint psib (p : path) : Prop :=
    match p with [] => True | FL _ t :: p' | FR _ t :: p' => mok t /\ psib p' end.
  Lemma pok_psib p : forall m, pok m p -> psib p.
  Proof. induction p as [|[d t|d t] p IH]; cbn; auto; intros m (_ & H & H'); eauto. Qed.
  Lemma psib_app p q : psib (p ++ q) <-> psib p /\ psib q.
  Proof. induction p as [|[d t|d t] p IH]; cbn; tauto. Qed.
  Lemma descend_psib key t : forall p, mok t -> psib p -> psib (descend key t p).
  Proof.
    induction t as [|d l IHl r IHr]; intros p Hm Hp; cbn [descend]; auto.
    destruct Hm as (_ & Hl & Hr). destruct (key <? n_key d); [apply IHl|apply IHr]; cbn; auto.
  Qed.
  Lemma fixup_max_pok p : forall t, psib p -> pok (imax t) (fixup_max MX t p).
  Proof.
    induction p as [|[d r|d l] p IH]; intros t H; cbn; auto; destruct H as [H H'].
    - split; auto. split; auto. apply (IH (mk d t r)); auto.
    - split; auto. split; auto. apply (IH (mk d l t)); auto.
  Qed.
  Lemma fixup_max_lists p : forall t, before (fixup_max MX t p) = before p /\ after (fixup_max MX t p) = after p.
  Proof.
    induction p as [|[d r|d l] p IH]; intros t; cbn; auto.
    - destruct (IH (mk d t r)) as [-> ->]. auto.
    - destruct (IH (mk d l t)) as [-> ->]. auto.
  Qed.

  Lemma plug_cong t t' p : mok t -> mok t' -> elems t' = elems t -> pok (imax t) p ->
    mok (plug t' p) /\ elems (plug t' p) = elems (plug t p).
  Proof.
    intros H H' E Hp. rewrite !elems_plug, E. split; auto. apply mok_plug. split; auto.
    rewrite imax_maxl in Hp by auto. rewrite imax_maxl, E by auto. auto.
  Qed.

  Lemma ins_fix_spec n : forall p nr t r nr', (length p <= n)%nat -> mok t -> pok (imax t) p ->
    ins_fix MX nr t p = Some (r, nr') -> elems r = elems (plug t p) /\ mok r.
  Proof.
    induction n as [|n IH]; intros p nr t r nr' Hn Ht Hp.
    { destruct p; cbn in Hn; [|lia]. cbn. intros [= <- <-]. auto. }
    destruct p as [|f1 p1]; cbn [ins_fix]; [intros [= <- <-]; auto|].
    destruct (n_red (fdata f1)).
    2:{ intros [= <- <-]. split; auto. apply (proj2 (mok_plug (f1 :: p1) t)). auto. }
    destruct p1 as [|[g u|g u] rest]; [discriminate| |].
    - destruct (redt nr u).
      + intros H. apply IH in H.
        * destruct H as [E Hr]. split; auto. rewrite E. rewrite !elems_plug. cbn [elems].
          rewrite elems_paint. destruct f1; cbn; rewrite <- ?app_assoc; cbn; rewrite <- ?app_assoc; reflexivity.
        * cbn in Hn. lia.
        * cbn. rewrite imax_paint, mok_paint. destruct f1; cbn in Hp |- *; tauto.
        * cbn. destruct f1; cbn in Hp; tauto.
      + set (lp := match f1 with FL pd s => _ | FR pd s => _ end).
        assert (HL : forall x, lp = Some x -> mok x /\ elems x = elems (plug1 t f1)).
        { intros x. unfold lp. destruct f1 as [pd s|pd s]; cbn in Hp.
          - intros [= <-]. cbn. tauto.
          - intros E. split; [|now apply lrot_elems in E]. eapply lrot_mok; eauto. cbn. tauto. }
        destruct lp as [lp'|]; [|discriminate]. destruct (HL _ eq_refl) as [HL1 HL2].
        destruct (rrot MX _) as [t'|] eqn:ER; [|discriminate]. intros [= <- <-].
        assert (M : mok (INode g (plug1 t f1) u)) by (destruct f1; cbn in Hp |- *; tauto).
        assert (P : pok (n_max g) rest) by (destruct f1; cbn in Hp |- *; tauto).
        assert (E : elems t' = elems (INode g (plug1 t f1) u)).
        { rewrite (rrot_elems _ _ ER). cbn [elems]. now rewrite elems_paint, HL2. }
        assert (M' : mok t').
        { eapply rrot_mok; eauto. cbn. rewrite mok_paint. destruct f1; cbn in Hp |- *; tauto. }
        destruct (plug_cong _ _ rest M M' E P) as [A B]. split; auto.
    - destruct (redt nr u).
      + intros H. apply IH in H.
        * destruct H as [E Hr]. split; auto. rewrite E. rewrite !elems_plug. cbn [elems].
          rewrite elems_paint. destruct f1; cbn; rewrite <- ?app_assoc; cbn; rewrite <- ?app_assoc; reflexivity.
        * cbn in Hn. lia.
        * cbn. rewrite imax_paint, mok_paint. destruct f1; cbn in Hp |- *; tauto.
        * cbn. destruct f1; cbn in Hp; tauto.
      + set (lp := match f1 with FL pd s => _ | FR pd s => _ end).
        assert (HL : forall x, lp = Some x -> mok x /\ elems x = elems (plug1 t f1)).
        { intros x. unfold lp. destruct f1 as [pd s|pd s]; cbn in Hp.
          - intros E. split; [|now apply rrot_elems in E]. eapply rrot_mok; eauto. cbn. tauto.
          - intros [= <-]. cbn. tauto. }
        destruct lp as [lp'|]; [|discriminate]. destruct (HL _ eq_refl) as [HL1 HL2].
        destruct (lrot MX _) as [t'|] eqn:ER; [|discriminate]. intros [= <- <-].
        assert (M : mok (INode g u (plug1 t f1))) by (destruct f1; cbn in Hp |- *; tauto).
        assert (P : pok (n_max g) rest) by (destruct f1; cbn in Hp |- *; tauto).
        assert (E : elems t' = elems (INode g u (plug1 t f1))).
        { rewrite (lrot_elems _ _ ER). cbn [elems]. now rewrite elems_paint, HL2. }
        assert (M' : mok t').
        { eapply lrot_mok; eauto. cbn. rewrite mok_paint. destruct f1; cbn in Hp |- *; tauto. }
        destruct (plug_cong _ _ rest M M' E P) as [A B]. split; auto.
  Qed.

  Definition iok (t : itree) : Prop := mok t /\ StronglySorted le_key (elems t).
  Lemma i_insert_spec key high iv t nr t' nr' : iok t -> - MX <= high ->
    i_insert MX key high iv (t, nr) = Some (t', nr') ->
    iok t' /\ exists a b, elems t = a ++ b /\ elems t' = a ++ (iv, (key, high)) :: b.
  Proof.
    intros [Hm Hs] Hh. unfold i_insert. set (z := INode _ INil INil).
    destruct (ins_fix _ _ _ _) as [[r nr1]|] eqn:E; [|discriminate]. intros [= <- <-].
    destruct (descend_elems key t [] Hs) as (a & b & Et & B & A & Fa & Fb).
    apply (ins_fix_spec (length (fixup_max MX z (descend key t [])))) in E; auto.
    2:{ unfold z; cbn. repeat split; lia. }
    2:{ apply fixup_max_pok. apply descend_psib; cbn; auto. }
    destruct E as [E Hr]. rewrite elems_plug in E.
    destruct (fixup_max_lists (descend key t []) z) as [E1 E2]. rewrite E1, E2, B, A in E. cbn in E.
    rewrite app_nil_r in E.
    assert (E' : elems (paint false r) = a ++ (iv, (key, high)) :: b) by (rewrite elems_paint; exact E).
    split; [split|].
    - now apply mok_paint.
    - rewrite E'. rewrite Et in Hs. apply ss_sub in Hs as [Sa Sb]. apply ss_join; auto.
      + constructor; auto.
      + intros x y Hx [<-|Hy].
        * rewrite Forall_forall in Fa. apply Fa; auto.
        * rewrite Forall_forall in Fa, Fb. specialize (Fa x Hx). specialize (Fb y Hy). lia.
    - eauto.
  Qed.

  (** ** Deletion *)
  Lemma search_spec iv t : forall p, match search iv t p with
    | Some (d, l, r, p') => plug (INode d l r) p' = plug t p /\ n_iv d = iv
    | None => ~ In iv (map fst (elems t))
    end.
  Proof.
    induction t as [|d l IHl r IHr]; intros p; cbn [search]; [cbn; auto|].
    destruct (Nat.eqb_spec (n_iv d) iv) as [E|E]; [auto|].
    specialize (IHl (FL d r :: p)). destruct (search iv l _) as [[[[d1 l1] r1] p1]|]; auto.
    specialize (IHr (FR d l :: p)). destruct (search iv r _) as [[[[d2 l2] r2] p2]|]; auto.
    cbn [elems]. rewrite map_app, in_app_iff. cbn. tauto.
  Qed.
  Lemma leftmost_spec l : forall d r p, let '(y, x, q) := leftmost d l r p in
    plug (INode y INil x) q = plug (INode d l r) p /\ before q = before p /\
    (exists q0, q = q0 ++ p).
  Proof.
    induction l as [|d' l' IHl r' _]; intros d r p; cbn [leftmost].
    - split; auto. split; auto. exists []; auto.
    - specialize (IHl d' r' (FL d r :: p)). destruct (leftmost d' l' r' _) as [[y x] q].
      destruct IHl as (A & B & q0 & E). split; auto. split; auto. exists (q0 ++ [FL d r]). rewrite <- app_assoc. auto.
  Qed.

  Lemma top_black_pok p : forall m, pok m p -> pok m (top_black p).
  Proof.
    induction p as [|f p IH]; intros m H; auto. cbn [top_black]. destruct p as [|f' p].
    - destruct f; cbn in *; tauto.
    - destruct f as [d r|d l]; cbn [pok] in *; destruct H as (A & B & C); auto.
  Qed.
  Lemma top_black_lists p : before (top_black p) = before p /\ after (top_black p) = after p.
  Proof.
    induction p as [|f p [IH1 IH2]]; auto. cbn [top_black]. destruct p as [|f' p]; [destruct f; auto|].
    destruct f as [d r|d l]; cbn [before after] in *; rewrite IH1, IH2; auto.
  Qed.

  Lemma del_rot_l_spec nr x pd w t nr' : mok x -> mok w -> del_rot_l MX nr x pd w = Some (t, nr') ->
    mok t /\ elems t = elems (INode pd x w).
  Proof.
    intros Hx Hw. unfold del_rot_l. destruct w as [|wd wl wr]; [discriminate|]. destruct Hw as (Hd & Hl & Hr).
    set (w' := if redt nr wr then _ else _).
    assert (HW : forall a n, w' = Some (a, n) -> mok a /\ elems a = elems (INode wd wl wr)).
    { intros a n. unfold w'. destruct (redt nr wr); [intros [= <- <-]; cbn; auto|].
      destruct (rrot MX _) as [a'|] eqn:E; [|discriminate]. intros [= <- <-]. split.
      - eapply rrot_mok; eauto. cbn. rewrite mok_paint. auto.
      - rewrite (rrot_elems _ _ E). cbn. now rewrite elems_paint. }
    destruct w' as [[[|wd' wl' wr'] n]|]; try discriminate. destruct (HW _ _ eq_refl) as [(Hd' & Hl' & Hr') EW].
    destruct (lrot MX _) as [t'|] eqn:E; [|discriminate]. intros [= <- <-]. split.
    - eapply lrot_mok; eauto. cbn. rewrite imax_paint, mok_paint. auto.
    - rewrite (lrot_elems _ _ E). cbn [elems] in EW |- *. rewrite !item_set_red, elems_paint, EW. reflexivity.
  Qed.
  Lemma del_rot_r_spec nr x pd w t nr' : mok x -> mok w -> del_rot_r MX nr x pd w = Some (t, nr') ->
    mok t /\ elems t = elems (INode pd w x).
  Proof.
    intros Hx Hw. unfold del_rot_r. destruct w as [|wd wl wr]; [discriminate|]. destruct Hw as (Hd & Hl & Hr).
    set (w' := if redt nr wl then _ else _).
    assert (HW : forall a n, w' = Some (a, n) -> mok a /\ elems a = elems (INode wd wl wr)).
    { intros a n. unfold w'. destruct (redt nr wl); [intros [= <- <-]; cbn; auto|].
      destruct (lrot MX _) as [a'|] eqn:E; [|discriminate]. intros [= <- <-]. split.
      - eapply lrot_mok; eauto. cbn. rewrite mok_paint. auto.
      - rewrite (lrot_elems _ _ E). cbn. now rewrite elems_paint. }
    destruct w' as [[[|wd' wl' wr'] n]|]; try discriminate. destruct (HW _ _ eq_refl) as [(Hd' & Hl' & Hr') EW].
    destruct (rrot MX _) as [t'|] eqn:E; [|discriminate]. intros [= <- <-]. split.
    - eapply rrot_mok; eauto. cbn. rewrite imax_paint, mok_paint. auto.
    - rewrite (rrot_elems _ _ E). cbn [elems] in EW |- *. rewrite !item_set_red, elems_paint, EW. reflexivity.
  Qed.

  Lemma plug_top t p : elems (plug t (top_black p)) = elems (plug t p) /\ (mok (plug t p) -> mok (plug t (top_black p))).
  Proof.
    split.
    - rewrite !elems_plug. destruct (top_black_lists p) as [-> ->]. auto.
    - rewrite !mok_plug. intros [A B]. split; auto. apply top_black_pok; auto.
  Qed.

  Lemma del_fix_spec p : forall nr x r nr', mok x -> pok (imax x) p ->
    del_fix MX nr x p = Some (r, nr') -> elems r = elems (plug x p) /\ mok r.
  Proof.
    assert (Hred : forall x p, mok x -> pok (imax x) p ->
      elems (plug (paint false x) p) = elems (plug x p) /\ mok (plug (paint false x) p)).
    { intros x q Hx Hp. rewrite !elems_plug, elems_paint, mok_plug, imax_paint, mok_paint. auto. }
    assert (Hfin : forall s s' rest, mok s -> mok s' -> elems s' = elems s -> pok (imax s) rest ->
      elems (plug s' (top_black rest)) = elems (plug s rest) /\ mok (plug s' (top_black rest))).
    { intros s s' rest M M' E P. destruct (plug_cong _ _ rest M M' E P) as [A B].
      destruct (plug_top s' rest) as [C F]. rewrite C. auto. }
    induction p as [|f rest IH]; intros nr x r nr' Hx Hp; cbn [del_fix].
    - destruct (redt nr x); intros [= <- <-]; cbn; rewrite elems_paint, mok_paint; auto.
    - destruct (redt nr x); [intros [= <- <-]; apply (Hred x (f :: rest)); auto|].
      destruct f as [pd w|pd w]; cbn [pok] in Hp; destruct Hp as (Hd & Hw & Hp).
      + assert (M : mok (INode pd x w)) by (cbn; auto).
        destruct (redt nr w).
        * destruct (lrot MX _) as [t1|] eqn:EL; [|discriminate].
          pose proof (lrot_elems _ _ EL) as E1. pose proof (lrot_mok _ _ EL) as M1.
          assert (M1' : mok t1) by (apply M1; cbn; rewrite mok_paint; auto).
          destruct t1 as [|wd [|pd' x' w2] wr]; try discriminate.
          assert (E1' : elems (INode wd (INode pd' x' w2) wr) = elems (INode pd x w)).
          { rewrite E1. cbn. now rewrite elems_paint. }
          destruct (kids_black nr w2).
          -- intros [= <- <-]. apply and_comm. apply (plug_cong (INode pd x w)); auto.
             ++ cbn in M1' |- *. rewrite imax_paint, mok_paint. tauto.
             ++ rewrite <- E1'. cbn. now rewrite elems_paint.
          -- destruct (del_rot_l MX nr x' pd' w2) as [[t2 nr2]|] eqn:ED; [|discriminate].
             intros [= <- <-]. cbn in M1'. destruct M1' as (Hwd & (Hpd & Hx' & Hw2) & Hwr).
             apply del_rot_l_spec in ED as [M2 E2]; auto.
             apply (Hfin (INode pd x w)); auto.
             ++ assert (I2 : imax t2 = n_max pd').
                { rewrite (imax_maxl t2 M2), E2, <- imax_maxl by (cbn; auto). reflexivity. }
                cbn. rewrite I2. auto.
             ++ rewrite <- E1'. cbn [elems]. now rewrite E2.
        * destruct (kids_black nr w).
          -- intros H. apply IH in H.
             ++ destruct H as [H1 H2]. split; auto. rewrite H1. rewrite !elems_plug. cbn. rewrite elems_paint.
                now rewrite <- !app_assoc.
             ++ cbn. rewrite imax_paint, mok_paint. auto.
             ++ cbn. auto.
          -- destruct (del_rot_l MX nr x pd w) as [[t2 nr2]|] eqn:ED; [|discriminate]. intros [= <- <-].
             apply del_rot_l_spec in ED as [M2 E2]; auto. apply (Hfin (INode pd x w)); auto.
      + assert (M : mok (INode pd w x)) by (cbn; auto).
        destruct (redt nr w).
        * destruct (rrot MX _) as [t1|] eqn:EL; [|discriminate].
          pose proof (rrot_elems _ _ EL) as E1. pose proof (rrot_mok _ _ EL) as M1.
          assert (M1' : mok t1) by (apply M1; cbn; rewrite mok_paint; auto).
          destruct t1 as [|wd wl [|pd' w2 x']]; try discriminate.
          assert (E1' : elems (INode wd wl (INode pd' w2 x')) = elems (INode pd w x)).
          { rewrite E1. cbn. now rewrite elems_paint. }
          destruct (kids_black nr w2).
          -- intros [= <- <-]. apply and_comm. apply (plug_cong (INode pd w x)); auto.
             ++ cbn in M1' |- *. rewrite imax_paint, mok_paint. tauto.
             ++ rewrite <- E1'. cbn. now rewrite elems_paint.
          -- destruct (del_rot_r MX nr x' pd' w2) as [[t2 nr2]|] eqn:ED; [|discriminate].
             intros [= <- <-]. cbn in M1'. destruct M1' as (Hwd & Hwl & (Hpd & Hw2 & Hx')).
             apply del_rot_r_spec in ED as [M2 E2]; auto.
             apply (Hfin (INode pd w x)); auto.
             ++ assert (I2 : imax t2 = n_max pd').
                { rewrite (imax_maxl t2 M2), E2, <- imax_maxl by (cbn; auto). reflexivity. }
                cbn. rewrite I2. auto.
             ++ rewrite <- E1'. cbn [elems]. now rewrite E2.
        * destruct (kids_black nr w).
          -- intros H. apply IH in H.
             ++ destruct H as [H1 H2]. split; auto. rewrite H1. rewrite !elems_plug. cbn. rewrite elems_paint.
                rewrite <- !app_assoc. cbn. reflexivity.
             ++ cbn. rewrite imax_paint, mok_paint. auto.
             ++ cbn. auto.
          -- destruct (del_rot_r MX nr x pd w) as [[t2 nr2]|] eqn:ED; [|discriminate]. intros [= <- <-].
             apply del_rot_r_spec in ED as [M2 E2]; auto. apply (Hfin (INode pd w x)); auto.
  Qed.

  Lemma ss_remove a e b : StronglySorted le_key (a ++ e :: b) -> StronglySorted le_key (a ++ b).
  Proof.
    intros H. apply ss_split in H as (A & B & C & E). apply ss_join; auto.
    intros x y Hx Hy. rewrite Forall_forall in C, E. specialize (C x Hx). specialize (E y Hy). lia.
  Qed.

  Lemma i_delete_spec iv t nr t' nr' : iok t -> i_delete MX iv (t, nr) = Some (t', nr') ->
    iok t' /\ exists a kh b, elems t = a ++ (iv, kh) :: b /\ elems t' = a ++ b.
  Proof.
    intros [Hm Hs]. unfold i_delete. pose proof (search_spec iv t []) as HS.
    destruct (search iv t []) as [[[[z l] r] p]|]; [|discriminate]. destruct HS as [HS <-]. cbn [plug fold_left] in HS.
    assert (Hm' := Hm). rewrite <- HS in Hm'. apply mok_plug in Hm' as [Hn Hp].
    assert (Et : elems t = (before p ++ elems l) ++ item z :: (elems r ++ after p)).
    { rewrite <- HS, elems_plug. cbn. now rewrite <- !app_assoc. }
    assert (HF : forall x q c, mok x -> psib q -> elems (plug x q) = before p ++ elems l ++ elems r ++ after p ->
      (if c : bool then Some (plug x (fixup_max MX x q), nr) else del_fix MX nr x (fixup_max MX x q)) = Some (t', nr') ->
      iok t' /\ exists a kh b, elems t = a ++ (n_iv z, kh) :: b /\ elems t' = a ++ b).
    { intros x q c Hx Hq Eq H.
      assert (H' : elems t' = elems (plug x (fixup_max MX x q)) /\ mok t').
      { destruct c; [injection H as <- _; split; auto; apply mok_plug; split; auto; apply fixup_max_pok; auto|].
        apply del_fix_spec in H; auto. apply fixup_max_pok; auto. }
      destruct H' as [E M].
      assert (E' : elems t' = (before p ++ elems l) ++ (elems r ++ after p)).
      { rewrite E, elems_plug. destruct (fixup_max_lists q x) as [-> ->]. rewrite <- elems_plug, Eq.
        now rewrite <- !app_assoc. }
      split; [split; auto|].
      - rewrite E'. apply ss_remove with (item z). rewrite <- Et. auto.
      - exists (before p ++ elems l), (n_key z, n_high z), (elems r ++ after p). auto. }
    destruct Hn as (Hz & Hl & Hr). apply pok_psib in Hp.
    destruct l as [|ld ll lr].
    - apply HF; auto. rewrite elems_plug. reflexivity.
    - destruct r as [|rd rl rr].
      + apply HF; auto. rewrite elems_plug. reflexivity.
      + pose proof (leftmost_spec rl rd rr []) as HL. destruct (leftmost rd rl rr []) as [[y x] q].
        destruct HL as (HL & HB & _). cbn [plug fold_left before] in HL, HB.
        assert (HR := Hr). rewrite <- HL in HR. apply mok_plug in HR as [(_ & _ & Hx) Hq].
        apply HF; auto.
        * apply psib_app. split; [now apply pok_psib in Hq|]. cbn [psib]. auto.
        * unfold plug in *. rewrite fold_left_app. cbn [fold_left plug1].
          fold (plug (INode (set_red (n_red z) y) (INode ld ll lr) (plug x q)) p). unfold plug.
          fold (plug x q). fold (plug (INode (set_red (n_red z) y) (INode ld ll lr) (plug x q)) p).
          rewrite elems_plug. cbn [elems]. fold (elems (INode ld ll lr)).
          assert (ER : elems (INode rd rl rr) = item y :: elems (plug x q)).
          { rewrite <- HL. change (fold_left plug1 q (INode y INil x)) with (plug (INode y INil x) q).
            rewrite !elems_plug, HB. reflexivity. }
          change (elems rl ++ item rd :: elems rr) with (elems (INode rd rl rr)). rewrite ER.
          rewrite item_set_red. cbn. now rewrite <- !app_assoc.
  Qed.

  (** ** The root stays black, so insertion never runs into the root sentinel *)
  Definition root_black (t : itree) : Prop := redt false t = false.
  Fixpoint topb (p : path) : Prop :=
    match p with [] => True | [f] => n_red (fdata f) = false | _ :: p' => topb p' end.
  Lemma topb_tail f p : topb (f :: p) -> topb p.
  Proof. destruct p; cbn; auto. Qed.
  Lemma topb_cons f p : topb (f :: p) <-> (p = [] /\ n_red (fdata f) = false) \/ (p <> [] /\ topb p).
  Proof.
    destruct p; cbn; [split; [auto|intros [[_ H]|[H _]]; auto; congruence]|].
    split; [intros H; right; split; auto; discriminate|intros [[H _]|[_ H]]; auto; discriminate].
  Qed.
  Lemma plug_black p : forall t, topb p -> (p = [] -> root_black t) -> root_black (plug t p).
  Proof.
    induction p as [|f p IH]; intros t Hp Ht; cbn; auto.
    apply (IH (plug1 t f)); [eapply topb_tail; eauto|]. intros ->. cbn in Hp. destruct f; cbn in *; auto.
  Qed.
  Lemma black_plug p : forall t, root_black (plug t p) -> topb p /\ (p = [] -> root_black t).
  Proof.
    induction p as [|f p IH]; intros t H; [cbn in *; auto|].
    destruct (IH (plug1 t f) H) as [A B]. split; [|discriminate].
    destruct p; [|exact A]. specialize (B eq_refl). destruct f; cbn in *; auto.
  Qed.
  Lemma topb_fixup p : forall t, topb p -> topb (fixup_max MX t p).
  Proof.
    induction p as [|f p IH]; intros t H; auto. apply topb_cons in H as [[-> H]|[Hn H]].
    - destruct f; cbn; auto.
    - assert (E : forall t', fixup_max MX t' p <> []) by (intros t'; destruct p as [|[]]; cbn; congruence).
      destruct f as [d r|d l]; cbn [fixup_max]; apply topb_cons; right; auto.
  Qed.
  Lemma fixup_nil p t : fixup_max MX t p = [] -> p = [].
  Proof. destruct p as [|[] p]; cbn; congruence. Qed.
  Lemma topb_app p q : q <> [] -> topb q -> topb (p ++ q).
  Proof.
    intros Hq H. induction p as [|f p IH]; cbn [app]; auto. apply topb_cons. right. split; auto.
    destruct p; cbn; auto; discriminate.
  Qed.
  Lemma topb_app_r p q : topb (p ++ q) -> topb q.
  Proof. induction p as [|f p IH]; cbn [app]; auto. intros H. apply IH. eapply topb_tail; eauto. Qed.

  Lemma descend_app key t : forall p, exists q, descend key t p = q ++ p.
  Proof.
    induction t as [|d l IHl r IHr]; intros p; cbn [descend]; [exists []; auto|].
    destruct (key <? n_key d).
    - destruct (IHl (FL d r :: p)) as [q ->]. exists (q ++ [FL d r]). now rewrite <- app_assoc.
    - destruct (IHr (FR d l :: p)) as [q ->]. exists (q ++ [FR d l]). now rewrite <- app_assoc.
  Qed.
  Lemma descend_topb key t : root_black t -> topb (descend key t []).
  Proof.
    destruct t as [|d l r]; cbn; auto. intros H. destruct (key <? n_key d).
    - destruct (descend_app key l [FL d r]) as [q ->]. apply topb_app; [discriminate|]. auto.
    - destruct (descend_app key r [FR d l]) as [q ->]. apply topb_app; [discriminate|]. auto.
  Qed.

  Lemma ins_fix_total n : forall p nr d l r, (length p <= n)%nat -> topb p ->
    ins_fix MX nr (INode d l r) p <> None.
  Proof.
    induction n as [|n IH]; intros p nr d l r Hn Hp.
    { destruct p; cbn in Hn; [|lia]. cbn. discriminate. }
    destruct p as [|f1 p1]; cbn [ins_fix]; [discriminate|].
    destruct (n_red (fdata f1)) eqn:Er; [|discriminate].
    destruct p1 as [|[g u|g u] rest]; [cbn in Hp; congruence| |].
    - destruct (redt nr u).
      + apply IH; [cbn in Hn; lia|]. do 2 apply topb_tail in Hp. auto.
      + destruct f1; cbn; discriminate.
    - destruct (redt nr u).
      + apply IH; [cbn in Hn; lia|]. do 2 apply topb_tail in Hp. auto.
      + destruct f1; cbn; discriminate.
  Qed.
  Lemma i_insert_total key high iv t nr : root_black t -> exists t' nr', i_insert MX key high iv (t, nr) = Some (t', nr') /\ root_black t'.
  Proof.
    intros H. unfold i_insert. set (z := INode _ INil INil).
    pose proof (ins_fix_total (length (fixup_max MX z (descend key t []))) (fixup_max MX z (descend key t [])) nr
      (Nd true key high high iv) INil INil (le_n _) (topb_fixup _ z (descend_topb key t H))) as HT.
    fold z in HT. destruct (ins_fix _ _ _ _) as [[r nr1]|]; [|congruence].
    eexists _, _. split; [reflexivity|]. destruct r; reflexivity.
  Qed.
  Lemma top_black_topb p : topb p -> topb (top_black p).
  Proof.
    induction p as [|f p IH]; auto. intros H. cbn [top_black]. destruct p as [|f' p]; [destruct f; cbn; auto|].
    apply topb_cons. right. split; [destruct p; discriminate|]. apply IH. eapply topb_tail; eauto.
  Qed.
  Lemma top_black_nil p : top_black p = [] -> p = [].
  Proof. destruct p as [|f [|]]; cbn; congruence. Qed.

  Lemma del_rot_l_root nr x pd w t nr' : del_rot_l MX nr x pd w = Some (t, nr') -> n_red pd = false -> root_black t.
  Proof.
    unfold del_rot_l. destruct w as [|wd wl wr]; [discriminate|].
    set (w' := if redt nr wr then _ else _). destruct w' as [[[|wd' wl' wr'] n]|]; try discriminate.
    cbn. intros [= <- <-] H. exact H.
  Qed.
  Lemma del_rot_r_root nr x pd w t nr' : del_rot_r MX nr x pd w = Some (t, nr') -> n_red pd = false -> root_black t.
  Proof.
    unfold del_rot_r. destruct w as [|wd wl wr]; [discriminate|].
    set (w' := if redt nr wl then _ else _). destruct w' as [[[|wd' wl' wr'] n]|]; try discriminate.
    cbn. intros [= <- <-] H. exact H.
  Qed.
  Lemma del_fix_root p : forall nr x r nr', topb p -> del_fix MX nr x p = Some (r, nr') -> root_black r.
  Proof.
    induction p as [|f rest IH]; intros nr x r nr' Hp; cbn [del_fix].
    - destruct (redt nr x); intros [= <- <-]; destruct x; reflexivity.
    - destruct (redt nr x); [intros [= <- <-]; apply (plug_black (f :: rest)); auto; discriminate|].
      pose proof (topb_tail _ _ Hp) as Hr. apply top_black_topb in Hr as Hr'.
      destruct f as [pd w|pd w].
      + destruct (redt nr w).
        * destruct w as [|wd wl wr]; cbn; try discriminate.
          destruct (kids_black nr wl).
          -- intros [= <- <-]. apply plug_black; auto. reflexivity.
          -- destruct (del_rot_l _ _ _ _ _) as [[t2 nr2]|] eqn:ED; [|discriminate]. intros [= <- <-].
             apply plug_black; auto. reflexivity.
        * destruct (kids_black nr w); [intros H; eapply IH; [|eauto]; auto|].
          destruct (del_rot_l _ _ _ _ _) as [[t2 nr2]|] eqn:ED; [|discriminate]. intros [= <- <-].
          apply plug_black; auto. intros E. apply top_black_nil in E. subst rest.
          eapply del_rot_l_root; eauto.
      + destruct (redt nr w).
        * destruct w as [|wd wl wr]; cbn; try discriminate.
          destruct (kids_black nr wr).
          -- intros [= <- <-]. apply plug_black; auto. reflexivity.
          -- destruct (del_rot_r _ _ _ _ _) as [[t2 nr2]|] eqn:ED; [|discriminate]. intros [= <- <-].
             apply plug_black; auto. reflexivity.
        * destruct (kids_black nr w); [intros H; eapply IH; [|eauto]; auto|].
          destruct (del_rot_r _ _ _ _ _) as [[t2 nr2]|] eqn:ED; [|discriminate]. intros [= <- <-].
          apply plug_black; auto. intros E. apply top_black_nil in E. subst rest.
          eapply del_rot_r_root; eauto.
  Qed.
  Lemma i_delete_root iv t nr t' nr' : root_black t -> i_delete MX iv (t, nr) = Some (t', nr') -> root_black t'.
  Proof.
    intros Hb. unfold i_delete. pose proof (search_spec iv t []) as HS.
    destruct (search iv t []) as [[[[z l] r] p]|]; [|discriminate]. destruct HS as [HS <-]. cbn [plug fold_left] in HS.
    rewrite <- HS in Hb. apply black_plug in Hb as [Hp Hz].
    assert (HF : forall x q c, topb q -> (c = true -> q <> []) ->
      (if c : bool then Some (plug x (fixup_max MX x q), nr) else del_fix MX nr x (fixup_max MX x q)) = Some (t', nr') ->
      root_black t').
    { intros x q c Hq Hc H. destruct c.
      - injection H as <- _. apply plug_black; [apply topb_fixup; auto|]. intros E. apply fixup_nil in E.
        exfalso. apply Hc; auto.
      - eapply del_fix_root; [|eauto]. apply topb_fixup; auto. }
    assert (HC : n_red z = true -> p <> []).
    { intros Hr ->. specialize (Hz eq_refl). unfold root_black in Hz; cbn in Hz. congruence. }
    destruct l as [|ld ll lr]; [apply HF; auto|]. destruct r as [|rd rl rr]; [apply HF; auto|].
    destruct (leftmost rd rl rr []) as [[y x] q]. apply HF.
    - apply topb_app; [discriminate|]. apply topb_cons. destruct p; [left; split; auto|right; split; auto; discriminate].
      cbn. exact (Hz eq_refl).
    - intros _ E. destruct q; discriminate.
  Qed.

  (** ** Queries *)
  Section Query.
    Variables low high : Z.
    Definition hit (d : nd) : bool := iv_overlap low high (n_key d) (n_high d).
    Definition found (l : list nat) : bool := match l with [] => false | _ => true end.
    Fixpoint qres (t : itree) : list nat :=
      match t with
      | INil => []
      | INode d l r =>
          (if hit d then [n_iv d] else []) ++
          (if low <=? imax l then qres l ++ (if found (qres l) then qres r else []) else qres r)
      end.
    Definition qcont (f : nat) (st : list (itree * bool)) (acc : list nat) : option (list nat) :=
      match pop false st with None => Some acc | Some (x', st') => qloop MX f low high x' st' acc end.
    Lemma flag_false st : flag false st = st.
    Proof. destruct st as [|[r b] s]; reflexivity. Qed.
    Lemma flag_flag a b st : flag a (flag b st) = flag (b || a) st.
    Proof. destruct st as [|[r c] s]; cbn; auto. now rewrite orb_assoc, (orb_comm a b). Qed.
    Lemma pop_true st : pop true st = pop false (flag true st).
    Proof. destruct st as [|[r b] s]; reflexivity. Qed.
    Lemma found_app a b : found (a ++ b) = found a || found b.
    Proof. destruct a; reflexivity. Qed.
    Lemma qloop_spec t : exists k, (1 <= k <= isize t)%nat /\ forall f st acc,
      qloop MX (k + f) low high t st acc = qcont f (flag (found (qres t)) st) (acc ++ qres t).
    Proof.
      induction t as [|d l (kl & Hl & IHl) r (kr & Hr & IHr)].
      - exists 1%nat. split; [cbn; lia|]. intros f st acc. cbn. rewrite flag_false, app_nil_r. reflexivity.
      - cbn [qres]. destruct (low <=? imax l) eqn:El.
        + destruct r as [|rd rl rr].
          * exists (1 + kl)%nat. split; [cbn; lia|]. intros f st acc. cbn [Nat.add qloop]. rewrite El, IHl.
            fold (hit d). cbn [qres]. rewrite !found_app. unfold qcont at 1. cbn [flag pop].
            rewrite orb_false_r. cbn.
            assert (E : forall b, (if b : bool then @nil nat else []) = []) by (intros []; auto). rewrite !E, app_nil_r.
            destruct (found (qres l)) eqn:Ef.
            -- cbn. rewrite pop_true, flag_flag. unfold qcont. destruct (hit d); cbn; rewrite <- ?app_assoc; reflexivity.
            -- cbn. unfold qcont. destruct (qres l); [|discriminate].
               destruct (hit d); cbn; rewrite ?app_nil_r; reflexivity.
          * destruct (found (qres l)) eqn:Ef.
            -- exists (1 + kl + kr)%nat. split; [cbn [isize] in *; lia|]. intros f st acc.
               replace (1 + kl + kr + f)%nat with (S (kl + (kr + f))) by lia. cbn [qloop]. rewrite El, IHl.
               fold (hit d). unfold qcont at 1. cbn [flag pop orb].
               rewrite IHr, flag_flag, flag_flag. f_equal.
               ++ rewrite !found_app, Ef. destruct (hit d); reflexivity.
               ++ destruct (hit d); cbn; rewrite <- ?app_assoc; reflexivity.
            -- exists (1 + kl)%nat. split; [cbn; lia|]. intros f st acc. cbn [Nat.add qloop]. rewrite El, IHl.
               fold (hit d). unfold qcont at 1. cbn [flag pop orb].
               rewrite app_nil_r, found_app, Ef. destruct (qres l); [|discriminate].
               rewrite !app_nil_r, orb_false_r. unfold qcont. destruct (hit d); cbn; rewrite ?app_nil_r; reflexivity.
        + exists (1 + kr)%nat. split; [cbn; lia|]. intros f st acc. cbn [Nat.add qloop]. rewrite El, IHr.
          fold (hit d). rewrite flag_flag, found_app. f_equal.
          * destruct (hit d); reflexivity.
          * destruct (hit d); cbn; rewrite <- ?app_assoc; reflexivity.
    Qed.
    Lemma i_query_eq t nr : i_query MX low high (t, nr) = Some (qres t).
    Proof.
      unfold i_query. cbn [fst]. destruct (qloop_spec t) as (k & Hk & H).
      replace (isize t + 1)%nat with (k + (isize t + 1 - k))%nat by lia. rewrite H. reflexivity.
    Qed.

    Hypothesis Hq : low <= high.
    Hypothesis Hlow : - MX < low.
    Definition touches (e : nat * (Z * Z)) : Prop := ekey e <= high /\ low <= ehigh e.
    Lemma hit_iff d : n_key d <= n_high d -> hit d = true <-> touches (item d).
    Proof using Hq.
      intros H. unfold hit, iv_overlap, touches, ekey, ehigh; cbn.
      destruct (Z.leb_spec low (n_key d)); rewrite Z.leb_le; lia.
    Qed.
    Lemma maxl_ge l m : - MX < m -> m <= maxl l -> exists e, In e l /\ m <= ehigh e.
    Proof.
      induction l as [|e l IH]; cbn; intros H1 H2; [lia|].
      destruct (Z.le_gt_cases m (ehigh e)); [eauto|]. destruct IH as (e' & H3 & H4); eauto. lia.
    Qed.
    Lemma maxl_in l e : In e l -> ehigh e <= maxl l.
    Proof. induction l as [|x l IH]; cbn; [tauto|]. intros [->|H]; [lia|]. specialize (IH H). lia. Qed.

    Lemma qres_sub t iv : In iv (qres t) -> In iv (map fst (elems t)).
    Proof.
      induction t as [|d l IHl r IHr]; cbn; [tauto|]. rewrite map_app. cbn.
      rewrite !in_app_iff. intros [H|H].
      - destruct (hit d); [|destruct H]. destruct H as [<-|[]]. cbn; auto.
      - destruct (low <=? imax l).
        + apply in_app_iff in H as [H|H]; [auto|]. destruct (found _); [cbn; auto|destruct H].
        + cbn; auto.
    Qed.
    Lemma qres_nodup t : NoDup (map fst (elems t)) -> NoDup (qres t).
    Proof.
      induction t as [|d l IHl r IHr]; cbn; [constructor|]. rewrite map_app. cbn. intros H.
      pose proof (NoDup_remove_1 _ _ _ H) as H1. pose proof (NoDup_remove_2 _ _ _ H) as H2.
      apply NoDup_app_parts in H1 as (Hl & Hr & HD0).
      assert (HD : forall x, In x (qres l) -> ~ In x (qres r)).
      { intros x Hx Hy. apply qres_sub in Hx, Hy. eapply HD0; eauto. }
      assert (HR : NoDup (if low <=? imax l then qres l ++ (if found (qres l) then qres r else []) else qres r)).
      { destruct (low <=? imax l); [|auto]. destruct (found (qres l)); [|rewrite app_nil_r; auto].
        clear - HD IHl IHr Hl Hr. specialize (IHl Hl). specialize (IHr Hr). revert IHl HD. generalize (qres l).
        induction l0 as [|a q IH]; cbn; intros N HD; auto. apply NoDup_cons_iff in N as [N1 N2].
        constructor; [rewrite in_app_iff; intros [|Hc]; [auto|exact (HD a (or_introl eq_refl) Hc)]|]. apply IH; auto. }
      destruct (hit d); [|exact HR]. cbn. constructor; auto. intros Hin. apply H2. cbn.
      rewrite in_app_iff. destruct (low <=? imax l).
      - apply in_app_iff in Hin as [Hin|Hin]; [left; apply qres_sub; auto|].
        destruct (found _); [right; apply qres_sub; auto|destruct Hin].
      - right; apply qres_sub; auto.
    Qed.
    Lemma qres_exact t : iok t -> Forall (fun e => ekey e <= ehigh e) (elems t) ->
      forall iv, In iv (qres t) <-> exists e, In e (elems t) /\ fst e = iv /\ touches e.
    Proof using Hq Hlow.
      intros [Hm Hs]. induction t as [|d l IHl r IHr]; intros Hf iv; cbn [qres elems].
      { split; [intros []|intros (e & [] & _)]. }
      cbn [elems] in Hs, Hf. apply ss_split in Hs as (Sl & Sr & Fl & Fr).
      destruct Hm as (Hd & Hml & Hmr). apply Forall_app in Hf as [Gl G]. apply Forall_cons_iff in G as [Gd Gr].
      specialize (IHl Hml Sl Gl). specialize (IHr Hmr Sr Gr).
      assert (Hhere : In iv (if hit d then [n_iv d] else []) <-> n_iv d = iv /\ touches (item d)).
      { rewrite <- hit_iff by exact Gd. destruct (hit d); cbn; intuition congruence. }
      assert (HL : (low <=? imax l) = false -> forall e, In e (elems l) -> ~ touches e).
      { intros E e He [T1 T2]. apply Z.leb_gt in E. rewrite imax_maxl in E by auto.
        pose proof (maxl_in _ _ He). lia. }
      assert (HR : (low <=? imax l) = true -> found (qres l) = false -> forall e, In e (elems r) -> ~ touches e).
      { intros E Ef e He [T1 T2]. apply Z.leb_le in E. rewrite imax_maxl in E by auto.
        apply maxl_ge in E as (e' & He' & Hh'); auto.
        assert (N : ~ touches e').
        { intros T. assert (In (fst e') (qres l)) as Hin by (apply IHl; eauto).
          destruct (qres l); [destruct Hin|discriminate]. }
        rewrite Forall_forall in Fl, Fr. specialize (Fl e' He'). specialize (Fr e He).
        apply N. split; [lia|auto]. }
      rewrite in_app_iff, Hhere. split.
      - intros [[E T]|H].
        + exists (item d). rewrite in_app_iff. cbn; auto.
        + destruct (low <=? imax l) eqn:E.
          * apply in_app_iff in H as [H|H].
            -- apply IHl in H as (e & He & T). exists e. rewrite in_app_iff; auto.
            -- destruct (found (qres l)); [|destruct H]. apply IHr in H as (e & He & T).
               exists e. rewrite in_app_iff; cbn; auto.
          * apply IHr in H as (e & He & T). exists e. rewrite in_app_iff; cbn; auto.
      - intros (e & He & <- & T). apply in_app_iff in He as [He|[<-|He]].
        + right. destruct (low <=? imax l) eqn:E; [|destruct (HL eq_refl _ He T)].
          apply in_app_iff. left. apply IHl. eauto.
        + left. auto.
        + right. destruct (low <=? imax l) eqn:E; [|apply IHr; eauto].
          apply in_app_iff. right. destruct (found (qres l)) eqn:Ef; [|destruct (HR eq_refl eq_refl _ He T)].
          apply IHr; eauto.
    Qed.
  End Query.
End Proofs.
