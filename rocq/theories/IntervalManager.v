(** IntervalTreeCollisionManager, include/fcl/broadphase/broadphase_interval_tree-inl.h (ITM below)
    and broadphase_interval_tree.h: registration, setup, update, removal and collision queries.
    Not modelled: the distance queries, deallocation of the intervals, exceptions.
    [None] is undefined behaviour: a null tree dereferenced, the end() iterator of a map
    dereferenced, or an interval tree operation that corrupts its tree. *)
From Coq Require Import ZArith List Bool Lia Permutation Arith Sorted.
From Verif Require Import AabbZ Broadphase QueryComb SortSearch IntervalTree SSaP.
Import ListNotations.
Local Open Scope Z_scope.

(** struct EndPoint; [e_max] is minmax = 1. *)
Record ep := Ep { e_obj : obj; e_max : bool; e_val : Z }.
(** std::sort with EndPoint::operator< (compares value): equal values in any order. *)
Definition esorter := list ep -> list ep.
Definition esorts (srt : esorter) : Prop := forall l, Permutation (srt l) l /\ StronglySorted (by_key e_val) (srt l).

(** endpoints[3]; interval_trees[3] ([None] when null); obj_interval_maps[3], whose three maps
    always have the same keys: object to the identity of its intervals; the [obj] field of the
    intervals; a supply of identities for [new SAPInterval]; setup_. *)
Record iman := IM {
  iep : nat -> list ep;
  itrees : option (nat -> ist);
  imap : list (obj * nat);
  iobj : nat -> obj;
  inext : nat;
  iset : bool }.
(** ITM:155-163. *)
Definition im_empty : iman := IM (fun _ => []) None [] (fun _ => 0%nat) 0 false.

Definition lookup (o : obj) (m : list (obj * nat)) : option nat :=
  option_map snd (find (fun p => Nat.eqb (fst p) o) m).
Definition put {A} (f : nat -> A) (n : nat) (v : A) : nat -> A := fun k => if Nat.eqb k n then v else f k.
Definition is_of (o : obj) (e : ep) : bool := Nat.eqb (e_obj e) o.

Section Ops.
  (** numeric_limits<S>::max(), the sort, the current AABBs of the objects. *)
  Variables (MX : Z) (srt : esorter) (box : obj -> aabb).

  (** registerObject, ITM:173-199. *)
  Definition im_register (o : obj) (m : iman) : iman :=
    IM (fun i => iep m i ++ [Ep o false (low box i o); Ep o true (high box i o)])
       (itrees m) (imap m) (iobj m) (inext m) false.

  (** The loop of setup(), ITM:219-236, over the objects of the min endpoints of endpoints[0]. *)
  Fixpoint build (l : list obj) (t0 t1 t2 : ist) (m : iman) : option iman :=
    match l with
    | [] => Some (IM (iep m) (Some (fun i => match i with 0%nat => t0 | 1%nat => t1 | _ => t2 end))
                     (imap m) (iobj m) (inext m) true)
    | o :: r =>
        match i_insert MX (low box 0 o) (high box 0 o) (inext m) t0,
              i_insert MX (low box 1 o) (high box 1 o) (inext m) t1,
              i_insert MX (low box 2 o) (high box 2 o) (inext m) t2 with
        | Some t0', Some t1', Some t2' =>
            build r t0' t1' t2'
              (IM (iep m) (itrees m) ((o, inext m) :: imap m) (put (iobj m) (inext m) o) (S (inext m)) (iset m))
        | _, _, _ => None
        end
    end.
  (** setup(), ITM:203-241. *)
  Definition im_setup (m : iman) : option iman :=
    if iset m then Some m
    else
      let m' := IM (fun i => srt (iep m i)) (itrees m) (imap m) (iobj m) (inext m) (iset m) in
      let mins := map e_obj (filter (fun e => negb (e_max e)) (iep m' 0%nat)) in
      build mins (INil, false) (INil, false) (INil, false) m'.

  (** update(), ITM:245-277. *)
  Definition refresh (i : nat) (e : ep) : ep :=
    Ep (e_obj e) (e_max e) (if e_max e then high box i (e_obj e) else low box i (e_obj e)).
  Definition im_update (m : iman) : option iman :=
    im_setup (IM (fun i => map (refresh i) (iep m i)) (itrees m) (imap m) (iobj m) (inext m) false).

  (** One axis of unregisterObject, ITM:58-81 (and 83-106, 109-132): the entries of other objects
      in [start, end) move to the front of that range, then the *vector* loses its last two
      entries. *)
  Definition unreg_axis (lo hi : Z) (o : obj) (l : list ep) : list ep :=
    let start := lower_bound (map e_val l) lo in
    let stop := (start + upper_bound (skipn start (map e_val l)) hi)%nat in
    if Nat.ltb start stop then
      let kept := filter (fun e => negb (is_of o e)) (firstn (stop - start) (skipn start l)) in
      let cur := (start + length kept)%nat in
      let l' := firstn start l ++ kept ++ skipn cur l in
      if Nat.ltb cur stop then firstn (length l' - 2) l' else l'
    else l.
  Definition del3 (iv : nat) (ts : nat -> ist) : option (nat -> ist) :=
    match i_delete MX iv (ts 0%nat), i_delete MX iv (ts 1%nat), i_delete MX iv (ts 2%nat) with
    | Some a, Some b, Some c => Some (fun i => match i with 0%nat => a | 1%nat => b | _ => c end)
    | _, _, _ => None
    end.
  (** unregisterObject, ITM:52-153. *)
  Definition im_unregister (o : obj) (m : iman) : option iman :=
    match im_setup m with
    | None => None
    | Some m =>
        let es := fun i => unreg_axis (low box i o) (high box i o) o (iep m i) in
        match lookup o (imap m) with
        | None => Some (IM es (itrees m) (imap m) (iobj m) (inext m) (iset m))
        | Some iv =>
            match itrees m with
            | None => None
            | Some ts =>
                match del3 iv ts with
                | None => None
                | Some ts' =>
                    Some (IM es (Some ts') (filter (fun p => negb (Nat.eqb (fst p) o)) (imap m))
                             (iobj m) (inext m) (iset m))
                end
            end
        end
    end.

  (** The two inner loops of update(obj), ITM:302-311 and 315-324: the first *min* endpoint of
      the object from the given position on gets the value. *)
  Fixpoint set_first (o : obj) (v : Z) (l : list ep) : list ep :=
    match l with
    | [] => []
    | e :: r => if is_of o e && negb (e_max e) then Ep (e_obj e) (e_max e) v :: r else e :: set_first o v r
    end.
  Definition set_from (o : obj) (v : Z) (n : nat) (l : list ep) : list ep :=
    firstn n l ++ set_first o v (skipn n l).
  (** One axis of the second part of update(obj), ITM:298-327; [old] is the old interval. *)
  Definition upd_axis (o : obj) (old new : Z * Z) (l : list ep) : list ep :=
    let l1 := set_from o (fst new) (lower_bound (map e_val l) (fst old)) l in
    let l2 := set_from o (snd new) (lower_bound (map e_val l1) (snd old)) l1 in
    srt l2.
  (** The low and high of the stored interval [iv]. *)
  Fixpoint ivl_of (iv : nat) (t : itree) : option (Z * Z) :=
    match t with
    | INil => None
    | INode d l r =>
        if Nat.eqb (n_iv d) iv then Some (n_key d, n_high d)
        else match ivl_of iv l with Some x => Some x | None => ivl_of iv r end
    end.
  (** deleteNode, then insert with the new bounds, ITM:285-294. *)
  Definition move_ivl (iv i : nat) (o : obj) (t : ist) : option ist :=
    match i_delete MX iv t with
    | None => None
    | Some t' => i_insert MX (low box i o) (high box i o) iv t'
    end.
  (** update(obj), ITM:281-328. *)
  Definition im_update_obj (o : obj) (m : iman) : option iman :=
    match lookup o (imap m), itrees m with
    | Some iv, Some ts =>
        match ivl_of iv (fst (ts 0%nat)), ivl_of iv (fst (ts 1%nat)), ivl_of iv (fst (ts 2%nat)),
              move_ivl iv 0 o (ts 0%nat), move_ivl iv 1 o (ts 1%nat), move_ivl iv 2 o (ts 2%nat) with
        | Some a0, Some a1, Some a2, Some b0, Some b1, Some b2 =>
            let old := fun i => match i with 0%nat => a0 | 1%nat => a1 | _ => a2 end in
            Some (IM (fun i => upd_axis o (old i) (low box i o, high box i o) (iep m i))
                     (Some (fun i => match i with 0%nat => b0 | 1%nat => b1 | _ => b2 end))
                     (imap m) (iobj m) (inext m) (iset m))
        | _, _, _, _, _, _ => None
        end
    | _, _ => None
    end.

  (** ITM:331-355. *)
  Definition im_clear (m : iman) : iman := IM (fun _ => []) None [] (iobj m) (inext m) false.

  (** getObjects, ITM:359-371 (the vector has size/2 entries; with more min endpoints than that
      it is written out of bounds). *)
  Definition im_get (m : iman) : list obj := map e_obj (filter (fun e => negb (e_max e)) (iep m 0%nat)).
  (** ITM:649-660. *)
  Definition im_size (m : iman) : nat := Nat.div (length (iep m 0%nat)) 2.
  Definition im_is_empty (m : iman) : bool := match iep m 0%nat with [] => true | _ => false end.

  (** ** Collision queries *)
  Definition CUTOFF : nat := 100.
  (** collide_, ITM:383-421, and the same code in distance_, ITM:449-481: the results of the chosen
      query for the box [b], as objects. *)
  Definition candidates (m : iman) (b : aabb) : option (list obj) :=
    match itrees m with
    | None => None
    | Some ts =>
        let q i := i_query MX (coord i (bmin b)) (coord i (bmax b)) (ts i) in
        let objs := map (iobj m) in
        match q 0%nat with
        | None => None
        | Some r0 =>
            if Nat.ltb CUTOFF (length r0) then
              match q 1%nat with
              | None => None
              | Some r1 =>
                  if Nat.ltb CUTOFF (length r1) then
                    match q 2%nat with
                    | None => None
                    | Some r2 =>
                        if Nat.ltb CUTOFF (length r2) then
                          let d1 := length r0 in let d2 := length r1 in let d3 := length r2 in
                          if Nat.leb d2 d1 && Nat.leb d3 d1 then Some (objs r0)
                          else if Nat.leb d1 d2 && Nat.leb d3 d2 then Some (objs r1)
                          else Some (objs r2)
                        else Some (objs r2)
                    end
                  else Some (objs r1)
              end
            else Some (objs r0)
        end
    end.
  (** checkColl, ITM:664-688, is [check_coll]; collide_ *)
  Definition im_collide_ (m : iman) (o : obj) : option query :=
    option_map (fun l => check_coll box l o) (candidates m (box o)).
  (** collide(obj), ITM:375-379. *)
  Definition im_collide_obj (m : iman) (o : obj) : option query :=
    if Nat.eqb (im_size m) 0 then Some cskip else im_collide_ m o.

  (** std::set<CollisionObject*>, ordered by address. *)
  Fixpoint set_insert (a : obj) (l : list obj) : list obj :=
    match l with
    | [] => [a]
    | b :: r => if Nat.eqb a b then l else if Nat.ltb a b then a :: l else b :: set_insert a r
    end.
  Definition norm_pair (a b : obj) : obj * obj := if Nat.ltb a b then (a, b) else (b, a).
  Definition seen_pair (p : obj * obj) (l : list (obj * obj)) : bool :=
    existsb (fun q => Nat.eqb (fst p) (fst q) && Nat.eqb (snd p) (snd q)) l.
  (** ITM:541-564: a min endpoint of [b] against the active set. *)
  Fixpoint at_min (a2 a3 : nat) (b : obj) (act : list obj) (seen : list (obj * obj))
    (k : list (obj * obj) -> query) : query :=
    match act with
    | [] => k seen
    | a :: r =>
        if axis_overlap (box a) (box b) a2 && axis_overlap (box a) (box b) a3 then
          if seen_pair (norm_pair a b) seen then at_min a2 a3 b r seen k
          else cseq (ccall a b) (at_min a2 a3 b r (norm_pair a b :: seen) k)
        else at_min a2 a3 b r seen k
    end.
  (** ITM:535-570. *)
  Fixpoint isweep (a2 a3 : nat) (l : list ep) (act : list obj) (seen : list (obj * obj)) : query :=
    match l with
    | [] => cskip
    | e :: l' =>
        if e_max e then isweep a2 a3 l' (take_out (e_obj e) act) seen
        else at_min a2 a3 (e_obj e) act seen (isweep a2 a3 l' (set_insert (e_obj e) act))
    end.
  Definition im_axis (m : iman) : nat :=
    let diff i := nth 0 (map e_val (iep m i)) 0 - nth (length (iep m 0%nat) - 1) (map e_val (iep m i)) 0 in
    if (diff 0%nat <? diff 1%nat) && (diff 2%nat <? diff 1%nat) then 1%nat
    else if (diff 1%nat <? diff 2%nat) && (diff 0%nat <? diff 2%nat) then 2%nat
    else 0%nat.
  (** collide(), ITM:518-572; the three vectors have the same length. *)
  Definition im_collide_self (m : iman) : query :=
    if Nat.eqb (im_size m) 0 then cskip
    else
      let axis := im_axis m in
      isweep (Nat.modulo (axis + 1) 3) (Nat.modulo (axis + 2) 3)
             (firstn (length (iep m 0%nat)) (iep m axis)) [] [].

  Fixpoint oceach {A} (Q : A -> option query) (l : list A) : option query :=
    match l with
    | [] => Some cskip
    | x :: r => match Q x, oceach Q r with Some q, Some q' => Some (cseq q q') | _, _ => None end
    end.
  (** collide(other) with another manager, ITM:595-617: the loop runs over *endpoints*. *)
  Definition im_collide_other (m other : iman) : option query :=
    if Nat.eqb (im_size m) 0 || Nat.eqb (im_size other) 0 then Some cskip
    else if Nat.ltb (im_size m) (im_size other) then oceach (im_collide_ other) (map e_obj (iep m 0%nat))
    else oceach (im_collide_ m) (map e_obj (iep other 0%nat)).
End Ops.

(** ** Histories *)
Inductive mop :=
| MMove (o : obj) (b : aabb)       (* the user changes the object's AABB *)
| MReg (o : obj) | MUnreg (o : obj) | MSetup | MUpdate | MUpdateObj (o : obj) | MClear.
Definition m_step (MX : Z) (srt : esorter) (op : mop) (s : iman * (obj -> aabb)) : option (iman * (obj -> aabb)) :=
  let (m, box) := s in
  let keep := option_map (fun m' => (m', box)) in
  match op with
  | MMove o b => Some (m, set_box box o b)
  | MReg o => keep (Some (im_register box o m))
  | MUnreg o => keep (im_unregister MX srt box o m)
  | MSetup => keep (im_setup MX srt box m)
  | MUpdate => keep (im_update MX srt box m)
  | MUpdateObj o => keep (im_update_obj MX srt box o m)
  | MClear => keep (Some (im_clear m))
  end.
Fixpoint m_run (MX : Z) (srt : esorter) (ops : list mop) (s : iman * (obj -> aabb)) : option (iman * (obj -> aabb)) :=
  match ops with
  | [] => Some s
  | op :: r => match m_step MX srt op s with Some s' => m_run MX srt r s' | None => None end
  end.

(** What the user knows: the registered objects; whether setup() or update() ran since the last
    registration; the objects whose endpoints, and whose tree intervals, may not be current. *)
Record mspec := MS { ms_regs : list obj; ms_set : bool; ms_es : list obj; ms_ts : list obj }.
Definition ms_setup (x : mspec) : mspec :=
  if ms_set x then x else MS (ms_regs x) true (ms_es x) [].
Definition mspec_step (x : mspec) (op : mop) : mspec :=
  match op with
  | MMove o _ => MS (ms_regs x) (ms_set x) (o :: ms_es x) (o :: ms_ts x)
  | MReg o => MS (ms_regs x ++ [o]) false (take_out o (ms_es x)) (ms_ts x)
  | MUnreg o => let y := ms_setup x in MS (take_out o (ms_regs y)) true (ms_es y) (ms_ts y)
  | MSetup => ms_setup x
  | MUpdate => MS (ms_regs x) true [] []
  | MUpdateObj o => MS (ms_regs x) (ms_set x) (o :: ms_es x) (take_out o (ms_ts x))
  | MClear => MS [] false [] []
  end.
Definition ms_start : mspec := MS [] false [] [].
Definition m_spec (ops : list mop) : mspec := fold_left mspec_step ops ms_start.

(** An AABB with min <= max and all coordinates above -max. *)
Definition finite_box (MX : Z) (b : aabb) : Prop :=
  nonempty b /\ forall i, (i < 3)%nat -> - MX < coord i (bmin b).
(** No box of [regs] reaches beyond that of [o] in the positive direction of any axis. *)
Definition topmost (box : obj -> aabb) (o : obj) (regs : list obj) : Prop :=
  forall a i, In a regs -> (i < 3)%nat -> high box i a <= high box i o.
Definition m_legal (MX : Z) (x : mspec) (box : obj -> aabb) (op : mop) : Prop :=
  match op with
  | MMove _ b => finite_box MX b
  | MReg o => ~ In o (ms_regs x)
  | MUnreg o => In o (ms_regs x) -> (forall a, In a (ms_regs x) -> ~ In a (ms_es x)) /\ topmost box o (ms_regs x)
  | MUpdateObj o => ms_set x = true /\ In o (ms_regs x)
  | _ => True
  end.
Definition box_step (box : obj -> aabb) (op : mop) : obj -> aabb :=
  match op with MMove o b => set_box box o b | _ => box end.
Fixpoint m_legal_from (MX : Z) (x : mspec) (box : obj -> aabb) (ops : list mop) : Prop :=
  match ops with
  | [] => True
  | op :: r => m_legal MX x box op /\ m_legal_from MX (mspec_step x op) (box_step box op) r
  end.
Definition m_legal_history (MX : Z) (ops : list mop) (box0 : obj -> aabb) : Prop :=
  (forall o, finite_box MX (box0 o)) /\ m_legal_from MX ms_start box0 ops.

(** ** Invariant *)
Definition tag (e : ep) : obj * bool := (e_obj e, e_max e).
Definition tags (regs : list obj) : list (obj * bool) := flat_map (fun o => [(o, false); (o, true)]) regs.
Definition evalue (box : obj -> aabb) (i : nat) (e : ep) : Z :=
  if e_max e then high box i (e_obj e) else low box i (e_obj e).
(** A sound tree with the given intervals. *)
Definition tok (MX : Z) (s : ist) (C : list (nat * (Z * Z))) : Prop :=
  iok MX (fst s) /\ root_black (fst s) /\ Permutation (elems (fst s)) C.
Definition ivl_item (i : nat) (p : nat * (obj * aabb)) : nat * (Z * Z) :=
  (fst p, (coord i (bmin (snd (snd p))), coord i (bmax (snd (snd p))))).
Definition iowner (p : nat * (obj * aabb)) : obj := fst (snd p).

Section Inv.
  Variables (MX : Z) (srt : esorter).
  Hypothesis HSo : esorts srt.

  (** [L] lists the live intervals: identity, object, and the box they were made from. *)
  Definition trees_ok (m : iman) (box : obj -> aabb) (regs ts : list obj) (f : nat -> ist) (L : list (nat * (obj * aabb))) : Prop :=
    Permutation (map iowner L) regs /\ NoDup (map fst L) /\
    (forall iv o b, In (iv, (o, b)) L -> iobj m iv = o /\ lookup o (imap m) = Some iv /\ (iv < inext m)%nat /\
       finite_box MX b /\ (~ In o ts -> b = box o)) /\
    forall i, (i < 3)%nat -> tok MX (f i) (map (ivl_item i) L).
  Definition minv (m : iman) (box : obj -> aabb) (x : mspec) : Prop :=
    NoDup (ms_regs x) /\ (forall o, finite_box MX (box o)) /\
    (forall i, (i < 3)%nat -> Permutation (map tag (iep m i)) (tags (ms_regs x))) /\
    (forall i e, (i < 3)%nat -> In e (iep m i) -> ~ In (e_obj e) (ms_es x) -> e_val e = evalue box i e) /\
    (forall o iv, lookup o (imap m) = Some iv -> In o (ms_regs x)) /\
    iset m = ms_set x /\
    (ms_set x = true ->
       (forall i, (i < 3)%nat -> StronglySorted (by_key e_val) (iep m i)) /\
       exists f L, itrees m = Some f /\ trees_ok m box (ms_regs x) (ms_ts x) f L).

  Lemma tags_In regs o c : In (o, c) (tags regs) <-> In o regs.
  Proof.
    unfold tags. rewrite in_flat_map. split.
    - intros (x & Hx & [[= -> <-]|[[= -> <-]|[]]]); auto.
    - intros H. exists o. split; auto. destruct c; cbn; auto.
  Qed.
  Lemma tags_NoDup regs : NoDup regs -> NoDup (tags regs).
  Proof.
    induction 1 as [|o l Hn ND IH]; cbn; [constructor|]. rewrite <- tags_In with (c := false) in Hn.
    constructor; [|constructor; auto].
    - intros [[=]|H]; auto.
    - rewrite tags_In in *. auto.
  Qed.
  Lemma filter_map_swap {A B} (f : A -> B) (p : B -> bool) l : filter p (map f l) = map f (filter (fun x => p (f x)) l).
  Proof. induction l as [|x l IH]; cbn; auto. destruct (p (f x)); cbn; f_equal; auto. Qed.
  Lemma mins_perm l regs : Permutation (map tag l) (tags regs) ->
    Permutation (map e_obj (filter (fun e => negb (e_max e)) l)) regs.
  Proof.
    intros H.
    assert (E : map fst (filter (fun t => negb (snd t)) (map tag l)) = map e_obj (filter (fun e => negb (e_max e)) l)).
    { rewrite filter_map_swap, map_map. reflexivity. }
    rewrite <- E. clear E.
    assert (F : map fst (filter (fun t => negb (snd t)) (tags regs)) = regs).
    { clear. induction regs as [|o r IH]; cbn; f_equal; auto. }
    rewrite <- F. apply Permutation_map. revert H. generalize (map tag l) (tags regs). clear.
    induction 1; cbn; auto.
    - destruct (negb (snd x)); auto.
    - destruct (negb (snd x)), (negb (snd y)); auto using perm_swap.
    - eapply Permutation_trans; eauto.
  Qed.

  Lemma tok_nil : tok MX (INil, false) [].
  Proof. split; [split; constructor|split; [reflexivity|constructor]]. Qed.
  Lemma tok_perm s C C' : Permutation C C' -> tok MX s C -> tok MX s C'.
  Proof. intros P (A & B & D). split; auto. split; auto. eapply Permutation_trans; eauto. Qed.
  Lemma tok_insert s C k h iv : tok MX s C -> - MX <= h -> exists s', i_insert MX k h iv s = Some s' /\ tok MX s' ((iv, (k, h)) :: C).
  Proof.
    destruct s as [t nr]. intros (I & R & P) Hh. cbn [fst] in *.
    destruct (i_insert_total MX k h iv t nr R) as (t1 & nr1 & E & R'). exists (t1, nr1). split; auto.
    apply i_insert_spec in E as (I' & a & b & Ea & Eb); auto. split; auto. split; auto. cbn [fst].
    rewrite Eb, <- P, Ea. apply Permutation_sym, Permutation_middle.
  Qed.
  Lemma tok_delete s C iv s' : tok MX s C -> NoDup (map fst C) -> i_delete MX iv s = Some s' ->
    (exists kh, In (iv, kh) C) /\ tok MX s' (filter (fun e => negb (Nat.eqb (fst e) iv)) C).
  Proof.
    destruct s as [t nr], s' as [t' nr']. intros (I & R & P) ND H. cbn [fst] in *.
    pose proof (i_delete_root MX iv _ _ _ _ R H) as R'.
    apply i_delete_spec in H as (I' & a & kh & b & Ea & Eb); auto. split.
    - exists kh. rewrite <- P, Ea. apply in_elt.
    - split; auto. split; auto. cbn [fst]. rewrite Eb.
      assert (N : NoDup (map fst (a ++ (iv, kh) :: b))).
      { rewrite <- Ea. eapply Permutation_NoDup; [apply Permutation_map, Permutation_sym, P|auto]. }
      assert (E : filter (fun e => negb (Nat.eqb (fst e) iv)) (a ++ (iv, kh) :: b) = a ++ b).
      { rewrite map_app in N. cbn in N. apply NoDup_remove_2 in N. rewrite in_app_iff in N. rewrite filter_app. cbn.
        rewrite Nat.eqb_refl. cbn.
        assert (F : forall l, ~ In iv (map fst l) -> filter (fun e : nat * (Z * Z) => negb (Nat.eqb (fst e) iv)) l = l).
        { clear. induction l as [|x l IH]; cbn; auto. intros H. destruct (Nat.eqb_spec (fst x) iv); cbn; [tauto|].
          f_equal. apply IH. tauto. }
        rewrite !F; tauto. }
      rewrite <- E, <- Ea.
      clear - P. induction P; cbn; auto.
      + destruct (negb _); auto.
      + destruct (negb (Nat.eqb (fst x) iv)), (negb (Nat.eqb (fst y) iv)); auto using perm_swap.
      + eapply Permutation_trans; eauto.
  Qed.

  Lemma lookup_cons o o' iv mp : lookup o ((o', iv) :: mp) = if Nat.eqb o' o then Some iv else lookup o mp.
  Proof. unfold lookup. cbn. destruct (Nat.eqb o' o); reflexivity. Qed.
  Lemma fb_high b i : (i < 3)%nat -> finite_box MX b -> - MX <= coord i (bmax b).
  Proof.
    intros Hi [N F]. specialize (F i Hi). apply nonempty_ineq in N. destruct i as [|[|[|i]]]; cbn in *; lia.
  Qed.

  Definition pick3 (t0 t1 t2 : ist) : nat -> ist := fun i => match i with 0%nat => t0 | 1%nat => t1 | _ => t2 end.
  Lemma build_spec box l : (forall o, finite_box MX (box o)) -> forall t0 t1 t2 m L,
    NoDup (map iowner L ++ l) -> trees_ok m box (map iowner L) [] (pick3 t0 t1 t2) L ->
    exists m' f L', build MX box l t0 t1 t2 m = Some m' /\ itrees m' = Some f /\ iep m' = iep m /\ iset m' = true /\
      trees_ok m' box (map iowner L ++ l) [] f L' /\
      (forall o iv, lookup o (imap m') = Some iv -> lookup o (imap m) = Some iv \/ In o l).
  Proof.
    intros HF. induction l as [|o l IH]; intros t0 t1 t2 m L ND HT; cbn [build].
    - eexists _, _, L. rewrite app_nil_r. repeat (split; [reflexivity|]). split; [exact HT|]. cbn; auto.
    - destruct HT as (P & N & C & T).
      pose proof (T 0%nat ltac:(lia)) as T0. pose proof (T 1%nat ltac:(lia)) as T1. pose proof (T 2%nat ltac:(lia)) as T2.
      cbn [pick3] in T0, T1, T2.
      destruct (tok_insert t0 _ (low box 0 o) (high box 0 o) (inext m) T0) as (t0' & -> & T0'); [apply fb_high; auto|].
      destruct (tok_insert t1 _ (low box 1 o) (high box 1 o) (inext m) T1) as (t1' & -> & T1'); [apply fb_high; auto|].
      destruct (tok_insert t2 _ (low box 2 o) (high box 2 o) (inext m) T2) as (t2' & -> & T2'); [apply fb_high; auto|].
      assert (Ho : ~ In o (map iowner L)).
      { intros H. apply NoDup_remove_2 in ND. rewrite in_app_iff in ND. auto. }
      set (m1 := IM _ _ _ _ _ _).
      destruct (IH t0' t1' t2' m1 ((inext m, (o, box o)) :: L)) as (m' & f & L' & E & Ef & Ee & Es & HT' & HM).
      + cbn. eapply Permutation_NoDup; [|exact ND]. apply Permutation_sym, Permutation_middle.
      + split; [reflexivity|]. split; [|split].
        * cbn. constructor; auto. intros H. apply in_map_iff in H as ([iv [o' b]] & Ei & Hx). cbn in Ei.
          apply C in Hx as (_ & _ & Hx & _). lia.
        * intros iv o' b [[= <- <- <-]|H].
          -- unfold m1. cbn [iobj imap inext]. unfold put. rewrite Nat.eqb_refl, lookup_cons, Nat.eqb_refl.
             repeat split; auto; try lia; apply HF.
          -- specialize (C _ _ _ H) as (C1 & C2 & C3 & C4 & C5). unfold m1. cbn [iobj imap inext]. unfold put.
             rewrite lookup_cons. destruct (Nat.eqb_spec iv (inext m)); [lia|]. destruct (Nat.eqb_spec o o') as [<-|].
             ++ destruct Ho. apply in_map_iff. eexists; split; [|exact H]. reflexivity.
             ++ repeat split; auto; try lia; apply C4.
        * intros [|[|[|i]]] Hi; try lia; cbn [pick3 map]; auto.
      + exists m', f, L'. split; auto. split; auto. split; auto. split; auto. split.
        * destruct HT' as (P' & R'). split; auto. rewrite P'. cbn. apply Permutation_middle.
        * intros x iv H. apply HM in H as [H|H]; [|cbn; auto]. unfold m1 in H. cbn [imap] in H.
          rewrite lookup_cons in H. destruct (Nat.eqb_spec o x) as [->|]; cbn; auto.
  Qed.

  Lemma srt_In l e : In e (srt l) <-> In e l.
  Proof using HSo. destruct (HSo l) as [P _]. rewrite P. tauto. Qed.
  Lemma setup_inv m box x : minv m box x ->
    exists m', im_setup MX srt box m = Some m' /\ minv m' box (ms_setup x) /\
      (ms_set x = false -> ms_ts (ms_setup x) = []).
  Proof using HSo.
    intros (ND & HF & P & V & LK & S & B). unfold im_setup, ms_setup. rewrite S.
    destruct (ms_set x) eqn:ES.
    { exists m. split; auto. split; [|discriminate]. repeat (split; auto). rewrite ES. auto. }
    set (m1 := IM _ _ _ _ _ _). set (mins := map e_obj _).
    assert (PM : Permutation mins (ms_regs x)).
    { unfold mins. apply mins_perm. unfold m1; cbn [iep]. destruct (HSo (iep m 0%nat)) as [PS _].
      rewrite (Permutation_map tag PS). apply P; lia. }
    destruct (build_spec box mins HF (INil, false) (INil, false) (INil, false) m1 []) as (m' & f & L' & E & Ef & Ee & Es & HT & HM).
    - cbn. eapply Permutation_NoDup; [apply Permutation_sym, PM|auto].
    - split; [constructor|]. split; [constructor|]. split; [intros ? ? ? []|].
      intros [|[|[|i]]] Hi; try lia; apply tok_nil.
    - exists m'. split; auto. split; [|auto]. split; [exact ND|]. split; auto. cbn [ms_regs ms_es ms_set ms_ts].
      assert (EI : forall i, iep m' i = srt (iep m i)) by (intros i; rewrite Ee; reflexivity).
      split; [|split; [|split; [|split; [auto|]]]].
      + intros i Hi. rewrite EI. destruct (HSo (iep m i)) as [PS _]. rewrite (Permutation_map tag PS). auto.
      + intros i e Hi He. rewrite EI, srt_In in He. auto.
      + intros o iv H. apply HM in H as [H|H]; [eapply LK; exact H|]. rewrite <- PM. auto.
      + intros _. split; [intros i Hi; rewrite EI; apply HSo|]. exists f, L'. split; auto.
        destruct HT as (HP & HR). split; [rewrite HP; cbn; auto|auto].
  Qed.

  Lemma register_inv m box x o : minv m box x -> ~ In o (ms_regs x) ->
    minv (im_register box o m) box (mspec_step x (MReg o)).
  Proof.
    intros (ND & HF & P & V & LK & S & B) Hn. cbn [mspec_step]. split; [|split; [auto|]]; cbn [ms_regs ms_es ms_set].
    - apply Permutation_NoDup with (l := o :: ms_regs x); [apply Permutation_cons_append|]. constructor; auto.
    - split; [|split; [|split; [|split; [reflexivity|discriminate]]]]; cbn [im_register iep imap].
      + intros i Hi. rewrite map_app. unfold tags. rewrite flat_map_app. apply Permutation_app; [apply P; auto|]. cbn. auto.
      + intros i e Hi He Hne. apply in_app_iff in He as [He|[<-|[<-|[]]]]; auto.
        apply V; auto. intros H. apply Hne, take_out_In. split; auto. intros E.
        apply Hn. rewrite <- (tags_In _ _ (e_max e)), <- E. rewrite <- (P i Hi). apply in_map_iff. exists e; auto.
      + intros o' iv H. apply LK in H. apply in_app_iff. auto.
  Qed.

  Lemma move_inv m box x o b : minv m box x -> finite_box MX b -> minv m (set_box box o b) (mspec_step x (MMove o b)).
  Proof.
    intros (ND & HF & P & V & LK & S & B) Hb. cbn [mspec_step]. repeat (split; [solve [auto]|]).
    cbn [ms_regs ms_es ms_set ms_ts].
    assert (EB : forall a, a <> o -> set_box box o b a = box a).
    { intros a Ha. unfold set_box. destruct (Nat.eqb_spec a o); congruence. }
    split.
    { intros a. unfold set_box. destruct (Nat.eqb a o); auto. }
    split; auto. split; [|split; [auto|split; [auto|]]].
    - intros i e Hi He Hne. rewrite (V i e) by (cbn in Hne; auto).
      unfold evalue, low, high. rewrite EB; auto. intros E. apply Hne. left; auto.
    - intros H. destruct (B H) as (Hs & f & L & Ef & HP & HN & HC & HT). split; auto. exists f, L. split; auto.
      split; auto. split; auto. split; auto. intros iv o' b' Hi. destruct (HC _ _ _ Hi) as (C1 & C2 & C3 & C4 & C5).
      repeat (split; [solve [auto]|]). intros Hne. rewrite EB; [apply C5; cbn in Hne; auto|]. intros ->. apply Hne. left; auto.
  Qed.

  Lemma refresh_tag box i l : map tag (map (refresh box i) l) = map tag l.
  Proof. rewrite map_map. reflexivity. Qed.
  Lemma update_inv m box x : minv m box x ->
    exists m', im_update MX srt box m = Some m' /\ minv m' box (mspec_step x MUpdate).
  Proof using HSo.
    intros (ND & HF & P & V & LK & S & B). unfold im_update. set (m1 := IM _ _ _ _ _ _).
    assert (I : minv m1 box (MS (ms_regs x) false [] [])).
    { split; auto. split; auto. split; [|split; [|split; [exact LK|split; [reflexivity|discriminate]]]].
      - intros i Hi. unfold m1. cbn [iep]. rewrite refresh_tag. apply P; auto.
      - intros i e Hi He _. unfold m1 in He. cbn [iep] in He. apply in_map_iff in He as (e' & <- & _). reflexivity. }
    destruct (setup_inv m1 box _ I) as (m' & E & I' & _). exists m'. auto.
  Qed.
  Lemma clear_inv m box x : minv m box x -> minv (im_clear m) box (mspec_step x MClear).
  Proof.
    intros (ND & HF & _). split; [constructor|]. split; auto. cbn. split; [constructor|]. split; [intros ? ? _ []|].
    split; [discriminate|]. split; [auto|discriminate].
  Qed.

  (** *** unregisterObject *)
  Lemma filter_tags_out o regs : filter (fun t => negb (Nat.eqb (fst t) o)) (tags regs) = tags (take_out o regs).
  Proof.
    unfold take_out, tags. induction regs as [|a l IH]; cbn; auto.
    destruct (Nat.eqb a o); cbn; rewrite IH; auto.
  Qed.
  Lemma perm_filter {A} (p : A -> bool) l l' : Permutation l l' -> Permutation (filter p l) (filter p l').
  Proof.
    induction 1; cbn; auto.
    - destruct (p x); auto.
    - destruct (p x), (p y); auto using perm_swap.
    - eapply Permutation_trans; eauto.
  Qed.
  Lemma filter_all {A} (p : A -> bool) l : (forall x, In x l -> p x = true) -> filter p l = l.
  Proof. induction l as [|x l IH]; cbn; intros H; auto. rewrite (H x) by auto. f_equal. apply IH. auto. Qed.
  Lemma filter_none {A} (p : A -> bool) l : (forall x, In x l -> p x = false) -> filter p l = [].
  Proof. induction l as [|x l IH]; cbn; intros H; auto. rewrite (H x) by auto. apply IH. auto. Qed.
  (** The two endpoints of a registered object. *)
  Lemma own_length l regs o : NoDup regs -> Permutation (map tag l) (tags regs) ->
    length (filter (is_of o) l) = if mem o regs then 2%nat else 0%nat.
  Proof.
    intros ND P.
    assert (E : length (filter (is_of o) l) = length (filter (fun t => Nat.eqb (fst t) o) (map tag l))).
    { rewrite filter_map_swap, map_length. reflexivity. }
    rewrite E, (Permutation_length (perm_filter _ _ _ P)). clear E P. unfold mem.
    induction ND as [|a r Hn ND IH]; cbn; auto. rewrite (Nat.eqb_sym o a). destruct (Nat.eqb_spec a o) as [->|N]; cbn; auto.
    assert (existsb (Nat.eqb o) r = false) as F.
    { apply not_true_iff_false. intros H. apply existsb_exists in H as (y & Hy & Ey). apply Nat.eqb_eq in Ey. subst; auto. }
    rewrite F in IH. fold (tags r). rewrite IH. reflexivity.
  Qed.
  Lemma filter_split_length {A} (p : A -> bool) l : length l = (length (filter p l) + length (filter (fun x => negb (p x)) l))%nat.
  Proof. induction l as [|x l IH]; cbn; auto. destruct (p x); cbn; lia. Qed.

  Lemma skipn_skipn_add {A} a b (l : list A) : skipn a (skipn b l) = skipn (b + a) l.
  Proof. revert l; induction b as [|b IH]; intros l; cbn; auto. destruct l; [apply skipn_nil|apply IH]. Qed.
  Lemma unreg_axis_out lo hi o l : (forall e, In e l -> e_obj e <> o) -> unreg_axis lo hi o l = l.
  Proof.
    intros H. unfold unreg_axis. set (s := lower_bound _ _). set (t := (s + upper_bound _ _)%nat).
    destruct (Nat.ltb_spec s t) as [L|L]; auto.
    rewrite (filter_all (fun e => negb (is_of o e))).
    2:{ intros e He. unfold is_of. apply negb_true_iff, Nat.eqb_neq, H.
        assert (He' : In e (skipn s l)) by (rewrite <- (firstn_skipn (t - s) (skipn s l)); apply in_or_app; auto).
        rewrite <- (firstn_skipn s l). apply in_or_app; auto. }
    rewrite firstn_length, skipn_length.
    assert (UB : (t <= length l)%nat \/ (length l <= s)%nat).
    { destruct (Nat.le_gt_cases (length l) s) as [G|G]; auto. left. unfold t.
      assert (U : (upper_bound (skipn s (map e_val l)) hi <= length l - s)%nat); [|lia].
      unfold upper_bound. rewrite skipn_length, map_length.
      assert (Gen : forall fuel g ks f n, (bsearch fuel g ks f n <= f + n)%nat).
      { induction fuel as [|k IH]; intros g ks f n; cbn [bsearch]; [lia|].
        destruct (Nat.eqb_spec n 0); [lia|]. assert (Nat.div n 2 < n)%nat by (apply Nat.div_lt; lia).
        destruct (g _); eapply Nat.le_trans; try apply IH; lia. }
      eapply Nat.le_trans; [apply Gen|]. lia. }
    destruct UB as [UB|UB].
    - rewrite Nat.min_l by lia. replace (s + (t - s))%nat with t by lia. rewrite Nat.ltb_irrefl.
      rewrite <- (firstn_skipn s l) at 4. f_equal. rewrite <- (firstn_skipn (t - s) (skipn s l)) at 2. f_equal.
      rewrite skipn_skipn_add. f_equal. lia.
    - exfalso. assert (E : skipn s (map e_val l) = []) by (apply skipn_all2; rewrite map_length; lia).
      unfold t in L. rewrite E in L. cbn in L. lia.
  Qed.

  Lemma skipn_map_comm {A B} (f : A -> B) n l : skipn n (map f l) = map f (skipn n l).
  Proof. revert l; induction n; intros [|x l]; cbn; auto. Qed.
  Lemma skipn_sorted {A} (R : A -> A -> Prop) n l : StronglySorted R l -> StronglySorted R (skipn n l).
  Proof. revert l; induction n; intros l H; cbn; auto. destruct l; auto. inversion H; auto. Qed.
  (** When nothing lies beyond the object the removal is exact. *)
  Lemma unreg_axis_top lo hi o l : StronglySorted (by_key e_val) l -> lo <= hi ->
    (forall e, In e l -> e_val e <= hi) -> (forall e, In e l -> e_obj e = o -> lo <= e_val e) ->
    length (filter (is_of o) l) = 2%nat ->
    unreg_axis lo hi o l = filter (fun e => negb (is_of o e)) l.
  Proof.
    intros HS Hlh Hhi Hlo H2. unfold unreg_axis. set (s := lower_bound _ _).
    destruct (lower_bound_spec e_val l lo HS) as [F1 S1]. fold s in F1, S1.
    rewrite skipn_map_comm. set (t' := upper_bound (map e_val (skipn s l)) hi).
    destruct (upper_bound_spec e_val (skipn s l) hi (skipn_sorted _ s l HS)) as [F2 S2]. fold t' in F2, S2.
    assert (A2 : forall e, In e (skipn s l) -> e_val e <= hi).
    { intros e He. apply Hhi. rewrite <- (firstn_skipn s l). apply in_or_app; auto. }
    assert (E2 : firstn t' (skipn s l) = skipn s l).
    { rewrite F2. apply filter_all. intros e He. apply Z.leb_le; auto. }
    assert (E3 : filter (fun e => negb (is_of o e)) (firstn s l) = firstn s l).
    { apply filter_all. intros e He. unfold is_of. apply negb_true_iff, Nat.eqb_neq. intros Eo.
      assert (Hin : In e l) by (rewrite <- (firstn_skipn s l); apply in_or_app; auto).
      specialize (Hlo e Hin Eo). rewrite F1 in He. apply filter_In in He as [_ He]. apply Z.ltb_lt in He. lia. }
    assert (E4 : length (filter (is_of o) (skipn s l)) = 2%nat).
    { rewrite <- (firstn_skipn s l), filter_app, app_length in H2. rewrite (filter_none (is_of o) (firstn s l)) in H2; auto.
      intros e He. rewrite <- E3 in He. apply filter_In in He as [_ He]. apply negb_true_iff in He. auto. }
    pose proof (filter_split_length (is_of o) (skipn s l)) as EL. rewrite E4 in EL.
    assert (L1 : (length (skipn s l) <= t')%nat).
    { assert (X : length (skipn t' (skipn s l)) = 0%nat); [|rewrite (skipn_length t' (skipn s l)) in X; lia].
      rewrite S2. rewrite (filter_none (fun a => negb (e_val a <=? hi))); auto.
      intros e He. apply negb_false_iff, Z.leb_le, A2, He. }
    assert (L2 : (s <= length l)%nat).
    { rewrite skipn_length in EL. destruct (Nat.le_gt_cases s (length l)); auto. lia. }
    destruct (Nat.ltb_spec s (s + t')) as [L|L]; [|lia].
    replace (s + t' - s)%nat with t' by lia. rewrite E2.
    destruct (Nat.ltb_spec (s + length (filter (fun e => negb (is_of o e)) (skipn s l))) (s + t')) as [L3|L3]; [|lia].
    assert (EF : filter (fun e => negb (is_of o e)) l = firstn s l ++ filter (fun e => negb (is_of o e)) (skipn s l)).
    { transitivity (filter (fun e => negb (is_of o e)) (firstn s l ++ skipn s l)); [rewrite firstn_skipn; auto|].
      rewrite filter_app, E3. reflexivity. }
    rewrite EF. clear EF. set (kept := filter (fun e => negb (is_of o e)) (skipn s l)) in *. rewrite !app_length, firstn_length, skipn_length, Nat.min_l by lia.
    rewrite skipn_length in EL. rewrite app_assoc.
    match goal with |- firstn ?n _ = _ => replace n with (length (firstn s l ++ kept) + 0)%nat end.
    2:{ rewrite app_length, firstn_length. lia. }
    rewrite firstn_app_2. cbn. apply app_nil_r.
  Qed.

  Lemma del3_spec m box regs ts f L iv f' : trees_ok m box regs ts f L -> del3 MX iv f = Some f' ->
    forall i, (i < 3)%nat -> tok MX (f' i) (map (ivl_item i) (filter (fun p => negb (Nat.eqb (fst p) iv)) L)).
  Proof.
    intros (P & N & C & T) H. unfold del3 in H.
    destruct (i_delete MX iv (f 0%nat)) as [a|] eqn:E0; [|discriminate].
    destruct (i_delete MX iv (f 1%nat)) as [b|] eqn:E1; [|discriminate].
    destruct (i_delete MX iv (f 2%nat)) as [c|] eqn:E2; [|discriminate]. injection H as <-.
    assert (G : forall i s', (i < 3)%nat -> i_delete MX iv (f i) = Some s' ->
      tok MX s' (map (ivl_item i) (filter (fun p => negb (Nat.eqb (fst p) iv)) L))).
    { intros i s' Hi E. apply (tok_delete _ _ _ _ (T i Hi)) in E as [_ E].
      - rewrite filter_map_swap in E. exact E.
      - rewrite map_map. cbn. exact N. }
    intros [|[|[|i]]] Hi; try lia; apply G; auto.
  Qed.
  Lemma lookup_filter o o' mp : lookup o' (filter (fun p => negb (Nat.eqb (fst p) o)) mp) =
    if Nat.eqb o' o then None else lookup o' mp.
  Proof.
    induction mp as [|[a iv] mp IH]; cbn [filter fst]; [destruct (Nat.eqb o' o); reflexivity|].
    destruct (Nat.eqb_spec a o) as [->|N]; cbn [negb].
    - rewrite IH, lookup_cons. destruct (Nat.eqb_spec o' o), (Nat.eqb_spec o o'); subst; auto; congruence.
    - rewrite !lookup_cons, IH. destruct (Nat.eqb_spec a o') as [->|]; auto.
      destruct (Nat.eqb_spec o' o); auto; congruence.
  Qed.
  Lemma owner_in m box regs ts f L o : trees_ok m box regs ts f L -> In o regs -> exists iv b, In (iv, (o, b)) L.
  Proof.
    intros (P & _) H. rewrite <- P in H. apply in_map_iff in H as ([iv [o' b]] & <- & H). eauto.
  Qed.
  Lemma unregister_inv m box x o m' : minv m box x -> m_legal MX x box (MUnreg o) ->
    im_unregister MX srt box o m = Some m' -> minv m' box (mspec_step x (MUnreg o)).
  Proof using HSo.
    intros HI HL H. destruct (setup_inv m box x HI) as (m1 & E1 & I1 & _). unfold im_unregister in H. rewrite E1 in H.
    cbn [mspec_step].
    assert (Rx : ms_regs (ms_setup x) = ms_regs x) by (unfold ms_setup; destruct (ms_set x); auto).
    assert (Ex : ms_es (ms_setup x) = ms_es x) by (unfold ms_setup; destruct (ms_set x); auto).
    assert (Sx : ms_set (ms_setup x) = true) by (unfold ms_setup; destruct (ms_set x) eqn:E; auto).
    clear E1 HI. set (y := ms_setup x) in *. clearbody y. destruct I1 as (ND & HF & P & V & LK & S & B).
    destruct (B Sx) as (Hs & f & L & Ef & HT). rewrite Rx in *. rewrite Ex in *.
    set (es := fun i => unreg_axis _ _ _ _) in H.
    assert (HE : forall i, (i < 3)%nat -> es i = filter (fun e => negb (is_of o e)) (iep m1 i)).
    { intros i Hi. unfold es. destruct (mem o (ms_regs x)) eqn:EM.
      - assert (Ho : In o (ms_regs x)).
        { unfold mem in EM. apply existsb_exists in EM as (z & Hz & Ez). apply Nat.eqb_eq in Ez. subst; auto. }
        destruct (HL Ho) as [Hcl Htop].
        assert (Hreg : forall e, In e (iep m1 i) -> In (e_obj e) (ms_regs x)).
        { intros e He. rewrite <- (tags_In _ _ (e_max e)), <- (P i Hi). apply in_map_iff. exists e; auto. }
        assert (HV : forall e, In e (iep m1 i) -> e_val e = evalue box i e).
        { intros e He. apply V; auto. }
        assert (HLH : forall a, low box i a <= high box i a).
        { intros a. destruct (HF a) as [N _]. apply nonempty_ineq in N. unfold low, high. destruct i as [|[|[|i]]]; cbn in *; lia. }
        apply unreg_axis_top; auto.
        + intros e He. rewrite HV by auto. unfold evalue. specialize (Htop (e_obj e) i (Hreg e He) Hi).
          specialize (HLH (e_obj e)). destruct (e_max e); lia.
        + intros e He <-. rewrite HV by auto. unfold evalue. specialize (HLH (e_obj e)). destruct (e_max e); lia.
        + rewrite (own_length _ _ _ ND (P i Hi)), EM. auto.
      - rewrite unreg_axis_out; [|].
        + symmetry. apply filter_all. intros e He. apply negb_true_iff, not_true_iff_false. intros F. unfold is_of in F.
          apply Nat.eqb_eq in F. pose proof (own_length _ _ o ND (P i Hi)) as OL. rewrite EM in OL.
          apply length_zero_iff_nil in OL. assert (In e (filter (is_of o) (iep m1 i))) as Hin.
          { apply filter_In. split; auto. unfold is_of. apply Nat.eqb_eq; auto. }
          rewrite OL in Hin. destruct Hin.
        + intros e He F. pose proof (own_length _ _ o ND (P i Hi)) as OL. rewrite EM in OL.
          apply length_zero_iff_nil in OL. assert (In e (filter (is_of o) (iep m1 i))) as Hin.
          { apply filter_In. split; auto. unfold is_of. apply Nat.eqb_eq; auto. }
          rewrite OL in Hin. destruct Hin. }
    clearbody es.
    assert (G : forall f' mp L', trees_ok (IM es (Some f') mp (iobj m1) (inext m1) (iset m1)) box (take_out o (ms_regs x)) (ms_ts y) f' L' ->
      (forall o' iv, lookup o' mp = Some iv -> In o' (take_out o (ms_regs x))) ->
      minv (IM es (Some f') mp (iobj m1) (inext m1) (iset m1)) box (MS (take_out o (ms_regs x)) true (ms_es x) (ms_ts y))).
    { intros f' mp L' HT' HM. split; [cbn; unfold take_out; apply NoDup_filter; auto|]. split; auto.
      cbn [ms_regs ms_es ms_set ms_ts iep imap iset]. split; [|split; [|split; [exact HM|split; [congruence|]]]].
      - intros i Hi. rewrite HE by auto. rewrite <- filter_tags_out.
        eapply Permutation_trans; [|apply perm_filter, (P i Hi)]. rewrite filter_map_swap. apply Permutation_refl.
      - intros i e Hi He. rewrite HE in He by auto. apply filter_In in He as [He _]. auto.
      - intros _. split; [|exists f', L'; auto]. intros i Hi. rewrite HE by auto.
        specialize (Hs i Hi). clear - Hs. induction Hs as [|a l HS IH HF]; cbn; [constructor|].
        destruct (negb (is_of o a)); auto. constructor; auto. rewrite Forall_forall in *.
        intros z Hz. apply filter_In in Hz as [Hz _]. auto. }
    destruct (lookup o (imap m1)) as [iv|] eqn:EL.
    - rewrite Ef in H. destruct (del3 MX iv f) as [f'|] eqn:ED; [|discriminate]. injection H as <-.
      apply (G f' _ (filter (fun p => negb (Nat.eqb (fst p) iv)) L)).
      + pose proof (del3_spec _ _ _ _ _ _ _ _ HT ED) as HD. pose proof HT as HT0. destruct HT as (HP & HN & HC & HTk).
        assert (Inj : forall iv' o' b, In (iv', (o', b)) L -> (iv' = iv <-> o' = o)).
        { intros iv' o' b Hin. pose proof (HC _ _ _ Hin) as (C1 & C2 & _). split.
          - intros ->. destruct (owner_in _ _ _ _ _ _ o HT0) as (iv2 & b2 & H2); [eapply LK; eauto|].
            pose proof (HC _ _ _ H2) as (D1 & D2 & _). rewrite EL in D2. injection D2 as ->. congruence.
          - intros ->. rewrite EL in C2. congruence. }
        assert (EO : map iowner (filter (fun p => negb (Nat.eqb (fst p) iv)) L) = take_out o (map iowner L)).
        { unfold take_out. rewrite filter_map_swap. f_equal. apply filter_ext_in. intros [iv' [o' b]] Hin.
          specialize (Inj _ _ _ Hin). cbn. f_equal. destruct (Nat.eqb_spec iv' iv), (Nat.eqb_spec o' o); auto; tauto. }
        split; [|split; [|split; [|exact HD]]].
        * rewrite EO. unfold take_out. apply perm_filter, HP.
        * clear - HN. induction L as [|p L IH]; cbn in *; [constructor|]. inversion HN as [|? ? Hn HN']; subst.
          destruct (negb _); auto. cbn. constructor; auto. intros Hi. apply Hn. apply in_map_iff in Hi as (q & <- & Hq).
          apply filter_In in Hq as [Hq _]. apply in_map; auto.
        * intros iv' o' b Hin. apply filter_In in Hin as [Hin Hne]. cbn in Hne. apply negb_true_iff, Nat.eqb_neq in Hne.
          pose proof (HC _ _ _ Hin) as (C1 & C2 & C3 & C4 & C5). cbn [iobj imap inext].
          rewrite lookup_filter. destruct (Nat.eqb_spec o' o) as [->|]; [|auto].
          destruct Hne. apply (Inj _ _ _ Hin); auto.
      + intros o' iv' Hl. rewrite lookup_filter in Hl. destruct (Nat.eqb_spec o' o); [discriminate|].
        apply take_out_In. split; auto. eapply LK; eauto.
    - injection H as <-. rewrite Ef.
      assert (Ho : ~ In o (ms_regs x)).
      { intros Ho. destruct (owner_in _ _ _ _ _ _ _ HT Ho) as (iv & b & Hin). destruct HT as (_ & _ & HC & _).
        pose proof (HC _ _ _ Hin) as (_ & C2 & _). congruence. }
      assert (EO : take_out o (ms_regs x) = ms_regs x).
      { unfold take_out. apply filter_all. intros z Hz. apply negb_true_iff, Nat.eqb_neq. congruence. }
      apply (G f _ L); rewrite EO; auto.
  Qed.

  (** *** update(obj) *)
  Lemma set_first_tag o v l : map tag (set_first o v l) = map tag l.
  Proof. induction l as [|e l IH]; cbn; auto. destruct (is_of o e && negb (e_max e)); cbn; f_equal; auto. Qed.
  Lemma set_from_tag o v n l : map tag (set_from o v n l) = map tag l.
  Proof. unfold set_from. rewrite map_app, set_first_tag, <- map_app, firstn_skipn. auto. Qed.
  Lemma set_first_In o v l e : In e (set_first o v l) -> In e l \/ e_obj e = o.
  Proof.
    induction l as [|a l IH]; cbn; auto. destruct (is_of o a && negb (e_max a)) eqn:E.
    - intros [<-|H]; auto. right. cbn. apply andb_true_iff in E as [E _]. apply Nat.eqb_eq in E. auto.
    - intros [<-|H]; auto. destruct (IH H); auto.
  Qed.
  Lemma set_from_In o v n l e : In e (set_from o v n l) -> In e l \/ e_obj e = o.
  Proof.
    unfold set_from. rewrite in_app_iff. intros [H|H].
    - left. rewrite <- (firstn_skipn n l). apply in_or_app; auto.
    - apply set_first_In in H as [H|H]; auto. left. rewrite <- (firstn_skipn n l). apply in_or_app; auto.
  Qed.
  Lemma upd_axis_spec o old new l : Permutation (map tag (upd_axis srt o old new l)) (map tag l) /\
    StronglySorted (by_key e_val) (upd_axis srt o old new l) /\
    forall e, In e (upd_axis srt o old new l) -> In e l \/ e_obj e = o.
  Proof using HSo.
    unfold upd_axis. set (l1 := set_from _ _ _ l). set (l2 := set_from _ _ _ l1). destruct (HSo l2) as [P S]. split; [|split; auto].
    - rewrite (Permutation_map tag P). unfold l2, l1. rewrite !set_from_tag. auto.
    - intros e He. rewrite P in He. unfold l2 in He. apply set_from_In in He as [He|He]; auto.
      unfold l1 in He. apply set_from_In in He; auto.
  Qed.
  Definition rebox (o : obj) (b : aabb) (p : nat * (obj * aabb)) : nat * (obj * aabb) :=
    if Nat.eqb (iowner p) o then (fst p, (o, b)) else p.
  Lemma update_obj_inv m box x o m' : minv m box x -> m_legal MX x box (MUpdateObj o) ->
    im_update_obj MX srt box o m = Some m' -> minv m' box (mspec_step x (MUpdateObj o)).
  Proof using HSo.
    intros (ND & HF & P & V & LK & S & B) [HS Ho] H. destruct (B HS) as (Hs & f & L & Ef & HT).
    unfold im_update_obj in H. rewrite Ef in H. destruct (lookup o (imap m)) as [iv|] eqn:EL; [|discriminate].
    destruct (ivl_of iv (fst (f 0%nat))) as [a0|]; [|discriminate].
    destruct (ivl_of iv (fst (f 1%nat))) as [a1|]; [|discriminate].
    destruct (ivl_of iv (fst (f 2%nat))) as [a2|]; [|discriminate].
    destruct (move_ivl MX box iv 0 o (f 0%nat)) as [b0|] eqn:E0; [|discriminate].
    destruct (move_ivl MX box iv 1 o (f 1%nat)) as [b1|] eqn:E1; [|discriminate].
    destruct (move_ivl MX box iv 2 o (f 2%nat)) as [b2|] eqn:E2; [|discriminate].
    injection H as <-. cbn [mspec_step].
    split; [exact ND|]. split; auto. cbn [ms_regs ms_es ms_set ms_ts iep imap iset].
    split; [|split; [|split; [exact LK|split; [auto|]]]].
    - intros i Hi. destruct (upd_axis_spec o (match i with 0%nat => a0 | 1%nat => a1 | _ => a2 end) (low box i o, high box i o) (iep m i)) as [Q _].
      rewrite Q. apply P; auto.
    - intros i e Hi He Hne. apply upd_axis_spec in He as [He|He]; [|destruct Hne; left; auto].
      apply V; auto. intros Hx. apply Hne. right; auto.
    - intros _. split; [intros i Hi; apply upd_axis_spec|].
      eexists _, (map (rebox o (box o)) L). split; [reflexivity|].
      pose proof HT as HT0. destruct HT as (HP & HN & HC & HTk).
      assert (Inj : forall iv' o' b, In (iv', (o', b)) L -> (iv' = iv <-> o' = o)).
      { intros iv' o' b Hin. pose proof (HC _ _ _ Hin) as (C1 & C2 & _). split.
        - intros ->. destruct (owner_in _ _ _ _ _ _ o HT0 Ho) as (iv2 & b' & H2).
          pose proof (HC _ _ _ H2) as (D1 & D2 & _). rewrite EL in D2. injection D2 as ->. congruence.
        - intros ->. rewrite EL in C2. congruence. }
      assert (F1 : map fst (map (rebox o (box o)) L) = map fst L).
      { rewrite map_map. apply map_ext. intros p. unfold rebox. destruct (Nat.eqb _ _); auto. }
      split; [|split; [|split]].
      + rewrite map_map. rewrite <- HP. apply Permutation_refl'. apply map_ext. intros p. unfold rebox.
        destruct (Nat.eqb_spec (iowner p) o) as [<-|]; auto.
      + rewrite F1; auto.
      + intros iv' o' b Hin. cbn [iobj imap inext]. apply in_map_iff in Hin as ([iv2 [o2 b']] & E & Hin).
        pose proof (HC _ _ _ Hin) as (C1 & C2 & C3 & C4 & C5). unfold rebox in E. unfold iowner in E. cbn in E.
        destruct (Nat.eqb_spec o2 o) as [->|N]; injection E as <- <- <-.
        * repeat (split; [solve [auto]|]). auto.
        * repeat (split; [solve [auto]|]). intros Hne. apply C5. intros Hx. apply Hne, take_out_In. auto.
      + assert (G : forall i s', (i < 3)%nat -> move_ivl MX box iv i o (f i) = Some s' ->
          tok MX s' (map (ivl_item i) (map (rebox o (box o)) L))).
        { intros i s' Hi E. unfold move_ivl in E. destruct (i_delete MX iv (f i)) as [s1|] eqn:ED; [|discriminate].
          apply (tok_delete _ _ _ _ (HTk i Hi)) in ED as [_ ED]; [|rewrite map_map; cbn; exact HN].
          destruct (tok_insert s1 _ (low box i o) (high box i o) iv ED) as (s2 & E2' & T2); [apply fb_high; auto|].
          rewrite E2' in E. injection E as <-. eapply tok_perm; [|exact T2].
          rewrite filter_map_swap. cbn [ivl_item fst].
          destruct (owner_in _ _ _ _ _ _ o HT0 Ho) as (iv2 & b' & H2).
          assert (iv2 = iv) as -> by (apply (Inj _ _ _ H2); auto).
          apply in_split in H2 as (L1 & L2 & EQ). subst L.
          assert (Fx : forall K, (forall p, In p K -> In p (L1 ++ (iv, (o, b')) :: L2)) -> ~ In iv (map fst K) ->
            filter (fun p => negb (Nat.eqb (fst p) iv)) K = K /\ map (rebox o (box o)) K = K).
          { intros K HK HI. split.
            - apply filter_all. intros p Hp. apply negb_true_iff, Nat.eqb_neq. intros Ep. apply HI. rewrite <- Ep. apply in_map; auto.
            - rewrite <- (map_id K) at 2. apply map_ext_in. intros [iv' [o' b2']] Hp. unfold rebox, iowner; cbn.
              destruct (Nat.eqb_spec o' o) as [->|]; auto. exfalso. apply HI. apply in_map_iff.
              exists (iv', (o, b2')). split; auto. cbn. apply (Inj iv' o b2'); auto. }
          rewrite map_app in HN. cbn in HN. apply NoDup_remove_2 in HN. rewrite in_app_iff in HN.
          destruct (Fx L1) as [X1 X2]; [intros; apply in_or_app; auto|tauto|].
          destruct (Fx L2) as [Y1 Y2]; [intros; apply in_or_app; right; right; auto|tauto|].
          unfold ivl_item at 1. cbn [fst].
          rewrite filter_app. cbn [filter fst]. rewrite Nat.eqb_refl. cbn [negb].
          rewrite X1, Y1. rewrite !map_app. cbn [map]. rewrite X2, Y2.
          assert (rebox o (box o) (iv, (o, b')) = (iv, (o, box o))) as ->.
          { unfold rebox, iowner; cbn. rewrite Nat.eqb_refl. auto. }
          apply Permutation_middle. }
        intros [|[|[|i]]] Hi; try lia; apply G; auto.
  Qed.

  Lemma m_run_inv ops : forall m box x m' box', minv m box x -> m_legal_from MX x box ops ->
    m_run MX srt ops (m, box) = Some (m', box') -> minv m' box' (fold_left mspec_step ops x).
  Proof using HSo.
    induction ops as [|op ops IH]; intros m box x m' box' I HL H; cbn [m_run fold_left] in *.
    { injection H as <- <-. auto. }
    destruct HL as [H1 H2]. destruct (m_step MX srt op (m, box)) as [[m1 box1]|] eqn:E; [|discriminate].
    assert (minv m1 box1 (mspec_step x op) /\ box1 = box_step box op) as [I1 ->].
    { destruct op; cbn [m_step option_map] in E; cbn [box_step].
      - injection E as <- <-. split; auto. apply move_inv; auto.
      - injection E as <- <-. split; auto. apply register_inv; auto.
      - destruct (im_unregister MX srt box o m) as [m2|] eqn:E2; [|discriminate]. injection E as <- <-. split; auto.
        eapply unregister_inv; eauto.
      - destruct (setup_inv m box x I) as (m2 & E2 & I2 & _). rewrite E2 in E. injection E as <- <-. auto.
      - destruct (update_inv m box x I) as (m2 & E2 & I2). rewrite E2 in E. injection E as <- <-. auto.
      - destruct (im_update_obj MX srt box o m) as [m2|] eqn:E2; [|discriminate]. injection E as <- <-. split; auto.
        eapply update_obj_inv; eauto.
      - injection E as <- <-. split; auto. eapply clear_inv; eauto. }
    eapply IH; eauto.
  Qed.
  Lemma m_start_inv box0 : (forall o, finite_box MX (box0 o)) -> minv im_empty box0 ms_start.
  Proof.
    intros HF. split; [constructor|]. split; auto. cbn. split; [constructor|]. split; [intros ? ? _ []|].
    split; [discriminate|]. split; [auto|discriminate].
  Qed.


  (** ** Queries *)
  Lemma query_axis m box regs ts f L i q : trees_ok m box regs ts f L -> (forall a, finite_box MX (box a)) ->
    NoDup regs -> (i < 3)%nat ->
    exists r, i_query MX (coord i (bmin q)) (coord i (bmax q)) (f i) = Some r /\ NoDup (map (iobj m) r) /\
      (forall a, In a (map (iobj m) r) -> In a regs) /\
      (finite_box MX q -> forall a, In a regs -> ~ In a ts -> overlap (box a) q = true -> In a (map (iobj m) r)).
  Proof.
    intros HT HF ND Hi. pose proof HT as HT0. destruct HT as (HP & HN & HC & HTk). destruct (HTk i Hi) as (I & R & P).
    destruct (f i) as [t nr]. cbn [fst] in *. rewrite i_query_eq. eexists. split; [reflexivity|].
    assert (LH : forall b, finite_box MX b -> coord i (bmin b) <= coord i (bmax b)).
    { intros b [N _]. apply nonempty_ineq in N. destruct i as [|[|[|j]]]; cbn in *; lia. }
    assert (FE : Forall (fun e => ekey e <= ehigh e) (elems t)).
    { apply Forall_forall. intros e He. rewrite P in He. apply in_map_iff in He as ([iv [a b]] & <- & Hin).
      unfold ekey, ehigh; cbn. apply LH. apply (HC _ _ _ Hin). }
    assert (Q : finite_box MX q -> forall iv, In iv (qres MX (coord i (bmin q)) (coord i (bmax q)) t) <-> exists e, In e (elems t) /\ fst e = iv /\ touches (coord i (bmin q)) (coord i (bmax q)) e).
    { intros Fq iv. apply (qres_exact MX); auto. destruct Fq as [_ F]. apply F; auto. }
    assert (NE : NoDup (map fst (elems t))).
    { eapply Permutation_NoDup; [apply Permutation_map, Permutation_sym, P|]. rewrite map_map. exact HN. }
    assert (HQ : forall iv, In iv (qres MX (coord i (bmin q)) (coord i (bmax q)) t) -> exists a b, In (iv, (a, b)) L).
    { intros iv Hin. apply qres_sub in Hin. apply in_map_iff in Hin as (e & <- & He). rewrite P in He.
      apply in_map_iff in He as ([iv [a b]] & <- & Hin). eauto. }
    split; [|split].
    - pose proof (qres_nodup MX (coord i (bmin q)) (coord i (bmax q)) t NE) as NQ. revert NQ HQ. generalize (qres MX (coord i (bmin q)) (coord i (bmax q)) t).
      clear - HC. induction 1 as [|iv l Hn NQ IH]; intros HQ; cbn; constructor; auto; [|apply IH; intros z Hz; apply HQ; right; auto].
      intros Hin. apply in_map_iff in Hin as (iv' & E & Hin). destruct (HQ iv) as (a & b & H1); [left; auto|].
      destruct (HQ iv') as (a' & b' & H2); [right; auto|].
      destruct (HC _ _ _ H1) as (A1 & A2 & _), (HC _ _ _ H2) as (B1 & B2 & _).
      assert (Ea : a' = a) by congruence. rewrite Ea in B2. assert (Ei : iv' = iv) by congruence. rewrite Ei in Hin. auto.
    - intros a Hin. apply in_map_iff in Hin as (iv & <- & Hin). apply HQ in Hin as (a & b & Hin).
      destruct (HC _ _ _ Hin) as (-> & _). rewrite <- HP. apply in_map_iff. eexists; split; [|exact Hin]. reflexivity.
    - intros Fq a Ha Hts Hov. destruct (owner_in _ _ _ _ _ _ a HT0 Ha) as (iv & b & Hin).
      destruct (HC _ _ _ Hin) as (E1 & E2 & _ & _ & E3). rewrite (E3 Hts) in Hin.
      apply in_map_iff. exists iv. split; auto. apply (Q Fq). exists (ivl_item i (iv, (a, box a))). split; [|split; [reflexivity|]].
      + rewrite P. apply in_map; auto.
      + unfold touches, ekey, ehigh, ivl_item; cbn. apply overlap_ineq in Hov. 
        destruct i as [|[|[|j]]]; cbn in *; lia.
  Qed.
  Lemma candidates_spec m box regs ts f L q : itrees m = Some f -> trees_ok m box regs ts f L -> (forall a, finite_box MX (box a)) ->
    NoDup regs ->
    exists r, candidates MX m q = Some r /\ NoDup r /\ (forall a, In a r -> In a regs) /\
      (finite_box MX q -> forall a, In a regs -> ~ In a ts -> overlap (box a) q = true -> In a r).
  Proof.
    intros Ef HT HF ND. unfold candidates. rewrite Ef.
    destruct (query_axis m box regs ts f L 0 q HT HF ND ltac:(lia)) as (r0 & -> & H0).
    destruct (query_axis m box regs ts f L 1 q HT HF ND ltac:(lia)) as (r1 & -> & H1).
    destruct (query_axis m box regs ts f L 2 q HT HF ND ltac:(lia)) as (r2 & -> & H2).
    destruct (Nat.ltb CUTOFF (length r0)); [|eauto]. destruct (Nat.ltb CUTOFF (length r1)); [|eauto].
    destruct (Nat.ltb CUTOFF (length r2)); [|eauto]. destruct (_ && _); [eauto|]. destruct (_ && _); eauto.
  Qed.
  Definition current (x : mspec) : Prop := ms_set x = true /\ forall a, In a (ms_regs x) -> ~ In a (ms_ts x).
  Lemma collide_spec m box x o : minv m box x -> current x ->
    exists q l, im_collide_ MX box m o = Some q /\ plays q l /\
      ordered_once l (fun a b => b = o /\ a <> o /\ In a (ms_regs x) /\ overlap (box a) (box o) = true).
  Proof.
    intros (ND & HF & P & V & LK & S & B) [HS HC]. destruct (B HS) as (_ & f & L & Ef & HT).
    destruct (candidates_spec m box _ _ f L (box o) Ef HT HF ND) as (r & E & NR & R1 & R2).
    unfold im_collide_. rewrite E. eexists _, _. split; [reflexivity|]. split; [apply check_coll_plays|]. split.
    - apply NoDup_map_inj; [congruence|]. apply NoDup_filter; auto.
    - intros a b. rewrite in_map_iff. split.
      + intros (z & [= -> <-] & Hz). apply filter_In in Hz as [Hz H1]. apply andb_true_iff in H1 as [H1 H2].
        apply negb_true_iff, Nat.eqb_neq in H1. auto.
      + intros (-> & Na & Ha & Ho). exists a. split; auto. apply filter_In. split; [apply R2; auto|].
        apply Nat.eqb_neq in Na. rewrite Na, Ho. reflexivity.
  Qed.
  Lemma size_spec m box x : minv m box x -> im_size m = length (ms_regs x) /\ length (iep m 0%nat) = (2 * length (ms_regs x))%nat.
  Proof.
    intros (ND & HF & P & _). specialize (P 0%nat ltac:(lia)). apply Permutation_length in P.
    rewrite map_length in P.
    assert (E : length (tags (ms_regs x)) = (2 * length (ms_regs x))%nat).
    { clear. unfold tags. induction (ms_regs x) as [|a l IH]; cbn in *; lia. }
    rewrite E in P. unfold im_size. rewrite P. split; auto. rewrite Nat.mul_comm. apply Nat.div_mul. lia.
  Qed.
End Inv.

(** *** The sweep *)
Section Sweep.
  Variables (box : obj -> aabb) (a2 a3 : nat).
  Definition meet2 (a b : obj) : bool := axis_overlap (box a) (box b) a2 && axis_overlap (box a) (box b) a3.
  Fixpoint sw (l : list ep) (act : list obj) : list (obj * obj) :=
    match l with
    | [] => []
    | e :: l' =>
        if e_max e then sw l' (take_out (e_obj e) act)
        else map (fun a => (a, e_obj e)) (filter (fun a => meet2 a (e_obj e)) act) ++ sw l' (set_insert (e_obj e) act)
    end.
  Lemma set_insert_In a l x : In x (set_insert a l) <-> x = a \/ In x l.
  Proof using Type. clear box a2 a3.
    induction l as [|b l IH]; cbn [set_insert In]; [intuition|]. destruct (Nat.eqb_spec a b) as [->|]; [cbn; intuition|].
    destruct (Nat.ltb a b); cbn [In]; [intuition|]. rewrite IH. intuition.
  Qed.
  Lemma set_insert_NoDup a l : ~ In a l -> NoDup l -> NoDup (set_insert a l).
  Proof using Type. clear box a2 a3.
    intros Hn ND. induction ND as [|b l Hb ND IH]; cbn [set_insert In] in *; [repeat constructor; auto|].
    destruct (Nat.eqb_spec a b) as [->|]; [tauto|]. destruct (Nat.ltb a b).
    - constructor; [cbn; tauto|]. constructor; auto.
    - constructor; [|apply IH; tauto]. rewrite set_insert_In. intros [->|H]; tauto.
  Qed.
  Definition mins (l : list ep) : list obj := map e_obj (filter (fun e => negb (e_max e)) l).
  Lemma seen_norm2 a b seen done : ~ In a done -> (forall p, In p seen -> (fst p <> b /\ snd p <> b) \/ exists c, In c done /\ p = norm_pair c b) ->
    a <> b -> seen_pair (norm_pair a b) seen = false.
  Proof using Type. clear box a2 a3.
    intros Ha H Hab. apply not_true_iff_false. intros E. unfold seen_pair in E. apply existsb_exists in E as (q & Hq & E).
    apply andb_true_iff in E as [E1 E2]. apply Nat.eqb_eq in E1, E2. destruct (H q Hq) as [[H1 H2]|(c & Hc & ->)].
    - unfold norm_pair in E1, E2. destruct (a <? b)%nat; cbn [fst snd] in E1, E2; [apply H2|apply H1]; auto.
    - unfold norm_pair in E1, E2. destruct (Nat.ltb_spec a b), (Nat.ltb_spec c b); cbn [fst snd] in E1, E2;
        subst; auto; lia.
  Qed.
  Lemma at_min_plays b act k l0 : forall seen done, NoDup (done ++ act) -> ~ In b act ->
    (forall p, In p seen -> (fst p <> b /\ snd p <> b) \/ exists c, In c done /\ p = norm_pair c b) ->
    (forall seen', (forall p, In p seen' -> In p seen \/ exists c, In c act /\ p = norm_pair c b) -> plays (k seen') l0) ->
    plays (at_min box a2 a3 b act seen k) (map (fun a => (a, b)) (filter (fun a => meet2 a b) act) ++ l0).
  Proof.
    induction act as [|a act IH]; intros seen done ND Hb HS HK; cbn [at_min filter map app].
    - apply HK. auto.
    - fold (meet2 a b).
      assert (Ha : ~ In a done).
      { intros Hd. apply NoDup_remove_2 in ND. rewrite in_app_iff in ND. auto. }
      assert (ND' : NoDup ((done ++ [a]) ++ act)) by (rewrite <- app_assoc; auto).
      assert (Hb' : ~ In b act /\ a <> b) by (cbn in Hb; intuition congruence). destruct Hb' as [Hb' Hab].
      destruct (meet2 a b) eqn:E.
      + rewrite (seen_norm2 a b seen done Ha HS Hab). cbn [map app]. apply (plays_seq _ _ [(a, b)]); [apply plays_call|].
        apply (IH _ (done ++ [a])); auto.
        * intros p [<-|Hp].
          -- right. exists a. split; auto. apply in_or_app; right; left; auto.
          -- destruct (HS p Hp) as [H|(c & Hc & ->)]; auto. right. exists c. split; auto. apply in_or_app; auto.
        * intros seen' H. apply HK. intros p Hp. destruct (H p Hp) as [[<-|Hq]|(c & Hc & ->)]; auto.
          -- right. exists a. split; auto. left; auto.
          -- right. exists c. split; auto. right; auto.
      + apply (IH seen (done ++ [a])); auto.
        * intros p Hp. destruct (HS p Hp) as [H|(c & Hc & ->)]; auto. right. exists c. split; auto. apply in_or_app; auto.
        * intros seen' H. apply HK. intros p Hp. destruct (H p Hp) as [Hq|(c & Hc & ->)]; auto.
          right. exists c. split; auto. right; auto.
  Qed.
  Lemma isweep_plays l : forall act seen, NoDup act -> NoDup (mins l) ->
    (forall a, In a act -> ~ In a (mins l)) ->
    (forall p, In p seen -> ~ In (fst p) (mins l) /\ ~ In (snd p) (mins l)) ->
    plays (isweep box a2 a3 l act seen) (sw l act).
  Proof.
    induction l as [|e l IH]; intros act seen NA NM HA HS; cbn [isweep sw]; [apply plays_skip|].
    unfold mins in *. cbn [filter map] in *. destruct (e_max e); cbn [negb map] in *.
    - apply IH; auto.
      + apply NoDup_filter; auto.
      + intros a Ha. apply take_out_In in Ha as [Ha _]. auto.
    - apply NoDup_cons_iff in NM as [Hn NM]. apply (at_min_plays _ _ _ _ seen []); auto.
      + intros H. apply HA in H. apply H. left; auto.
      + intros p Hp. left. destruct (HS p Hp) as [H1 H2]. cbn in *. intuition congruence.
      + intros seen' Hs. apply IH; auto.
        * apply set_insert_NoDup; auto. intros H. apply (HA _ H). left; auto.
        * intros a Ha. apply set_insert_In in Ha as [->|Ha]; auto. intros H. apply (HA _ Ha). right; auto.
        * intros p Hp. destruct (Hs p Hp) as [Hq|(c & Hc & ->)].
          -- destruct (HS p Hq) as [H1 H2]. cbn in *. tauto.
          -- assert (~ In c (mins l)) by (intros H; apply (HA _ Hc); right; auto).
             unfold norm_pair. destruct (Nat.ltb c (e_obj e)); cbn; auto.
  Qed.

  (** Active after a prefix. *)
  Fixpoint after_pre (l : list ep) (act : list obj) : list obj :=
    match l with
    | [] => act
    | e :: l' => after_pre l' (if e_max e then take_out (e_obj e) act else set_insert (e_obj e) act)
    end.
  Lemma sw_In l a b : forall act, In (a, b) (sw l act) <->
    exists l1 e l2, l = l1 ++ e :: l2 /\ e_max e = false /\ e_obj e = b /\ In a (after_pre l1 act) /\ meet2 a b = true.
  Proof.
    induction l as [|e l IH]; intros act; cbn [sw].
    { split; [intros []|]. intros (l1 & e & l2 & H & _). destruct l1; discriminate. }
    destruct (e_max e) eqn:E.
    - rewrite IH. split.
      + intros (l1 & x & l2 & -> & H1 & H2 & H3 & H4). exists (e :: l1), x, l2. cbn [app after_pre]. rewrite E. auto.
      + intros ([|y l1] & x & l2 & H & H1 & H2 & H3 & H4); cbn in H; injection H as -> ->; [congruence|].
        cbn [after_pre] in H3. rewrite E in H3. exists l1, x, l2. auto.
    - rewrite in_app_iff, IH, in_map_iff. split.
      + intros [(z & [= -> <-] & Hz)|(l1 & x & l2 & -> & H1 & H2 & H3 & H4)].
        * apply filter_In in Hz as [Hz Hm]. exists [], e, l. auto.
        * exists (e :: l1), x, l2. cbn [app after_pre]. rewrite E. auto.
      + intros ([|y l1] & x & l2 & H & H1 & H2 & H3 & H4); cbn in H; injection H as -> ->.
        * left. exists a. subst b. split; auto. apply filter_In. auto.
        * right. cbn [after_pre] in H3. rewrite E in H3. exists l1, x, l2. auto.
  Qed.
  (** With each object's min before its max, active means begun and not ended. *)
  Lemma after_pre_In l o : forall act,
    (forall l1 e l2, l = l1 ++ e :: l2 -> e_obj e = o -> e_max e = false -> ~ In (o, true) (map tag l1) /\ ~ In o act) ->
    NoDup (map tag l) ->
    In o (after_pre l act) <-> (In o act \/ In (o, false) (map tag l)) /\ ~ In (o, true) (map tag l).
  Proof using Type. clear box a2 a3.
    induction l as [|e l IH]; intros act H ND; cbn [after_pre map In]; [tauto|].
    cbn in ND. apply NoDup_cons_iff in ND as [Hn ND]. destruct e as [o' c v]. cbn [e_obj e_max tag] in *.
    rewrite IH; auto.
    - destruct c.
      + rewrite take_out_In. unfold tag; cbn. destruct (Nat.eq_dec o o') as [->|N]; [|intuition congruence].
        split; [|intuition congruence]. intros [[[_ F]|F] G]; [congruence|].
        exfalso. apply in_map_iff in F as ([o2 c2 v2] & [= -> ->] & Hin). apply in_split in Hin as (l1 & l2 & ->).
        destruct (H (Ep o' true v :: l1) (Ep o' false v2) l2 eq_refl eq_refl eq_refl) as [F _]. apply F. left; auto.
      + rewrite set_insert_In. unfold tag; cbn. destruct (Nat.eq_dec o o') as [->|N]; intuition congruence.
    - intros l1 e l2 -> Ho Hc. destruct (H (Ep o' c v :: l1) e l2 eq_refl Ho Hc) as [F G]. cbn in F. unfold tag in F at 1. cbn in F.
      split; [tauto|]. destruct c.
      + rewrite take_out_In. tauto.
      + rewrite set_insert_In. intros [->|?]; auto. apply Hn. apply in_map_iff. exists e. split; [|apply in_or_app; right; left; auto].
        unfold tag; cbn. rewrite Ho, Hc. auto.
  Qed.
  Lemma after_pre_NoDup l : forall act, NoDup act -> NoDup (mins l) -> (forall a, In a act -> ~ In a (mins l)) -> NoDup (after_pre l act).
  Proof using Type. clear box a2 a3.
    induction l as [|e l IH]; intros act NA NM HA; cbn [after_pre]; auto. unfold mins in *. cbn [filter map] in *.
    destruct (e_max e); cbn [negb map] in *.
    - apply IH; auto; [apply NoDup_filter; auto|]. intros a Ha. apply take_out_In in Ha as [Ha _]. auto.
    - apply NoDup_cons_iff in NM as [Hn NM]. apply IH; auto.
      + apply set_insert_NoDup; auto. intros H. apply (HA _ H). left; auto.
      + intros a Ha. apply set_insert_In in Ha as [->|Ha]; auto. intros H. apply (HA _ Ha). right; auto.
  Qed.
  Lemma sw_snd l a b : forall act, In (a, b) (sw l act) -> In b (mins l).
  Proof.
    intros act H. apply sw_In in H as (l1 & e & l2 & -> & E & <- & _). unfold mins. rewrite filter_app. cbn. rewrite E. cbn.
    rewrite map_app. apply in_elt.
  Qed.
  Lemma sw_NoDup l : forall act, NoDup act -> NoDup (mins l) -> (forall a, In a act -> ~ In a (mins l)) -> NoDup (sw l act).
  Proof.
    induction l as [|e l IH]; intros act NA NM HA; cbn [sw]; [constructor|]. unfold mins in *. cbn [filter map] in *.
    destruct (e_max e); cbn [negb map] in *.
    - apply IH; auto; [apply NoDup_filter; auto|]. intros a Ha. apply take_out_In in Ha as [Ha _]. auto.
    - apply NoDup_cons_iff in NM as [Hn NM]. apply NoDup_app_intro.
      + apply NoDup_map_inj; [congruence|]. apply NoDup_filter; auto.
      + apply IH; auto.
        * apply set_insert_NoDup; auto. intros H. apply (HA _ H). left; auto.
        * intros a Ha. apply set_insert_In in Ha as [->|Ha]; auto. intros H. apply (HA _ Ha). right; auto.
      + intros [a b] H1 H2. apply in_map_iff in H1 as (z & [= -> <-] & _). apply sw_snd in H2. auto.
  Qed.
End Sweep.

Lemma split_unique {A} (x : A) p q p' q' : NoDup (p ++ x :: q) -> p ++ x :: q = p' ++ x :: q' -> p = p' /\ q = q'.
Proof.
  revert p'; induction p as [|y p IH]; intros [|y' p'] ND E; cbn in *.
  - injection E as <-. auto.
  - injection E as <- ->. apply NoDup_cons_iff in ND as [H _]. destruct H. apply in_elt.
  - injection E as -> <-. apply NoDup_cons_iff in ND as [H _]. destruct H. apply in_elt.
  - injection E as <- E. apply NoDup_cons_iff in ND as [_ ND]. destruct (IH p' ND E) as [-> ->]. auto.
Qed.
Lemma before_antisym {A} (x y : A) p q p' q' : NoDup (p ++ y :: q) -> p ++ y :: q = p' ++ x :: q' -> In x p -> In y p' -> False.
Proof.
  intros ND E Hx Hy. apply in_split in Hx as (p1 & p2 & ->). rewrite <- app_assoc in *. cbn in *.
  destruct (split_unique x p1 (p2 ++ y :: q) p' q' ND E) as [-> _].
  rewrite app_comm_cons, app_assoc in ND. apply NoDup_remove_2 in ND. apply ND. rewrite !in_app_iff. auto.
Qed.
Lemma sorted_app {A} (R : A -> A -> Prop) l1 e l2 : StronglySorted R (l1 ++ e :: l2) ->
  (forall x, In x l1 -> R x e) /\ (forall x, In x l2 -> R e x).
Proof.
  induction l1 as [|a l1 IH]; cbn; intros H; inversion H as [|? ? HS HF]; subst; rewrite Forall_forall in HF.
  - split; [intros x []|auto].
  - destruct (IH HS) as [H1 H2]. split; auto. intros x [<-|Hx]; auto. apply HF, in_elt.
Qed.
Lemma in_tags_split l t : In t (map tag l) -> exists l1 e l2, l = l1 ++ e :: l2 /\ tag e = t.
Proof. intros H. apply in_map_iff in H as (e & E & H). apply in_split in H as (l1 & l2 & ->). eauto. Qed.

Lemma axis3 i box a b : (i < 3)%nat ->
  overlap (box a) (box b) = true <->
  axis_overlap (box a) (box b) i = true /\ meet2 box (Nat.modulo (i + 1) 3) (Nat.modulo (i + 2) 3) a b = true.
Proof.
  intros Hi. rewrite axis_overlap_iff. unfold meet2. rewrite andb_true_iff. split.
  - intros H. destruct i as [|[|[|i]]]; try lia; cbn -[axis_overlap]; repeat split; apply H; lia.
  - intros (H1 & H2 & H3) j Hj. destruct i as [|[|[|i]]]; try lia; cbn -[axis_overlap] in *;
      destruct j as [|[|[|j]]]; try lia; auto.
Qed.
Lemma axis_overlap_le a b i : axis_overlap a b i = true <->
  coord i (bmin a) <= coord i (bmax b) /\ coord i (bmin b) <= coord i (bmax a).
Proof.
  unfold axis_overlap. rewrite Z.gtb_ltb. destruct (Z.ltb_spec (coord i (bmax b)) (coord i (bmin a))).
  - split; [congruence|lia].
  - destruct (Z.ltb_spec (coord i (bmax a)) (coord i (bmin b))); split; try congruence; lia.
Qed.

Lemma self_spec MX m box x : minv MX m box x -> ms_set x = true -> (forall a, In a (ms_regs x) -> ~ In a (ms_es x)) ->
  (forall a b i, In a (ms_regs x) -> In b (ms_regs x) -> (i < 3)%nat -> low box i a <> high box i b) ->
  exists l, plays (im_collide_self box m) l /\
    pairs_once l (fun a b => In a (ms_regs x) /\ In b (ms_regs x) /\ a <> b /\ overlap (box a) (box b) = true).
Proof.
  intros HI HS HE HG. pose proof (size_spec MX m box x HI) as [SZ SL]. destruct HI as (ND & HF & P & V & LK & S & B).
  destruct (B HS) as (HSo & _). unfold im_collide_self. rewrite SZ.
  destruct (Nat.eqb_spec (length (ms_regs x)) 0) as [E0|E0].
  { apply length_zero_iff_nil in E0. exists []. split; [apply plays_skip|]. rewrite E0.
    split; [constructor|]. split; [intros a b []|]. intros a b ([] & _). }
  set (i := im_axis m). assert (Hi : (i < 3)%nat) by (unfold i, im_axis; repeat destruct (_ && _); lia). clearbody i.
  assert (EK : firstn (length (iep m 0%nat)) (iep m i) = iep m i).
  { apply firstn_all2. rewrite SL.
    pose proof (Permutation_length (P i Hi)) as E1. pose proof (Permutation_length (P 0%nat ltac:(lia))) as E2.
    rewrite map_length in E1, E2. lia. }
  rewrite EK. clear EK. specialize (P i Hi). specialize (HSo i Hi). specialize (V i). set (K := iep m i) in *. clearbody K.
  assert (HR : forall e, In e K -> In (e_obj e) (ms_regs x)).
  { intros e He. rewrite <- (tags_In _ _ (e_max e)), <- P. apply in_map_iff. exists e; auto. }
  assert (HV : forall e, In e K -> e_val e = evalue box i e) by (intros e He; apply V; auto).
  assert (LH : forall a, low box i a <= high box i a).
  { intros a. destruct (HF a) as [N _]. apply nonempty_ineq in N. unfold low, high. destruct i as [|[|[|j]]]; cbn in *; lia. }
  assert (NT : NoDup (map tag K)) by (eapply Permutation_NoDup; [apply Permutation_sym, P|apply tags_NoDup; auto]).
  assert (NM : NoDup (mins K)).
  { eapply Permutation_NoDup; [apply Permutation_sym, mins_perm, P|auto]. }
  exists (sw box (Nat.modulo (i + 1) 3) (Nat.modulo (i + 2) 3) K []). split.
  { apply isweep_plays; [constructor|auto|intros ? []|intros ? []]. }
  (* the value of an endpoint found in a part of K *)
  assert (HT : forall l1 o c, (forall e, In e l1 -> In e K) -> In (o, c) (map tag l1) ->
    exists e, In e l1 /\ e_obj e = o /\ e_max e = c /\ e_val e = if c then high box i o else low box i o).
  { intros l1 o c Hsub H. apply in_map_iff in H as (e & [= <- <-] & He). exists e. repeat (split; auto). rewrite HV; auto. }
  assert (HA : forall l1 e l2 a, K = l1 ++ e :: l2 -> In a (after_pre l1 []) <->
    In (a, false) (map tag l1) /\ ~ In (a, true) (map tag l1)).
  { intros l1 e l2 a EK. rewrite after_pre_In; [cbn; tauto| |].
    - intros p e' q El Ho Hc. split; [|auto]. intros Hin. subst l1.
      assert (Hsub : forall z, In z p -> In z K) by (intros z Hz; rewrite EK, !in_app_iff; auto).
      destruct (HT p a true Hsub Hin) as (z & Hz & Z1 & Z2 & Z3).
      rewrite EK in HSo. rewrite <- app_assoc in HSo. cbn in HSo. apply sorted_app in HSo as [HL _].
      specialize (HL z Hz). unfold by_key in HL. rewrite Z3 in HL.
      assert (He' : In e' K) by (rewrite EK, !in_app_iff; left; right; left; auto).
      rewrite (HV e' He') in HL. unfold evalue in HL. rewrite Hc, Ho in HL. specialize (LH a).
      assert (Ha : In a (ms_regs x)) by (rewrite <- Ho; auto). specialize (HG a a i Ha Ha Hi). lia.
    - rewrite EK in NT. rewrite map_app in NT. apply NoDup_app_parts in NT. tauto. }
  assert (Key : forall a b, In (a, b) (sw box (Nat.modulo (i + 1) 3) (Nat.modulo (i + 2) 3) K []) <->
    exists l1 e l2, K = l1 ++ e :: l2 /\ tag e = (b, false) /\ In (a, false) (map tag l1) /\
      overlap (box a) (box b) = true).
  { intros a b. rewrite sw_In. split.
    - intros (l1 & e & l2 & EK & E1 & E2 & E3 & E4). exists l1, e, l2. split; auto. unfold tag. rewrite E1, E2.
      apply (HA l1 e l2 a EK) in E3 as [E3 E5]. repeat (split; auto). apply (axis3 i); auto. split; auto.
      apply axis_overlap_le.
      assert (He : In e K) by (rewrite EK; apply in_elt).
      destruct (HT l1 a false) as (z & Hz & Z1 & Z2 & Z3); auto; [intros z Hz; rewrite EK, in_app_iff; auto|].
      assert (Hza : In (a, true) (map tag K)).
      { rewrite P, tags_In. rewrite <- Z1. apply HR. rewrite EK, in_app_iff; auto. }
      rewrite EK, map_app, in_app_iff in Hza. destruct Hza as [Hza|[Hza|Hza]]; [tauto|unfold tag in Hza; congruence|].
      destruct (HT l2 a true) as (y & Hy & Y1 & Y2 & Y3); auto; [intros y Hy; rewrite EK, in_app_iff; cbn; auto|].
      rewrite EK in HSo. apply sorted_app in HSo as [SL1 SL2]. specialize (SL1 z Hz). specialize (SL2 y Hy).
      unfold by_key in *. rewrite Z3 in SL1. rewrite Y3 in SL2. rewrite (HV e He) in SL1, SL2. unfold evalue in SL1, SL2.
      rewrite E1, E2 in SL1, SL2. pose proof (LH b). unfold low, high in *. lia.
    - intros (l1 & e & l2 & EK & E1 & E2 & E3). exists l1, e, l2. injection E1 as E1 E4. repeat (split; [assumption|]).
      split; [|apply (axis3 i) in E3; tauto]. apply (HA l1 e l2 a EK). split; auto. intros Hin.
      assert (He : In e K) by (rewrite EK; apply in_elt).
      destruct (HT l1 a true) as (z & Hz & Z1 & Z2 & Z3); auto; [intros z Hz; rewrite EK, in_app_iff; auto|].
      assert (Ra : In a (ms_regs x)) by (rewrite <- Z1; apply HR; rewrite EK, in_app_iff; auto).
      assert (Rb : In b (ms_regs x)) by (rewrite <- E1; auto).
      rewrite EK in HSo. apply sorted_app in HSo as [SL1 _]. specialize (SL1 z Hz). unfold by_key in SL1.
      rewrite Z3, (HV e He) in SL1. unfold evalue in SL1. rewrite E4, E1 in SL1.
      apply (axis3 i) in E3 as [E3 _]; auto. apply axis_overlap_le in E3. specialize (HG b a i Rb Ra Hi). unfold low, high in *. lia. }
  split; [|split].
  - apply sw_NoDup; [constructor|auto|intros ? []].
  - intros a b H. apply Key in H as (l1 & e & l2 & EK & E1 & E2 & E3). split.
    + destruct (HT l1 a false) as (z & Hz & Z1 & Z2 & Z3); auto; [intros z Hz; rewrite EK, in_app_iff; auto|].
      split; [rewrite <- Z1; apply HR; rewrite EK, in_app_iff; auto|]. injection E1 as E1 E4.
      split; [rewrite <- E1; apply HR; rewrite EK; apply in_elt|]. split; auto. intros ->.
      rewrite EK, map_app in NT. cbn in NT. apply NoDup_remove_2 in NT. apply NT. rewrite in_app_iff. left.
      unfold tag at 1. rewrite E1, E4. auto.
    + intros H. apply Key in H as (k1 & e' & k2 & EK' & F1 & F2 & F3).
      pose proof (f_equal (map tag) EK) as T1. pose proof (f_equal (map tag) EK') as T2. rewrite map_app in T1, T2. cbn in T1, T2.
      rewrite E1 in T1. rewrite F1 in T2. rewrite T1 in T2, NT.
      eapply (before_antisym (a, false) (b, false)); eauto.
  - intros a b (Ha & Hb & Hab & Ho).
    assert (Ia : In (a, false) (map tag K)) by (rewrite P, tags_In; auto).
    assert (Ib : In (b, false) (map tag K)) by (rewrite P, tags_In; auto).
    apply in_tags_split in Ia as (l1 & e & l2 & EK & Et). rewrite EK, map_app, in_app_iff in Ib.
    destruct Ib as [Ib|[Ib|Ib]]; [|congruence|].
    + right. apply Key. exists l1, e, l2. repeat (split; auto). rewrite overlap_sym. auto.
    + left. apply in_tags_split in Ib as (q1 & e2 & q2 & -> & Et2). apply Key. exists (l1 ++ e :: q1), e2, q2.
      rewrite EK, <- app_assoc. repeat (split; auto). rewrite map_app, in_app_iff. right. left. auto.
Qed.
