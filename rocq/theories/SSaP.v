(** SSaPCollisionManager: "simple sweep and prune", three vectors sorted by lower corner
    (include/fcl/broadphase/broadphase_SSaP-inl.h). *)
From Coq Require Import ZArith List Bool Lia Permutation Arith Sorted.
From Verif Require Import AabbZ Broadphase QueryComb QueryOpt SortSearch.
Import ListNotations.
Local Open Scope Z_scope.
Set Default Proof Using "Type".

(** objs_x, objs_y, objs_z, setup_ (broadphase_SSaP.h:124-133). *)
Record ssap := Ssap { sx : list obj; sy : list obj; sz : list obj; ssetup : bool }.
Definition slist (i : nat) (s : ssap) : list obj := match i with 0%nat => sx s | 1%nat => sy s | _ => sz s end.
(** The sort key: SortByXLow / YLow / ZLow compare getAABB().min_[i] (SSaP-inl.h:52-84). *)
Definition low (box : obj -> aabb) (i : nat) (o : obj) : Z := coord i (bmin (box o)).
Definition high (box : obj -> aabb) (i : nat) (o : obj) : Z := coord i (bmax (box o)).

(** SSaPCollisionManager(), SSaP-inl.h:145-149. *)
Definition s_init : ssap := Ssap [] [] [] false.
(** registerObject, SSaP-inl.h:153-159. *)
Definition s_register (o : obj) (s : ssap) : ssap := Ssap (sx s ++ [o]) (sy s ++ [o]) (sz s ++ [o]) false.
(** setup, SSaP-inl.h:163-172. *)
Definition s_do_setup (srt : sorter) (box : obj -> aabb) (s : ssap) : ssap :=
  if ssetup s then s
  else Ssap (srt (low box 0) (sx s)) (srt (low box 1) (sy s)) (srt (low box 2) (sz s)) true.
(** update(), SSaP-inl.h:176-180; update(obj) and update(objs) of the base class call it
    (broadphase_collision_manager-inl.h:60-78). *)
Definition s_update (srt : sorter) (box : obj -> aabb) (s : ssap) : ssap :=
  s_do_setup srt box (Ssap (sx s) (sy s) (sz s) false).
(** clear, SSaP-inl.h:184-190. *)
Definition s_clear (s : ssap) : ssap := Ssap [] [] [] false.

(** The loop of unregisterObject: erase the first occurrence among the first [k] elements,
    SSaP-inl.h:107-115. *)
Fixpoint erase_upto (o : obj) (k : nat) (l : list obj) : list obj :=
  match k, l with
  | S k', x :: r => if Nat.eqb x o then r else x :: erase_upto o k' r
  | _, _ => l
  end.
(** std::upper_bound with a dummy object whose box is the point [v]: SSaP-inl.h:105, 241. *)
Definition prefix_len (box : obj -> aabb) (i : nat) (v : vec) (s : ssap) : nat :=
  upper_bound (map (low box i) (slist i s)) (coord i v).
(** unregisterObject, SSaP-inl.h:98-141. *)
Definition s_unregister (srt : sorter) (box : obj -> aabb) (o : obj) (s0 : ssap) : ssap :=
  let s := s_do_setup srt box s0 in
  let v := bmax (box o) in
  Ssap (erase_upto o (prefix_len box 0 v s) (sx s))
       (erase_upto o (prefix_len box 1 v s) (sy s))
       (erase_upto o (prefix_len box 2 v s) (sz s)) (ssetup s).

(** getObjects, size, empty: SSaP-inl.h:194-198, 580-590. *)
Definition s_get (s : ssap) : list obj := sx s.
Definition s_size (s : ssap) : nat := length (sx s).
Definition s_empty (s : ssap) : bool := match sx s with [] => true | _ => false end.

Inductive sop :=
| SMove (o : obj) (b : aabb)   (** the user moves an object (its getAABB() changes) *)
| SReg (o : obj)
| SRegs (os : list obj)        (** base class: registerObject one by one *)
| SUnreg (o : obj)
| SSetup
| SUpdate
| SClear.
Definition set_box (box : obj -> aabb) (o : obj) (b : aabb) : obj -> aabb :=
  fun x => if Nat.eqb x o then b else box x.
Definition s_step (srt : sorter) (x : ssap * (obj -> aabb)) (op : sop) : ssap * (obj -> aabb) :=
  let (s, box) := x in
  match op with
  | SMove o b => (s, set_box box o b)
  | SReg o => (s_register o s, box)
  | SRegs os => (fold_left (fun s o => s_register o s) os s, box)
  | SUnreg o => (s_unregister srt box o s, box)
  | SSetup => (s_do_setup srt box s, box)
  | SUpdate => (s_update srt box s, box)
  | SClear => (s_clear s, box)
  end.
Definition s_run (srt : sorter) (ops : list sop) (box0 : obj -> aabb) : ssap * (obj -> aabb) :=
  fold_left (s_step srt) ops (s_init, box0).

Section Queries.
  Variable box : obj -> aabb.

  (** The number of elements inspected on each axis decides which list is scanned:
      SSaP-inl.h:241-283 (collide_) and 321-369 (distance_); CUTOFF = 100. *)
  Definition pick_axis (v : vec) (s : ssap) : nat :=
    let d1 := prefix_len box 0 v s in
    if Nat.ltb 100 d1 then
      let d2 := prefix_len box 1 v s in
      if Nat.ltb 100 d2 then
        let d3 := prefix_len box 2 v s in
        if Nat.ltb 100 d3 then
          if Nat.leb d3 d2 && Nat.leb d3 d1 then 2%nat
          else if Nat.leb d2 d3 && Nat.leb d2 d1 then 1%nat
          else 0%nat
        else 2%nat
      else 1%nat
    else 0%nat.
  Definition prefix (v : vec) (s : ssap) : list obj :=
    let i := pick_axis v s in firstn (prefix_len box i v s) (slist i s).

  (** checkColl, SSaP-inl.h:202-219. *)
  Fixpoint check_coll (l : list obj) (o : obj) : query :=
    match l with
    | [] => cskip
    | a :: r =>
        cseq (cwhen (negb (Nat.eqb a o)) (cwhen (overlap (box a) (box o)) (ccall a o))) (check_coll r o)
    end.
  (** collide_(obj), SSaP-inl.h:255-302. *)
  Definition s_collide_ (s : ssap) (o : obj) : query := check_coll (prefix (bmax (box o)) s) o.
  (** collide(obj), SSaP-inl.h:245-251. *)
  Definition s_collide_obj (s : ssap) (o : obj) : query :=
    if Nat.eqb (s_size s) 0 then cskip else s_collide_ s o.

  (** selectOptimalAxis, SSaP-inl.h:420-460, including [objs_x[objs_y.size() - 1]] for delta_y. *)
  Definition select_axis (s : ssap) : nat :=
    let dx := low box 0 (nth (length (sx s) - 1) (sx s) 0%nat) - low box 0 (nth 0 (sx s) 0%nat) in
    let dy := low box 1 (nth (length (sy s) - 1) (sx s) 0%nat) - low box 1 (nth 0 (sy s) 0%nat) in
    let dz := low box 2 (nth (length (sz s) - 1) (sz s) 0%nat) - low box 2 (nth 0 (sz s) 0%nat) in
    if (dx <? dy) && (dz <? dy) then 1%nat
    else if (dy <? dz) && (dx <? dz) then 2%nat
    else 0%nat.

  (** The loop advancing run_pos, SSaP-inl.h:481-494. *)
  Fixpoint advance (axis : nat) (o : obj) (rp : list obj) : list obj :=
    match rp with
    | [] => []
    | r :: rp' => if low box axis r <? low box axis o then advance axis o rp' else rp'
    end.
  (** The two explicit interval tests on the other axes, SSaP-inl.h:504-506. *)
  Definition meets (i : nat) (a b : obj) : bool :=
    (low box i b <=? high box i a) && (low box i a <=? high box i b).
  (** The inner loop from run_pos, SSaP-inl.h:496-515. *)
  Fixpoint inner (axis axis2 axis3 : nat) (o : obj) (l : list obj) : query :=
    match l with
    | [] => cskip
    | o2 :: r =>
        if low box axis o2 <=? high box axis o then
          cseq (cwhen (meets axis2 o o2) (cwhen (meets axis3 o o2) (ccall o o2)))
               (inner axis axis2 axis3 o r)
        else cskip
    end.
  Fixpoint sweep (axis axis2 axis3 : nat) (l rp : list obj) : query :=
    match l, rp with
    | o :: l', _ :: _ =>
        let rp' := advance axis o rp in
        cseq (inner axis axis2 axis3 o rp') (sweep axis axis2 axis3 l' rp')
    | _, _ => cskip
    end.
  (** collide(), SSaP-inl.h:464-519. *)
  Definition s_collide_self (s : ssap) : query :=
    if Nat.eqb (s_size s) 0 then cskip
    else
      let axis := select_axis s in
      let axis2 := if Nat.ltb 2 (axis + 1) then 0%nat else (axis + 1)%nat in
      let axis3 := if Nat.ltb 2 (axis2 + 1) then 0%nat else (axis2 + 1)%nat in
      sweep axis axis2 axis3 (slist axis s) (slist axis s).
  (** collide(other) with another manager, SSaP-inl.h:540-565.  For [this == other] the C++
      calls [collide()]. *)
  Definition s_collide_other (s other : ssap) : query :=
    if Nat.eqb (s_size s) 0 || Nat.eqb (s_size other) 0 then cskip
    else if Nat.ltb (s_size s) (s_size other) then ceach (s_collide_ other) (sx s)
    else ceach (s_collide_ s) (sx other).

  (** AABB<S>::distance, and numeric_limits<S>::max(). *)
  Variable adist : aabb -> aabb -> Z.
  Variable M : Z.
  (** checkDis, SSaP-inl.h:223-241. *)
  Fixpoint check_dis (l : list obj) (o : obj) : dquery :=
    match l with
    | [] => dskip
    | a :: r =>
        dseq (if negb (Nat.eqb a o) then dprune (adist (box a) (box o)) (dcall a o) else dskip)
             (check_dis r o)
    end.
  Definition norm2 (v : vec) : Z := vx v * vx v + vy v * vy v + vz v * vz v.
  (** Eigen isApprox with precision epsilon * 100 = 2^-52 * 100 (double):
      |v - w|^2 <= prec^2 * min(|v|^2, |w|^2). *)
  Definition is_approx (v w : vec) : bool :=
    norm2 (vsub v w) * 2 ^ 104 <=? 10000 * Z.min (norm2 v) (norm2 w).
  Definition splat (x : Z) : vec := V x x x.
  (** (max_ - min_) * 0.5; the unit is such that halves are exact. *)
  Definition half_extent (b : aabb) : vec :=
    V ((vx (bmax b) - vx (bmin b)) / 2) ((vy (bmax b) - vy (bmin b)) / 2) ((vz (bmax b) - vz (bmin b)) / 2).
  Definition vdouble (v : vec) : vec := V (vx v * 2) (vy v * 2) (vz v * 2).
  (** The while(1) loop of distance_, SSaP-inl.h:338-414; [status1] is [status == 1]. *)
  Fixpoint dist_loop (fuel : nat) (s : ssap) (o : obj) (dv : vec) (status1 : bool) : odquery :=
    fun St cb st m =>
      match fuel with
      | O => None
      | S f =>
          let '(st', m', stop) := check_dis (prefix dv s) o St cb st m in
          if stop then Some (st', m', true)
          else if status1 then
            if m <? M then Some (st', m', false)
            else if m' <? m then
              dist_loop f s o (vadd (bmax (box o)) (splat m')) false St cb st' m'
            else
              dist_loop f s o
                (if is_approx dv (bmax (box o)) then vadd dv (half_extent (box o))
                 else vsub (vdouble dv) (bmax (box o))) true St cb st' m'
          else Some (st', m', false)
      end.
  (** distance_, SSaP-inl.h:317-417. *)
  Definition s_dist_ (fuel : nat) (s : ssap) (o : obj) : odquery := fun St cb st m =>
    let dv := bmax (box o) in
    dist_loop fuel s o (if m <? M then vadd dv (splat m) else dv) true St cb st m.
  (** distance(obj), SSaP-inl.h:306-313; started with min_dist = M. *)
  Definition s_dist_obj (fuel : nat) (s : ssap) (o : obj) : odquery :=
    if Nat.eqb (s_size s) 0 then oskip else s_dist_ fuel s o.
  (** distance(), SSaP-inl.h:523-536. *)
  Definition s_dist_self (fuel : nat) (s : ssap) : odquery :=
    if Nat.eqb (s_size s) 0 then oskip else oeach (s_dist_ fuel s) (slist (select_axis s) s).
  (** distance(other) with another manager, SSaP-inl.h:569-596. *)
  Definition s_dist_other (fuel : nat) (s other : ssap) : odquery :=
    if Nat.eqb (s_size s) 0 || Nat.eqb (s_size other) 0 then oskip
    else if Nat.ltb (s_size s) (s_size other) then oeach (s_dist_ fuel other) (sx s)
    else oeach (s_dist_ fuel s) (sx other).
End Queries.

(** ** Specification of histories *)

(** Whether the vectors are known to be sorted by the current boxes: [Pending] before
    setup(), [Stale] when a registered object moved since. *)
Inductive status := Pending | Sorted | Stale.
Definition mem (o : obj) (l : list obj) : bool := existsb (Nat.eqb o) l.
Definition take_out (o : obj) (l : list obj) : list obj := filter (fun x => negb (Nat.eqb x o)) l.
Definition set_up (st : status) : status := match st with Pending => Sorted | x => x end.
Definition spec_step (x : list obj * status) (op : sop) : list obj * status :=
  let (regs, st) := x in
  match op with
  | SMove o _ => (regs, match st with Sorted => if mem o regs then Stale else Sorted | y => y end)
  | SReg o => (regs ++ [o], Pending)
  | SRegs [] => (regs, st)
  | SRegs os => (regs ++ os, Pending)
  | SUnreg o => (take_out o regs, set_up st)
  | SSetup => (regs, set_up st)
  | SUpdate => (regs, Sorted)
  | SClear => ([], Pending)
  end.
Definition s_spec (ops : list sop) : list obj * status := fold_left spec_step ops ([], Pending).
(** The objects registered, and whether the order is current. *)
Definition s_registered (ops : list sop) : list obj := fst (s_spec ops).
Definition s_status (ops : list sop) : status := snd (s_spec ops).

(** Legal use: an object is registered at most once, boxes are non-empty, and no registered
    object is removed after objects moved without an update. *)
Definition legal (x : list obj * status) (op : sop) : Prop :=
  let (regs, st) := x in
  match op with
  | SMove _ b => nonempty b
  | SReg o => ~ In o regs
  | SRegs os => NoDup os /\ forall o, In o os -> ~ In o regs
  | SUnreg o => st <> Stale \/ ~ In o regs
  | _ => True
  end.
Fixpoint legal_from (x : list obj * status) (ops : list sop) : Prop :=
  match ops with [] => True | op :: r => legal x op /\ legal_from (spec_step x op) r end.
Definition legal_history (ops : list sop) (box0 : obj -> aabb) : Prop :=
  (forall o, nonempty (box0 o)) /\ legal_from ([], Pending) ops.

(** ** Invariant *)
Definition sorted_by (box : obj -> aabb) (s : ssap) : Prop :=
  forall i, (i < 3)%nat -> StronglySorted (by_key (low box i)) (slist i s).
Definition sinv (s : ssap) (box : obj -> aabb) (x : list obj * status) : Prop :=
  NoDup (fst x) /\ (forall o, nonempty (box o)) /\
  (forall i, (i < 3)%nat -> Permutation (slist i s) (fst x)) /\
  match snd x with
  | Pending => ssetup s = false
  | Sorted => ssetup s = true /\ sorted_by box s
  | Stale => ssetup s = true
  end.

Ltac three i Hi := destruct i as [|[|[|i]]]; [| | |lia]; clear Hi.

Lemma mem_In o l : mem o l = true <-> In o l.
Proof.
  unfold mem. rewrite existsb_exists. split.
  - intros (x & Hx & E). apply Nat.eqb_eq in E. subst; auto.
  - intros H; exists o; rewrite Nat.eqb_refl; auto.
Qed.
Lemma take_out_In o l x : In x (take_out o l) <-> In x l /\ x <> o.
Proof. unfold take_out. rewrite filter_In, negb_true_iff, Nat.eqb_neq. tauto. Qed.
Lemma take_out_id o l : ~ In o l -> take_out o l = l.
Proof.
  unfold take_out. induction l as [|x l IH]; cbn; intros H; auto. destruct (Nat.eqb_spec x o) as [->|]; cbn.
  - destruct H; auto.
  - f_equal. apply IH. tauto.
Qed.
Lemma take_out_perm o l l' : Permutation l l' -> Permutation (take_out o l) (take_out o l').
Proof.
  unfold take_out. induction 1 as [|x l l' P IH|x y l|l1 l2 l3 P1 IH1 P2 IH2]; cbn; auto.
  - destruct (Nat.eqb x o); cbn; auto.
  - destruct (Nat.eqb x o), (Nat.eqb y o); cbn; auto. apply perm_swap.
  - eapply perm_trans; eauto.
Qed.

Lemma erase_upto_not o k l : ~ In o l -> erase_upto o k l = l.
Proof.
  revert l; induction k as [|k IH]; intros [|x l] H; cbn; auto.
  destruct (Nat.eqb_spec x o) as [->|]; [destruct H; left; auto|]. f_equal. apply IH. intros ?; apply H; right; auto.
Qed.
Lemma erase_upto_in o k l : NoDup l -> In o (firstn k l) -> erase_upto o k l = take_out o l.
Proof.
  revert l; induction k as [|k IH]; intros [|x l] ND H; cbn in *; try tauto.
  apply NoDup_cons_iff in ND as [Nx ND]. unfold take_out. cbn.
  destruct (Nat.eqb_spec x o) as [->|N]; cbn.
  - symmetry. apply take_out_id; auto.
  - destruct H as [->|H]; [destruct N; auto|]. f_equal. apply IH; auto.
Qed.
Lemma SSorted_filter {A} (R : A -> A -> Prop) (f : A -> bool) l : StronglySorted R l -> StronglySorted R (filter f l).
Proof.
  induction 1 as [|a l HS IH HF]; cbn; [constructor|]. destruct (f a); auto. constructor; auto.
  rewrite Forall_forall in *. intros x Hx. apply filter_In in Hx as [Hx _]. auto.
Qed.

Lemma low_high box i o : nonempty (box o) -> low box i o <= high box i o.
Proof.
  intros H. apply nonempty_ineq in H. unfold low, high. destruct i as [|[|i]]; cbn; lia.
Qed.

Lemma prefix_spec box i v s : StronglySorted (by_key (low box i)) (slist i s) ->
  firstn (prefix_len box i v s) (slist i s) = filter (fun a => low box i a <=? coord i v) (slist i s).
Proof. intros HS. unfold prefix_len. apply upper_bound_spec; auto. Qed.

Lemma s_setup_inv srt s box x : sorts srt -> sinv s box x ->
  sinv (s_do_setup srt box s) box (fst x, set_up (snd x)).
Proof.
  intros HS (ND & NE & P & B). destruct x as [regs st]; cbn [fst snd] in *. unfold s_do_setup.
  destruct st; cbn [set_up].
  - rewrite B. split; auto. split; auto. split.
    + intros i Hi. pose proof (P i Hi) as Pi. three i Hi; cbn in *; (eapply perm_trans; [apply HS|auto]).
    + split; auto. intros i Hi. three i Hi; apply HS.
  - destruct B as [B1 B2]. rewrite B1. unfold sinv; cbn [fst snd]; auto.
  - rewrite B. unfold sinv; cbn [fst snd]; auto.
Qed.

Lemma s_update_inv srt s box x : sorts srt -> sinv s box x -> sinv (s_update srt box s) box (fst x, Sorted).
Proof.
  intros HS (ND & NE & P & B). unfold s_update.
  apply (s_setup_inv srt (Ssap (sx s) (sy s) (sz s) false) box (fst x, Pending) HS).
  unfold sinv; cbn [fst snd]. split; auto.
Qed.

Lemma s_unregister_inv srt s box x o : sorts srt -> sinv s box x -> (snd x <> Stale \/ ~ In o (fst x)) ->
  sinv (s_unregister srt box o s) box (take_out o (fst x), set_up (snd x)).
Proof.
  intros HS HI HL. pose proof (s_setup_inv srt s box x HS HI) as HI'. unfold s_unregister.
  set (s' := s_do_setup srt box s) in *. clearbody s'. destruct HI' as (ND & NE & P & B). cbn [fst snd] in *.
  destruct (mem o (fst x)) eqn:EM.
  - apply mem_In in EM. destruct HL as [HL|HL]; [|tauto].
    assert (BS : ssetup s' = true /\ sorted_by box s') by (destruct (snd x); cbn in B; tauto).
    destruct BS as [B1 B2].
    assert (E : forall i, (i < 3)%nat -> erase_upto o (prefix_len box i (bmax (box o)) s') (slist i s') = take_out o (slist i s')).
    { intros i Hi. pose proof (P i Hi) as Pi. apply erase_upto_in.
      - eapply Permutation_NoDup; [symmetry; exact Pi|auto].
      - rewrite prefix_spec by auto. apply filter_In. split; [rewrite Pi; auto|].
        apply Z.leb_le. apply (low_high box i o). auto. }
    pose proof (E 0%nat ltac:(lia)) as E0. pose proof (E 1%nat ltac:(lia)) as E1. pose proof (E 2%nat ltac:(lia)) as E2.
    cbn [slist] in E0, E1, E2. rewrite E0, E1, E2.
    split; [apply NoDup_filter; auto|]. split; auto. split.
    + intros i Hi. pose proof (P i Hi) as Pi. cbn [fst]. three i Hi; apply take_out_perm; auto.
    + destruct (snd x); cbn in B |- *; try tauto; split; auto; intros i Hi; pose proof (B2 i Hi) as Bi;
        three i Hi; apply SSorted_filter; auto.
  - assert (N : ~ In o (fst x)) by (rewrite <- mem_In, EM; discriminate).
    assert (E : forall i, (i < 3)%nat -> erase_upto o (prefix_len box i (bmax (box o)) s') (slist i s') = slist i s').
    { intros i Hi. apply erase_upto_not. rewrite (P i Hi); auto. }
    pose proof (E 0%nat ltac:(lia)) as E0. pose proof (E 1%nat ltac:(lia)) as E1. pose proof (E 2%nat ltac:(lia)) as E2.
    cbn [slist] in E0, E1, E2. rewrite E0, E1, E2, take_out_id by auto. destruct s'; cbn in *. unfold sinv; cbn [fst snd]; auto.
Qed.

Lemma s_regs_fold os s : fold_left (fun s o => s_register o s) os s =
  match os with [] => s | _ => Ssap (sx s ++ os) (sy s ++ os) (sz s ++ os) false end.
Proof.
  revert s; induction os as [|o os IH]; intros s; cbn; auto. rewrite IH. unfold s_register; cbn.
  destruct os; cbn; auto. rewrite <- !app_assoc. reflexivity.
Qed.

Lemma s_step_inv srt s box x op : sorts srt -> sinv s box x -> legal x op ->
  let (s', box') := s_step srt (s, box) op in sinv s' box' (spec_step x op).
Proof.
  intros HS HI HL. destruct x as [regs st]. destruct op as [o b|o|os|o| | |]; cbn [s_step spec_step legal] in *.
  - destruct HI as (ND & NE & P & B). cbn [fst snd] in *. split; auto. split.
    { intros x. unfold set_box. destruct (Nat.eqb x o); auto. }
    split; auto. cbn [snd]. destruct st; auto. destruct B as [B1 B2]. destruct (mem o regs) eqn:EM; auto.
    split; auto. intros i Hi. apply StronglySorted_ext with (low box i); auto.
    intros a Ha. unfold low, set_box. destruct (Nat.eqb_spec a o) as [->|]; auto.
    rewrite (P i Hi) in Ha. apply mem_In in Ha. congruence.
  - destruct HI as (ND & NE & P & B). cbn [fst snd] in *. split.
    { apply NoDup_app_intro; auto; [repeat constructor; auto|]. intros x Hx [<-|[]]; auto. }
    split; auto. split; [|reflexivity]. intros i Hi. pose proof (P i Hi) as Pi. three i Hi; cbn in *; apply Permutation_app_tail; auto.
  - rewrite s_regs_fold. destruct os as [|o1 os]; auto. destruct HL as [HN HL]. destruct HI as (ND & NE & P & B). cbn [fst snd] in *. split.
    { apply NoDup_app_intro; auto. intros x Hx Hy. apply (HL x Hy Hx). }
    split; auto. split; [|reflexivity]. intros i Hi. pose proof (P i Hi) as Pi. three i Hi; cbn in *; apply Permutation_app_tail; auto.
  - apply (s_unregister_inv srt s box (regs, st) o); auto.
  - apply (s_setup_inv srt s box (regs, st)); auto.
  - apply (s_update_inv srt s box (regs, st)); auto.
  - destruct HI as (ND & NE & P & B). split; [constructor|]. split; auto. split; [|reflexivity].
    intros i Hi. three i Hi; apply Permutation_refl.
Qed.

Lemma s_run_inv srt ops box0 s box : sorts srt -> legal_history ops box0 ->
  s_run srt ops box0 = (s, box) -> sinv s box (s_spec ops).
Proof.
  intros HS [NE0 HL] ER. unfold s_run, s_spec in *.
  assert (HI : sinv s_init box0 ([], Pending)).
  { split; [constructor|]. split; auto. split; [|reflexivity]. intros i Hi. three i Hi; apply Permutation_refl. }
  revert HI HL ER. generalize s_init box0 ([] : list obj, Pending).
  induction ops as [|op ops IH]; intros s1 box1 x HI HL ER; cbn in *.
  - congruence.
  - destruct HL as [HL1 HL2]. pose proof (s_step_inv srt s1 box1 x op HS HI HL1) as HI2.
    unfold s_step in *. destruct op; apply (IH _ _ _ HI2 HL2 ER).
Qed.

(** ** Collision queries *)
Section CollisionProofs.
  Variable box : obj -> aabb.

  Lemma check_coll_plays l o : plays (check_coll box l o)
    (map (fun a => (a, o)) (filter (fun a => negb (Nat.eqb a o) && overlap (box a) (box o)) l)).
  Proof.
    induction l as [|a l IH]; cbn [check_coll filter map]; [apply plays_skip|].
    match goal with |- plays _ ?x => replace x with
      ((if negb (Nat.eqb a o) then if overlap (box a) (box o) then [(a, o)] else [] else []) ++
       map (fun a => (a, o)) (filter (fun a => negb (Nat.eqb a o) && overlap (box a) (box o)) l)) end.
    - apply plays_seq; auto. apply plays_when, plays_when, plays_call.
    - destruct (negb (Nat.eqb a o)), (overlap (box a) (box o)); reflexivity.
  Qed.

  Lemma pick_axis_lt v s : (pick_axis box v s < 3)%nat.
  Proof.
    unfold pick_axis. cbv zeta. repeat (match goal with |- context [if ?c then _ else _] => destruct c end); lia.
  Qed.
  Lemma prefix_sorted v s : sorted_by box s ->
    exists i, (i < 3)%nat /\ prefix box v s = filter (fun a => low box i a <=? coord i v) (slist i s).
  Proof.
    intros HS. exists (pick_axis box v s). pose proof (pick_axis_lt v s) as L. split; auto.
    unfold prefix. apply prefix_spec; auto.
  Qed.

  Variables (s : ssap) (regs : list obj).
  Hypothesis ND : NoDup regs.
  Hypothesis NE : forall o, nonempty (box o).
  Hypothesis P : forall i, (i < 3)%nat -> Permutation (slist i s) regs.
  Hypothesis HS : sorted_by box s.

  (** The calls of collide_. *)
  Definition scalls (o : obj) : list (obj * obj) := calls (s_collide_ box s o).
  Lemma s_collide_plays o : plays (s_collide_ box s o) (scalls o) /\
    ordered_once (scalls o) (fun a b => b = o /\ a <> o /\ In a regs /\ overlap (box a) (box o) = true).
  Proof using ND NE P HS.
    unfold s_collide_, scalls. set (pre := prefix box (bmax (box o)) s).
    pose proof (check_coll_plays pre o) as HP. destruct (plays_calls _ _ HP) as [E _].
    unfold s_collide_. fold pre. rewrite E. split; auto.
    destruct (prefix_sorted (bmax (box o)) s HS) as (i & Hi & EP). unfold pre. rewrite EP. pose proof (P i Hi) as Pi.
    split.
    - apply NoDup_map_inj; [congruence|]. apply NoDup_filter, NoDup_filter.
      eapply Permutation_NoDup; [symmetry; exact Pi|auto].
    - intros a b. rewrite in_map_iff. split.
      + intros (x & Ex & Hx). injection Ex as -> <-. apply filter_In in Hx as [Hx H1]. apply filter_In in Hx as [Hx H2].
        apply andb_true_iff in H1 as [H1 H3]. apply negb_true_iff, Nat.eqb_neq in H1. rewrite Pi in Hx. auto.
      + intros (-> & Na & Ha & Ho). exists a. split; auto. rewrite !filter_In. rewrite Pi. repeat split; auto.
        * apply Z.leb_le. apply overlap_ineq in Ho. unfold low. destruct i as [|[|i]]; cbn; lia.
        * apply Nat.eqb_neq in Na. rewrite Na, Ho. reflexivity.
  Qed.

  (** The sweep: with run_pos = pos at the start, run_pos stays one ahead of the object. *)
  Lemma advance_self axis o r : advance box axis o (o :: r) = r.
  Proof. cbn [advance]. rewrite Z.ltb_irrefl. reflexivity. Qed.

  Definition inner_calls (axis axis2 axis3 : nat) (o : obj) (l : list obj) : list (obj * obj) :=
    map (pair o) (filter (fun a => (low box axis a <=? high box axis o) && (meets box axis2 o a && meets box axis3 o a)) l).
  Lemma inner_plays axis axis2 axis3 o l : StronglySorted (by_key (low box axis)) l ->
    plays (inner box axis axis2 axis3 o l) (inner_calls axis axis2 axis3 o l).
  Proof.
    unfold inner_calls. induction 1 as [|a l HSo IH HF]; cbn [inner filter map]; [apply plays_skip|].
    destruct (Z.leb_spec (low box axis a) (high box axis o)) as [L|L]; cbn [andb].
    - match goal with |- plays _ ?x => replace x with
        ((if meets box axis2 o a then if meets box axis3 o a then [(o, a)] else [] else []) ++
         map (pair o) (filter (fun a => (low box axis a <=? high box axis o) && (meets box axis2 o a && meets box axis3 o a)) l)) end.
      + apply plays_seq; auto. apply plays_when, plays_when, plays_call.
      + destruct (meets box axis2 o a), (meets box axis3 o a); reflexivity.
    - replace (filter _ l) with (@nil obj); [apply plays_skip|]. clear IH HSo. induction HF as [|x l Hx HF IH]; cbn; auto.
      unfold by_key in Hx. assert (low box axis x <=? high box axis o = false) as -> by (apply Z.leb_gt; lia). cbn. auto.
  Qed.
  Fixpoint sweep_calls (axis axis2 axis3 : nat) (l : list obj) : list (obj * obj) :=
    match l with [] => [] | o :: r => inner_calls axis axis2 axis3 o r ++ sweep_calls axis axis2 axis3 r end.
  Lemma sweep_plays axis axis2 axis3 l : StronglySorted (by_key (low box axis)) l ->
    plays (sweep box axis axis2 axis3 l l) (sweep_calls axis axis2 axis3 l).
  Proof.
    induction 1 as [|a l HSo IH HF]; cbn [sweep sweep_calls]; [apply plays_skip|]. cbv zeta.
    rewrite advance_self. apply plays_seq; auto. apply inner_plays; auto.
  Qed.
  Lemma in_inner_calls axis axis2 axis3 o l a b : In (a, b) (inner_calls axis axis2 axis3 o l) <->
    a = o /\ In b l /\ low box axis b <= high box axis o /\ meets box axis2 o b = true /\ meets box axis3 o b = true.
  Proof.
    unfold inner_calls. rewrite in_map_iff. split.
    - intros (x & Ex & Hx). injection Ex as <- ->. apply filter_In in Hx as [Hx H1].
      apply andb_true_iff in H1 as [H1 H2]. apply andb_true_iff in H2 as [H2 H3]. apply Z.leb_le in H1. auto.
    - intros (-> & Hb & H1 & H2 & H3). exists b. split; auto. apply filter_In. split; auto.
      apply Z.leb_le in H1. rewrite H1, H2, H3. reflexivity.
  Qed.
  Lemma meets_iff i a b : meets box i a b = true <-> low box i b <= high box i a /\ low box i a <= high box i b.
  Proof. unfold meets. rewrite andb_true_iff, !Z.leb_le. tauto. Qed.

  (** Overlap from the three axis tests in any cyclic order. *)
  Definition cyclic (axis axis2 axis3 : nat) : Prop :=
    (axis, axis2, axis3) = (0, 1, 2)%nat \/ (axis, axis2, axis3) = (1, 2, 0)%nat \/ (axis, axis2, axis3) = (2, 0, 1)%nat.
  Lemma sweep_test axis axis2 axis3 a b : cyclic axis axis2 axis3 -> low box axis a <= low box axis b ->
    (low box axis b <= high box axis a /\ meets box axis2 a b = true /\ meets box axis3 a b = true <->
     overlap (box a) (box b) = true).
  Proof using NE.
    intros C L. rewrite !meets_iff, overlap_ineq. pose proof (low_high box axis b (NE b)) as Hb. unfold low, high in *.
    destruct C as [E|[E|E]]; injection E as -> -> ->; cbn [coord] in *; lia.
  Qed.
  Lemma sweep_once axis axis2 axis3 l : cyclic axis axis2 axis3 -> NoDup l ->
    StronglySorted (by_key (low box axis)) l ->
    pairs_once (sweep_calls axis axis2 axis3 l)
      (fun a b => In a l /\ In b l /\ a <> b /\ overlap (box a) (box b) = true).
  Proof using NE.
    intros C HN HSo. induction HSo as [|o l HSo IH HF]; cbn [sweep_calls].
    - split; [constructor|split; [intros a b []|intros a b ([] & _)]].
    - apply NoDup_cons_iff in HN as [No HN]. destruct (IH HN) as (I1 & I2 & I3). rewrite Forall_forall in HF.
      assert (HT : forall b, In b l -> (low box axis b <= high box axis o /\ meets box axis2 o b = true /\ meets box axis3 o b = true <->
         overlap (box o) (box b) = true)) by (intros b Hb; apply sweep_test; auto; exact (HF b Hb)).
      split; [|split].
      + apply NoDup_app_intro; auto.
        * unfold inner_calls. apply NoDup_map_inj; [congruence|apply NoDup_filter; auto].
        * intros [a b] H1 H2. apply in_inner_calls in H1 as (-> & _). apply I2 in H2 as ((Ho & _) & _). auto.
      + intros a b Hab. apply in_app_iff in Hab as [Hab|Hab].
        * apply in_inner_calls in Hab as (-> & Hb & Ht). apply (HT b Hb) in Ht.
          split; [cbn; repeat split; auto; intros ->; auto|]. rewrite in_app_iff. intros [H|H].
          -- apply in_inner_calls in H as (-> & _). auto.
          -- apply I2 in H as ((_ & H & _) & _). auto.
        * destruct (I2 a b Hab) as ((Ha & Hb & Hn & Ho) & Hr). split; [cbn; auto|]. rewrite in_app_iff.
          intros [H|H]; auto. apply in_inner_calls in H as (-> & _). auto.
      + intros a b ([<-|Ha] & [<-|Hb] & Hn & Ho).
        * congruence.
        * left. apply in_app_iff. left. apply in_inner_calls. split; auto. split; auto. apply HT; auto.
        * right. apply in_app_iff. left. apply in_inner_calls. split; auto. split; auto. apply HT; auto.
          rewrite overlap_sym; auto.
        * rewrite !in_app_iff. destruct (I3 a b); auto.
  Qed.
  Lemma select_axis_lt : (select_axis box s < 3)%nat.
  Proof. unfold select_axis. cbv zeta. repeat (match goal with |- context [if ?c then _ else _] => destruct c end); lia. Qed.
  Lemma select_cyclic : let axis := select_axis box s in
      let axis2 := if Nat.ltb 2 (axis + 1) then 0%nat else (axis + 1)%nat in
      let axis3 := if Nat.ltb 2 (axis2 + 1) then 0%nat else (axis2 + 1)%nat in cyclic axis axis2 axis3.
  Proof.
    cbv zeta. pose proof select_axis_lt as L. unfold cyclic. destruct (select_axis box s) as [|[|[|k]]]; cbn; auto; lia.
  Qed.
  Lemma s_collide_self_spec : exists l, plays (s_collide_self box s) l /\
    pairs_once l (fun a b => In a regs /\ In b regs /\ a <> b /\ overlap (box a) (box b) = true).
  Proof using ND NE P HS.
    unfold s_collide_self. destruct (Nat.eqb_spec (s_size s) 0) as [E|E].
    - exists []. split; [apply plays_skip|]. assert (regs = []) as ->.
      { pose proof (P 0%nat ltac:(lia)) as P0. cbn in P0. unfold s_size in E. apply length_zero_iff_nil in E. rewrite E in P0.
        apply Permutation_nil; auto. }
      split; [constructor|split; [intros a b []|intros a b ([] & _)]].
    - pose proof select_axis_lt as L. pose proof select_cyclic as C. cbv zeta in *.
      pose proof (P _ L) as Pi. eexists. split; [apply sweep_plays, HS; auto|].
      assert (HN : NoDup (slist (select_axis box s) s)) by (eapply Permutation_NoDup; [symmetry; exact Pi|auto]).
      destruct (sweep_once _ _ _ _ C HN (HS _ L)) as (I1 & I2 & I3). split; auto. split.
      + intros a b H. rewrite <- Pi. auto.
      + intros a b H. rewrite <- Pi in H. auto.
  Qed.
End CollisionProofs.

Lemma ceach_ordered box s regs os : NoDup regs -> (forall o, nonempty (box o)) ->
  (forall i, (i < 3)%nat -> Permutation (slist i s) regs) -> sorted_by box s -> NoDup os ->
  exists l, plays (ceach (s_collide_ box s) os) l /\
    ordered_once l (fun a b => In a regs /\ In b os /\ a <> b /\ overlap (box a) (box b) = true).
Proof.
  intros ND NE P HS NO. exists (flat_map (scalls box s) os). split.
  - apply plays_each. intros o Ho. apply (s_collide_plays box s regs); auto.
  - split.
    + induction NO as [|o os Ho NO IH]; cbn; [constructor|]. apply NoDup_app_intro; auto.
      * apply (s_collide_plays box s regs); auto.
      * intros [a b] H1 H2. apply in_flat_map in H2 as (o' & Ho' & H2).
        apply (s_collide_plays box s regs) in H1 as (-> & _); auto.
        apply (s_collide_plays box s regs) in H2 as (-> & _); auto.
    + intros a b. rewrite in_flat_map. split.
      * intros (o & Ho & H). apply (s_collide_plays box s regs) in H as (-> & ? & ? & ?); auto.
      * intros (Ha & Hb & Hn & Ho). exists b. split; auto. apply (s_collide_plays box s regs); auto.
Qed.

(** ** Distance queries *)
Section DistanceProofs.
  Variable box : obj -> aabb.
  Variable adist : aabb -> aabb -> Z.
  Variable M : Z.
  Variables (s : ssap) (regs : list obj).
  Hypothesis P : forall i, (i < 3)%nat -> Permutation (slist i s) regs.
  Hypothesis HS : sorted_by box s.
  (** The distance of two boxes is at least their gap along each axis. *)
  Hypothesis gap : forall i a b, (i < 3)%nat -> coord i (bmin a) - coord i (bmax b) <= adist a b.

  Lemma check_dis_covers l o floor D :
    (forall a, In a l -> a <> o -> adist (box a) (box o) <= D a o) ->
    covers (check_dis box adist l o) floor (fun a b => b = o /\ a <> o /\ In a l) D.
  Proof.
    induction l as [|a l IH]; intros HD; cbn [check_dis].
    - apply covers_skip. intros a b (_ & _ & []).
    - eapply covers_seq with (P1 := fun x y => x = a /\ y = o /\ a <> o); [|destruct (Nat.eqb_spec a o) as [->|N]|apply IH; intros; apply HD; auto; right; auto].
      + intros x y. cbn. split; [intros (-> & Hn & [<-|H]); auto|intros [(-> & -> & H)|(-> & H & H')]; auto].
      + cbn [negb]. apply covers_skip. tauto.
      + cbn [negb]. apply covers_ext with (P := fun x y => x = a /\ y = o); [intros; tauto|].
        apply covers_prune; [|apply covers_call]. intros x y [-> ->]. apply HD; auto. left; auto.
  Qed.
  Lemma check_dis_sound l o : dsound (check_dis box adist l o) (fun a b => b = o /\ a <> o /\ In a l).
  Proof.
    induction l as [|a l IH]; cbn [check_dis]; [apply dsound_skip|]. apply dsound_seq.
    - destruct (Nat.eqb_spec a o) as [->|N]; cbn [negb]; [apply dsound_skip|]. apply dsound_prune, dsound_call. cbn; auto.
    - eapply dsound_imp; [|exact IH]. cbn. tauto.
  Qed.
  Lemma check_dis_stops l o : dstops (check_dis box adist l o).
  Proof.
    induction l as [|a l IH]; cbn [check_dis]; [apply dstops_skip|]. apply dstops_seq; auto.
    destruct (negb (Nat.eqb a o)); [apply dstops_prune, dstops_call|apply dstops_skip].
  Qed.

  Lemma prefix_in v a : In a (prefix box v s) -> In a regs.
  Proof using P HS.
    destruct (prefix_sorted box v s HS) as (i & Hi & ->). rewrite filter_In, (P i Hi). tauto.
  Qed.
  (** Objects beyond the prefix are farther than the reach. *)
  Lemma prefix_misses r a o : In a regs -> ~ In a (prefix box (vadd (bmax (box o)) (splat r)) s) ->
    r < adist (box a) (box o).
  Proof using P HS gap.
    intros Ha. destruct (prefix_sorted box (vadd (bmax (box o)) (splat r)) s HS) as (i & Hi & ->). rewrite filter_In, (P i Hi).
    intros H. pose proof (gap i (box a) (box o) Hi) as G. destruct (Z.leb_spec (low box i a) (coord i (vadd (bmax (box o)) (splat r)))) as [L|L].
    - tauto.
    - unfold low in L. destruct (bmax (box o)) as [x y z]. destruct i as [|[|[|i]]]; cbn in *; lia.
  Qed.

  (** One pass over the prefix within reach [r] settles everything when [r] is at least the
      minimum found. *)
  Lemma pass_settles r o floor D : (forall a, In a regs -> a <> o -> adist (box a) (box o) <= D a o) ->
    forall St (cb : dcallback St) st m, honest D floor cb ->
    let '(_, m', stop) := check_dis box adist (prefix box (vadd (bmax (box o)) (splat r)) s) o St cb st m in
    m' <= m /\ (m' = m \/ exists a b, (b = o /\ a <> o /\ In a regs) /\ m' = D a b) /\
    (stop = true -> m' <= floor) /\
    (m <= r -> stop = false -> forall a b, b = o /\ a <> o /\ In a regs -> m' <= D a b).
  Proof using P HS gap.
    intros HD St cb st m Hh. set (pre := prefix box (vadd (bmax (box o)) (splat r)) s).
    assert (HD' : forall a, In a pre -> a <> o -> adist (box a) (box o) <= D a o)
      by (intros a Ha; apply HD; eapply prefix_in; eauto).
    pose proof (check_dis_covers pre o floor D HD' St cb st m Hh) as HC.
    destruct (check_dis box adist pre o St cb st m) as [[st' m'] stop]. destruct HC as (A & B & C & E).
    split; auto. split; [|split; auto].
    - destruct B as [B|(a & b & (? & ? & H) & B)]; auto. right. exists a, b. split; auto. repeat split; auto.
      eapply prefix_in; eauto.
    - intros Hr Hs a b (-> & Hn & Ha). destruct (in_dec Nat.eq_dec a pre) as [Hp|Hp]; [apply E; auto|].
      pose proof (prefix_misses r a o Ha Hp). specialize (HD a Ha Hn). lia.
  Qed.

  Definition others (o : obj) : obj -> obj -> Prop := fun a b => b = o /\ a <> o /\ In a regs.

  Lemma dist_loop_covers fuel o D floor : (forall a, In a regs -> a <> o -> adist (box a) (box o) <= D a o) ->
    forall dv (status1 : bool) St (cb : dcallback St) st m, honest D floor cb ->
    (status1 = false \/ m < M -> dv = vadd (bmax (box o)) (splat m)) ->
    match dist_loop box adist M fuel s o dv status1 St cb st m with
    | None => True
    | Some (_, m', stop) =>
      m' <= m /\ (m' = m \/ exists a b, others o a b /\ m' = D a b) /\
      (stop = true -> m' <= floor) /\ (stop = false -> forall a b, others o a b -> m' <= D a b)
    end.
  Proof using P HS gap.
    intros HD. induction fuel as [|f IH]; intros dv status1 St cb st m Hh Hdv; cbn [dist_loop]; auto.
    set (pre := prefix box dv s).
    assert (HD' : forall a, In a pre -> a <> o -> adist (box a) (box o) <= D a o)
      by (intros a Ha; apply HD; eapply prefix_in; eauto).
    pose proof (check_dis_covers pre o floor D HD' St cb st m Hh) as HC.
    assert (HR : status1 = false \/ m < M -> let '(_, m', stop) := check_dis box adist pre o St cb st m in
       stop = false -> forall a b, others o a b -> m' <= D a b).
    { intros Hc. pose proof (pass_settles m o floor D HD St cb st m Hh) as HQ. rewrite <- (Hdv Hc) in HQ. fold pre in HQ.
      destruct (check_dis box adist pre o St cb st m) as [[st' m'] stop]. intros Hs. apply HQ; auto. lia. }
    destruct (check_dis box adist pre o St cb st m) as [[st' m'] stop]. destruct HC as (A & B & C & _).
    assert (B' : m' = m \/ exists a b, others o a b /\ m' = D a b).
    { destruct B as [B|(a & b & (? & ? & H) & B)]; auto. right. exists a, b. split; auto. repeat split; auto.
      eapply prefix_in; eauto. }
    destruct stop.
    - repeat split; auto. discriminate.
    - destruct status1; [|repeat split; auto; discriminate].
      destruct (Z.ltb_spec m M) as [Lm|Lm]; [repeat split; auto; discriminate|].
      assert (Glue : forall dv' st1, (st1 = false \/ m' < M -> dv' = vadd (bmax (box o)) (splat m')) ->
        match dist_loop box adist M f s o dv' st1 St cb st' m' with
        | None => True
        | Some (_, m2, stop) =>
          m2 <= m /\ (m2 = m \/ exists a b, others o a b /\ m2 = D a b) /\
          (stop = true -> m2 <= floor) /\ (stop = false -> forall a b, others o a b -> m2 <= D a b)
        end).
      { intros dv' st1 Hd. specialize (IH dv' st1 St cb st' m' Hh Hd).
        destruct (dist_loop box adist M f s o dv' st1 St cb st' m') as [[[st2 m2] s2]|]; auto.
        destruct IH as (A2 & B2 & C2 & E2). split; [lia|]. split; [|split; auto].
        destruct B2 as [->|B2]; auto. }
      destruct (Z.ltb_spec m' m) as [L2|L2].
      + apply Glue. auto.
      + apply Glue. intros [?|?]; [discriminate|lia].
  Qed.
  Lemma s_dist_covers fuel o D floor : (forall a, In a regs -> a <> o -> adist (box a) (box o) <= D a o) ->
    ocovers (s_dist_ box adist M fuel s o) floor (others o) D.
  Proof using P HS gap.
    intros HD St cb st m Hh. unfold s_dist_. cbv zeta. apply (dist_loop_covers fuel o D floor HD); auto.
    intros [?|L]; [discriminate|]. apply Z.ltb_lt in L. rewrite L. reflexivity.
  Qed.
  Lemma dist_loop_sound fuel o : forall dv status1, odsound (dist_loop box adist M fuel s o dv status1) (others o).
  Proof using P HS.
    induction fuel as [|f IH]; intros dv status1 St cb Inv st m Hcb Hi; cbn [dist_loop]; auto.
    pose proof (check_dis_sound (prefix box dv s) o St cb Inv st m) as HQ.
    destruct (check_dis box adist (prefix box dv s) o St cb st m) as [[st' m'] stop].
    assert (Hi' : Inv st' m').
    { apply HQ; auto. intros s0 d a b (Hb & Hn & Ha). apply Hcb. repeat split; auto. eapply prefix_in; eauto. }
    destruct stop; auto. destruct status1; auto. destruct (m <? M); auto. destruct (m' <? m); apply IH; auto.
  Qed.
  Lemma s_dist_sound fuel o : odsound (s_dist_ box adist M fuel s o) (others o).
  Proof using P HS. intros St cb Inv st m Hcb Hi. unfold s_dist_. cbv zeta. apply dist_loop_sound; auto. Qed.
  Lemma dist_loop_stops fuel o : forall dv status1, odstops (dist_loop box adist M fuel s o dv status1).
  Proof.
    induction fuel as [|f IH]; intros dv status1 St cb st m log HL; cbn [dist_loop]; auto.
    pose proof (check_dis_stops (prefix box dv s) o St cb st m log HL) as HQ.
    destruct (check_dis box adist (prefix box dv s) o _ (dlogging cb) (st, log) m) as [[[st' log'] m'] stop].
    destruct stop; auto. destruct status1; auto. destruct (m <? M); auto.
    apply stopped_inv in HQ; auto. destruct (m' <? m); apply IH; auto.
  Qed.
  Lemma s_dist_stops fuel o : odstops (s_dist_ box adist M fuel s o).
  Proof. intros St cb st m log HL. unfold s_dist_. cbv zeta. apply dist_loop_stops; auto. Qed.

  (** Once the minimum is below M the next pass is the last. *)
  Lemma s_dist_finite fuel o St (cb : dcallback St) st m : m < M -> (0 < fuel)%nat ->
    s_dist_ box adist M fuel s o St cb st m <> None.
  Proof.
    intros L Hf. destruct fuel as [|f]; [lia|]. unfold s_dist_. cbv zeta. cbn [dist_loop].
    destruct (check_dis _ _ _ _ _ _ _ _) as [[st' m'] [|]]; [discriminate|].
    apply Z.ltb_lt in L. rewrite L. discriminate.
  Qed.
  Lemma dist_loop_final fuel o dv St (cb : dcallback St) st m : (0 < fuel)%nat ->
    dist_loop box adist M fuel s o dv false St cb st m <> None.
  Proof.
    intros Hf. destruct fuel as [|f]; [lia|]. cbn [dist_loop].
    destruct (check_dis _ _ _ _ _ _ _ _) as [[st' m'] [|]]; discriminate.
  Qed.

  (** Termination: the search box grows by at least half an extent per round. *)
  Definition wide (b : aabb) : Prop := forall i, (i < 3)%nat -> coord i (bmin b) + 2 <= coord i (bmax b).
  Lemma approx_refl v : is_approx v v = true.
  Proof.
    unfold is_approx. apply Z.leb_le. destruct v as [x y z]. unfold vsub, norm2; cbn [vx vy vz].
    rewrite !Z.sub_diag. cbn -[Z.mul Z.min]. pose proof (Z.min_spec (x * x + y * y + z * z) (x * x + y * y + z * z)). nia.
  Qed.
  (** The offsets of [dv] from [max_] are all at least [k]. *)
  Definition reach (dv : vec) (o : obj) (k : Z) : Prop := forall i, (i < 3)%nat -> coord i (bmax (box o)) + k <= coord i dv.
  Lemma reach_grows dv o k : wide (box o) -> (dv = bmax (box o) /\ k = 0 \/ reach dv o k /\ 1 <= k) ->
    reach (if is_approx dv (bmax (box o)) then vadd dv (half_extent (box o)) else vsub (vdouble dv) (bmax (box o))) o (k + 1).
  Proof.
    intros W [[-> ->]|[R K]] i Hi.
    - rewrite approx_refl. specialize (W i Hi). destruct (box o) as [[a b c] [a' b' c']].
      unfold half_extent. three i Hi; cbn in *;
      match goal with |- context [?x / 2] => pose proof (Z.div_le_lower_bound x 2 1 ltac:(lia)); lia end.
    - specialize (W i Hi). specialize (R i Hi). destruct (is_approx dv (bmax (box o))).
      + destruct (box o) as [[a b c] [a' b' c']], dv as [x y z].
        unfold half_extent. three i Hi; cbn in *;
        match goal with |- context [?x / 2] => pose proof (Z.div_le_lower_bound x 2 1 ltac:(lia)); lia end.
      + destruct (box o) as [[a b c] [a' b' c']], dv as [x y z]. three i Hi; cbn in *; lia.
  Qed.
  (** A prefix reaching far enough contains the object. *)
  Lemma reach_prefix dv o k a : In a regs -> reach dv o k ->
    (forall i, (i < 3)%nat -> low box i a <= coord i (bmax (box o)) + k) -> In a (prefix box dv s).
  Proof using P HS.
    intros Ha R Hk. destruct (prefix_sorted box dv s HS) as (i & Hi & ->). apply filter_In. rewrite (P i Hi). split; auto.
    apply Z.leb_le. specialize (R i Hi). specialize (Hk i Hi). lia.
  Qed.

  Lemma dist_loop_terminates o a D floor : In a regs -> a <> o -> wide (box o) ->
    (forall a, In a regs -> a <> o -> adist (box a) (box o) <= D a o) -> D a o < M ->
    exists N, forall St (cb : dcallback St), honest D floor cb -> forall fuel k dv st m,
      (fuel + Z.to_nat k >= N)%nat -> (2 <= fuel)%nat -> M <= m -> 0 <= k ->
      (dv = bmax (box o) /\ k = 0 \/ reach dv o k /\ 1 <= k) ->
      match dist_loop box adist M fuel s o dv true St cb st m with
      | None => False
      | Some (_, m', stop) => stop = true \/ m' < M
      end.
  Proof using P HS gap.
    intros Ha Hn W HD HM.
    set (K := Z.max 1 (Z.max (low box 0 a - coord 0 (bmax (box o)))
                (Z.max (low box 1 a - coord 1 (bmax (box o))) (low box 2 a - coord 2 (bmax (box o)))))).
    assert (HK : forall i, (i < 3)%nat -> low box i a <= coord i (bmax (box o)) + K).
    { intros i Hi. unfold K. three i Hi; lia. }
    assert (K1 : 1 <= K) by (unfold K; lia). clearbody K.
    exists (Z.to_nat K + 2)%nat. intros St cb Hh. induction fuel as [|f IH]; intros k dv st m HN H2 Hm Hk Hdv; [lia|].
    cbn [dist_loop]. set (pre := prefix box dv s).
    assert (HD' : forall a, In a pre -> a <> o -> adist (box a) (box o) <= D a o)
      by (intros x Hx; apply HD; eapply prefix_in; eauto).
    pose proof (check_dis_covers pre o floor D HD' St cb st m Hh) as HC.
    destruct (check_dis box adist pre o St cb st m) as [[st' m'] stop]. destruct HC as (A & B & C & E).
    destruct stop; auto. assert (m <? M = false) as -> by (apply Z.ltb_ge; lia).
    destruct (Z.ltb_spec m' m) as [L2|L2].
    - destruct (dist_loop box adist M f s o (vadd (bmax (box o)) (splat m')) false St cb st' m') as [[[st2 m2] s2]|] eqn:EL.
      + (* the value found is the distance of an object in reach, or D a o bounds it *)
        destruct s2; auto. right.
        destruct (Z.ltb_spec m2 M); auto. exfalso.
        assert (f <> 0)%nat by lia. destruct f as [|f']; [lia|]. cbn [dist_loop] in EL.
        destruct (check_dis box adist (prefix box (vadd (bmax (box o)) (splat m')) s) o St cb st' m') as [[st3 m3] s3] eqn:EC.
        destruct s3; [discriminate|]. injection EL as <- <-.
        (* a is within adist of D a o < M <= m3 <= m' *)
        pose proof (check_dis_covers (prefix box (vadd (bmax (box o)) (splat m')) s) o floor D
          ltac:(intros x Hx; apply HD; eapply prefix_in; eauto) St cb st' m' Hh) as HC2. rewrite EC in HC2.
        destruct HC2 as (A3 & _ & _ & E3).
        assert (In a (prefix box (vadd (bmax (box o)) (splat m')) s) \/ ~ In a (prefix box (vadd (bmax (box o)) (splat m')) s))
          as [Hin|Hout] by (destruct (in_dec Nat.eq_dec a (prefix box (vadd (bmax (box o)) (splat m')) s)); auto).
        * specialize (E3 eq_refl a o (conj eq_refl (conj Hn Hin))). lia.
        * pose proof (prefix_misses m' a o Ha Hout). specialize (HD a Ha Hn). lia.
      + exfalso. revert EL. apply dist_loop_final. lia.
    - assert (Hf : (2 <= f)%nat).
      { destruct (Z.leb_spec K k) as [Lk|Lk]; [|lia]. exfalso.
        destruct Hdv as [[_ ->]|[R _]]; [lia|].
        assert (In a pre) as Hin by (eapply reach_prefix; eauto; intros i Hi; specialize (HK i Hi); lia).
        specialize (E eq_refl a o (conj eq_refl (conj Hn Hin))). lia. }
      apply (IH (k + 1)); auto; try lia. right. split; [apply reach_grows; auto|lia].
  Qed.
End DistanceProofs.
