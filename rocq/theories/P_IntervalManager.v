(** C19, C20, and C05, C06 for IntervalTreeCollisionManager. *)
From Coq Require Import ZArith List Bool Lia Permutation Arith Sorted.
From Verif Require Import AabbZ Broadphase QueryComb SortSearch IntervalTree P_IntervalTree SSaP IntervalManager.
Import ListNotations.
Local Open Scope Z_scope.

Lemma im_reach MX srt ops box0 m box : esorts srt -> m_legal_history MX ops box0 ->
  m_run MX srt ops (im_empty, box0) = Some (m, box) -> minv MX m box (m_spec ops).
Proof.
  intros HS [HF HL] HR. exact (m_run_inv MX srt HS ops _ _ _ _ _ (m_start_inv MX box0 HF) HL HR).
Qed.

(** C06: size, empty and getObjects describe the registered objects.  In a legal history an
    object is removed only while its endpoints are current and no registered box reaches beyond
    it in the positive direction of any axis. *)
Theorem im_faithful_container : forall MX srt ops box0 m box, esorts srt -> m_legal_history MX ops box0 ->
  m_run MX srt ops (im_empty, box0) = Some (m, box) ->
  let regs := ms_regs (m_spec ops) in
  Permutation (im_get m) regs /\ NoDup (im_get m) /\ im_size m = length regs /\ (im_is_empty m = true <-> regs = []).
Proof.
  intros MX srt ops box0 m box HS HL HR regs. pose proof (im_reach _ _ _ _ _ _ HS HL HR) as I.
  pose proof (size_spec MX m box _ I) as [SZ SL]. destruct I as (ND & _ & P & _). specialize (P 0%nat ltac:(lia)).
  assert (PG : Permutation (im_get m) regs) by (apply mins_perm; auto).
  split; auto. split; [eapply Permutation_NoDup; [apply Permutation_sym, PG|auto]|]. split; auto.
  unfold im_is_empty. fold regs in SL. destruct (iep m 0%nat) as [|e l].
  - split; auto. intros _. apply length_zero_iff_nil. cbn in SL. lia.
  - split; [discriminate|]. intros E. rewrite E in SL. discriminate.
Qed.
Print Assumptions im_faithful_container.

(** Histories without removal and without update(obj) never have undefined behaviour. *)
Definition plain_op (op : mop) : Prop := match op with MUnreg _ | MUpdateObj _ => False | _ => True end.
Theorem im_no_removal_total : forall MX srt ops box0, esorts srt -> m_legal_history MX ops box0 ->
  Forall plain_op ops -> exists m box, m_run MX srt ops (im_empty, box0) = Some (m, box).
Proof.
  intros MX srt ops box0 HS [HF HL] HP.
  assert (G : forall ops m box x, Forall plain_op ops -> minv MX m box x -> m_legal_from MX x box ops ->
    exists m' box', m_run MX srt ops (m, box) = Some (m', box')).
  { clear - HS. induction ops as [|op ops IH]; intros m box x HP I HL; cbn [m_run]; eauto.
    apply Forall_cons_iff in HP as [Hp HP]. destruct HL as [H1 H2].
    destruct op; cbn [m_step option_map] in *; try contradiction.
    - eapply IH; eauto. apply move_inv; auto.
    - eapply IH; eauto. apply register_inv; auto.
    - destruct (setup_inv MX srt HS m box x I) as (m2 & -> & I2 & _). eapply IH; eauto.
    - destruct (update_inv MX srt HS m box x I) as (m2 & -> & I2). eapply IH; eauto.
    - eapply IH; eauto. eapply clear_inv; eauto. }
  apply (G ops im_empty box0 ms_start); auto. apply m_start_inv; auto.
Qed.
Print Assumptions im_no_removal_total.

(** C20: once setup() or update() ran after the last registration, and every registered object
    that moved since was passed to update(obj), collide(obj) calls back exactly the other
    registered objects whose box overlaps, each once. *)
Theorem im_obj_exact : forall MX srt ops box0 m box o, esorts srt -> m_legal_history MX ops box0 ->
  m_run MX srt ops (im_empty, box0) = Some (m, box) -> current (m_spec ops) ->
  exists Q, im_collide_obj MX box m o = Some Q /\ replays Q /\
  ordered_once (calls Q) (fun a b => b = o /\ a <> o /\ In a (ms_regs (m_spec ops)) /\ overlap (box a) (box o) = true).
Proof.
  intros MX srt ops box0 m box o HS HL HR HC. pose proof (im_reach _ _ _ _ _ _ HS HL HR) as I.
  pose proof (size_spec MX m box _ I) as [SZ SL]. unfold im_collide_obj. rewrite SZ.
  destruct (Nat.eqb_spec (length (ms_regs (m_spec ops))) 0) as [E|E].
  - apply length_zero_iff_nil in E. exists cskip. split; auto. destruct (plays_calls _ _ plays_skip) as [-> R]. split; auto.
    rewrite E. split; [constructor|]. intros a b; cbn; tauto.
  - destruct (collide_spec MX m box _ o I HC) as (q & l & -> & HP & HO). exists q. split; auto.
    destruct (plays_calls _ _ HP) as [-> R]. auto.
Qed.
Print Assumptions im_obj_exact.

(** C20: collide() calls back each pair of registered objects with overlapping boxes exactly once,
    provided the endpoints are current (no registered object moved or was passed to update(obj)
    since the last update()) and no box begins where a box ends. *)
Theorem im_self_exact : forall MX srt ops box0 m box, esorts srt -> m_legal_history MX ops box0 ->
  m_run MX srt ops (im_empty, box0) = Some (m, box) ->
  let x := m_spec ops in let regs := ms_regs x in
  ms_set x = true -> (forall a, In a regs -> ~ In a (ms_es x)) ->
  (forall a b i, In a regs -> In b regs -> (i < 3)%nat -> low box i a <> high box i b) ->
  let Q := im_collide_self box m in
  replays Q /\
  pairs_once (calls Q) (fun a b => In a regs /\ In b regs /\ a <> b /\ overlap (box a) (box b) = true).
Proof.
  intros MX srt ops box0 m box HS HL HR x regs Hset Hes Hgen Q. pose proof (im_reach _ _ _ _ _ _ HS HL HR) as I.
  destruct (self_spec MX m box x I Hset Hes Hgen) as (l & HP & HO). destruct (plays_calls _ _ HP) as [E R].
  unfold Q. rewrite E. auto.
Qed.
Print Assumptions im_self_exact.

(** Two managers over the same objects: each overlapping cross pair, the object of the larger
    manager first, is called back exactly twice when the callback never stops. *)
Theorem im_other_twice : forall MX srt ops box0 m box ops2 box02 m2, esorts srt ->
  m_legal_history MX ops box0 -> m_run MX srt ops (im_empty, box0) = Some (m, box) -> current (m_spec ops) ->
  m_legal_history MX ops2 box02 -> m_run MX srt ops2 (im_empty, box02) = Some (m2, box) -> current (m_spec ops2) ->
  let mine := ms_regs (m_spec ops) in let theirs := ms_regs (m_spec ops2) in
  exists Q P, im_collide_other MX box m m2 = Some Q /\ replays Q /\ Permutation (calls Q) (P ++ P) /\
  ordered_once P (fun a b =>
    (if Nat.ltb (length mine) (length theirs) then In a theirs /\ In b mine else In a mine /\ In b theirs) /\
    a <> b /\ overlap (box a) (box b) = true).
Proof.
  assert (Gen : forall (R : obj -> obj -> Prop) (Qf : obj -> option query) l regs,
    Permutation (map tag l) (tags regs) -> NoDup regs ->
    (forall o, exists q ps, Qf o = Some q /\ plays q ps /\ ordered_once ps (fun a b => b = o /\ R a o)) ->
    exists Q ps P, oceach Qf (map e_obj l) = Some Q /\ plays Q ps /\ Permutation ps (P ++ P) /\
      ordered_once P (fun a b => In b regs /\ R a b)).
  { intros R Qf l regs HP ND H.
    assert (PO : Permutation (map e_obj l) (regs ++ regs)).
    { assert (E : map e_obj l = map fst (map tag l)) by (rewrite map_map; reflexivity). rewrite E, (Permutation_map fst HP). clear.
      unfold tags. induction regs as [|a r IH]; cbn; auto. rewrite IH. apply perm_skip, Permutation_middle. }
    set (cl := fun o => match Qf o with Some q => calls q | None => [] end).
    assert (Hcl : forall o, exists q, Qf o = Some q /\ plays q (cl o) /\ ordered_once (cl o) (fun a b => b = o /\ R a o)).
    { intros o. destruct (H o) as (q & ps & E & HPl & HO). exists q. split; auto. unfold cl. rewrite E.
      destruct (plays_calls _ _ HPl) as [-> _]. auto. }
    assert (GQ : forall os, exists Q, oceach Qf os = Some Q /\ plays Q (flat_map cl os)).
    { induction os as [|o os IH]; cbn [oceach flat_map]; [exists cskip; split; auto using plays_skip|].
      destruct IH as (Q & E & HQ). destruct (Hcl o) as (q & Eq & Hq & _). rewrite Eq, E. eexists. split; [reflexivity|].
      apply plays_seq; auto. }
    destruct (GQ (map e_obj l)) as (Q & E & HQ). exists Q, (flat_map cl (map e_obj l)), (flat_map cl regs).
    split; auto. split; auto. split.
    - rewrite <- flat_map_app. apply Permutation_flat_map; auto.
    - assert (HIn : forall os a b, In (a, b) (flat_map cl os) <-> In b os /\ R a b).
      { intros os a b. rewrite in_flat_map. split.
        - intros (o & Ho & Hin). destruct (Hcl o) as (q & _ & _ & _ & HO). apply HO in Hin as [-> HR]. auto.
        - intros [Ho HR]. exists b. split; auto. destruct (Hcl b) as (q & _ & _ & _ & HO). apply HO. auto. }
      split; auto. clear - ND Hcl HIn. induction ND as [|o r Hn ND IH]; cbn; [constructor|].
      apply NoDup_app_intro; auto.
      + destruct (Hcl o) as (q & _ & _ & N & _). auto.
      + intros [a b] H1 H2. destruct (Hcl o) as (q & _ & _ & _ & HO). apply HO in H1 as [-> _]. apply HIn in H2 as [H2 _]. auto. }
  intros MX srt ops box0 m box ops2 box02 m2 HS HL HR HC HL2 HR2 HC2 mine theirs.
  pose proof (im_reach _ _ _ _ _ _ HS HL HR) as I1. pose proof (im_reach _ _ _ _ _ _ HS HL2 HR2) as I2.
  pose proof (size_spec MX m box _ I1) as [SZ1 _]. pose proof (size_spec MX m2 box _ I2) as [SZ2 _].
  unfold im_collide_other. rewrite SZ1, SZ2. fold mine theirs.
  assert (Z0 : mine = [] \/ theirs = [] -> exists Q P, Some cskip = Some Q /\ replays Q /\ Permutation (calls Q) (P ++ P) /\
    ordered_once P (fun a b =>
      (if Nat.ltb (length mine) (length theirs) then In a theirs /\ In b mine else In a mine /\ In b theirs) /\
      a <> b /\ overlap (box a) (box b) = true)).
  { intros HZ. exists cskip, []. destruct (plays_calls _ _ plays_skip) as [-> R]. split; [auto|]. split; [auto|]. split; [constructor|].
    split; [constructor|]. intros a b. split; [intros []|]. intros [H _]. exfalso.
    destruct HZ as [HZ|HZ]; rewrite HZ in H; cbn [In] in H; match type of H with (if ?c then _ else _) => destruct c end; tauto. }
  destruct (Nat.eqb_spec (length mine) 0) as [E|E]; [|destruct (Nat.eqb_spec (length theirs) 0) as [E2|E2]]; cbn [orb].
  { apply Z0. left. apply length_zero_iff_nil; auto. }
  { apply Z0. right. apply length_zero_iff_nil; auto. }
  clear Z0. pose proof I1 as (ND1 & _ & T1 & _). pose proof I2 as (ND2 & _ & T2 & _).
  assert (P1 : Permutation (map tag (iep m 0%nat)) (tags mine)) by (apply T1; lia).
  assert (P2 : Permutation (map tag (iep m2 0%nat)) (tags theirs)) by (apply T2; lia).
  destruct (Nat.ltb (length mine) (length theirs)).
  - destruct (Gen (fun a b => a <> b /\ In a theirs /\ overlap (box a) (box b) = true) (im_collide_ MX box m2) (iep m 0%nat) mine P1 ND1)
      as (Q & ps & P & EQ & HQ & HP & HO).
    { intros o. destruct (collide_spec MX m2 box _ o I2 HC2) as (q & l & Eq & Hq & HOq). eauto. }
    exists Q, P. destruct (plays_calls _ _ HQ) as [-> R]. split; auto. split; auto. split; auto.
    destruct HO as [HO1 HO2]. split; auto. intros a b. rewrite HO2. tauto.
  - destruct (Gen (fun a b => a <> b /\ In a mine /\ overlap (box a) (box b) = true) (im_collide_ MX box m) (iep m2 0%nat) theirs P2 ND2)
      as (Q & ps & P & EQ & HQ & HP & HO).
    { intros o. destruct (collide_spec MX m box _ o I1 HC) as (q & l & Eq & Hq & HOq). eauto. }
    exists Q, P. destruct (plays_calls _ _ HQ) as [-> R]. split; auto. split; auto. split; auto.
    destruct HO as [HO1 HO2]. split; auto. intros a b. rewrite HO2. tauto.
Qed.
Print Assumptions im_other_twice.

(** ** Sorters for the witnesses *)
(** Insertion sort.  With [strict = false] it is stable, as is std::sort of libstdc++ on up to 16
    entries; with [strict = true] it puts later entries of equal value first, another order
    std::sort may produce. *)
Fixpoint eins (strict : bool) (a : ep) (l : list ep) : list ep :=
  match l with
  | [] => [a]
  | b :: r => if (if strict then e_val a <? e_val b else e_val a <=? e_val b) then a :: b :: r else b :: eins strict a r
  end.
Definition eisort (strict : bool) : esorter := fold_right (eins strict) [].
Lemma eisort_sorts strict : esorts (eisort strict).
Proof.
  assert (PI : forall a l, Permutation (eins strict a l) (a :: l)).
  { intros a l. induction l as [|b l IH]; cbn; auto. destruct (if strict then _ else _); auto. rewrite IH. apply perm_swap. }
  intros l. unfold eisort. induction l as [|a l [IP IS]]; cbn; [split; constructor|]. split.
  - rewrite PI, IP. auto.
  - clear IP. revert IS. generalize (fold_right (eins strict) [] l). clear l. intros l.
    induction l as [|b l IH]; cbn; intros IS; [repeat constructor|]. inversion IS as [|? ? HS HF]; subst.
    rewrite Forall_forall in HF. unfold by_key in HF.
    destruct (if strict then e_val a <? e_val b else e_val a <=? e_val b) eqn:E.
    + assert (e_val a <= e_val b) by (destruct strict; [apply Z.ltb_lt in E|apply Z.leb_le in E]; lia).
      constructor; auto. constructor; auto. apply Forall_forall. intros x Hx. specialize (HF x Hx). unfold by_key. lia.
    + assert (e_val b <= e_val a) by (destruct strict; [apply Z.ltb_ge in E|apply Z.leb_gt in E]; lia).
      constructor; auto. apply Forall_forall. intros x Hx. apply (Permutation_in _ (PI a l)) in Hx as [<-|Hx]; unfold by_key; auto.
Qed.

(** ** The violations *)
Definition cube (x : Z) : aabb := Box (V x x x) (V (x + 2) (x + 2) (x + 2)).
(** [x0, x1] on the x axis, wide on the others. *)
Definition slab (x0 x1 w : Z) : aabb := Box (V x0 (- w) (- w)) (V x1 w w).

Lemma small_finite b : nonempty b -> (forall i, (i < 3)%nat -> -1000 < coord i (bmin b)) -> finite_box dbl_max b.
Proof.
  intros N H. split; auto. intros i Hi. specialize (H i Hi).
  assert (- dbl_max < -1000) by (vm_compute; reflexivity). eapply Z.lt_trans; eauto.
Qed.

(** C19: three cubes at 0, 10 and 20; the first is unregistered, although every endpoint is
    current.  getObjects still lists it and no longer lists the last one; after the next
    registration and setup() the removed object is called back and the last one never is. *)
Definition rowm (o : obj) : aabb := match o with 5%nat => cube 20 | 6%nat => cube 0 | _ => cube (10 * Z.of_nat o) end.
Definition drop_ops : list mop := [MReg 0; MReg 1; MReg 2; MSetup]%nat.
Theorem im_unregister_refuted :
  m_legal_history dbl_max drop_ops rowm /\
  (forall a b i, In a [0; 1; 2]%nat -> In b [0; 1; 2]%nat -> (i < 3)%nat -> low rowm i a <> high rowm i b) /\
  match m_run dbl_max (eisort false) (drop_ops ++ [MUnreg 0%nat]) (im_empty, rowm) with
  | None => False
  | Some (m, _) => im_get m = [0; 1]%nat /\ im_size m = 2%nat
  end /\
  match m_run dbl_max (eisort false) (drop_ops ++ [MUnreg 0%nat; MReg 3%nat; MSetup]) (im_empty, rowm) with
  | None => False
  | Some (m, _) =>
      option_map (@calls) (im_collide_obj dbl_max rowm m 5%nat) = Some [] /\ overlap (rowm 2%nat) (rowm 5%nat) = true /\
      option_map (@calls) (im_collide_obj dbl_max rowm m 6%nat) = Some [(0, 6)]%nat
  end.
Proof.
  split; [|split].
  - split.
    + intros o. assert (0 <= Z.of_nat o) by lia. unfold rowm, cube.
      destruct o as [|[|[|[|[|[|[|o]]]]]]]; (apply small_finite; [apply nonempty_ineq; cbn [bmin bmax vx vy vz]; lia|]);
        intros [|[|[|i]]] Hi; try lia; cbn [bmin coord vx vy vz]; lia.
    + cbn. intuition lia.
  - intros a b i Ha Hb Hi. cbn in Ha, Hb.
    destruct Ha as [<-|[<-|[<-|[]]]], Hb as [<-|[<-|[<-|[]]]], i as [|[|[|i]]]; try lia; cbv; discriminate.
  - split; vm_compute; repeat split; reflexivity.
Qed.
Print Assumptions im_unregister_refuted.

(** C19: object 0 moves from [0, 5] to [3, 8] and is passed to update(obj).  Its max endpoint keeps
    the old value 5, so collide() misses object 1 at [6, 7]; collide(obj) does find it. *)
Definition grow (o : obj) : aabb := match o with 0%nat => slab 0 5 100 | _ => slab 6 7 90 end.
Definition grow_ops : list mop := [MReg 0; MReg 1; MSetup; MMove 0 (slab 3 8 100); MUpdateObj 0]%nat.
Theorem im_update_obj_misses_refuted :
  m_legal_history dbl_max grow_ops grow /\ current (m_spec grow_ops) /\
  let moved := set_box grow 0%nat (slab 3 8 100) in
  (forall a b i, In a [0; 1]%nat -> In b [0; 1]%nat -> (i < 3)%nat -> low moved i a <> high moved i b) /\
  match m_run dbl_max (eisort false) grow_ops (im_empty, grow) with
  | None => False
  | Some (m, box) =>
      overlap (box 0%nat) (box 1%nat) = true /\
      calls (im_collide_self box m) = [] /\
      option_map (@calls) (im_collide_obj dbl_max box m 0%nat) = Some [(1, 0)]%nat
  end.
Proof.
  split; [|split].
  - split.
    + intros [|o]; (apply small_finite; [apply nonempty_ineq; cbn; lia|]); intros [|[|[|i]]] Hi; try lia; cbn; lia.
    + unfold grow_ops. cbn [m_legal_from m_legal mspec_step ms_start ms_regs ms_set ms_setup app].
      split; [cbn; tauto|]. split; [cbn; lia|]. split; [auto|]. split; [|split; [cbn; auto|auto]].
      apply small_finite; [apply nonempty_ineq; cbn; lia|]. intros [|[|[|i]]] Hi; try lia; cbn; lia.
  - split; [reflexivity|]. cbn. tauto.
  - split; [|vm_compute; repeat split; reflexivity]. intros a b i Ha Hb Hi. cbn in Ha, Hb.
    destruct Ha as [<-|[<-|[]]], Hb as [<-|[<-|[]]], i as [|[|[|i]]]; try lia; cbv; discriminate.
Qed.
Print Assumptions im_update_obj_misses_refuted.

(** C19: object 0 moves from [10, 11] to [0, 1]; after update(obj), collide() reports the pair with
    object 1 at [5, 6], which it does not touch. *)
Definition shift (o : obj) : aabb := match o with 0%nat => slab 10 11 100 | _ => slab 5 6 90 end.
Definition shift_ops : list mop := [MReg 0; MReg 1; MSetup; MMove 0 (slab 0 1 100); MUpdateObj 0]%nat.
Theorem im_update_obj_extra_refuted :
  m_legal_history dbl_max shift_ops shift /\
  exists m box, m_run dbl_max (eisort false) shift_ops (im_empty, shift) = Some (m, box) /\
    overlap (box 0%nat) (box 1%nat) = false /\ calls (im_collide_self box m) = [(0, 1)]%nat.
Proof.
  split.
  - split.
    + intros [|o]; (apply small_finite; [apply nonempty_ineq; cbn; lia|]); intros [|[|[|i]]] Hi; try lia; cbn; lia.
    + unfold shift_ops. cbn [m_legal_from m_legal mspec_step ms_start ms_regs ms_set ms_setup app].
      split; [cbn; tauto|]. split; [cbn; lia|]. split; [auto|]. split; [|split; [cbn; auto|auto]].
      apply small_finite; [apply nonempty_ineq; cbn; lia|]. intros [|[|[|i]]] Hi; try lia; cbn; lia.
  - eexists _, _. split; [vm_compute; reflexivity|]. split; vm_compute; reflexivity.
Qed.
Print Assumptions im_update_obj_extra_refuted.

(** C20: two boxes that touch on the sweep axis, [0, 5] and [5, 9]: the pair is never reported. *)
Definition touch (o : obj) : aabb := match o with 0%nat => slab 0 5 100 | _ => slab 5 9 90 end.
Theorem im_self_touching_refuted :
  m_legal_history dbl_max [MReg 0; MReg 1; MSetup]%nat touch /\
  exists m, m_run dbl_max (eisort false) [MReg 0; MReg 1; MSetup]%nat (im_empty, touch) = Some (m, touch) /\
    overlap (touch 0%nat) (touch 1%nat) = true /\ calls (im_collide_self touch m) = [].
Proof.
  split.
  - split.
    + intros [|o]; (apply small_finite; [apply nonempty_ineq; cbn; lia|]); intros [|[|[|i]]] Hi; try lia; cbn; lia.
    + cbn. intuition lia.
  - eexists. split; [vm_compute; reflexivity|]. split; vm_compute; reflexivity.
Qed.
Print Assumptions im_self_touching_refuted.

(** C20: a box that is flat on the sweep axis, with its max endpoint sorted first, stays active:
    the pair with a box elsewhere on that axis is reported. *)
Definition flat (o : obj) : aabb := match o with 0%nat => slab 0 0 100 | _ => slab 5 9 90 end.
Theorem im_self_flat_refuted :
  m_legal_history dbl_max [MReg 0; MReg 1; MSetup]%nat flat /\
  exists m, m_run dbl_max (eisort true) [MReg 0; MReg 1; MSetup]%nat (im_empty, flat) = Some (m, flat) /\
    overlap (flat 0%nat) (flat 1%nat) = false /\ calls (im_collide_self flat m) = [(0, 1)]%nat.
Proof.
  split.
  - split.
    + intros [|o]; (apply small_finite; [apply nonempty_ineq; cbn; lia|]); intros [|[|[|i]]] Hi; try lia; cbn; lia.
    + cbn. intuition lia.
  - eexists. split; [vm_compute; reflexivity|]. split; vm_compute; reflexivity.
Qed.
Print Assumptions im_self_flat_refuted.

(** Queries and update(obj) before the first setup() dereference null. *)
Theorem im_before_setup_refuted : forall MX srt box o a,
  let m := im_register box o im_empty in
  im_collide_obj MX box m a = None /\ im_update_obj MX srt box o m = None.
Proof. intros. split; reflexivity. Qed.
Print Assumptions im_before_setup_refuted.

(** A history with a permitted removal, an update(obj) and a final update(): the queries are exact. *)
Definition good_ops : list mop :=
  [MReg 0; MReg 1; MReg 2; MSetup; MUnreg 2; MMove 0 (cube 9); MUpdateObj 0; MUpdate]%nat.
Example im_case_legal : m_legal_history dbl_max good_ops rowm /\ current (m_spec good_ops) /\
  ms_regs (m_spec good_ops) = [0; 1]%nat /\ ms_es (m_spec good_ops) = [].
Proof.
  split.
  - split.
    + intros o. assert (0 <= Z.of_nat o) by lia. unfold rowm, cube.
      destruct o as [|[|[|[|[|[|[|o]]]]]]]; (apply small_finite; [apply nonempty_ineq; cbn [bmin bmax vx vy vz]; lia|]);
        intros [|[|[|i]]] Hi; try lia; cbn [bmin coord vx vy vz]; lia.
    + unfold good_ops. cbn [m_legal_from m_legal mspec_step ms_start ms_regs ms_set ms_es ms_setup app].
      split; [cbn; tauto|]. split; [cbn; lia|]. split; [cbn; lia|]. split; [auto|]. split.
      * intros _. split; [cbn; tauto|]. intros a i Ha Hi. cbn in Ha.
        destruct Ha as [<-|[<-|[<-|[]]]], i as [|[|[|i]]]; try lia; cbv; discriminate.
      * split; [|split; [cbn; auto|auto]].
        apply small_finite; [apply nonempty_ineq; cbn; lia|]. intros [|[|[|i]]] Hi; try lia; cbn; lia.
  - split; [split; [reflexivity|cbn; tauto]|split; reflexivity].
Qed.
Example im_case_runs :
  match m_run dbl_max (eisort false) good_ops (im_empty, rowm) with
  | Some (m, box) => calls (im_collide_self box m) = [(0, 1)]%nat /\
      option_map (@calls) (im_collide_obj dbl_max box m 1%nat) = Some [(0, 1)]%nat
  | None => False
  end.
Proof. vm_compute. split; reflexivity. Qed.
