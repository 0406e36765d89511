(** C07-C10, and C05, C06 for SSaPCollisionManager. *)
From Coq Require Import ZArith List Bool Lia Permutation Arith Sorted.
From Verif Require Import AabbZ Broadphase QueryComb QueryOpt SortSearch SSaP.
Import ListNotations.
Local Open Scope Z_scope.

Section Reach.
  Variables (srt : sorter) (ops : list sop) (box0 : obj -> aabb) (s : ssap) (box : obj -> aabb).
  Hypothesis HSo : sorts srt.
  Hypothesis HL : legal_history ops box0.
  Hypothesis HR : s_run srt ops box0 = (s, box).
  Lemma reach_inv : sinv s box (s_spec ops).
  Proof using HSo HL HR. exact (s_run_inv srt ops box0 s box HSo HL HR). Qed.
  Lemma reach_perm i : (i < 3)%nat -> Permutation (slist i s) (s_registered ops).
  Proof using HSo HL HR. destruct reach_inv as (_ & _ & P & _). apply P. Qed.
  Lemma reach_nodup : NoDup (s_registered ops).
  Proof using HSo HL HR. apply reach_inv. Qed.
  Lemma reach_ne o : nonempty (box o).
  Proof using HSo HL HR. apply reach_inv. Qed.
  Lemma reach_sorted : s_status ops = Sorted -> sorted_by box s.
  Proof using HSo HL HR. destruct reach_inv as (_ & _ & _ & B). unfold s_status. intros E. rewrite E in B. apply B. Qed.
  Lemma reach_size : s_size s = length (s_registered ops).
  Proof using HSo HL HR. apply Permutation_length, (reach_perm 0). lia. Qed.
  Lemma reach_empty : s_size s = 0%nat -> s_registered ops = [].
  Proof using HSo HL HR. rewrite reach_size. apply length_zero_iff_nil. Qed.
End Reach.

(** C06: size, empty and getObjects describe the registered objects. *)
Theorem ssap_faithful_container : forall srt ops box0 s box, sorts srt -> legal_history ops box0 ->
  s_run srt ops box0 = (s, box) ->
  Permutation (s_get s) (s_registered ops) /\ NoDup (s_get s) /\
  s_size s = length (s_registered ops) /\ (s_empty s = true <-> s_registered ops = []).
Proof.
  intros srt ops box0 s box HS HL HR. pose proof (reach_perm srt ops box0 s box HS HL HR 0 ltac:(lia)) as P. cbn in P.
  split; auto. split.
  - eapply Permutation_NoDup; [symmetry; exact P|]. eapply reach_nodup; eauto.
  - split; [apply Permutation_length; auto|]. unfold s_empty. destruct (sx s) as [|a l].
    + split; auto. intros _. apply Permutation_nil; auto.
    + split; [discriminate|]. intros E. rewrite E in P. apply Permutation_sym, Permutation_nil in P. discriminate.
Qed.
Print Assumptions ssap_faithful_container.

(** C07: collide(obj) calls back exactly the other registered objects whose box overlaps. *)
Theorem ssap_obj_exact : forall srt ops box0 s box o, sorts srt -> legal_history ops box0 ->
  s_run srt ops box0 = (s, box) -> s_status ops = Sorted ->
  let Q := s_collide_obj box s o in
  replays Q /\
  ordered_once (calls Q) (fun a b => b = o /\ a <> o /\ In a (s_registered ops) /\ overlap (box a) (box o) = true).
Proof.
  intros srt ops box0 s box o HS HL HR HSt Q. unfold Q, s_collide_obj.
  destruct (Nat.eqb_spec (s_size s) 0) as [E|E].
  - apply (reach_empty srt ops box0 s box HS HL HR) in E. destruct (plays_calls _ _ plays_skip) as [-> R]. split; auto.
    rewrite E. split; [constructor|]. intros a b; cbn; tauto.
  - pose proof (s_collide_plays box s (s_registered ops)
      (reach_nodup srt ops box0 s box HS HL HR) (reach_ne srt ops box0 s box HS HL HR)
      (reach_perm srt ops box0 s box HS HL HR) (reach_sorted srt ops box0 s box HS HL HR HSt) o) as [HP HO].
    destruct (plays_calls _ _ HP) as [-> R]. auto.
Qed.
Print Assumptions ssap_obj_exact.

(** C08: collide() calls back each pair of registered objects with overlapping boxes once. *)
Theorem ssap_self_exact : forall srt ops box0 s box, sorts srt -> legal_history ops box0 ->
  s_run srt ops box0 = (s, box) -> s_status ops = Sorted ->
  let Q := s_collide_self box s in
  replays Q /\
  pairs_once (calls Q) (fun a b => In a (s_registered ops) /\ In b (s_registered ops) /\ a <> b /\
                                   overlap (box a) (box b) = true).
Proof.
  intros srt ops box0 s box HS HL HR HSt Q. unfold Q.
  destruct (s_collide_self_spec box s (s_registered ops)
      (reach_nodup srt ops box0 s box HS HL HR) (reach_ne srt ops box0 s box HS HL HR)
      (reach_perm srt ops box0 s box HS HL HR) (reach_sorted srt ops box0 s box HS HL HR HSt)) as (l & HP & HO).
  destruct (plays_calls _ _ HP) as [-> R]. auto.
Qed.
Print Assumptions ssap_self_exact.

(** Two managers over the same objects: each overlapping cross pair once, the object of the
    larger manager first. *)
Theorem ssap_other_exact : forall srt ops box0 s box ops2 box02 s2, sorts srt ->
  legal_history ops box0 -> s_run srt ops box0 = (s, box) -> s_status ops = Sorted ->
  legal_history ops2 box02 -> s_run srt ops2 box02 = (s2, box) -> s_status ops2 = Sorted ->
  let Q := s_collide_other box s s2 in
  let mine := s_registered ops in let theirs := s_registered ops2 in
  replays Q /\
  ordered_once (calls Q) (fun a b =>
    (if Nat.ltb (length mine) (length theirs) then In a theirs /\ In b mine else In a mine /\ In b theirs) /\
    a <> b /\ overlap (box a) (box b) = true).
Proof.
  intros srt ops box0 s box ops2 box02 s2 HS HL HR HSt HL2 HR2 HSt2 Q mine theirs. unfold Q, s_collide_other.
  rewrite (reach_size srt ops box0 s box HS HL HR), (reach_size srt ops2 box02 s2 box HS HL2 HR2).
  fold mine theirs.
  destruct (Nat.eqb_spec (length mine) 0) as [E|E]; [|destruct (Nat.eqb_spec (length theirs) 0) as [E2|E2]]; cbn [orb].
  - apply length_zero_iff_nil in E. rewrite E. destruct (plays_calls _ _ plays_skip) as [-> R]. split; auto.
    split; [constructor|]. intros a b. destruct (Nat.ltb (length _) (length _)); cbn; tauto.
  - apply length_zero_iff_nil in E2. rewrite E2. destruct (plays_calls _ _ plays_skip) as [-> R]. split; auto.
    split; [constructor|]. intros a b. destruct (Nat.ltb (length _) (length _)); cbn; tauto.
  - assert (P1 := reach_perm srt ops box0 s box HS HL HR). assert (P2 := reach_perm srt ops2 box02 s2 box HS HL2 HR2).
    assert (N1 := reach_nodup srt ops box0 s box HS HL HR). assert (N2 := reach_nodup srt ops2 box02 s2 box HS HL2 HR2).
    assert (S1 := reach_sorted srt ops box0 s box HS HL HR HSt). assert (S2 := reach_sorted srt ops2 box02 s2 box HS HL2 HR2 HSt2).
    assert (NE := reach_ne srt ops box0 s box HS HL HR).
    assert (P1x := P1 0%nat ltac:(lia)). assert (P2x := P2 0%nat ltac:(lia)). cbn in P1x, P2x.
    destruct (Nat.ltb (length mine) (length theirs)).
    + destruct (ceach_ordered box s2 theirs (sx s) N2 NE P2 S2) as (l & HP & [HO1 HO2]);
        [eapply Permutation_NoDup; [symmetry; exact P1x|auto]|].
      destruct (plays_calls _ _ HP) as [-> R]. split; auto. split; auto. intros a b. rewrite HO2, P1x. tauto.
    + destruct (ceach_ordered box s mine (sx s2) N1 NE P1 S1) as (l & HP & [HO1 HO2]);
        [eapply Permutation_NoDup; [symmetry; exact P2x|auto]|].
      destruct (plays_calls _ _ HP) as [-> R]. split; auto. split; auto. intros a b. rewrite HO2, P2x. tauto.
Qed.
Print Assumptions ssap_other_exact.

(** C09: while no registered object moved since the last update, unregisterObject removes the
    object, and nothing else, from all three vectors. *)
Theorem ssap_unregister_exact : forall srt ops box0 s box o, sorts srt -> legal_history ops box0 ->
  s_run srt ops box0 = (s, box) -> s_status ops <> Stale ->
  let s' := s_unregister srt box o s in
  forall i, (i < 3)%nat -> NoDup (slist i s') /\ forall a, In a (slist i s') <-> In a (slist i s) /\ a <> o.
Proof.
  intros srt ops box0 s box o HS HL HR HSt s' i Hi.
  pose proof (reach_inv srt ops box0 s box HS HL HR) as HI.
  pose proof (s_unregister_inv srt s box (s_spec ops) o HS HI (or_introl HSt)) as HI'.
  destruct HI as (_ & _ & P & _). destruct HI' as (ND & _ & P' & _). cbn [fst] in *.
  specialize (P i Hi). specialize (P' i Hi). split.
  - eapply Permutation_NoDup; [symmetry; exact P'|auto].
  - intros a. unfold s'. rewrite P', P. apply take_out_In.
Qed.
Print Assumptions ssap_unregister_exact.

(** Three unit cubes at 0, 10 and 20 on every axis. *)
Definition at_pos (x : Z) : aabb := Box (V x x x) (V (x + 2) (x + 2) (x + 2)).
Definition row (o : obj) : aabb := at_pos (10 * Z.of_nat o).
(** Object 2 moves from (20,20,20) to (-10,20,20) and no update() follows. *)
Definition stale_ops : list sop :=
  [SRegs [0; 1; 2]%nat; SSetup; SMove 2%nat (Box (V (-10) 20 20) (V (-8) 22 22))].
(** C09, the violation: after the move, unregisterObject(2) drops 2 from two of the three
    vectors only; the manager still reports 2 and a later collide(obj) calls it back. *)
Theorem ssap_unregister_stale_refuted : forall srt, sorts srt ->
  legal_history stale_ops row /\
  let '(s, box) := s_run srt (stale_ops ++ [SUnreg 2%nat]) row in
  In 2%nat (s_get s) /\ ~ In 2%nat (slist 1 s) /\ ~ In 2%nat (slist 2 s) /\
  s_size s = 3%nat.
Proof.
  intros srt HS. split.
  - split; [|cbn].
    + intros o. apply nonempty_ineq. unfold row, at_pos; cbn; lia.
    + split; [|split; auto].
      * split; [|tauto]. repeat constructor; cbn; lia.
      * split; auto. apply nonempty_ineq. cbn; lia.
  - assert (E : forall i, srt (low row i) [0; 1; 2]%nat = [0; 1; 2]%nat).
    { intros i. rewrite srt_isort; auto.
      - unfold isort, low, row, at_pos; destruct i as [|[|i]]; reflexivity.
      - unfold low, row, at_pos. intros a b _ _ H. destruct i as [|[|i]]; cbn [bmin coord vx vy vz] in H; lia. }
    cbn [stale_ops app s_run fold_left s_step s_init s_register]. unfold s_do_setup. cbn [ssetup sx sy sz app].
    unfold s_run, stale_ops. cbn [app fold_left s_step s_register s_init sx sy sz]. unfold s_do_setup. cbn [ssetup sx sy sz].
    rewrite !E. unfold s_unregister, s_do_setup. cbn [ssetup sx sy sz].
    vm_compute. repeat split; auto; intros [H|[H|[]]]; discriminate.
Qed.
Print Assumptions ssap_unregister_stale_refuted.

(** ** Distance *)

(** Each axis gap bounds the box distance. *)
Definition gap_bound (adist : aabb -> aabb -> Z) : Prop :=
  forall i a b, (i < 3)%nat -> coord i (bmin a) - coord i (bmax b) <= adist a b.

(** C10: if distance(obj) returns, it found the minimum over the other registered objects. *)
Theorem ssap_distance_obj_min : forall srt ops box0 s box o adist M D fuel, sorts srt ->
  legal_history ops box0 -> s_run srt ops box0 = (s, box) -> s_status ops = Sorted -> gap_bound adist ->
  (forall a, In a (s_registered ops) -> a <> o -> adist (box a) (box o) <= D a o) ->
  let P a b := b = o /\ a <> o /\ In a (s_registered ops) in
  ofinds_min (s_dist_obj box adist M fuel s o) M P D /\ odsound (s_dist_obj box adist M fuel s o) P.
Proof.
  intros srt ops box0 s box o adist M D fuel HS HL HR HSt HG HD P. unfold s_dist_obj.
  assert (P1 := reach_perm srt ops box0 s box HS HL HR). assert (S1 := reach_sorted srt ops box0 s box HS HL HR HSt).
  destruct (Nat.eqb_spec (s_size s) 0) as [E|E].
  - apply (reach_empty srt ops box0 s box HS HL HR) in E. split.
    + apply ocovers_finds_min with (P := P); auto; [eauto|]. intros floor. apply (ocovers_lift dskip), covers_skip.
      intros a b (_ & _ & H). rewrite E in H. destruct H.
    + apply (odsound_lift P dskip), dsound_skip.
  - split.
    + apply ocovers_finds_min with (P := P); auto; [eauto|]. intros floor.
      exact (s_dist_covers box adist M s (s_registered ops) P1 S1 HG fuel o D floor HD).
    + exact (s_dist_sound box adist M s (s_registered ops) P1 S1 fuel o).
Qed.
Print Assumptions ssap_distance_obj_min.

(** C10: it returns when the query box has extent on every axis and some other registered
    object is at a distance below numeric_limits::max(). *)
Theorem ssap_distance_obj_terminates : forall srt ops box0 s box o a adist M D floor, sorts srt ->
  legal_history ops box0 -> s_run srt ops box0 = (s, box) -> s_status ops = Sorted -> gap_bound adist ->
  (forall a, In a (s_registered ops) -> a <> o -> adist (box a) (box o) <= D a o) ->
  In a (s_registered ops) -> a <> o -> D a o < M -> wide (box o) ->
  exists N, forall St (cb : dcallback St) st fuel, honest D floor cb -> (N <= fuel)%nat ->
    s_dist_obj box adist M fuel s o St cb st M <> None.
Proof.
  intros srt ops box0 s box o a adist M D floor HS HL HR HSt HG HD Ha Hn HM HW.
  assert (P1 := reach_perm srt ops box0 s box HS HL HR). assert (S1 := reach_sorted srt ops box0 s box HS HL HR HSt).
  destruct (dist_loop_terminates box adist M s _ P1 S1 HG o a D floor Ha Hn HW HD HM) as (N & HN).
  exists (N + 2)%nat. intros St cb st fuel Hh Hf. unfold s_dist_obj. destruct (Nat.eqb (s_size s) 0); [discriminate|].
  unfold s_dist_. cbv zeta. rewrite Z.ltb_irrefl.
  specialize (HN St cb Hh fuel 0 (bmax (box o)) st M ltac:(lia) ltac:(lia) ltac:(lia) ltac:(lia) (or_introl (conj eq_refl eq_refl))).
  destruct (dist_loop _ _ _ _ _ _ _ _ _ _ _ _); [discriminate|tauto].
Qed.
Print Assumptions ssap_distance_obj_terminates.

(** The self and cross queries. *)
Theorem ssap_distance_self_min : forall srt ops box0 s box adist M D fuel, sorts srt ->
  legal_history ops box0 -> s_run srt ops box0 = (s, box) -> s_status ops = Sorted -> gap_bound adist ->
  (forall a b, In a (s_registered ops) -> In b (s_registered ops) -> a <> b -> adist (box a) (box b) <= D a b) ->
  let P a b := In a (s_registered ops) /\ In b (s_registered ops) /\ a <> b in
  ofinds_min (s_dist_self box adist M fuel s) M P D /\ odsound (s_dist_self box adist M fuel s) P.
Proof.
  intros srt ops box0 s box adist M D fuel HS HL HR HSt HG HD P. unfold s_dist_self.
  assert (P1 := reach_perm srt ops box0 s box HS HL HR). assert (S1 := reach_sorted srt ops box0 s box HS HL HR HSt).
  destruct (Nat.eqb_spec (s_size s) 0) as [E|E].
  - apply (reach_empty srt ops box0 s box HS HL HR) in E. split.
    + apply ocovers_finds_min with (P := P); auto; [eauto|]. intros floor. apply (ocovers_lift dskip), covers_skip.
      intros a b (H & _). rewrite E in H. destruct H.
    + apply (odsound_lift P dskip), dsound_skip.
  - pose proof (select_axis_lt box s) as La. assert (Pa := P1 _ La). split.
    + apply ocovers_finds_min with (P := P); auto; [eauto|]. intros floor.
      eapply ocovers_ext; [|apply ocovers_each with (P := others (s_registered ops))].
      * intros a b. unfold others. split.
        -- intros (x & Hx & -> & Hn & Ha). rewrite Pa in Hx. repeat split; auto.
        -- intros (Ha & Hb & Hn). exists b. rewrite Pa. auto.
      * intros o Ho. apply s_dist_covers; auto. rewrite Pa in Ho. auto.
    + apply odsound_each. intros o Ho. rewrite Pa in Ho. eapply odsound_imp; [|apply s_dist_sound; eauto].
      intros a b (-> & Hn & Ha). repeat split; auto.
Qed.
Print Assumptions ssap_distance_self_min.

(** A loop over query objects returns if its first query does. *)
Lemma oeach_returns box adist M s regs os D floor :
  (forall i, (i < 3)%nat -> Permutation (slist i s) regs) -> sorted_by box s -> gap_bound adist ->
  (forall o, In o os -> wide (box o) /\ exists a, In a regs /\ a <> o /\ D a o < M) ->
  (forall a o, In a regs -> In o os -> a <> o -> adist (box a) (box o) <= D a o) ->
  exists N, forall St (cb : dcallback St) st fuel, honest D floor cb -> (N <= fuel)%nat ->
    oeach (s_dist_ box adist M fuel s) os St cb st M <> None.
Proof.
  intros P1 S1 HG HO HD. destruct os as [|o os].
  - exists 0%nat. intros St cb st fuel _ _. discriminate.
  - destruct (HO o (or_introl eq_refl)) as (HW & a & Ha & Hn & HM).
    assert (HDo : forall a, In a regs -> a <> o -> adist (box a) (box o) <= D a o) by (intros x Hx; apply HD; auto; left; auto).
    destruct (dist_loop_terminates box adist M s _ P1 S1 HG o a D floor Ha Hn HW HDo HM) as (N & HN).
    exists (N + 2)%nat. intros St cb st fuel Hh Hf. cbn [oeach fold_right]. unfold oseq at 1.
    assert (EQ : s_dist_ box adist M fuel s o St cb st M = dist_loop box adist M fuel s o (bmax (box o)) true St cb st M)
      by (unfold s_dist_; cbv zeta; rewrite Z.ltb_irrefl; reflexivity). rewrite EQ; clear EQ.
    specialize (HN St cb Hh fuel 0 (bmax (box o)) st M ltac:(lia) ltac:(lia) ltac:(lia) ltac:(lia) (or_introl (conj eq_refl eq_refl))).
    destruct (dist_loop box adist M fuel s o (bmax (box o)) true St cb st M) as [[[st1 m1] [|]]|]; [discriminate| |tauto].
    destruct HN as [HN|HN]; [discriminate|].
    assert (HF : (0 < fuel)%nat) by lia. clear HD HDo HO Hf. revert st1 m1 HN.
    induction os as [|o2 os IH]; intros st1 m1 HN; cbn [oeach fold_right]; [discriminate|]. unfold oseq at 1.
    pose proof (s_dist_finite box adist M s fuel o2 St cb st1 m1 HN HF) as HF2.
    destruct (s_dist_ box adist M fuel s o2 St cb st1 m1) as [[[st2 m2] [|]]|] eqn:E2; [discriminate| |tauto].
    apply IH. enough (m2 <= m1) by lia.
    (* one pass of an honest callback never raises the minimum *)
    unfold s_dist_ in E2. cbv zeta in E2. destruct fuel as [|f]; [lia|]. cbn [dist_loop] in E2.
    assert (L : m1 <? M = true) by (apply Z.ltb_lt; auto). rewrite L in E2.
    set (pre := prefix box (vadd (bmax (box o2)) (splat m1)) s) in E2. clearbody pre.
    assert (Mono : forall l st m, let '(_, m', _) := check_dis box adist l o2 St cb st m in m' <= m).
    { clear - Hh. induction l as [|x l IH]; intros st m; cbn [check_dis]; [apply Z.le_refl|]. unfold dseq.
      assert (H1 : let '(_, m', _) := (if negb (Nat.eqb x o2) then dprune (adist (box x) (box o2)) (dcall x o2) else dskip) St cb st m in m' <= m).
      { destruct (negb (Nat.eqb x o2)); [|apply Z.le_refl]. unfold dprune, dcall. destruct (_ <? _); [|apply Z.le_refl].
        specialize (Hh st m x o2). destruct (cb st m x o2) as [[st' m'] s']. destruct Hh as [-> _]. lia. }
      destruct ((if negb (Nat.eqb x o2) then dprune (adist (box x) (box o2)) (dcall x o2) else dskip) St cb st m) as [[st' m'] [|]]; auto.
      specialize (IH st' m'). destruct (check_dis box adist l o2 St cb st' m') as [[st2 m2] s2]. lia. }
    specialize (Mono pre st1 m1). destruct (check_dis box adist pre o2 St cb st1 m1) as [[st3 m3] [|]]; [discriminate|].
    injection E2 as <- <-. auto.
Qed.

(** C10: distance() returns when two objects are registered and all boxes have extent. *)
Theorem ssap_distance_self_terminates : forall srt ops box0 s box adist M D floor, sorts srt ->
  legal_history ops box0 -> s_run srt ops box0 = (s, box) -> s_status ops = Sorted -> gap_bound adist ->
  (2 <= length (s_registered ops))%nat -> (forall o, In o (s_registered ops) -> wide (box o)) ->
  (forall a b, In a (s_registered ops) -> In b (s_registered ops) -> a <> b -> adist (box a) (box b) <= D a b < M) ->
  exists N, forall St (cb : dcallback St) st fuel, honest D floor cb -> (N <= fuel)%nat ->
    s_dist_self box adist M fuel s St cb st M <> None.
Proof.
  intros srt ops box0 s box adist M D floor HS HL HR HSt HG H2 HW HD.
  assert (P1 := reach_perm srt ops box0 s box HS HL HR). assert (S1 := reach_sorted srt ops box0 s box HS HL HR HSt).
  assert (N1 := reach_nodup srt ops box0 s box HS HL HR).
  pose proof (select_axis_lt box s) as La. assert (Pa := P1 _ La).
  destruct (oeach_returns box adist M s (s_registered ops) (slist (select_axis box s) s) D floor P1 S1 HG) as (N & HN).
  - intros o Ho. rewrite Pa in Ho. split; auto. destruct (s_registered ops) as [|a [|b l]]; cbn in H2; try lia.
    destruct (Nat.eq_dec a o) as [->|Hn].
    + exists b. assert (b <> o) by (intros ->; apply NoDup_cons_iff in N1 as [N1 _]; apply N1; left; auto).
      split; [cbn; auto|]. split; auto. apply HD; auto; cbn; auto.
    + exists a. split; [cbn; auto|]. split; auto. apply HD; auto; cbn; auto.
  - intros a o Ha Ho Hn. rewrite Pa in Ho. apply HD; auto.
  - exists N. intros St cb st fuel Hh Hf. unfold s_dist_self. destruct (Nat.eqb (s_size s) 0); [discriminate|]. apply HN; auto.
Qed.
Print Assumptions ssap_distance_self_terminates.

(** C10, cross query: if it returns, it found the minimum over the cross pairs. *)
Theorem ssap_distance_other_min : forall srt ops box0 s box ops2 box02 s2 adist M D fuel, sorts srt ->
  legal_history ops box0 -> s_run srt ops box0 = (s, box) -> s_status ops = Sorted ->
  legal_history ops2 box02 -> s_run srt ops2 box02 = (s2, box) -> s_status ops2 = Sorted -> gap_bound adist ->
  (forall a b, D a b = D b a) ->
  (forall a b, adist (box a) (box b) <= D a b) ->
  let P a b := (In a (s_registered ops) /\ In b (s_registered ops2) \/
                In a (s_registered ops2) /\ In b (s_registered ops)) /\ a <> b in
  ofinds_min (s_dist_other box adist M fuel s s2) M P D /\ odsound (s_dist_other box adist M fuel s s2) P.
Proof.
  intros srt ops box0 s box ops2 box02 s2 adist M D fuel HS HL HR HSt HL2 HR2 HSt2 HG HDs HD P. unfold s_dist_other.
  assert (P1 := reach_perm srt ops box0 s box HS HL HR). assert (P2 := reach_perm srt ops2 box02 s2 box HS HL2 HR2).
  assert (S1 := reach_sorted srt ops box0 s box HS HL HR HSt). assert (S2 := reach_sorted srt ops2 box02 s2 box HS HL2 HR2 HSt2).
  assert (P1x := P1 0%nat ltac:(lia)). assert (P2x := P2 0%nat ltac:(lia)). cbn in P1x, P2x.
  destruct (Nat.eqb_spec (s_size s) 0) as [E|E]; [|destruct (Nat.eqb_spec (s_size s2) 0) as [E2|E2]]; cbn [orb].
  - apply (reach_empty srt ops box0 s box HS HL HR) in E. split.
    + apply ocovers_finds_min with (P := P); auto; [eauto|]. intros floor. apply (ocovers_lift dskip), covers_skip.
      unfold P; rewrite E; cbn; tauto.
    + apply (odsound_lift P dskip), dsound_skip.
  - apply (reach_empty srt ops2 box02 s2 box HS HL2 HR2) in E2. split.
    + apply ocovers_finds_min with (P := P); auto; [eauto|]. intros floor. apply (ocovers_lift dskip), covers_skip.
      unfold P; rewrite E2; cbn; tauto.
    + apply (odsound_lift P dskip), dsound_skip.
  - destruct (Nat.ltb (s_size s) (s_size s2)); split.
    + apply ocovers_finds_min with (P := fun a b => exists o, In o (sx s) /\ others (s_registered ops2) o a b).
      * intros a b ([[Ha Hb]|[Ha Hb]] & Hn).
        -- exists b, a. split; auto. exists a. rewrite P1x. split; auto. repeat split; auto.
        -- exists a, b. split; auto. exists b. rewrite P1x. split; auto. repeat split; auto.
      * intros a b (o & Ho & -> & Hn & Ha). rewrite P1x in Ho. unfold P; auto.
      * intros floor. apply ocovers_each. intros o Ho. apply s_dist_covers; auto.
    + apply odsound_each. intros o Ho. rewrite P1x in Ho. eapply odsound_imp; [|apply s_dist_sound; eauto].
      intros a b (-> & Hn & Ha). unfold P; auto.
    + apply ocovers_finds_min with (P := fun a b => exists o, In o (sx s2) /\ others (s_registered ops) o a b).
      * intros a b ([[Ha Hb]|[Ha Hb]] & Hn).
        -- exists a, b. split; auto. exists b. rewrite P2x. split; auto. repeat split; auto.
        -- exists b, a. split; auto. exists a. rewrite P2x. split; auto. repeat split; auto.
      * intros a b (o & Ho & -> & Hn & Ha). rewrite P2x in Ho. unfold P; auto.
      * intros floor. apply ocovers_each. intros o Ho. apply s_dist_covers; auto.
    + apply odsound_each. intros o Ho. rewrite P2x in Ho. eapply odsound_imp; [|apply s_dist_sound; eauto].
      intros a b (-> & Hn & Ha). unfold P; auto.
Qed.
Print Assumptions ssap_distance_other_min.

(** C05: no call after one that answered true. *)
Theorem ssap_distance_stop_is_final : forall box adist M fuel s s2 o,
  odstops (s_dist_obj box adist M fuel s o) /\ odstops (s_dist_self box adist M fuel s) /\
  odstops (s_dist_other box adist M fuel s s2).
Proof.
  intros box adist M fuel s s2 o. unfold s_dist_obj, s_dist_self, s_dist_other.
  split; [|split]; repeat match goal with |- context [if ?c then _ else _] => destruct c end;
    try apply (odstops_lift dskip), dstops_skip; try apply odstops_each; intros; try apply s_dist_stops; auto.
Qed.
Print Assumptions ssap_distance_stop_is_final.

(** C10, violation: with a single registered object, distance(obj) asked about that object
    and distance() never return, whatever the box and the callback. *)
Theorem ssap_distance_alone_refuted : forall srt ops box0 s box o adist M, sorts srt ->
  legal_history ops box0 -> s_run srt ops box0 = (s, box) -> s_status ops = Sorted ->
  s_registered ops = [o] ->
  forall St (cb : dcallback St) st fuel,
    s_dist_obj box adist M fuel s o St cb st M = None /\ s_dist_self box adist M fuel s St cb st M = None.
Proof.
  intros srt ops box0 s box o adist M HS HL HR HSt HA St cb st fuel.
  assert (P1 := reach_perm srt ops box0 s box HS HL HR). assert (S1 := reach_sorted srt ops box0 s box HS HL HR HSt).
  rewrite HA in P1.
  assert (HQ : forall dv st m, check_dis box adist (prefix box dv s) o St cb st m = (st, m, false)).
  { intros dv st' m. assert (HP : forall a, In a (prefix box dv s) -> a = o).
    { intros a Ha. apply (prefix_in box s [o] P1 S1) in Ha as [<-|[]]; auto. }
    revert HP. generalize (prefix box dv s). induction l as [|a l IH]; intros HP; cbn [check_dis]; auto.
    rewrite (HP a (or_introl eq_refl)), Nat.eqb_refl. cbn [negb]. unfold dseq, dskip. apply IH.
    intros x Hx. apply HP; right; auto. }
  assert (HLp : forall fuel dv st, dist_loop box adist M fuel s o dv true St cb st M = None).
  { induction fuel0 as [|f IH]; intros dv st'; cbn [dist_loop]; auto. rewrite HQ, !Z.ltb_irrefl. apply IH. }
  assert (HQ2 : s_dist_ box adist M fuel s o St cb st M = None) by (unfold s_dist_; cbv zeta; rewrite Z.ltb_irrefl; apply HLp).
  assert (HSz : Nat.eqb (s_size s) 0 = false).
  { rewrite (reach_size srt ops box0 s box HS HL HR), HA. reflexivity. }
  unfold s_dist_obj, s_dist_self. rewrite HSz. split; auto.
  assert (Pa := P1 _ (select_axis_lt box s)). apply Permutation_sym, Permutation_length_1_inv in Pa. rewrite Pa.
  cbn [oeach fold_right]. unfold oseq. rewrite HQ2. reflexivity.
Qed.
Print Assumptions ssap_distance_alone_refuted.

(** C10, violation: a query box without extent never grows; if every object lies to the
    right of it, distance(obj) does not return. *)
Theorem ssap_distance_flat_refuted : forall srt ops box0 s box o adist M, sorts srt ->
  legal_history ops box0 -> s_run srt ops box0 = (s, box) -> s_status ops = Sorted ->
  s_registered ops <> [] -> bmin (box o) = bmax (box o) ->
  (forall a, In a (s_registered ops) -> coord 0 (bmax (box o)) < coord 0 (bmin (box a))) ->
  forall St (cb : dcallback St) st fuel, s_dist_obj box adist M fuel s o St cb st M = None.
Proof.
  intros srt ops box0 s box o adist M HS HL HR HSt HA HF HB St cb st fuel.
  assert (P1 := reach_perm srt ops box0 s box HS HL HR). assert (S1 := reach_sorted srt ops box0 s box HS HL HR HSt).
  assert (HP : prefix box (bmax (box o)) s = []).
  { assert (E : firstn (prefix_len box 0 (bmax (box o)) s) (slist 0 s) = []).
    { rewrite prefix_spec by (apply S1; lia). assert (P0 := P1 0%nat ltac:(lia)).
      assert (HB' : forall a, In a (slist 0 s) -> coord 0 (bmax (box o)) < low box 0 a) by (intros a Ha; rewrite P0 in Ha; apply HB; auto).
      revert HB'. generalize (slist 0 s). induction l as [|a l IH]; intros H; cbn [filter]; auto.
      assert (low box 0 a <=? coord 0 (bmax (box o)) = false) as -> by (apply Z.leb_gt, H; left; auto).
      apply IH. intros x Hx; apply H; right; auto. }
    assert (E2 : prefix_len box 0 (bmax (box o)) s = 0%nat).
    { destruct (slist 0 s) eqn:EL; [unfold prefix_len; rewrite EL; reflexivity|].
      destruct (prefix_len box 0 (bmax (box o)) s); auto. discriminate. }
    unfold prefix, pick_axis. rewrite E2. cbn [Nat.ltb Nat.leb]. rewrite E2. reflexivity. }
  assert (HLp : forall fuel st, dist_loop box adist M fuel s o (bmax (box o)) true St cb st M = None).
  { induction fuel0 as [|f IH]; intros st'; cbn [dist_loop]; auto. rewrite HP. cbn [check_dis]. unfold dskip at 1.
    rewrite !Z.ltb_irrefl, approx_refl.
    replace (vadd (bmax (box o)) (half_extent (box o))) with (bmax (box o)); auto.
    unfold half_extent. rewrite HF, !Z.sub_diag. unfold vadd; cbn. destruct (bmax (box o)); cbn. rewrite !Z.add_0_r. reflexivity. }
  unfold s_dist_obj. rewrite (reach_size srt ops box0 s box HS HL HR).
  destruct (s_registered ops); [congruence|]. cbn [length Nat.eqb]. unfold s_dist_. cbv zeta. rewrite Z.ltb_irrefl. apply HLp.
Qed.
Print Assumptions ssap_distance_flat_refuted.

(** ** Concrete cases *)
Definition axgap (i : nat) (a b : aabb) : Z :=
  Z.max (coord i (bmin a) - coord i (bmax b)) (coord i (bmin b) - coord i (bmax a)).
Definition xgap (a b : aabb) : Z := Z.max 0 (Z.max (axgap 0 a b) (Z.max (axgap 1 a b) (axgap 2 a b))).
Example xgap_bound : gap_bound xgap.
Proof. intros i a b Hi. unfold xgap, axgap. destruct i as [|[|[|i]]]; lia. Qed.
(** Four cubes in a row, one removed, one moved until it touches another, then update(). *)
Definition row_ops : list sop :=
  [SRegs [3; 1; 2; 0]%nat; SSetup; SUnreg 0%nat; SMove 2%nat (at_pos 12); SUpdate].
Example ssap_case : legal_history row_ops row /\ s_status row_ops = Sorted /\
  let '(s, box) := s_run isort row_ops row in
  s_get s = [1; 2; 3]%nat /\ calls (s_collide_self box s) = [(1, 2)]%nat /\
  calls (s_collide_obj box s 2%nat) = [(1, 2)]%nat /\
  s_dist_obj box xgap 1000 20 s 3%nat unit (fun st m a b => (st, Z.min m (xgap (box a) (box b)), false))
    tt 1000 = Some (tt, 16, false).
Proof.
  split; [split|split; [reflexivity|]].
  - intros o. apply nonempty_ineq. unfold row, at_pos; cbn; lia.
  - cbn. repeat split; auto; try (apply nonempty_ineq; cbn; lia); try (intros ? H; cbn in H; lia).
    + repeat constructor; cbn; lia.
    + left; discriminate.
  - vm_compute. repeat split.
Qed.
