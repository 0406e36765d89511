(** C23, and C05, C06 for SaPCollisionManager. *)
From Coq Require Import ZArith List Bool Lia Permutation Arith Sorted.
From Verif Require Import AabbZ Broadphase QueryComb SortSearch SSaP IntervalManager SaP.
Import ListNotations.
Local Open Scope Z_scope.

(** Legal histories never get stuck. *)
Theorem sap_legal_total : forall srt ops box0, psorts srt -> p_legal_history ops box0 ->
  exists s box, p_run srt ops (p_init box0, box0) = Some (s, box).
Proof. intros srt ops box0 HS HL. destruct (p_reach srt ops box0 HS HL) as (s & E & _). eauto. Qed.
Print Assumptions sap_legal_total.

(** C06: size() and getObjects() describe the registered objects. *)
Theorem sap_faithful_container : forall srt ops box0 s box, psorts srt -> p_legal_history ops box0 ->
  p_run srt ops (p_init box0, box0) = Some (s, box) ->
  NoDup (ps_regs (p_spec ops box0)) /\ p_get s = ps_regs (p_spec ops box0) /\ p_size s = length (ps_regs (p_spec ops box0)).
Proof.
  intros srt ops box0 s box HS HL HR. destruct (p_reach' _ _ _ _ _ HS HL HR) as (_ & A1 & A2 & _).
  unfold p_get, p_size. rewrite A1. auto.
Qed.
Print Assumptions sap_faithful_container.

(** ... but empty() tells the opposite, always. *)
Theorem sap_empty_refuted : forall srt ops box0 s box, psorts srt -> p_legal_history ops box0 ->
  p_run srt ops (p_init box0, box0) = Some (s, box) ->
  (p_is_empty s = true <-> ps_regs (p_spec ops box0) <> []).
Proof.
  intros srt ops box0 s box HS HL HR. destruct (p_reach' _ _ _ _ _ HS HL HR) as (_ & A1 & _).
  unfold p_is_empty. rewrite A1. destruct (ps_regs (p_spec ops box0)); cbn; split; congruence.
Qed.
Print Assumptions sap_empty_refuted.

(** The endpoint lists hold both ends of every registered object, sorted. *)
Theorem sap_lists_sorted : forall srt ops box0 s box i, psorts srt -> p_legal_history ops box0 ->
  p_run srt ops (p_init box0, box0) = Some (s, box) -> (i < 3)%nat ->
  NoDup (p_list s i) /\ (forall o e, In (o, e) (p_list s i) <-> In o (ps_regs (p_spec ops box0))) /\
  StronglySorted (by_key (pval (ps_known (p_spec ops box0)) i)) (p_list s i).
Proof.
  intros srt ops box0 s box i HS HL HR Hi. destruct (p_reach' _ _ _ _ _ HS HL HR) as (_ & A1 & A2 & _ & _ & A5 & A6 & _).
  destruct (A6 i Hi) as [P S]. split; [|split].
  - eapply Permutation_NoDup; [symmetry; exact P|]. apply tags_NoDup; auto.
  - intros o e. rewrite P. apply tags_In.
  - eapply StronglySorted_ext; [|exact S]. intros a _. apply pval_ext, A5.
Qed.
Print Assumptions sap_lists_sorted.

(** C23: collide(obj) calls back exactly the other registered objects whose box, as it was when
    registered, overlaps the object's: each once, the queried object first. *)
Definition known_hit (x : pspec) (o a b : obj) : Prop :=
  a = o /\ b <> o /\ In b (ps_regs x) /\ overlap (ps_known x b) (ps_box x o) = true.
Lemma p_collide_plays s x o : pinv s x -> exists l, plays (p_collide_ (ps_box x) s o) l /\ ordered_once l (known_hit x o).
Proof.
  intros (A1 & A2 & A3 & A4 & A5 & A6 & A7 & A8). set (box := ps_box x).
  set (f := fun a => negb (Nat.eqb a o) && overlap (p_cached s a) (box o)).
  exists (map (pair o) (filter f (p_candidates s (box o)))). split.
  - unfold p_collide_. fold f.
    replace (map (pair o) (filter f (p_candidates s (box o)))) with
      (flat_map (fun a => if f a then [(o, a)] else []) (p_candidates s (box o))).
    + apply plays_each. intros a _. change (negb (Nat.eqb a o) && overlap (p_cached s a) (box o)) with (f a).
      apply plays_when, plays_call.
    + induction (p_candidates s (box o)) as [|a l IH]; auto. cbn [flat_map filter]. rewrite IH. destruct (f a); auto.
  - destruct (p_candidates_spec s _ (box o) A6 A2 A8) as [N C]. split.
    + apply NoDup_map_inj; [congruence|]. apply NoDup_filter; auto.
    + intros a b. rewrite in_map_iff. unfold known_hit. split.
      * intros (y & E & H). injection E as <- <-. apply filter_In in H as [H F]. apply C in H as [H _].
        unfold f in F. apply andb_true_iff in F as [F1 F2]. apply negb_true_iff, Nat.eqb_neq in F1. rewrite A5 in F2. auto.
      * intros (-> & Nb & Hb & Ho). exists b. split; auto. apply filter_In. rewrite <- A5 in Ho. split.
        -- apply C. split; auto. rewrite SpatialHash.overlap_coord in Ho. apply Ho; auto.
        -- unfold f. fold box in Ho. rewrite Ho, andb_true_r. apply Nat.eqb_neq in Nb. rewrite Nb. auto.
Qed.
Theorem sap_obj_exact : forall srt ops box0 s box o, psorts srt -> p_legal_history ops box0 ->
  p_run srt ops (p_init box0, box0) = Some (s, box) ->
  let Q := p_collide_obj box s o in
  replays Q /\ ordered_once (calls Q) (known_hit (p_spec ops box0) o).
Proof.
  intros srt ops box0 s box o HS HL HR Q. destruct (p_reach' _ _ _ _ _ HS HL HR) as (-> & I). unfold Q, p_collide_obj.
  destruct (Nat.eqb_spec (p_size s) 0) as [E|E].
  - destruct (plays_calls _ _ plays_skip) as [-> R]. split; auto. destruct I as (A1 & _). unfold p_size in E. rewrite A1 in E.
    apply length_zero_iff_nil in E. split; [constructor|]. intros a b. unfold known_hit. rewrite E. cbn. tauto.
  - destruct (p_collide_plays s _ o I) as (l & P & O). destruct (plays_calls _ _ P) as [-> R]. auto.
Qed.
Print Assumptions sap_obj_exact.

(** C23 for collide(other): the objects of the smaller manager are queried in the larger one. *)
Theorem sap_other_exact : forall srt ops box0 s box ops2 box02 s2, psorts srt -> p_legal_history ops box0 ->
  p_run srt ops (p_init box0, box0) = Some (s, box) -> p_legal_history ops2 box02 ->
  p_run srt ops2 (p_init box02, box02) = Some (s2, box) ->
  let x := p_spec ops box0 in let x2 := p_spec ops2 box02 in let Q := p_collide_other box s s2 in
  replays Q /\ ordered_once (calls Q) (fun a b => a <> b /\
    if Nat.ltb (length (ps_regs x)) (length (ps_regs x2))
    then In a (ps_regs x) /\ In b (ps_regs x2) /\ overlap (ps_known x2 b) (box a) = true
    else In a (ps_regs x2) /\ In b (ps_regs x) /\ overlap (ps_known x b) (box a) = true).
Proof.
  intros srt ops box0 s box ops2 box02 s2 HS HL HR HL2 HR2 x x2 Q.
  destruct (p_reach' _ _ _ _ _ HS HL HR) as (Eb & I). destruct (p_reach' _ _ _ _ _ HS HL2 HR2) as (Eb2 & I2).
  fold x in Eb, I. fold x2 in Eb2, I2.
  assert (G : forall t y l, pinv t y -> box = ps_box y -> NoDup l ->
    replays (ceach (p_collide_ box t) l) /\
    ordered_once (calls (ceach (p_collide_ box t) l)) (fun a b => a <> b /\ In a l /\ In b (ps_regs y) /\ overlap (ps_known y b) (box a) = true)).
  { clear. intros t y l I Eb ND.
    assert (exists pl, forall o, plays (p_collide_ box t o) (pl o) /\ ordered_once (pl o) (known_hit y o)) as (pl & HP).
    { exists (fun o => calls (p_collide_ box t o)). intros o. rewrite Eb. destruct (p_collide_plays t y o I) as (r & P & O).
      destruct (plays_calls _ _ P) as [-> _]. auto. }
    assert (P := plays_each (p_collide_ box t) pl l (fun o _ => proj1 (HP o))). destruct (plays_calls _ _ P) as [-> R]. split; auto.
    split.
    - clear P R. induction ND as [|o l No ND IH]; cbn [flat_map]; [constructor|]. apply NoDup_app_intro; auto.
      + apply (HP o).
      + intros [a b] H1 H2. apply (HP o) in H1. destruct H1 as (-> & _). apply in_flat_map in H2 as (o' & Ho' & H2).
        apply (HP o') in H2. destruct H2 as (-> & _). auto.
    - intros a b. rewrite in_flat_map. split.
      + intros (o & Ho & H). apply (HP o) in H. destruct H as (-> & Nb & Hb & Hov). rewrite Eb. auto.
      + intros (Nb & Ha & Hb & Hov). exists a. split; auto. apply (HP a). rewrite Eb in Hov. repeat split; auto. }
  unfold Q, p_collide_other, p_size. destruct I as (A1 & A2 & A'). destruct I2 as (B1 & B2 & B'). rewrite A1, B1.
  destruct (Nat.eqb_spec (length (ps_regs x)) 0) as [E|E]; cbn [orb].
  { apply length_zero_iff_nil in E. destruct (plays_calls _ _ plays_skip) as [-> R]. split; auto. split; [constructor|].
    intros a b. rewrite E. cbn. match goal with |- context [if ?c then _ else _] => destruct c end; tauto. }
  destruct (Nat.eqb_spec (length (ps_regs x2)) 0) as [E2|E2].
  { apply length_zero_iff_nil in E2. destruct (plays_calls _ _ plays_skip) as [-> R]. split; auto. split; [constructor|].
    intros a b. rewrite E2. match goal with |- context [if ?c then _ else _] => destruct c end; cbn; tauto. }
  destruct (Nat.ltb (length (ps_regs x)) (length (ps_regs x2))).
  - apply G; auto. repeat (split; auto).
  - apply G; auto. repeat (split; auto).
Qed.
Print Assumptions sap_other_exact.

(** C23, collide(): whatever was registered, in whatever way, only pairs of distinct registered
    objects with overlapping boxes are reported, and the callback can stop the query. *)
Lemma p_self_plays s : plays (p_collide_self s) (if Nat.eqb (p_size s) 0 then [] else p_pairs s).
Proof.
  unfold p_collide_self. destruct (Nat.eqb (p_size s) 0); [apply plays_skip|].
  replace (p_pairs s) with (flat_map (fun p => [(fst p, snd p)]) (p_pairs s)) at 2
    by (induction (p_pairs s) as [|[a b] l IH]; cbn; congruence).
  apply plays_each. intros p _. apply plays_call.
Qed.
Lemma p_self_calls s x : pinv s x -> replays (p_collide_self s) /\ calls (p_collide_self s) = p_pairs s.
Proof.
  intros (A1 & _ & _ & _ & _ & _ & A7 & _). destruct (plays_calls _ _ (p_self_plays s)) as [-> R]. split; auto.
  destruct (Nat.eqb_spec (p_size s) 0) as [E|E]; auto. unfold p_size in E. rewrite A1 in E. apply length_zero_iff_nil in E.
  destruct (p_pairs s) as [|[a b] l] eqn:Ep; auto. exfalso. destruct (A7 a b) as (_ & H & _); [rewrite Ep; left; auto|].
  rewrite E in H. destruct H.
Qed.
Theorem sap_self_sound : forall srt ops box0 s box, psorts srt -> p_legal_history ops box0 ->
  p_run srt ops (p_init box0, box0) = Some (s, box) ->
  let Q := p_collide_self s in let x := p_spec ops box0 in
  replays Q /\ forall a b, In (a, b) (calls Q) ->
    (a < b)%nat /\ In a (ps_regs x) /\ In b (ps_regs x) /\ overlap (ps_known x a) (ps_known x b) = true.
Proof.
  intros srt ops box0 s box HS HL HR Q x. destruct (p_reach' _ _ _ _ _ HS HL HR) as (_ & I).
  destruct (p_self_calls s _ I) as [R E]. split; auto. unfold Q. rewrite E. destruct I as (_ & _ & _ & _ & A5 & _ & A7 & _).
  intros a b H. destruct (A7 a b H) as (L & Ha & Hb & Ho). rewrite !A5 in Ho. auto.
Qed.
Print Assumptions sap_self_sound.

(** C23: after a bulk registration in an empty manager, every overlapping pair is reported, once,
    provided no box begins on an axis at the coordinate where a box ends. *)
Theorem sap_self_bulk_exact : forall srt ops os box0 s box, psorts srt -> p_legal_history ops box0 ->
  ps_regs (p_spec ops box0) = [] -> NoDup os -> no_ties (ps_box (p_spec ops box0)) os ->
  p_run srt (ops ++ [PRegs os]) (p_init box0, box0) = Some (s, box) ->
  let Q := p_collide_self s in
  replays Q /\ pairs_once (calls Q) (fun a b => a <> b /\ In a os /\ In b os /\ overlap (box a) (box b) = true).
Proof.
  intros srt ops os box0 s box HS HL E0 ND NT HR Q. destruct (p_reach srt ops box0 HS HL) as (s0 & R0 & I0).
  assert (HA : forall l x, p_run srt (l ++ [PRegs os]) x = match p_run srt l x with Some y => p_run srt [PRegs os] y | None => None end).
  { induction l as [|op l IH]; intros x; cbn [app p_run]; auto. destruct (p_step srt op x); auto. }
  rewrite HA, R0 in HR. cbn [p_run] in HR.
  destruct (p_spec ops box0) as [regs known bx] eqn:Ex. cbn [ps_regs ps_box] in *. subst regs. injection HR as Es Eb.
  assert (HL' : p_legal (PS [] known bx) (PRegs os)) by (cbn; split; auto).
  destruct (p_step_inv srt (PRegs os) s0 _ HS I0 HL') as (s' & Es' & I'). cbn [p_step ps_box] in Es'. injection Es' as Es'.
  rewrite Es in Es'. subst s' bx. destruct (p_self_calls s _ I') as [R E]. split; auto. unfold Q. rewrite E.
  unfold p_registers, p_size in Es. rewrite (proj1 I0) in Es. cbn [ps_regs length Nat.eqb] in Es. destruct os as [|o os].
  - subst s. cbn [ps_step app] in I'. destruct I0 as (_ & _ & _ & _ & _ & _ & A7 & _).
    destruct (p_pairs s0) as [|[a b] l] eqn:Ep.
    + split; [constructor|]. split; [intros a b []|intros a b (_ & [] & _)].
    + destruct (A7 a b) as (_ & [] & _). rewrite Ep. left; auto.
  - destruct I0 as (_ & _ & A3 & _). destruct (p_bulk_pairs srt box (o :: os) s0 HS A3 ND NT) as [N1 N2]. rewrite Es in N1, N2.
    split; auto. split.
    + intros a b H. apply N2 in H as (L & Ha & Hb & Ho). split; [repeat split; auto; lia|]. intros H2. apply N2 in H2. lia.
    + intros a b (Na & Ha & Hb & Ho). destruct (Nat.lt_ge_cases a b).
      * left. apply N2. auto.
      * right. apply N2. rewrite overlap_sym. split; auto. lia.
Qed.
Print Assumptions sap_self_bulk_exact.

(** C23: with registrations one by one, every overlapping pair is reported, once or twice, when
    each object begins no later on x than those already registered. *)
Theorem sap_self_tame : forall srt ops box0 s box, psorts srt -> p_legal_history ops box0 -> tame_from (ps_init box0) ops ->
  p_run srt ops (p_init box0, box0) = Some (s, box) ->
  let Q := p_collide_self s in let x := p_spec ops box0 in
  (forall a b, In (a, b) (calls Q) <->
    (a < b)%nat /\ In a (ps_regs x) /\ In b (ps_regs x) /\ overlap (ps_known x a) (ps_known x b) = true) /\
  forall p, (times p (calls Q) <= 2)%nat.
Proof.
  intros srt ops box0 s box HS HL HT HR Q x. pose proof (sap_self_sound srt ops box0 s box HS HL HR) as [_ So].
  destruct (p_reach' _ _ _ _ _ HS HL HR) as (_ & I). destruct (p_self_calls s _ I) as [R E]. fold Q in So, E.
  assert (C : pcomplete s x).
  { destruct HL as [H0 HL]. eapply (p_run_complete srt ops HS (p_init box0) (ps_init box0)); eauto.
    - apply p_init_inv; auto.
    - split; [intros a []|]. split; [intros a b _ []|intros p; cbn; lia]. }
  destruct C as (_ & C2 & C3). rewrite E in *. split; auto. intros a b. split; [apply So|].
  intros (L & Ha & Hb & Ho). auto.
Qed.
Print Assumptions sap_self_tame.

(** ** Violations *)
Definition cubes (l u : Z) : aabb := Box (V l 0 0) (V u 10 10).
Fixpoint ins_pt (key : pt -> Z) (a : pt) (l : list pt) : list pt :=
  match l with [] => [a] | b :: r => if key a <=? key b then a :: b :: r else b :: ins_pt key a r end.
Definition sort_pt (key : pt -> Z) : list pt -> list pt := fold_right (ins_pt key) [].
Lemma sort_pt_sorts : psorts sort_pt.
Proof.
  assert (Pm : forall key a l, Permutation (ins_pt key a l) (a :: l)).
  { intros key a l. induction l as [|b l IH]; cbn; auto. destruct (key a <=? key b); auto. rewrite IH. apply perm_swap. }
  intros key l. induction l as [|a l [P S]]; cbn; [split; constructor|]. split.
  - rewrite Pm, P. auto.
  - clear P. revert S. generalize (sort_pt key l). clear l. intros l S. induction S as [|b l S IH F]; cbn; [constructor; constructor|].
    destruct (Z.leb_spec (key a) (key b)).
    + constructor; [constructor; auto|]. constructor; auto. rewrite Forall_forall in *. intros y Hy. specialize (F y Hy).
      unfold by_key in *. lia.
    + constructor; auto. rewrite Forall_forall in *. intros y Hy. rewrite Pm in Hy. destruct Hy as [<-|Hy]; auto. unfold by_key. lia.
Qed.
Definition moves (l : list (obj * aabb)) : list pop := map (fun p => PMove (fst p) (snd p)) l.
Definition after_run (ops : list pop) (Pr : sap -> (obj -> aabb) -> Prop) : Prop :=
  match p_run sort_pt ops (p_init (fun _ => cubes 0 1), fun _ => cubes 0 1) with Some (s, box) => Pr s box | None => False end.

(** Two boxes registered from left to right, where each sticks out of the other: missed. *)
Theorem sap_one_by_one_refuted : after_run (moves [(1%nat, cubes 0 10); (2%nat, cubes 5 20)] ++ [PReg 1%nat; PReg 2%nat])
  (fun s box => overlap (box 1%nat) (box 2%nat) = true /\ calls (p_collide_self s) = []).
Proof. vm_compute. auto. Qed.
Print Assumptions sap_one_by_one_refuted.

(** A box registered inside another: missed. *)
Theorem sap_inside_refuted : after_run (moves [(1%nat, cubes 0 30); (2%nat, cubes 5 20)] ++ [PReg 1%nat; PReg 2%nat])
  (fun s box => contain (box 1%nat) (box 2%nat) = true /\ calls (p_collide_self s) = []).
Proof. vm_compute. auto. Qed.
Print Assumptions sap_inside_refuted.

(** A box registered around another: reported twice. *)
Theorem sap_twice_refuted :
  after_run (moves [(1%nat, cubes 5 10); (2%nat, cubes 40 50); (3%nat, cubes 0 30)] ++ [PReg 1%nat; PReg 2%nat; PReg 3%nat])
  (fun s box => calls (p_collide_self s) = [(1%nat, 3%nat); (1%nat, 3%nat)]).
Proof. vm_compute. auto. Qed.
Print Assumptions sap_twice_refuted.

(** Boxes that touch, registered in bulk: one sort order misses the contact of 1 and 2. *)
Theorem sap_bulk_touching_refuted :
  after_run (moves [(1%nat, cubes 0 10); (2%nat, cubes 10 20); (3%nat, cubes 5 7)] ++ [PRegs [2%nat; 1%nat; 3%nat]])
  (fun s box => overlap (box 1%nat) (box 2%nat) = true /\ In (1%nat, 2%nat) (calls (p_collide_self s))) /\
  after_run (moves [(1%nat, cubes 0 10); (2%nat, cubes 10 20); (3%nat, cubes 5 7)] ++ [PRegs [3%nat; 1%nat; 2%nat]])
  (fun s box => overlap (box 1%nat) (box 2%nat) = true /\ ~ In (1%nat, 2%nat) (calls (p_collide_self s))).
Proof. vm_compute. split; [auto|]. split; auto. intros [H|[]]; discriminate. Qed.
Print Assumptions sap_bulk_touching_refuted.

(** *** update_ *)
Lemma pt_refl e : pt_eqb e e = true.
Proof. destruct (pt_eqb_spec e e); congruence. Qed.
Definition like (h h' : heap) : Prop := nx h = nx h' /\ pv h = pv h' /\ hd_ h = hd_ h' /\ hc h = hc h'.
Lemma like_refl h : like h h. Proof. repeat split. Qed.
Lemma like_trans a b c : like a b -> like b c -> like a c.
Proof. intros (A1 & A2 & A3 & A4) (B1 & B2 & B3 & B4). unfold like. rewrite A1, A2, A3, A4. auto. Qed.
Lemma like_if (b : bool) h h1 : like h h1 -> like h (if b then h1 else h).
Proof. destruct b; auto using like_refl. Qed.
Lemma walk_lo_down_like nb o i fuel : forall e h t h', walk_lo_down nb o i fuel e h = Some (t, h') -> like h h'.
Proof.
  induction fuel as [|f IH]; intros [e|] h t h'; cbn [walk_lo_down]; try discriminate.
  - match goal with |- context [if ?c then _ else _] => destruct c end.
    + intros H. apply IH in H. eapply like_trans; [|exact H]. apply like_if. repeat split.
    + intros H. injection H as <- <-. apply like_refl.
  - intros H. injection H as <- <-. apply like_refl.
Qed.
Lemma walk_hi_down_like nb o i fuel : forall e h t h', walk_hi_down nb o i fuel e h = Some (t, h') -> like h h'.
Proof.
  induction fuel as [|f IH]; intros [e|] h t h'; cbn [walk_hi_down]; try discriminate.
  match goal with |- context [if ?c then _ else _] => destruct c end.
  - intros H. apply IH in H. eapply like_trans; [|exact H]. apply like_if. repeat split.
  - intros H. injection H as <- <-. apply like_refl.
Qed.
Lemma walk_hi_up_like nb o i fuel : forall e h t h', walk_hi_up nb o i fuel e h = Some (t, h') -> like h h'.
Proof.
  induction fuel as [|f IH]; intros e h t h'; cbn [walk_hi_up]; try discriminate. destruct (nx h i e) as [n|].
  - match goal with |- context [if ?c then _ else _] => destruct c end.
    + intros H. apply IH in H. eapply like_trans; [|exact H]. apply like_if. repeat split.
    + intros H. injection H as <- <-. apply like_refl.
  - intros H. injection H as <- <-. apply like_refl.
Qed.
Lemma walk_lo_up_like nb o i fuel : forall e h t h', walk_lo_up nb o i fuel e h = Some (t, h') -> like h h'.
Proof.
  induction fuel as [|f IH]; intros [e|] h t h'; cbn [walk_lo_up]; try discriminate.
  match goal with |- context [if ?c then _ else _] => destruct c end.
  - intros H. apply IH in H. eapply like_trans; [|exact H]. apply like_if. repeat split.
  - intros H. injection H as <- <-. apply like_refl.
Qed.

(** What a step on axis [j] leaves alone: the next pointers and the cached coordinates of other axes. *)
Definition others_kept (j : nat) (o : obj) (h h' : heap) : Prop :=
  forall i, i <> j -> (forall e, nx h' i e = nx h i e) /\ ((i < 3)%nat -> (j < 3)%nat -> low (hc h') i o = low (hc h) i o /\ high (hc h') i o = high (hc h) i o).
Lemma kept_refl j o h : others_kept j o h h. Proof. intros i _. auto. Qed.
Lemma kept_trans j o a b c : others_kept j o a b -> others_kept j o b c -> others_kept j o a c.
Proof.
  intros H1 H2 i Hi. destruct (H1 i Hi) as [A B], (H2 i Hi) as [C D]. split.
  - intros e. rewrite C. auto.
  - intros Li Lj. destruct (B Li Lj), (D Li Lj). split; congruence.
Qed.
Lemma kept_like j o h h' : like h h' -> others_kept j o h h'.
Proof. intros (A & _ & _ & B) i _. rewrite A, B. auto. Qed.
Lemma kept_nx j o e x h : others_kept j o h (set_nx j e x h).
Proof. intros i Hi. split; auto. intros a. cbn. unfold upd. destruct (Nat.eqb_spec i j); [tauto|auto]. Qed.
Lemma kept_pv j o e x h : others_kept j o h (set_pv j e x h).
Proof. intros i Hi. split; auto. Qed.
Lemma kept_hd j o x h : others_kept j o h (set_hd j x h).
Proof. intros i Hi. split; auto. Qed.
Lemma coord_vset i j x v : (i < 3)%nat -> (j < 3)%nat -> coord i (vset j x v) = if Nat.eqb i j then x else coord i v.
Proof. intros Hi Hj. destruct i as [|[|[|i]]]; [| | |lia]; destruct j as [|[|[|j]]]; try lia; reflexivity. Qed.
Lemma kept_val j o t x h : others_kept j o h (set_val j (o, t) x h).
Proof.
  intros i Hi. split; auto. intros Li Lj. cbn [set_val hc]. unfold low, high. cbn [fst snd]. rewrite set_box_eq.
  destruct t; cbn [bmin bmax]; rewrite coord_vset by auto; destruct (Nat.eqb_spec i j); tauto.
Qed.
Ltac kept :=
  repeat match goal with
  | |- others_kept _ _ _ (set_val _ _ _ _) => eapply kept_trans; [|apply kept_val]
  | |- others_kept _ _ _ (set_nx _ _ _ _) => eapply kept_trans; [|apply kept_nx]
  | |- others_kept _ _ _ (set_pv _ _ _ _) => eapply kept_trans; [|apply kept_pv]
  | |- others_kept _ _ _ (set_hd _ _ _) => eapply kept_trans; [|apply kept_hd]
  | |- others_kept _ _ _ (match ?c with _ => _ end) => destruct c
  end; try (apply kept_like; assumption); try apply kept_refl.
Ltac steps := unfold set_prev_next, set_next_prev;
  repeat match goal with
  | |- match ?c with Some _ => _ | None => None end = Some _ -> _ => destruct c eqn:?; [|discriminate]
  | H : match ?c with Some _ => _ | None => None end = Some _ |- _ => destruct c eqn:?; [|discriminate H]
  | H : (if ?c then _ else _) = Some _ |- _ => destruct c eqn:?
  | H : match ?c with Some _ => _ | None => _ end = Some _ |- _ => destruct c eqn:?
  | H : Some _ = Some _ |- _ => injection H as H; subst
  | H : None = Some _ |- _ => discriminate H
  end.
Lemma lo_down_kept nb o j fuel h h' : lo_down nb o j fuel h = Some h' -> others_kept j o h h'.
Proof.
  unfold lo_down. destruct (pv h j (o, false)).
  2:{ intros H. injection H as <-. kept. }
  destruct (walk_lo_down nb o j fuel (Some (o, false)) h) as [[t h1]|] eqn:W; [|discriminate]. apply walk_lo_down_like in W.
  intros H. cbv zeta in H. unfold set_prev_next, set_next_prev in H. steps; kept.
Qed.
Lemma hi_down_kept nb o j fuel h h' : hi_down nb o j fuel h = Some h' -> others_kept j o h h'.
Proof.
  unfold hi_down. destruct (walk_hi_down nb o j fuel (Some (o, true)) h) as [[t h1]|] eqn:W; [|discriminate]. apply walk_hi_down_like in W.
  intros H. cbv zeta in H. unfold set_prev_next, set_next_prev in H. steps; kept.
Qed.
Lemma hi_up_kept nb o j fuel h h' : hi_up nb o j fuel h = Some h' -> others_kept j o h h'.
Proof.
  unfold hi_up. destruct (nx h j (o, true)).
  2:{ intros H. injection H as <-. kept. }
  destruct (walk_hi_up nb o j fuel (o, true) h) as [[t h1]|] eqn:W; [|discriminate]. apply walk_hi_up_like in W.
  intros H. cbv zeta in H. unfold set_prev_next, set_next_prev in H. steps; kept.
Qed.
Lemma lo_up_kept nb o j fuel h h' : lo_up nb o j fuel h = Some h' -> others_kept j o h h'.
Proof.
  unfold lo_up. destruct (walk_lo_up nb o j fuel (Some (o, false)) h) as [[t h1]|] eqn:W; [|discriminate]. apply walk_lo_up_like in W.
  intros H. cbv zeta in H. unfold set_prev_next, set_next_prev in H. steps; kept.
Qed.
Lemma axis_kept nb o j fuel h h' : update_axis nb o j fuel h = Some h' -> others_kept j o h h'.
Proof.
  unfold update_axis. destruct (coord j (bmin nb) <? _).
  - destruct (lo_down nb o j fuel h) as [h1|] eqn:E; [|discriminate]. intros H.
    eapply kept_trans; [eapply lo_down_kept|eapply hi_down_kept]; eauto.
  - match goal with |- context [if ?c then _ else _] => destruct c end.
    + destruct (hi_up nb o j fuel h) as [h1|] eqn:E; [|discriminate]. intros H.
      eapply kept_trans; [eapply hi_up_kept|eapply lo_up_kept]; eauto.
    + intros H. injection H as <-. apply kept_refl.
Qed.
Lemma lo_down_high nb o j fuel h h' : (j < 3)%nat -> lo_down nb o j fuel h = Some h' -> high (hc h') j o = high (hc h) j o.
Proof.
  intros Lj. unfold lo_down. assert (G : forall h0, high (hc (set_val j (o, false) (coord j (bmin nb)) h0)) j o = high (hc h0) j o).
  { intros h0. cbn [set_val hc fst snd]. unfold high. rewrite set_box_eq. reflexivity. }
  destruct (pv h j (o, false)).
  2:{ intros H. injection H as <-. apply G. }
  destruct (walk_lo_down nb o j fuel (Some (o, false)) h) as [[t h1]|] eqn:W; [|discriminate]. apply walk_lo_down_like in W.
  destruct W as (_ & _ & _ & W). intros H. cbv zeta in H. unfold set_prev_next, set_next_prev in H.
  steps; rewrite G; cbn [set_nx set_pv set_hd hc]; rewrite W; auto.
Qed.
(** If on some axis the box grows at its lower end without receding at its upper end, the upper
    endpoint is linked to itself: the list of that axis is broken.  For any pointers whatever. *)
Theorem sap_update_grow_refuted : forall fuel nb o h h' i, heap_update fuel nb o h = Some h' ->
  same_box (hc h o) nb = false -> (i < 3)%nat ->
  coord i (bmin nb) < low (hc h) i o -> high (hc h) i o <= coord i (bmax nb) -> nx h' i (o, true) = Some (o, true).
Proof.
  intros fuel nb o h h' i H Hs Hi H1 H2. unfold heap_update in H. rewrite Hs in H.
  destruct (update_axis nb o 0 fuel h) as [h1|] eqn:E1; [|discriminate].
  destruct (update_axis nb o 1 fuel h1) as [h2|] eqn:E2; [|discriminate]. rename H into E3.
  pose proof (axis_kept _ _ _ _ _ _ E1) as K1. pose proof (axis_kept _ _ _ _ _ _ E2) as K2. pose proof (axis_kept _ _ _ _ _ _ E3) as K3.
  assert (G : forall g g', update_axis nb o i fuel g = Some g' -> low (hc g) i o = low (hc h) i o -> high (hc g) i o = high (hc h) i o ->
    nx g' i (o, true) = Some (o, true)).
  { clear E1 E2 E3 K1 K2 K3. intros g g' E L U. unfold update_axis in E. change (pval (hc g) i (o, false)) with (low (hc g) i o) in E.
    rewrite L in E. rewrite (proj2 (Z.ltb_lt _ _) H1) in E. destruct (lo_down nb o i fuel g) as [g1|] eqn:D; [|discriminate].
    apply lo_down_high in D; auto. unfold hi_down in E. destruct fuel as [|f]; [discriminate|]. cbn [walk_hi_down] in E.
    change (pval (hc g1) i (o, true)) with (high (hc g1) i o) in E. rewrite D, U in E.
    destruct (Z.ltb_spec (coord i (bmax nb)) (high (hc h) i o)); [lia|]. destruct (set_prev_next _ _ _ _) as [g2|]; [|discriminate].
    injection E as <-. cbn [set_val set_nx nx]. unfold upd at 1. rewrite Nat.eqb_refl, pt_refl. reflexivity. }
  destruct i as [|[|[|i]]]; [| | |lia].
  - rewrite (proj1 (K3 0%nat ltac:(lia))), (proj1 (K2 0%nat ltac:(lia))). apply (G h h1); auto.
  - rewrite (proj1 (K3 1%nat ltac:(lia))). destruct (K1 1%nat ltac:(lia)) as [_ K]. destruct (K ltac:(lia) ltac:(lia)). apply (G h1 h2); auto.
  - destruct (K1 2%nat ltac:(lia)) as [_ Ka]. destruct (Ka ltac:(lia) ltac:(lia)). destruct (K2 2%nat ltac:(lia)) as [_ Kb].
    destruct (Kb ltac:(lia) ltac:(lia)). apply (G h2 h'); congruence.
Qed.
Print Assumptions sap_update_grow_refuted.

(** If on some axis the lower end did not move, the upper end is not updated at all. *)
Theorem sap_update_fixed_low_refuted : forall fuel nb o h h' i, heap_update fuel nb o h = Some h' -> (i < 3)%nat ->
  low (hc h) i o = coord i (bmin nb) -> high (hc h') i o = high (hc h) i o.
Proof.
  intros fuel nb o h h' i H Hi H1. unfold heap_update in H. destruct (same_box (hc h o) nb) eqn:Hs; [injection H as <-; auto|].
  destruct (update_axis nb o 0 fuel h) as [h1|] eqn:E1; [|discriminate].
  destruct (update_axis nb o 1 fuel h1) as [h2|] eqn:E2; [|discriminate]. rename H into E3.
  pose proof (axis_kept _ _ _ _ _ _ E1) as K1. pose proof (axis_kept _ _ _ _ _ _ E2) as K2. pose proof (axis_kept _ _ _ _ _ _ E3) as K3.
  assert (G : forall g g', update_axis nb o i fuel g = Some g' -> low (hc g) i o = low (hc h) i o -> g' = g).
  { clear E1 E2 E3 K1 K2 K3. intros g g' E L. unfold update_axis in E. change (pval (hc g) i (o, false)) with (low (hc g) i o) in E.
    rewrite L, H1, Z.ltb_irrefl in E. congruence. }
  destruct i as [|[|[|i]]]; [| | |lia].
  - apply G in E1; auto. subst h1. destruct (K2 0%nat ltac:(lia)) as [_ Kb]. destruct (Kb ltac:(lia) ltac:(lia)).
    destruct (K3 0%nat ltac:(lia)) as [_ Kc]. destruct (Kc ltac:(lia) ltac:(lia)). congruence.
  - destruct (K1 1%nat ltac:(lia)) as [_ Ka]. destruct (Ka ltac:(lia) ltac:(lia)). apply G in E2; auto. subst h2.
    destruct (K3 1%nat ltac:(lia)) as [_ Kc]. destruct (Kc ltac:(lia) ltac:(lia)). congruence.
  - destruct (K1 2%nat ltac:(lia)) as [_ Ka]. destruct (Ka ltac:(lia) ltac:(lia)). destruct (K2 2%nat ltac:(lia)) as [_ Kb].
    destruct (Kb ltac:(lia) ltac:(lia)). apply G in E3; [|congruence]. subst h'. congruence.
Qed.
Print Assumptions sap_update_fixed_low_refuted.

(** If the box shrinks at its lower end and its upper end does not advance, the list of the axis
    becomes circular: the loop of updateVelist never ends and writes past the vector. *)
Lemma follow_loop h i e : nx h i e = Some e -> forall n, follow n h i (Some e) = Some e.
Proof. intros H. induction n as [|n IH]; cbn [follow]; auto. rewrite H. auto. Qed.
Lemma after_imp ops (P Q : sap -> (obj -> aabb) -> Prop) : (forall s box, P s box -> Q s box) -> after_run ops P -> after_run ops Q.
Proof. intros H. unfold after_run. destruct (p_run _ _ _) as [[s box]|]; auto. Qed.
Definition shrunk (h : option heap) : Prop :=
  match h with Some h' => hd_ h' 0%nat = Some (1%nat, false) /\ nx h' 0%nat (1%nat, false) = Some (1%nat, true) /\
                          nx h' 0%nat (1%nat, true) = Some (1%nat, true) | None => False end.
Theorem sap_update_shrink_refuted :
  after_run (moves [(1%nat, cubes 0 10); (2%nat, cubes 20 30)] ++ [PRegs [1%nat; 2%nat]])
    (fun s _ => match heap_update 10 (cubes 4 9) 1%nat (heap_of s) with
                | Some h => forall n, follow n h 0%nat (hd_ h 0%nat) <> None
                | None => False end).
Proof.
  apply (after_imp _ (fun s _ => shrunk (heap_update 10 (cubes 4 9) 1%nat (heap_of s)))); [|vm_compute; auto].
  intros s _. destruct (heap_update 10 (cubes 4 9) 1%nat (heap_of s)) as [h|]; auto.
  intros (G1 & G2 & G3). rewrite G1. intros [|n]; cbn [follow]; [discriminate|]. rewrite G2, (follow_loop _ _ _ G3). discriminate.
Qed.
Print Assumptions sap_update_shrink_refuted.

(** ** Non-vacuity *)

(** A history with bulk and single registrations that satisfies the hypotheses. *)
Example sap_example :
  let ops := moves [(1%nat, cubes 10 20); (2%nat, cubes 15 30); (3%nat, cubes 0 12); (4%nat, Box (V 12 50 50) (V 40 60 60))] ++
             [PRegs [1%nat; 2%nat; 4%nat]; PReg 3%nat; PSetup] in
  p_legal_history ops (fun _ => cubes 0 1) /\
  after_run ops (fun s box => calls (p_collide_self s) = [(1%nat, 2%nat); (1%nat, 3%nat)] /\
    calls (p_collide_obj box s 3%nat) = [(3%nat, 1%nat)] /\ p_size s = 4%nat).
Proof.
  split; [|vm_compute; auto]. split.
  - intros o. exists (V 0 0 0). vm_compute. repeat split; discriminate.
  - cbn. assert (N : forall l u, l <= u -> nonempty (cubes l u)).
    { intros l u H. exists (V l 0 0). unfold in_box; cbn. lia. }
    repeat split; try (apply N; lia); try (exists (V 12 50 50); unfold in_box; cbn; lia); try tauto;
      try (repeat constructor; cbn; intuition lia); intuition lia.
Qed.
Example sap_tame_example :
  let box0 := fun o : obj => cubes (100 - 10 * Z.of_nat o) (115 - 10 * Z.of_nat o) in
  tame_from (ps_init box0) [PReg 1%nat; PReg 2%nat; PReg 3%nat] /\
  match p_run sort_pt [PReg 1%nat; PReg 2%nat; PReg 3%nat] (p_init box0, box0) with
  | Some (s, _) => calls (p_collide_self s) = [(1%nat, 2%nat); (2%nat, 3%nat)] | None => False end.
Proof.
  split; [|vm_compute; auto]. cbn [tame_from tame ps_step ps_init app]. unfold tame_reg. cbn [ps_regs ps_box ps_known].
  repeat split; try reflexivity; cbn [In] in *;
    repeat match goal with H : _ \/ _ |- _ => destruct H as [<-|H] | H : False |- _ => destruct H end; vm_compute; try (intros X; discriminate X); auto.
Qed.
(** A translation is handled: on the same two boxes the update succeeds and the list ends. *)
Example sap_update_example :
  after_run (moves [(1%nat, cubes 0 10); (2%nat, cubes 20 30)] ++ [PRegs [1%nat; 2%nat]])
    (fun s _ => match heap_update 10 (cubes 15 25) 1%nat (heap_of s) with
                | Some h => follow 4 h 0%nat (hd_ h 0%nat) = None /\ follow 3 h 0%nat (hd_ h 0%nat) = Some (2%nat, true) /\ hp h = [(1%nat, 2%nat)]
                | None => False end).
Proof. vm_compute. auto. Qed.
