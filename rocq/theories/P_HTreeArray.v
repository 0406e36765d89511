(** C17: the array tree manager against the pointer tree manager. *)
From Coq Require Import ZArith List Bool Lia Permutation Arith.
From Verif Require Import AabbZ Broadphase QueryComb HTree HTreeRun DynTree HTreeArray P_HTree P_DynTree.
Import ListNotations.
Local Open Scope Z_scope.

Section Reach.
  Variables (e : env) (c : cfg) (fresh : list nat -> nat) (ops : list dop) (box0 : obj -> aabb)
    (m : aman) (box : obj -> aabb).
  Hypothesis He : env_ok e.
  Hypothesis Hf : forall l, ~ In (fresh l) l.
  Hypothesis Hc : forall h n, c_flat c h n = true.
  Hypothesis Hp : proper ops [].
  Hypothesis Ha : never_alone ops [].
  Hypothesis Hr : arun e c fresh ops box0 = Some (m, box).

  Lemma areach : ainv m (registered ops) (store e ops box0) /\ box = snd (fold_left (store_step e) ops ([], box0)).
  Proof using He Hf Hc Hp Ha Hr.
    eapply (arun_inv_gen e c fresh He Hf Hc); eauto. unfold ainv; cbn. repeat split; auto; constructor.
  Qed.
  Lemma areach_root : (a_n m = 0%nat /\ a_root m = None) \/
    (a_n m <> 0%nat /\ exists t, a_root m = Some t /\ wf t).
  Proof using He Hf Hc Hp Ha Hr.
    destruct areach as [(W & _ & N & _) _]. destruct (a_root m) as [t|]; cbn in *; auto.
    right. split; eauto. pose proof (leaves_nonempty t). destruct (leaves t); [congruence|].
    rewrite N. discriminate.
  Qed.
End Reach.

Lemma dreach e c ops box0 m box : env_ok e -> proper ops [] -> drun e c ops box0 = Some (m, box) ->
  pinv m (registered ops) (store e ops box0) /\ box = snd (fold_left (store_step e) ops ([], box0)).
Proof.
  intros He Hp Hr. eapply (prun_inv_gen e c He); eauto. exists []. cbn.
  split; [apply hempty_inv|]. repeat split; auto; constructor.
Qed.

(** C17: over any proper history in which no manager of exactly one object is asked to update a
    single object and in which setup() never finds the tree too deep, if the array manager's
    history runs (the array never has to grow under an insertion) then it holds exactly the
    specified (object, box) pairs, its table names for each object the leaf of that object, and
    getObjects, size and the queries are defined. *)
Theorem array_store : forall e c fresh ops box0 m box,
  env_ok e -> (forall l, ~ In (fresh l) l) -> (forall h n, c_flat c h n = true) ->
  proper ops [] -> never_alone ops [] -> arun e c fresh ops box0 = Some (m, box) ->
  Permutation (map (fun x => (leaf_data x, leaf_bv x)) (oleaves (a_root m))) (store e ops box0) /\
  (forall o id, In (o, id) (a_table m) <-> exists b, In (id, b, o) (oleaves (a_root m))) /\
  a_n m = length (registered ops) /\
  (exists l, a_get m = Some l /\ Permutation l (map Some (registered ops))) /\
  (a_collide_self m <> None) /\ (forall o, a_collide_obj m box o <> None).
Proof.
  intros e c fresh ops box0 m box He Hf Hc Hp Ha Hr.
  pose proof (areach_root _ _ _ _ _ _ _ He Hf Hc Hp Ha Hr) as RT.
  destruct (areach _ _ _ _ _ _ _ He Hf Hc Hp Ha Hr) as [(W & NI & N & PT & PS & PR & ND) _].
  assert (L : length (a_table m) = a_n m) by (rewrite (Permutation_length PT), map_length; auto).
  split; [exact PS|]. split; [|split; [|split]].
  - intros o id. split.
    + intros H. rewrite PT in H. apply in_map_iff in H as ([[i b] d] & E & Hx). unfold entry in E. injection E as E1 E2.
      cbv in E1, E2. subst d i. exists b. exact Hx.
    + intros (b & Hx). rewrite PT. apply (in_map entry) in Hx. exact Hx.
  - rewrite N, <- (Permutation_length PR), map_length. reflexivity.
  - unfold a_get. rewrite L, Nat.leb_refl, Nat.sub_diag. eexists. split; [reflexivity|].
    cbn. rewrite app_nil_r, PT, map_map. cbn. rewrite <- PR, map_map. reflexivity.
  - unfold a_collide_self, a_collide_obj, a_on. destruct RT as [[E1 E2]|[E1 (t & E2 & _)]].
    + rewrite E1. split; discriminate.
    + apply Nat.eqb_neq in E1. rewrite E1, E2. split; discriminate.
Qed.
Print Assumptions array_store.

(** C17: under the same conditions it answers collide(obj) and collide() like the pointer
    manager given the same history: the same pairs, each once, in an order of its own. *)
Theorem array_agrees : forall e c c' fresh ops box0 m box md boxd o Q,
  env_ok e -> (forall l, ~ In (fresh l) l) -> (forall h n, c_flat c h n = true) ->
  proper ops [] -> never_alone ops [] ->
  arun e c fresh ops box0 = Some (m, box) -> drun e c' ops box0 = Some (md, boxd) ->
  box = boxd /\
  (a_collide_obj m box o = Some Q -> replays Q /\ Permutation (calls Q) (calls (d_collide_obj md boxd o))) /\
  (a_collide_self m = Some Q -> replays Q /\ NoDup (calls Q) /\
     length (calls Q) = length (calls (d_collide_self md)) /\
     forall a b, In (a, b) (calls Q) ->
       In (a, b) (calls (d_collide_self md)) \/ In (b, a) (calls (d_collide_self md))).
Proof.
  intros e c c' fresh ops box0 m box md boxd o Q He Hf Hc Hp Ha Hr Hd.
  pose proof (areach_root _ _ _ _ _ _ _ He Hf Hc Hp Ha Hr) as RT.
  destruct (areach _ _ _ _ _ _ _ He Hf Hc Hp Ha Hr) as [AI Eb].
  pose proof (ainv_data _ _ _ AI) as NDA. destruct AI as (_ & _ & N & _ & PS & _).
  destruct (dreach _ _ _ _ _ _ He Hp Hd) as [(live & (_ & PL & NL & _) & _ & _ & _ & PSd) Ebd].
  pose proof (reach_root _ _ _ _ _ _ He Hp Hd) as RD.
  pose proof (reach_data _ _ _ _ _ _ He Hp Hd) as NDD.
  assert (HP : Permutation (map held (oleaves (a_root m))) (map held (oleaves (h_root (d_tree md))))).
  { rewrite PS, <- PSd. apply Permutation_map. symmetry. exact PL. }
  split; [congruence|]. subst boxd. rewrite <- Eb in *. clear Eb.
  assert (CR : forall l1 l2 y, Permutation (map held l1) (map held l2) ->
             Permutation (cross l1 [y]) (cross l2 [y])).
  { intros l1 l2 y P. set (F := fun l => map (fun p : obj * aabb => (fst p, leaf_data y))
                                 (filter (fun p => overlap (snd p) (leaf_bv y)) (map held l))).
    assert (EF : forall l, cross l [y] = F l).
    { induction l as [|x l IH]; auto. unfold F, cross in *. cbn.
      unfold hits at 1. cbn. destruct (overlap (leaf_bv x) (leaf_bv y)); cbn; rewrite <- IH; reflexivity. }
    rewrite !EF. unfold F. apply Permutation_map, filter_perm. exact P. }
  assert (HH : forall x, In x (oleaves (a_root m)) -> exists y, In y (oleaves (h_root (d_tree md))) /\
             leaf_data y = leaf_data x /\ leaf_bv y = leaf_bv x).
  { intros x Hx. apply (in_map held) in Hx. rewrite HP in Hx. apply in_map_iff in Hx as (y & Ey & Hy).
    injection Ey as E1 E2. eauto. }
  assert (HH' : forall x, In x (oleaves (h_root (d_tree md))) -> exists y, In y (oleaves (a_root m)) /\
             leaf_data y = leaf_data x /\ leaf_bv y = leaf_bv x).
  { intros x Hx. apply (in_map held) in Hx. rewrite <- HP in Hx. apply in_map_iff in Hx as (y & Ey & Hy).
    injection Ey as E1 E2. eauto. }
  split.
  - intros HQ.
    assert (LA : exists l, plays Q l /\ Permutation l (cross (oleaves (a_root m)) [as_leaf (box o) o])).
    { unfold a_collide_obj, a_on in HQ. destruct RT as [[E1 E2]|[E1 (t & E2 & W)]].
      - rewrite E1 in HQ. injection HQ as <-. rewrite E2. exists []. split; [apply plays_skip|reflexivity].
      - apply Nat.eqb_neq in E1. rewrite E1, E2 in HQ. injection HQ as <-. rewrite E2. apply tq_collide_ok; auto. }
    assert (LD : exists l, plays (d_collide_obj md box o) l /\
                 Permutation l (cross (oleaves (h_root (d_tree md))) [as_leaf (box o) o])).
    { unfold d_collide_obj, on_root. destruct RD as [[S E]|[S (t & E & W)]].
      - rewrite S, E. cbn. exists []. split; [apply plays_skip|reflexivity].
      - apply Nat.eqb_neq in S. rewrite S, E. apply tq_collide_ok; auto. }
    destruct LA as (l & P1 & P2). destruct LD as (l' & P1' & P2').
    destruct (plays_calls _ _ P1) as [-> R]. destruct (plays_calls _ _ P1') as [-> _]. split; auto.
    rewrite P2, P2'. apply CR. exact HP.
  - intros HQ.
    assert (LA : exists l, plays Q l /\ Permutation l (inner (oleaves (a_root m)))).
    { unfold a_collide_self, a_on in HQ. destruct RT as [[E1 E2]|[E1 (t & E2 & W)]].
      - rewrite E1 in HQ. injection HQ as <-. rewrite E2. exists []. split; [apply plays_skip|reflexivity].
      - apply Nat.eqb_neq in E1. rewrite E1, E2 in HQ. injection HQ as <-. rewrite E2. apply self_collide_ok; auto. }
    assert (LD : exists l, plays (d_collide_self md) l /\ Permutation l (inner (oleaves (h_root (d_tree md))))).
    { unfold d_collide_self, on_root. destruct RD as [[S E]|[S (t & E & W)]].
      - rewrite S, E. cbn. exists []. split; [apply plays_skip|reflexivity].
      - apply Nat.eqb_neq in S. rewrite S, E. apply self_collide_ok; auto. }
    destruct LA as (l & P1 & P2). destruct LD as (l' & P1' & P2').
    destruct (plays_calls _ _ P1) as [-> R]. destruct (plays_calls _ _ P1') as [-> _]. split; auto.
    destruct (inner_once _ NDA) as (NA & A1 & A2). destruct (inner_once _ NDD) as (N2 & D1 & D2).
    assert (S1 : forall a b, In (a, b) l -> In (a, b) l' \/ In (b, a) l').
    { intros a b H. rewrite P2 in H. destruct (A1 _ _ H) as [(Hne & x & y & Hx & Hy & <- & <- & Ho) _].
      rewrite P2'. apply D2. split; auto.
      destruct (HH _ Hx) as (x' & ? & ? & Ex). destruct (HH _ Hy) as (y' & ? & ? & Ey).
      exists x', y'. rewrite Ex, Ey. auto. }
    assert (S2 : forall a b, In (a, b) l' -> In (a, b) l \/ In (b, a) l).
    { intros a b H. rewrite P2' in H. destruct (D1 _ _ H) as [(Hne & x & y & Hx & Hy & <- & <- & Ho) _].
      rewrite P2. apply A2. split; auto.
      destruct (HH' _ Hx) as (x' & ? & ? & Ex). destruct (HH' _ Hy) as (y' & ? & ? & Ey).
      exists x', y'. rewrite Ex, Ey. auto. }
    assert (NA' : NoDup l) by (eapply Permutation_NoDup; [symmetry; exact P2|auto]).
    assert (N2' : NoDup l') by (eapply Permutation_NoDup; [symmetry; exact P2'|auto]).
    assert (As : forall a b, In (a, b) l -> ~ In (b, a) l).
    { intros a b H. rewrite P2 in *. apply A1; auto. }
    assert (As' : forall a b, In (a, b) l' -> ~ In (b, a) l').
    { intros a b H. rewrite P2' in *. apply D1; auto. }
    split; auto. split; auto.
    (* same number of pairs: sort each pair *)
    set (srt := fun p : obj * obj => if Nat.ltb (fst p) (snd p) then p else (snd p, fst p)).
    assert (Inj : forall k, (forall a b, In (a, b) k -> ~ In (b, a) k) -> NoDup k -> NoDup (map srt k)).
    { intros k As0 Nk. apply NoDup_map_inj; auto. intros [a b] [a' b'] H H' E. unfold srt in E; cbn [fst snd] in E.
      destruct (Nat.ltb a b), (Nat.ltb a' b'); inversion E; subst; auto; exfalso; exact (As0 _ _ H H'). }
    assert (Sub : forall k k', (forall a b, In (a, b) k -> In (a, b) k' \/ In (b, a) k') ->
              (forall a b, In (a, b) k -> ~ In (b, a) k) -> incl (map srt k) (map srt k')).
    { intros k k' S0 As0 p Hp0. apply in_map_iff in Hp0 as ([a b] & <- & H). apply in_map_iff.
      destruct (S0 _ _ H) as [H'|H']; [exists (a, b); auto|]. exists (b, a). split; auto.
      unfold srt; cbn [fst snd]. destruct (Nat.ltb_spec b a), (Nat.ltb_spec a b); auto; try lia.
      exfalso. assert (a = b) by lia. subst. eapply As0; eauto. }
    apply Nat.le_antisymm; rewrite <- (map_length srt l), <- (map_length srt l');
      apply NoDup_incl_length; auto.
Qed.
Print Assumptions array_agrees.

(** C17 fails without the first condition: updating the only object of the manager to a box its
    leaf does not contain removes it from the tree for good, while the manager still claims to
    hold it; the next query reads outside the node array. *)
Theorem array_lone_update_refuted : forall e c fresh box0 o b,
  e_equal e (box0 o) b = false -> contain (box0 o) b = false ->
  exists m box, arun e c fresh [DReg o; DMove o b; DUpdateObj o] box0 = Some (m, box) /\
    a_root m = None /\ a_n m = 1%nat /\ a_get m = Some [Some o] /\
    a_collide_self m = None /\ (forall x, a_collide_obj m box x = None).
Proof.
  intros e c fresh box0 o b He Hc. unfold arun. cbn [opt_fold astep option_map].
  unfold a_register. cbn [a_root aman_new a_table a_n a_opath a_cap a_setup map app oids oleaves insert_leaf].
  set (id := fresh []). cbn [option_map astep]. unfold a_update_one. cbn [a_table a_root assign erase filter].
  unfold lookup, assign, erase. cbn [find fst filter]. rewrite Nat.eqb_refl. cbn [option_map snd find_leaf].
  rewrite Nat.eqb_refl. assert (moved box0 o b o = b) as -> by (unfold moved; rewrite Nat.eqb_refl; auto).
  rewrite He. unfold a_update_node. cbn [find_leaf]. rewrite Nat.eqb_refl, Hc.
  unfold remove_leaf. cbn [find_leaf]. rewrite ?Nat.eqb_refl. cbn.
  rewrite ?Nat.eqb_refl. unfold a_setup_. cbn.
  destruct (c_flat c 0 1).
  - assert (B : forall n op, balance_inc e n op None = Some (None, op)).
    { intros n op. destruct n; reflexivity. }
    rewrite B. do 2 eexists. split; [reflexivity|]. cbn. auto 10.
  - do 2 eexists. split; [reflexivity|]. cbn. auto 10.
Qed.
Print Assumptions array_lone_update_refuted.

(** C17 fails for objects registered one by one: the ninth registration reads the freed old
    array, whatever the objects and boxes. *)
Lemma registers_some fresh box l m m' : opt_fold (a_register fresh box) l m = Some m' ->
  (a_root m = None -> a_n m = 0%nat) ->
  (a_n m' = a_n m + length l)%nat /\ a_cap m' = a_cap m /\
  (l <> [] -> a_root m' <> None) /\ (l = [] -> m' = m).
Proof.
  revert m; induction l as [|o l IH]; intros m H HN; cbn [opt_fold length] in *.
  - injection H as <-. repeat split; auto; congruence.
  - destruct (a_register fresh box o m) as [m1|] eqn:E; [|discriminate].
    assert (E1 : a_n m1 = S (a_n m) /\ a_cap m1 = a_cap m /\ a_root m1 <> None).
    { unfold a_register in E. destruct (a_root m).
      - destruct (Nat.ltb _ _); [|discriminate]. injection E as <-. cbn. repeat split; discriminate.
      - injection E as <-. cbn. repeat split; discriminate. }
    destruct E1 as (E1 & E2 & E3). apply IH in H; [|tauto]. destruct H as (A & B & C & D).
    repeat split; try congruence; try lia. intros _. destruct l; [rewrite D; auto|apply C; congruence].
Qed.
Lemma register_ops fresh e c l w : opt_fold (astep e c fresh) (map DReg l) w =
  option_map (fun m => (m, snd w)) (opt_fold (a_register fresh (snd w)) l (fst w)).
Proof.
  revert w; induction l as [|o l IH]; intros [m box]; cbn [map opt_fold astep fst snd]; auto.
  destruct (a_register fresh box o m); cbn; auto. rewrite IH. reflexivity.
Qed.
Theorem array_growth_refuted : forall e c fresh box0 l,
  (8 < length l)%nat -> arun e c fresh (map DReg l) box0 = None.
Proof.
  intros e c fresh box0 l HL. unfold arun. rewrite register_ops. cbn [fst snd].
  destruct (opt_fold _ l aman_new) as [m|] eqn:E; auto. exfalso.
  assert (Hl : exists l1 o l2, l = l1 ++ o :: l2 /\ length l1 = 8%nat).
  { exists (firstn 8 l). assert (HS : length (skipn 8 l) <> 0%nat) by (rewrite skipn_length; lia).
    destruct (skipn 8 l) as [|o l2] eqn:Es; [cbn in HS; lia|]. exists o, l2. split.
    - rewrite <- Es. symmetry. apply firstn_skipn.
    - rewrite firstn_length. lia. }
  destruct Hl as (l1 & o & l2 & -> & HL1).
  assert (SP : forall k1 k2 m0, opt_fold (a_register fresh box0) (k1 ++ k2) m0 =
     match opt_fold (a_register fresh box0) k1 m0 with Some m1 => opt_fold (a_register fresh box0) k2 m1 | None => None end).
  { induction k1 as [|x k1 IH]; intros k2 m0; cbn [opt_fold app]; auto. destruct (a_register fresh box0 x m0); auto. }
  rewrite SP in E. destruct (opt_fold _ l1 aman_new) as [m1|] eqn:E1; [|discriminate].
  apply registers_some in E1 as (A & B & C & D); [|reflexivity]. cbn in A, B. rewrite HL1 in A.
  assert (R : a_root m1 <> None) by (apply C; destruct l1; [discriminate|congruence]).
  cbn [opt_fold] in E. unfold a_register in E. rewrite A, B in E. destruct (a_root m1); [|congruence].
  discriminate E.
Qed.
Print Assumptions array_growth_refuted.

(** The first registration after a bulk registration is undefined too: the array is sized to fit
    exactly. *)
Theorem array_bulk_growth_refuted : forall e c fresh box0 l o,
  l <> [] -> arun e c fresh [DRegs l; DReg o] box0 = None.
Proof.
  intros e c fresh box0 l o Hl. unfold arun. cbn [opt_fold astep].
  unfold a_registers. destruct l as [|x l]; [congruence|].
  cbn [Nat.ltb Nat.leb a_n aman_new]. destruct (init_tree e _ _) as [t|]; auto.
  cbn [option_map opt_fold astep]. unfold a_register. cbn [a_root a_n a_cap].
  rewrite Nat.ltb_irrefl. reflexivity.
Qed.
Print Assumptions array_bulk_growth_refuted.

(** C17 fails without the second condition: when setup() finds the tree too deep it rebuilds it
    top-down, which renumbers the leaves behind the manager's back.  Twenty objects, moved to
    positions growing geometrically and updated in one call, leave a chain of height 19, beyond
    log2(20) + max_tree_nonbalanced_level (= 10); unregistering object 0 then throws object 19
    out of the tree and leaves object 0 in it. *)
Definition deep_env : env := {|
  e_equal := fun a b => contain a b && contain b a;
  e_nth := fun _ _ l => l; e_code := fun _ _ => 0%N; e_sort := fun _ l => l;
  e_max := 10 ^ 30; e_bu := 2; e_level := 0; e_look := -1 |}.
Lemma deep_env_ok : env_ok deep_env.
Proof. split; intros; apply Permutation_refl. Qed.
Definition deep_cfg : cfg :=
  {| c_level := 0; c_pass := 10; c_flat := fun h n => Nat.ltb h (Nat.log2 n + 10) |}.
Definition above (l : list nat) : nat := S (fold_right Nat.max 0%nat l).
Lemma above_fresh l : ~ In (above l) l.
Proof.
  intros H. assert (forall x, In x l -> (x <= fold_right Nat.max 0 l)%nat).
  { clear. induction l; cbn; [tauto|]. intros x [->|H]; [lia|]. specialize (IHl x H). lia. }
  specialize (H0 _ H). unfold above in H0. lia.
Qed.
Definition deep_objs : list obj := seq 0 20.
Definition deep_ops : list dop :=
  DRegs deep_objs :: map (fun o => DMove o (cube (1000 + 4 ^ Z.of_nat (19 - o)))) deep_objs
    ++ [DUpdateObjs (rev deep_objs)].
Theorem array_stale_table_refuted : exists ops m box m' box',
  env_ok deep_env /\ proper (ops ++ [DUnreg 0%nat]) [] /\ never_alone (ops ++ [DUnreg 0%nat]) [] /\
  arun deep_env deep_cfg above ops (fun o => cube (10 * Z.of_nat o)) = Some (m, box) /\
  In (0%nat, 0%nat) (a_table m) /\ ~ (exists b, In (0%nat, b, 0%nat) (oleaves (a_root m))) /\
  astep deep_env deep_cfg above (DUnreg 0%nat) (m, box) = Some (m', box') /\
  In 0%nat (map leaf_data (oleaves (a_root m'))) /\ ~ In 19%nat (map leaf_data (oleaves (a_root m'))).
Proof.
  exists deep_ops.
  destruct (arun deep_env deep_cfg above deep_ops (fun o => cube (10 * Z.of_nat o))) as [[m box]|] eqn:E;
    [|vm_compute in E; discriminate].
  assert (exists m' box', astep deep_env deep_cfg above (DUnreg 0%nat) (m, box) = Some (m', box') /\
    In 0%nat (map leaf_data (oleaves (a_root m'))) /\ ~ In 19%nat (map leaf_data (oleaves (a_root m'))) /\
    In (0%nat, 0%nat) (a_table m) /\ forall x, In x (oleaves (a_root m)) -> leaf_id x = 0%nat -> leaf_data x = 19%nat)
    as (m' & box' & H1 & H2 & H3 & H4 & H5).
  { vm_compute in E. injection E as <- <-. do 2 eexists. split; [vm_compute; reflexivity|].
    split; [cbn; tauto|]. split; [cbn; intuition discriminate|]. split; [cbn; tauto|].
    intros x Hx. cbn in Hx. repeat (destruct Hx as [<-|Hx]; [cbn; intros; try discriminate; auto|]). destruct Hx. }
  exists m, box, m', box'. split; [apply deep_env_ok|].
  split; [vm_compute; repeat split; try (intuition congruence); repeat constructor; cbn; intuition congruence|].
  split; [vm_compute; repeat split; discriminate|]. split; auto. split; auto. split; auto.
  intros (b & Hb). specialize (H5 _ Hb eq_refl). discriminate H5.
Qed.
Print Assumptions array_stale_table_refuted.

(** A history to which the positive theorems apply, ending with two overlapping pairs. *)
Definition flat_cfg : cfg := {| c_level := 0; c_pass := 10; c_flat := fun _ _ => true |}.
Definition array_ops : list dop :=
  [DReg 1%nat; DReg 2%nat; DReg 3%nat; DMove 3%nat (cube 1); DUpdateObj 3%nat; DUnreg 1%nat; DReg 4%nat;
   DMove 4%nat (cube 3); DUpdate; DReg 5%nat; DSetup].
Example array_case : proper array_ops [] /\ never_alone array_ops [] /\
  exists m box Q, arun ex_env flat_cfg above array_ops (fun o => cube (4 * Z.of_nat o)) = Some (m, box) /\
    store ex_env array_ops (fun o => cube (4 * Z.of_nat o)) =
      [(5%nat, cube 20); (4%nat, cube 3); (3%nat, cube 1); (2%nat, cube 8)] /\
    a_collide_self m = Some Q /\ calls Q = [(4%nat, 3%nat)].
Proof.
  split; [cbn; intuition congruence|]. split; [cbn; intuition congruence|].
  do 3 eexists. split; [vm_compute; reflexivity|]. split; [vm_compute; reflexivity|].
  split; [reflexivity|]. vm_compute. reflexivity.
Qed.
