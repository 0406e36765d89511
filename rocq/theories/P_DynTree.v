(** C12-C16, and C05, C06 for DynamicAABBTreeCollisionManager. *)
From Coq Require Import ZArith List Bool Lia Permutation Arith.
From Verif Require Import AabbZ Broadphase QueryComb HTree HTreeRun DynTree P_HTree.
Import ListNotations.
Local Open Scope Z_scope.

(** The manager holds box [b] for object [o]. *)
Definition stored (m : dman) (o : obj) (b : aabb) : Prop :=
  exists id, In (id, b, o) (oleaves (h_root (d_tree m))).

(** AABB::equal holds only for boxes that need no update. *)
Definition exact_equal (e : env) : Prop := forall b c, e_equal e b c = true -> contain b c = true.

Section Reach.
  Variables (e : env) (c : cfg) (ops : list dop) (box0 : obj -> aabb) (m : dman) (box : obj -> aabb).
  Hypothesis He : env_ok e.
  Hypothesis Hp : proper ops [].
  Hypothesis Hr : drun e c ops box0 = Some (m, box).

  Lemma reach_live : exists live, hinv (d_tree m) (live, h_next (d_tree m)) /\
    Permutation (oleaves (h_root (d_tree m))) live /\
    Permutation (map leaf_data live) (registered ops) /\ NoDup (map leaf_data live) /\
    Permutation (d_table m) (map entry live) /\
    (forall x, In x live -> In (leaf_data x) (unsynced ops) \/ tracks e (leaf_bv x) (box (leaf_data x))).
  Proof using He Hp Hr.
    destruct (drun_inv e c ops box0 m box He Hp Hr) as [(live & HI & PR & NR & PT & TR) _].
    exists live. split; auto. split; [destruct HI as (_ & P & _); exact P|]. split; auto.
    split; [eapply Permutation_NoDup; [symmetry|]; eauto|]. auto.
  Qed.
  Lemma reach_data : NoDup (map leaf_data (oleaves (h_root (d_tree m)))).
  Proof using He Hp Hr.
    destruct reach_live as (live & _ & P & _ & ND & _).
    eapply Permutation_NoDup; [apply Permutation_map; symmetry; exact P|auto].
  Qed.
  Lemma reach_wf t : h_root (d_tree m) = Some t -> wf t.
  Proof using He Hp Hr. intros E. destruct reach_live as (live & (W & _) & _). rewrite E in W. exact W. Qed.
  Lemma reach_size : d_size m = length (oleaves (h_root (d_tree m))).
  Proof using He Hp Hr.
    destruct reach_live as (live & (_ & P & N & _) & _). unfold d_size. rewrite N. cbn in *.
    symmetry. apply Permutation_length; auto.
  Qed.
  Lemma reach_root : (d_size m = 0%nat /\ h_root (d_tree m) = None) \/
    (d_size m <> 0%nat /\ exists t, h_root (d_tree m) = Some t /\ wf t).
  Proof using He Hp Hr.
    pose proof reach_size as S. destruct (h_root (d_tree m)) as [t|] eqn:E; [right|left]; cbn in S; auto.
    split; [|eauto using reach_wf]. pose proof (leaves_nonempty t). destruct (leaves t); [congruence|].
    rewrite S; discriminate.
  Qed.
  Lemma reach_stored a : In a (registered ops) <-> exists b, stored m a b.
  Proof using He Hp Hr.
    destruct reach_live as (live & _ & P & PR & _ & _). rewrite <- PR. split.
    - intros H. apply in_map_iff in H as ([[i b] d] & <- & Hx). exists b, i. rewrite P. exact Hx.
    - intros (b & i & Hx). rewrite P in Hx. apply (in_map leaf_data) in Hx. exact Hx.
  Qed.
  Lemma reach_stored_unique a b b' : stored m a b -> stored m a b' -> b = b'.
  Proof using He Hp Hr.
    intros (i & H) (i' & H'). pose proof (leaf_unique _ _ _ reach_data H H' eq_refl) as E. congruence.
  Qed.
  Lemma reach_tracks a b : stored m a b -> ~ In a (unsynced ops) -> tracks e b (box a).
  Proof using He Hp Hr.
    intros (i & H) Hn. destruct reach_live as (live & _ & P & _ & _ & _ & T). rewrite P in H.
    destruct (T _ H); auto. contradiction.
  Qed.
End Reach.

(** C06: the manager is a faithful container: over any proper history getObjects returns each
    registered object once and nothing else, and size and empty agree with it. *)
Theorem dyn_faithful_container : forall e c ops box0 m box, env_ok e -> proper ops [] ->
  drun e c ops box0 = Some (m, box) ->
  (exists l, d_get m = Some l /\ Permutation l (map Some (registered ops))) /\
  d_size m = length (registered ops) /\
  (d_empty m = true <-> registered ops = []).
Proof.
  intros e c ops box0 m box He Hp Hr.
  destruct (reach_live e c ops box0 m box He Hp Hr) as (live & HI & P & PR & ND & PT & _).
  assert (L1 : length (d_table m) = length (registered ops)).
  { apply Permutation_length in PT. apply Permutation_length in PR. rewrite map_length in *. lia. }
  assert (L2 : h_n (d_tree m) = length (registered ops)).
  { destruct HI as (_ & _ & N & _). cbn in N. apply Permutation_length in PR. rewrite map_length in PR. lia. }
  split; [|split]; auto.
  - unfold d_get. rewrite L1, L2, Nat.leb_refl, Nat.sub_diag. eexists. split; [reflexivity|].
    cbn. rewrite app_nil_r, PT, map_map. cbn. rewrite <- PR, map_map. reflexivity.
  - unfold d_empty. apply Permutation_length in P. apply Permutation_length in PR. rewrite map_length in PR.
    destruct (h_root (d_tree m)) as [t|]; cbn in P.
    + split; [discriminate|]. intros E. rewrite E in PR. pose proof (leaves_nonempty t).
      destruct (leaves t); [congruence|]. cbn in *. lia.
    + split; auto. intros _. destruct (registered ops); auto. cbn in *. lia.
Qed.
Print Assumptions dyn_faithful_container.

(** Without "no object registered twice", C06 fails: getObjects then contains null pointers. *)
Theorem dyn_double_register_refuted : exists e c ops box0 m box,
  env_ok e /\ drun e c ops box0 = Some (m, box) /\ ops = [DReg 7%nat; DReg 7%nat] /\
  d_size m = 2%nat /\ d_get m = Some [Some 7%nat; None].
Proof.
  exists ex_env, {| c_level := 0; c_pass := 10; c_flat := fun _ _ => true |},
    [DReg 7%nat; DReg 7%nat], (fun _ => cube 0).
  do 2 eexists. split; [apply ex_env_ok|]. split; [vm_compute; reflexivity|]. repeat split.
Qed.
Print Assumptions dyn_double_register_refuted.

(** Every proper history runs: no null or dangling node is ever followed and no rebuild loops,
    when all boxes stay inside some box of finite size and topdown level 1 is not selected. *)
Theorem dyn_runs : forall e c B ops box0, env_ok e -> bsize B < e_max e -> e_level e <> 1 ->
  proper ops [] -> (forall o, good_box B (box0 o)) ->
  (forall o b, In (DMove o b) ops -> good_box B b) ->
  exists m box, drun e c ops box0 = Some (m, box).
Proof.
  intros e c B ops box0 He HB HL Hp G G'.
  destruct (drun_some_gen e c B He HB HL ops dman_new box0 [] [] Hp) as ((m & box) & E); eauto.
  - exists []. cbn. split; [apply hempty_inv|]. repeat split; auto; try constructor; tauto.
  - intros x [].
  - apply Forall_forall. intros op Hop. destruct op; cbn; eauto.
Qed.
Print Assumptions dyn_runs.

(** C12: collide(obj) calls back (a, obj) exactly once for each registered object [a] whose
    stored box overlaps obj's AABB, and nothing else, whatever the callback. *)
Theorem dyn_obj_exact : forall e c ops box0 m box o, env_ok e -> proper ops [] ->
  drun e c ops box0 = Some (m, box) ->
  let Q := d_collide_obj m box o in
  replays Q /\
  ordered_once (calls Q)
    (fun a b => b = o /\ In a (registered ops) /\
                exists s, stored m a s /\ overlap s (box o) = true).
Proof.
  intros e c ops box0 m box o He Hp Hr Q.
  assert (L : exists l, plays Q l /\ Permutation l (cross (oleaves (h_root (d_tree m))) [as_leaf (box o) o])).
  { unfold Q, d_collide_obj, on_root.
    destruct (reach_root e c ops box0 m box He Hp Hr) as [[S E]|[S (t & E & W)]].
    - rewrite S, E. cbn. exists []. split; [apply plays_skip|reflexivity].
    - apply Nat.eqb_neq in S. rewrite S, E. apply tq_collide_ok; auto. }
  destruct L as (l & HP & P). destruct (plays_calls _ _ HP) as [-> R]. split; auto.
  eapply ordered_once_perm; eauto.
  pose proof (cross_once (oleaves (h_root (d_tree m))) [as_leaf (box o) o]
     (reach_data e c ops box0 m box He Hp Hr) ltac:(repeat constructor; intros [])) as [N H].
  split; auto. intros a b. rewrite H. split.
  - intros ([[i s] d] & y & Hx & [<-|[]] & <- & <- & Ho). cbn in *. split; auto.
    assert (ST : stored m d s) by (exists i; auto). split; [|exists s; auto].
    apply (reach_stored e c ops box0 m box He Hp Hr). eauto.
  - intros (-> & _ & s & (i & Hx) & Ho). exists (i, s, a), (as_leaf (box o) o). cbn; auto 7.
Qed.
Print Assumptions dyn_obj_exact.

(** C13: collide() calls back exactly once each unordered pair of registered objects whose
    stored boxes overlap. *)
Theorem dyn_self_exact : forall e c ops box0 m box, env_ok e -> proper ops [] ->
  drun e c ops box0 = Some (m, box) ->
  let Q := d_collide_self m in
  replays Q /\
  pairs_once (calls Q)
    (fun a b => a <> b /\ In a (registered ops) /\ In b (registered ops) /\
                exists s s', stored m a s /\ stored m b s' /\ overlap s s' = true).
Proof.
  intros e c ops box0 m box He Hp Hr Q.
  assert (L : exists l, plays Q l /\ Permutation l (inner (oleaves (h_root (d_tree m))))).
  { unfold Q, d_collide_self, on_root.
    destruct (reach_root e c ops box0 m box He Hp Hr) as [[S E]|[S (t & E & W)]].
    - rewrite S, E. cbn. exists []. split; [apply plays_skip|reflexivity].
    - apply Nat.eqb_neq in S. rewrite S, E. apply self_collide_ok; auto. }
  destruct L as (l & HP & P). destruct (plays_calls _ _ HP) as [-> R]. split; auto.
  eapply pairs_once_perm; eauto.
  destruct (inner_once _ (reach_data e c ops box0 m box He Hp Hr)) as (N & H1 & H2).
  split; auto. split.
  - intros a b H. destruct (H1 a b H) as [(Hne & [[i s] d] & [[i' s'] d'] & Hx & Hy & <- & <- & Ho) Hn].
    cbn in *. split; auto. split; auto.
    assert (stored m d s) by (exists i; auto). assert (stored m d' s') by (exists i'; auto).
    split; [|split; [|exists s, s'; auto]]; apply (reach_stored e c ops box0 m box He Hp Hr); eauto.
  - intros a b (Hne & _ & _ & s & s' & (i & Hx) & (i' & Hy) & Ho). apply H2. split; auto.
    exists (i, s, a), (i', s', b). cbn; auto.
Qed.
Print Assumptions dyn_self_exact.

(** C14: collide(other) calls back exactly once each pair (mine, other's) whose stored boxes
    overlap. *)
Theorem dyn_other_exact : forall e c ops box0 m box e2 c2 ops2 box02 m2 box2,
  env_ok e -> proper ops [] -> drun e c ops box0 = Some (m, box) ->
  env_ok e2 -> proper ops2 [] -> drun e2 c2 ops2 box02 = Some (m2, box2) ->
  let Q := d_collide_other m m2 in
  replays Q /\
  ordered_once (calls Q)
    (fun a b => In a (registered ops) /\ In b (registered ops2) /\
                exists s s', stored m a s /\ stored m2 b s' /\ overlap s s' = true).
Proof.
  intros e c ops box0 m box e2 c2 ops2 box02 m2 box2 He Hp Hr He2 Hp2 Hr2 Q.
  assert (L : exists l, plays Q l /\
     Permutation l (cross (oleaves (h_root (d_tree m))) (oleaves (h_root (d_tree m2))))).
  { unfold Q, d_collide_other, on_root.
    destruct (reach_root e c ops box0 m box He Hp Hr) as [[S E]|[S (t & E & W)]].
    - rewrite S, E. cbn. exists []. split; [apply plays_skip|reflexivity].
    - apply Nat.eqb_neq in S. rewrite S, E.
      destruct (reach_root e2 c2 ops2 box02 m2 box2 He2 Hp2 Hr2) as [[S2 E2]|[S2 (t2 & E2 & W2)]].
      + rewrite S2, E2. cbn. exists []. split; [apply plays_skip|].
        unfold cross. replace (list_prod (leaves t) []) with (@nil (leaf * leaf)); auto.
        induction (leaves t); cbn; auto.
      + apply Nat.eqb_neq in S2. rewrite S2, E2. apply tt_collide_ok; auto. }
  destruct L as (l & HP & P). destruct (plays_calls _ _ HP) as [-> R]. split; auto.
  eapply ordered_once_perm; eauto.
  pose proof (cross_once _ _ (reach_data e c ops box0 m box He Hp Hr)
                (reach_data e2 c2 ops2 box02 m2 box2 He2 Hp2 Hr2)) as [N H].
  split; auto. intros a b. rewrite H. split.
  - intros ([[i s] d] & [[i' s'] d'] & Hx & Hy & <- & <- & Ho). cbn in *.
    assert (stored m d s) by (exists i; auto). assert (stored m2 d' s') by (exists i'; auto).
    split; [apply (reach_stored e c ops box0 m box He Hp Hr); eauto|].
    split; [apply (reach_stored e2 c2 ops2 box02 m2 box2 He2 Hp2 Hr2); eauto|]. exists s, s'; auto.
  - intros (_ & _ & s & s' & (i & Hx) & (i' & Hy) & Ho). exists (i, s, a), (i', s', b). cbn; auto.
Qed.
Print Assumptions dyn_other_exact.

(** C14 needs two different managers: collide(this) is not treated as a self query, and calls
    back every object against itself. *)
Theorem dyn_other_itself_refuted : forall e c ops box0 m box a b,
  env_ok e -> proper ops [] -> drun e c ops box0 = Some (m, box) ->
  stored m a b -> nonempty b -> In (a, a) (calls (d_collide_other m m)).
Proof.
  intros e c ops box0 m box a b He Hp Hr Hs Hn.
  destruct (dyn_other_exact e c ops box0 m box e c ops box0 m box He Hp Hr He Hp Hr) as [_ [_ H]].
  assert (In a (registered ops)) by (apply (reach_stored e c ops box0 m box He Hp Hr); eauto).
  apply H. split; auto. split; auto. exists b, b. split; auto. split; auto.
  apply overlap_refl_nonempty; auto.
Qed.
Print Assumptions dyn_other_itself_refuted.

(** C16: the manager holds exactly one box for each registered object; if the object has been
    reported (registered or updated) since it last moved, that box contains its current AABB,
    or AABB::equal considers the two equal. *)
Theorem dyn_update_tracks : forall e c ops box0 m box a, env_ok e -> proper ops [] ->
  drun e c ops box0 = Some (m, box) -> In a (registered ops) ->
  box = where_ ops box0 /\
  exists b, stored m a b /\ (forall b', stored m a b' -> b' = b) /\
    (~ In a (unsynced ops) -> contain b (box a) = true \/ e_equal e b (box a) = true).
Proof.
  intros e c ops box0 m box a He Hp Hr Ha.
  split; [destruct (drun_inv e c ops box0 m box He Hp Hr); auto|].
  apply (reach_stored e c ops box0 m box He Hp Hr) in Ha as (b & Hb). exists b. split; auto.
  split; [|apply (reach_tracks e c ops box0 m box He Hp Hr); auto].
  intros b' Hb'. eapply (reach_stored_unique e c ops box0 m box He Hp Hr); eauto.
Qed.
Print Assumptions dyn_update_tracks.

(** C12/C13/C16: no pair of current AABBs that overlap is missed, once the objects concerned
    have been reported and AABB::equal is not lax. *)
Theorem dyn_obj_complete : forall e c ops box0 m box o a, env_ok e -> proper ops [] ->
  drun e c ops box0 = Some (m, box) -> exact_equal e ->
  In a (registered ops) -> ~ In a (unsynced ops) -> overlap (box a) (box o) = true ->
  In (a, o) (calls (d_collide_obj m box o)).
Proof.
  intros e c ops box0 m box o a He Hp Hr Hx Ha Hu Ho.
  destruct (dyn_obj_exact e c ops box0 m box o He Hp Hr) as [_ [_ H]]. apply H.
  destruct (dyn_update_tracks e c ops box0 m box a He Hp Hr Ha) as (_ & b & Hb & _ & Ht).
  split; auto. split; auto. exists b. split; auto.
  eapply overlap_mono; [| |exact Ho]; [|apply contain_refl]. destruct (Ht Hu); auto.
Qed.
Print Assumptions dyn_obj_complete.

Theorem dyn_self_complete : forall e c ops box0 m box a b, env_ok e -> proper ops [] ->
  drun e c ops box0 = Some (m, box) -> exact_equal e ->
  In a (registered ops) -> ~ In a (unsynced ops) ->
  In b (registered ops) -> ~ In b (unsynced ops) -> a <> b ->
  overlap (box a) (box b) = true ->
  In (a, b) (calls (d_collide_self m)) \/ In (b, a) (calls (d_collide_self m)).
Proof.
  intros e c ops box0 m box a b He Hp Hr Hx Ha Hua Hb Hub Hne Ho.
  destruct (dyn_self_exact e c ops box0 m box He Hp Hr) as [_ (_ & _ & H)]. apply H.
  destruct (dyn_update_tracks e c ops box0 m box a He Hp Hr Ha) as (_ & sa & Hsa & _ & Hta).
  destruct (dyn_update_tracks e c ops box0 m box b He Hp Hr Hb) as (_ & sb & Hsb & _ & Htb).
  split; auto. split; auto. split; auto. exists sa, sb. split; auto. split; auto.
  eapply overlap_mono; [| |exact Ho]; [destruct (Hta Hua)|destruct (Htb Hub)]; auto.
Qed.
Print Assumptions dyn_self_complete.

(** C15: distance(obj) ends with the minimum of [D] over the registered objects, for any
    distance [D] not below the distance of the stored boxes; and it calls back only registered
    objects. *)
Theorem dyn_distance_obj_min : forall e c ops box0 m box o adist M D, env_ok e -> proper ops [] ->
  drun e c ops box0 = Some (m, box) ->
  dist_mono adist -> (forall a b, adist a b = adist b a) ->
  (forall a s, stored m a s -> adist s (box o) <= D a o) ->
  let Q := d_distance_obj adist m box o in
  let P := fun a b => In a (registered ops) /\ b = o in
  finds_min Q M P D /\ dsound Q P.
Proof.
  intros e c ops box0 m box o adist M D He Hp Hr Hm Hs HD Q P.
  assert (EP : forall a b, pairs_of (oleaves (h_root (d_tree m))) [as_leaf (box o) o] a b <-> P a b).
  { intros a b. unfold P. rewrite (reach_stored e c ops box0 m box He Hp Hr). split.
    - intros ([[i s] d] & y & Hx & [<-|[]] & <- & <-). cbn. split; auto. exists s, i. auto.
    - intros [(s & i & Hx) ->]. exists (i, s, a), (as_leaf (box o) o). cbn; auto. }
  unfold Q, d_distance_obj, don_root.
  destruct (reach_root e c ops box0 m box He Hp Hr) as [[S E]|[S (t & E & W)]].
  - rewrite S, E in *. cbn. split; [|apply dsound_skip].
    apply covers_finds_min. intros floor. apply covers_skip. intros a b H.
    apply EP in H as (x & _ & [] & _).
  - apply Nat.eqb_neq in S. rewrite S, E in *. cbn [oleaves] in EP. split.
    + apply covers_finds_min. intros floor. eapply covers_ext; [exact EP|].
      apply tq_distance_covers; auto. intros [[i s] d] y Hx [<-|[]]. cbn. apply HD.
      exists i. rewrite E. exact Hx.
    + eapply dsound_imp; [|apply tq_distance_sound]. intros a b H. apply EP; auto.
Qed.
Print Assumptions dyn_distance_obj_min.

Theorem dyn_distance_self_min : forall e c ops box0 m box adist M D, env_ok e -> proper ops [] ->
  drun e c ops box0 = Some (m, box) ->
  dist_mono adist -> (forall a b, adist a b = adist b a) -> (forall a b, D a b = D b a) ->
  (forall a b s s', a <> b -> stored m a s -> stored m b s' -> adist s s' <= D a b) ->
  let Q := d_distance_self adist m in
  let P := fun a b => In a (registered ops) /\ In b (registered ops) /\ a <> b in
  finds_min Q M P D /\ dsound Q P.
Proof.
  intros e c ops box0 m box adist M D He Hp Hr Hm Hs HDs HD Q P.
  pose proof (reach_data e c ops box0 m box He Hp Hr) as ND.
  assert (EP : forall a b, P a b -> before (oleaves (h_root (d_tree m))) a b \/
                                    before (oleaves (h_root (d_tree m))) b a).
  { intros a b (Ha & Hb & Hne). apply (reach_stored e c ops box0 m box He Hp Hr) in Ha as (s & i & Hx).
    apply (reach_stored e c ops box0 m box He Hp Hr) in Hb as (s' & i' & Hy).
    destruct (within_total _ _ _ Hx Hy) as [H|H]; [congruence|left|right];
      [exists (i, s, a), (i', s', b)|exists (i', s', b), (i, s, a)]; auto. }
  assert (PE : forall a b, before (oleaves (h_root (d_tree m))) a b -> P a b).
  { intros a b ([[i s] d] & [[i' s'] d'] & H & <- & <-). cbn.
    destruct (in_within _ _ _ H) as [Hx Hy]. destruct (within_asym _ _ _ (NoDup_of_map _ _ ND) H) as [Hne _].
    split; [apply (reach_stored e c ops box0 m box He Hp Hr); exists s, i; auto|].
    split; [apply (reach_stored e c ops box0 m box He Hp Hr); exists s', i'; auto|].
    intros E. apply Hne. apply (leaf_unique _ _ _ ND Hx Hy E). }
  unfold Q, d_distance_self, don_root.
  destruct (reach_root e c ops box0 m box He Hp Hr) as [[S E]|[S (t & E & W)]].
  - rewrite S, E in *. cbn. split; [|apply dsound_skip].
    apply covers_finds_min. intros floor. apply covers_skip. intros a b H.
    destruct (EP a b H) as [(x & y & [] & _)|(x & y & [] & _)].
  - apply Nat.eqb_neq in S. rewrite S, E in *. cbn [oleaves] in *. split.
    + eapply covers_finds_min_sym; [auto|exact EP|exact PE|]. intros floor.
      apply self_distance_covers; auto. intros [[i s] d] [[i' s'] d'] H. cbn.
      destruct (in_within _ _ _ H) as [Hx Hy].
      apply HD; [|exists i; rewrite E; auto|exists i'; rewrite E; auto].
      destruct (PE d d') as (_ & _ & Hne); auto. exists (i, s, d), (i', s', d'). auto.
    + eapply dsound_imp; [exact PE|apply self_distance_sound].
Qed.
Print Assumptions dyn_distance_self_min.

Theorem dyn_distance_other_min : forall e c ops box0 m box e2 c2 ops2 box02 m2 box2 adist M D,
  env_ok e -> proper ops [] -> drun e c ops box0 = Some (m, box) ->
  env_ok e2 -> proper ops2 [] -> drun e2 c2 ops2 box02 = Some (m2, box2) ->
  dist_mono adist -> (forall a b, adist a b = adist b a) ->
  (forall a b s s', stored m a s -> stored m2 b s' -> adist s s' <= D a b) ->
  let Q := d_distance_other adist m m2 in
  let P := fun a b => In a (registered ops) /\ In b (registered ops2) in
  finds_min Q M P D /\ dsound Q P.
Proof.
  intros e c ops box0 m box e2 c2 ops2 box02 m2 box2 adist M D He Hp Hr He2 Hp2 Hr2 Hm Hs HD Q P.
  assert (EP : forall a b, pairs_of (oleaves (h_root (d_tree m))) (oleaves (h_root (d_tree m2))) a b <-> P a b).
  { intros a b. unfold P. rewrite (reach_stored e c ops box0 m box He Hp Hr).
    rewrite (reach_stored e2 c2 ops2 box02 m2 box2 He2 Hp2 Hr2). split.
    - intros ([[i s] d] & [[i' s'] d'] & Hx & Hy & <- & <-). cbn. split; [exists s, i|exists s', i']; auto.
    - intros [(s & i & Hx) (s' & i' & Hy)]. exists (i, s, a), (i', s', b). cbn; auto. }
  assert (Z : (forall a b, ~ P a b) -> finds_min dskip M P D /\ dsound dskip P).
  { intros HN. split; [|apply dsound_skip]. apply covers_finds_min. intros floor. apply covers_skip; auto. }
  unfold Q, d_distance_other, don_root.
  destruct (reach_root e c ops box0 m box He Hp Hr) as [[S E]|[S (t & E & W)]].
  - rewrite S, E in *. cbn. apply Z. intros a b H. apply EP in H as (x & y & [] & _).
  - apply Nat.eqb_neq in S. rewrite S, E in *.
    destruct (reach_root e2 c2 ops2 box02 m2 box2 He2 Hp2 Hr2) as [[S2 E2]|[S2 (t2 & E2 & W2)]].
    + rewrite S2, E2 in *. cbn. apply Z. intros a b H. apply EP in H as (x & y & _ & [] & _).
    + apply Nat.eqb_neq in S2. rewrite S2, E2 in *. cbn [oleaves] in EP. split.
      * apply covers_finds_min. intros floor. eapply covers_ext; [exact EP|].
        apply tt_distance_covers; auto. intros [[i s] d] [[i' s'] d'] Hx Hy. cbn.
        apply HD; [exists i; rewrite E|exists i'; rewrite E2]; auto.
      * eapply dsound_imp; [|apply tt_distance_sound]. intros a b H. apply EP; auto.
Qed.
Print Assumptions dyn_distance_other_min.

(** C15 in terms of current AABBs: once everything has been reported, the minimum is found for
    every distance not below the distance of the current AABBs. *)
Theorem dyn_distance_current : forall e c ops box0 m box o adist M D, env_ok e -> proper ops [] ->
  drun e c ops box0 = Some (m, box) -> exact_equal e -> unsynced ops = [] ->
  dist_mono adist -> (forall a b, adist a b = adist b a) ->
  (forall a b, adist (box a) (box b) <= D a b) -> (forall a b, D a b = D b a) ->
  finds_min (d_distance_obj adist m box o) M (fun a b => In a (registered ops) /\ b = o) D /\
  finds_min (d_distance_self adist m) M
    (fun a b => In a (registered ops) /\ In b (registered ops) /\ a <> b) D.
Proof.
  intros e c ops box0 m box o adist M D He Hp Hr Hx Hu Hm Hs HD HDs.
  assert (C : forall a s, stored m a s -> contain s (box a) = true).
  { intros a s H. destruct (reach_tracks e c ops box0 m box He Hp Hr a s H); auto. rewrite Hu; auto. }
  split.
  - apply (dyn_distance_obj_min e c ops box0 m box o adist M D); auto. intros a s H.
    specialize (HD a o). pose proof (Hm _ _ _ _ (C a s H) (contain_refl (box o))). lia.
  - apply (dyn_distance_self_min e c ops box0 m box adist M D); auto. intros a b s s' _ H H'.
    specialize (HD a b). pose proof (Hm _ _ _ _ (C a s H) (C b s' H')). lia.
Qed.
Print Assumptions dyn_distance_current.

(** C05: the distance queries stop at the first callback that answers true (for the collision
    queries this is [stop_is_final] applied to [replays]). *)
Theorem dyn_distance_stop_is_final : forall adist m m2 box o,
  dstops (d_distance_obj adist m box o) /\ dstops (d_distance_self adist m) /\
  dstops (d_distance_other adist m m2).
Proof.
  intros adist m m2 box o.
  assert (R : forall m f, (forall t, dstops (f t)) -> dstops (don_root m f)).
  { intros m0 f H. unfold don_root. destruct (Nat.eqb _ _); [apply dstops_skip|].
    destruct (h_root _); [auto|apply dstops_skip]. }
  split; [|split]; apply R; intros t; [apply tq_distance_stops|apply self_distance_stops|].
  apply R. intros t2. apply tt_distance_stops.
Qed.
Print Assumptions dyn_distance_stop_is_final.

(** A monotone symmetric box distance exists: the squared Euclidean one. *)
Definition gap (lo1 hi1 lo2 hi2 : Z) : Z := Z.max 0 (Z.max (lo2 - hi1) (lo1 - hi2)).
Definition sqdist (a b : aabb) : Z :=
  let g x := gap (x (bmin a)) (x (bmax a)) (x (bmin b)) (x (bmax b)) in
  g vx * g vx + g vy * g vy + g vz * g vz.
Lemma sqdist_mono : dist_mono sqdist /\ (forall a b, sqdist a b = sqdist b a).
Proof.
  split.
  - intros A B a b HA HB. apply contain_ineq in HA. apply contain_ineq in HB. unfold sqdist.
    assert (Sq : forall x y, 0 <= x <= y -> x * x <= y * y) by (intros; nia).
    pose proof (Sq (gap (vx (bmin A)) (vx (bmax A)) (vx (bmin B)) (vx (bmax B)))
      (gap (vx (bmin a)) (vx (bmax a)) (vx (bmin b)) (vx (bmax b))) ltac:(unfold gap; lia)).
    pose proof (Sq (gap (vy (bmin A)) (vy (bmax A)) (vy (bmin B)) (vy (bmax B)))
      (gap (vy (bmin a)) (vy (bmax a)) (vy (bmin b)) (vy (bmax b))) ltac:(unfold gap; lia)).
    pose proof (Sq (gap (vz (bmin A)) (vz (bmax A)) (vz (bmin B)) (vz (bmax B)))
      (gap (vz (bmin a)) (vz (bmax a)) (vz (bmin b)) (vz (bmax b))) ltac:(unfold gap; lia)).
    lia.
  - intros a b. unfold sqdist. assert (G : forall p q r s, gap p q r s = gap r s p q) by (unfold gap; lia).
    rewrite !(G _ _ (_ (bmin b))). reflexivity.
Qed.

(** A concrete history: eight cubes in a row, bulk and single registration, moves, updates. *)
Definition ex_cfg : cfg := {| c_level := 0; c_pass := 10; c_flat := fun h n => Nat.ltb h 10 |}.
Definition ex_where (o : obj) : aabb := cube (3 * Z.of_nat o).
Definition ex_hist : list dop :=
  [DRegs [0; 1; 2; 3; 4]%nat; DReg 5%nat; DReg 6%nat; DSetup; DUnreg 3%nat;
   DMove 0%nat (cube 16); DUpdateObj 0%nat; DMove 1%nat (cube 5); DMove 2%nat (cube 7); DUpdate;
   DReg 7%nat; DSetup].
Example dyn_case : proper ex_hist [] /\ unsynced ex_hist = [] /\
  registered ex_hist = [7; 6; 5; 0; 1; 2; 4]%nat /\
  exists m box, drun ex_env ex_cfg ex_hist ex_where = Some (m, box) /\
    d_size m = 7%nat /\
    calls (d_collide_self m) <> [] /\
    length (calls (d_collide_self m)) = 3%nat /\
    In (6, 0)%nat (calls (d_collide_obj m box 0%nat)) /\
    exists st, snd (fst (d_distance_obj sqdist m box 7%nat _
       (fun st d a b => (S st, Z.min d (sqdist (box a) (box b)), false)) st 1000000)) = 0.
Proof.
  split; [cbn; repeat split; try tauto; try (repeat constructor; cbn; intuition discriminate);
          intuition discriminate|].
  split; [reflexivity|]. split; [reflexivity|].
  do 2 eexists. split; [vm_compute; reflexivity|]. split; [reflexivity|].
  split; [vm_compute; discriminate|]. split; [vm_compute; reflexivity|].
  split; [vm_compute; tauto|]. exists 0%nat. vm_compute. reflexivity.
Qed.
