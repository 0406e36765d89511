(** * Properties of the mesh hierarchy builder (C25, C26, C27)

    All theorems are about histories of calls starting from a fresh model.
    [V] is the type of points, [BV] the bounding volume type, [fit], [plus] and
    [split] are arbitrary functions: memory safety and the recorded geometry do
    not depend on them.  The enclosure theorems assume only that [fit] encloses
    the points it is given and that [plus] encloses both operands. *)

From Coq Require Import List Arith Lia ZArith Bool Permutation.
From Verif Require Import AabbZ BvhBuild BvhModel.
Import ListNotations.
Local Open Scope nat_scope.

(** ** C25: the construction protocol *)

(** Histories of proper calls never touch memory outside their arrays, return
    the documented codes, and leave exactly the geometry that was put in. *)
Theorem bvh_protocol : forall V BV (fit : list V -> BV) plus split os,
  proper_history os spec0 ->
  exists m, brun fit plus split os fresh = Some (fst (arun os spec0), m) /\
    let a := snd (arun os spec0) in
    m_st m = a_st a /\ m_nv m = length (a_verts a) /\ m_nt m = length (a_tris a) /\
    (a_st a <> SEmpty -> firstn (m_nt m) (m_tris m) = map Some (a_tris a)) /\
    (a_st a = SProcessed \/ a_st a = SUpdated -> m_verts m = map Some (a_verts a)) /\
    (a_st a = SBegun -> firstn (m_nv m) (m_verts m) = map Some (a_verts a)) /\
    (a_st a = SUpdated -> m_prev m = Some (map Some (a_old a))).
Proof.
  intros V BV fit plus split os Hp.
  destruct (run_rel V BV fit plus split (fun _ _ => True) (fun _ _ _ => I) (fun _ _ _ _ => I) (fun _ _ _ _ => I)
              os fresh spec0) as (m & E & Hrel); [repeat split|apply rel_fresh|exact Hp|].
  exists m. split; [exact E|]. cbv zeta.
  assert (Hwf : a_wf V (snd (arun os spec0))).
  { clear. assert (H : a_wf V spec0) by (repeat split). revert H. generalize (@spec0 V).
    induction os as [|o os IH]; intros a H; [exact H|]. cbn [arun].
    pose proof (a_wf_step V o a H) as H'. destruct (astep o a) as [c a1]. cbn [snd] in H'.
    specialize (IH a1 H'). destruct (arun os a1). exact IH. }
  destruct (snd (arun os spec0)) as [st vs ts old new]. unfold a_wf in Hwf. cbn [a_st a_verts a_tris a_old a_new] in *.
  destruct Hrel as [Hst Hr]. cbn [a_st a_verts a_tris a_old a_new] in Hr, Hst.
  split; [exact Hst|].
  destruct st; unfold ready, mesh_ok in Hr; cbn [a_st a_verts a_tris a_old a_new] in Hr.
  - destruct Hwf as (_ & _ & Hw). destruct (Hw eq_refl) as [-> ->].
    repeat split; intros; try tauto; try discriminate; try (destruct H; discriminate).
  - repeat split; intros; try tauto; try discriminate; try (destruct H; discriminate).
  - repeat split; intros; try tauto; try discriminate.
  - repeat split; intros; try tauto; try discriminate; try (destruct H; discriminate).
  - repeat split; intros; try tauto; try discriminate.
  - repeat split; intros; try tauto; try discriminate; try (destruct H; discriminate).
Qed.
Print Assumptions bvh_protocol.

(** A triangle soup, for any initial sizes and any number of triangles: the
    model ends PROCESSED with the corners in order and triangle [i] referring to
    vertices [3i], [3i+1], [3i+2]. *)
Definition soup {V : Type} (l : list (V * V * V)) : list (bop V) :=
  map (fun t => match t with (p, q, r) => OTriangle p q r end) l.
Definition corners {V : Type} (l : list (V * V * V)) : list V :=
  flat_map (fun t => match t with (p, q, r) => [p; q; r] end) l.

Lemma soup_run : forall V (l : list (V * V * V)) vs ts,
  proper_history (soup l ++ [OEnd]) (Spec SBegun vs ts [] []) /\
  (vs ++ corners l <> [] ->
   arun (soup l ++ [OEnd]) (Spec SBegun vs ts [] []) =
   (repeat COk (length l + 1),
    Spec SProcessed (vs ++ corners l)
      (ts ++ map (fun i => (length vs + 3 * i, length vs + 3 * i + 1, length vs + 3 * i + 2)) (seq 0 (length l))) [] [])).
Proof.
  intros V l. induction l as [|[[p q] r] l IH]; intros vs ts.
  - cbn. split; [auto|]. rewrite !app_nil_r. intros H. destruct vs; [congruence|]. reflexivity.
  - destruct (IH (vs ++ [p; q; r]) (ts ++ [(length vs, length vs + 1, length vs + 2)])) as [IH1 IH2].
    assert (Estep : astep (OTriangle p q r) (Spec SBegun vs ts [] []) =
      (COk, Spec SBegun (vs ++ [p; q; r]) (ts ++ [(length vs, length vs + 1, length vs + 2)]) [] [])).
    { cbn [astep a_add a_st a_verts a_tris map shift]. rewrite !(Nat.add_comm _ (length vs)), Nat.add_0_r. reflexivity. }
    cbn [soup map app]. split.
    + split; [left; reflexivity|]. rewrite Estep. exact IH1.
    + intros _. cbn [arun]. rewrite Estep.
      change (map _ l ++ [OEnd]) with (soup l ++ [OEnd]) .
      rewrite IH2 by (cbn [corners flat_map]; destruct vs; discriminate).
      cbn [length repeat Nat.add corners flat_map]. f_equal. rewrite <- !app_assoc. cbn [app]. f_equal.
      f_equal. cbn [seq map]. f_equal; [f_equal; [f_equal|]; lia|].
      rewrite <- seq_shift, map_map. apply map_ext. intros i. rewrite app_length. cbn [length].
      f_equal; [f_equal|]; lia.
Qed.

Theorem bvh_soup : forall V BV (fit : list V -> BV) plus split t v (l : list (V * V * V)), l <> [] ->
  exists m, brun fit plus split (OBegin t v :: soup l ++ [OEnd]) fresh = Some (repeat COk (length l + 2), m) /\
    m_st m = SProcessed /\ m_verts m = map Some (corners l) /\
    m_nt m = length l /\
    firstn (length l) (m_tris m) = map (fun i => Some (3 * i, 3 * i + 1, 3 * i + 2)) (seq 0 (length l)).
Proof.
  intros V BV fit plus split t v l Hl.
  destruct (soup_run V l [] []) as [Hp Hr].
  destruct (bvh_protocol V BV fit plus split (OBegin t v :: soup l ++ [OEnd])) as (m & E & H).
  { split; [exact I|exact Hp]. }
  cbn [arun] in E, H. cbn [astep spec0 a_st] in E, H.
  rewrite Hr in E, H by (destruct l as [|[[p q] r] l]; [congruence|discriminate]).
  cbn [fst snd a_st a_verts a_tris] in E, H. cbn [app] in E, H.
  exists m. split; [rewrite E; f_equal; f_equal; replace (length l + 2) with (S (length l + 1)) by lia; reflexivity|].
  destruct H as (H1 & H2 & H3 & H4 & H5 & _). rewrite map_length, seq_length in H3.
  split; [exact H1|]. split; [apply H5; left; reflexivity|]. split; [exact H3|].
  rewrite <- H3 at 1. rewrite H4 by discriminate. rewrite map_map. reflexivity.
Qed.
Print Assumptions bvh_soup.

(** Calls in the wrong state that the code detects change nothing at all,
    whatever the contents of the model. *)
Theorem bvh_rejects : forall V BV (fit : list V -> BV) plus split m,
  (m_st m <> SBegun -> forall p, bstep fit plus split (OVertex p) m = Some (COutOfSequence, m)) /\
  (m_st m <> SBegun -> bstep fit plus split OEnd m = Some (COutOfSequence, m)) /\
  (m_st m = SProcessed -> forall p q r, bstep fit plus split (OTriangle p q r) m = Some (COutOfSequence, m)) /\
  (m_st m = SProcessed -> forall ps ts, bstep fit plus split (OSub ps) m = Some (COutOfSequence, m) /\
                                        bstep fit plus split (OSubTris ps ts) m = Some (COutOfSequence, m)) /\
  (m_st m <> SProcessed -> bstep fit plus split OBeginReplace m = Some (CEmptyPrevious, m)) /\
  (m_st m <> SProcessed -> m_st m <> SUpdated -> bstep fit plus split OBeginUpdate m = Some (CEmptyPrevious, m)) /\
  (m_st m <> SReplaceBegun -> forall ps r b, bstep fit plus split (OReplaceSub ps) m = Some (COutOfSequence, m) /\
                                        bstep fit plus split (OEndReplace r b) m = Some (COutOfSequence, m)) /\
  (m_st m <> SUpdateBegun -> forall ps r b, bstep fit plus split (OUpdateSub ps) m = Some (COutOfSequence, m) /\
                                        bstep fit plus split (OEndUpdate r b) m = Some (COutOfSequence, m)) /\
  (m_st m = SReplaceBegun -> m_upd m <> m_nv m -> forall r b,
     bstep fit plus split (OEndReplace r b) m = Some (CIncorrectData, m)) /\
  (m_st m = SUpdateBegun -> m_upd m <> m_nv m -> forall r b,
     bstep fit plus split (OEndUpdate r b) m = Some (CIncorrectData, m)).
Proof.
  intros V BV fit plus split m.
  cbn [bstep]. unfold add_vertex, end_model, add_triangle, add_sub, add_sub_tris, begin_replace, begin_update,
    replace_pts, update_pts, end_replace, end_update.
  destruct (m_st m); repeat split; try congruence; intros _ H; intros; apply Nat.eqb_neq in H; rewrite H; reflexivity.
Qed.
Print Assumptions bvh_rejects.

(** beginModel on a model that is not empty does change it: everything is
    dropped and an error is returned; the model is then EMPTY, so that a second
    beginModel is needed. *)
Theorem bvh_begin_clears : forall V BV (fit : list V -> BV) plus split m t v, m_st m <> SEmpty ->
  exists m', bstep fit plus split (OBegin t v) m = Some (COutOfSequence, m') /\
    m_st m' = SEmpty /\ m_nv m' = 0 /\ m_nt m' = 0 /\ m_nb m' = 0 /\ m_prev m' = None /\ m_bvs m' = [].
Proof.
  intros V BV fit plus split m t v H. cbn [bstep]. unfold begin_model.
  destruct (m_st m); try congruence; eexists; (split; [reflexivity|]); repeat split.
Qed.
Print Assumptions bvh_begin_clears.

(** *** The unconditional claim is false *)

(** addTriangle and addSubModel are only rejected in state PROCESSED.  On a
    freshly constructed model they write outside the array. *)
Theorem bvh_add_fresh_refuted : forall V BV (fit : list V -> BV) plus split (p q r : V) ps ts, ps <> [] ->
  bstep fit plus split (OTriangle p q r) fresh = None /\
  bstep fit plus split (OSub ps) fresh = None /\
  bstep fit plus split (OSubTris ps ts) fresh = None.
Proof.
  intros V BV fit plus split p q r ps ts Hne.
  assert (Hk : add_points V BV ps fresh = None).
  { unfold add_points, room_v. cbn [m_vcap m_nv fresh m_verts].
    destruct ps as [|p0 ps]; [congruence|].
    change (0 + 1 <=? 0 + length (p0 :: ps)) with true. cbn [obind].
    rewrite realloc_eq by (cbn; lia). cbn [obind]. unfold push_v. cbn [m_verts m_nv].
    rewrite awrite_none; [reflexivity| |cbn; lia].
    cbn [firstn app]. rewrite repeat_length. cbn [length]. lia. }
  split; [reflexivity|]. cbn [bstep]. unfold add_sub, add_sub_tris. cbn [m_st fresh].
  rewrite Hk. split; reflexivity.
Qed.
Print Assumptions bvh_add_fresh_refuted.

(** More generally they are executed in every state but PROCESSED. *)
Theorem bvh_add_accepted_refuted : forall V BV (fit : list V -> BV) plus split m p q r,
  m_st m <> SProcessed -> forall c m', bstep fit plus split (OTriangle p q r) m = Some (c, m') ->
  c = COk /\ m_nv m' = m_nv m + 3 /\ m_nt m' = m_nt m + 1.
Proof.
  intros V BV fit plus split m p q r Hst c m' E. cbn [bstep] in E. unfold add_triangle in E.
  assert (E' : obind (room_v V BV (m_vcap m <=? m_nv m + 2) (m_vcap m * 2 + 2) m) (fun m1 =>
      obind (push_v V BV [p; q; r] m1) (fun m2 =>
      obind (room_t V BV 1 m2) (fun m3 =>
      obind (push_t V BV [(m_nv m, m_nv m + 1, m_nv m + 2)] m3) (ok V BV)))) = Some (c, m'))
    by (destruct (m_st m); congruence). clear E.
  unfold room_v in E'.
  assert (R : exists m1, m_nv m1 = m_nv m /\ m_nt m1 = m_nt m /\
    obind (push_v V BV [p; q; r] m1) (fun m2 =>
      obind (room_t V BV 1 m2) (fun m3 =>
      obind (push_t V BV [(m_nv m, m_nv m + 1, m_nv m + 2)] m3) (ok V BV))) = Some (c, m')).
  { destruct (m_vcap m <=? m_nv m + 2); [|exists m; auto].
    destruct (realloc (m_verts m) (m_nv m) (m_vcap m * 2 + 2)); [|discriminate].
    eexists. split; [|split; [|exact E']]; reflexivity. }
  clear E'. destruct R as (m1 & N1 & T1 & E1). unfold push_v in E1.
  destruct (awrite (m_verts m1) (m_nv m1) [p; q; r]); [|discriminate]. cbn [obind] in E1.
  unfold room_t in E1. cbn [m_nt m_tcap m_tris m_nv m_st m_verts m_vcap m_prev m_bvs m_nb m_pcap m_prims m_upd] in E1.
  destruct (m_tcap m1 + 1 <=? m_nt m1 + 1).
  - destruct (realloc (m_tris m1) (m_nt m1) _); [|discriminate]. cbn [obind] in E1.
    unfold push_t in E1. cbn [m_tris m_nt] in E1. destruct (awrite _ _ _); [|discriminate].
    cbn in E1. injection E1 as <- <-. cbn. split; [reflexivity|lia].
  - cbn [obind] in E1. unfold push_t in E1. cbn [m_tris m_nt] in E1. destruct (awrite _ _ _); [|discriminate].
    cbn in E1. injection E1 as <- <-. cbn. split; [reflexivity|lia].
Qed.
Print Assumptions bvh_add_accepted_refuted.

(** replaceVertex and updateVertex (and the triangle and sub-model versions)
    have no bound: after all vertices have been written, one more writes past
    the array. *)
Theorem bvh_overrun_refuted : forall V BV (fit : list V -> BV) plus split os (ps : list V),
  proper_history os spec0 ->
  let a := snd (arun os spec0) in
  length (a_verts a) < length (a_new a) + length ps -> ps <> [] ->
  (a_st a = SReplaceBegun -> brun fit plus split (os ++ [OReplaceSub ps]) fresh = None) /\
  (a_st a = SUpdateBegun -> brun fit plus split (os ++ [OUpdateSub ps]) fresh = None).
Proof.
  intros V BV fit plus split os ps Hp a Hlen Hne.
  destruct (run_rel V BV fit plus split (fun _ _ => True) (fun _ _ _ => I) (fun _ _ _ _ => I) (fun _ _ _ _ => I)
              os fresh spec0) as (m & E & Hrel); [repeat split|apply rel_fresh|exact Hp|].
  fold a in Hrel.
  assert (Happ : forall os' m0 cs m1 o, brun fit plus split os' m0 = Some (cs, m1) -> bstep fit plus split o m1 = None ->
            brun fit plus split (os' ++ [o]) m0 = None).
  { induction os' as [|o' os' IH]; intros m0 cs m1 o H1 H2; cbn [app brun] in *.
    - injection H1 as <- <-. rewrite H2. reflexivity.
    - destruct (bstep fit plus split o' m0) as [[c' m']|]; [|reflexivity].
      destruct (brun fit plus split os' m') as [[cs' m2]|] eqn:E2; [|discriminate].
      injection H1 as <- <-. rewrite (IH _ _ _ _ E2 H2). reflexivity. }
  assert (Hl : 0 < length ps) by (destruct ps; [congruence|cbn; lia]).
  destruct Hrel as [Hst Hr]. split; intros Ha; rewrite Ha in Hr, Hst; eapply Happ; try exact E;
    cbn [bstep]; unfold replace_pts, update_pts; rewrite Hst; unfold overwrite.
  - destruct Hr as (_ & _ & Hu & Hle & Hv & _).
    rewrite awrite_none; [reflexivity| |exact Hl].
    rewrite Hv, map_length, app_length, skipn_length. lia.
  - destruct Hr as (_ & _ & Hu & Hle & Hv & _).
    rewrite awrite_none; [reflexivity| |exact Hl]. lia.
Qed.
Print Assumptions bvh_overrun_refuted.

(** Triangle indices are not checked: endModel on a sub-model whose triangle
    refers to a vertex that does not exist reads outside the array. *)
Theorem bvh_bad_index_refuted :
  brun (fun l : list nat => l) (@app nat) (fun _ _ _ _ => true)
    [OBegin 1 3; OSubTris [10; 11; 12] [(0, 1, 3)]; OEnd] fresh = None /\
  brun (fun l : list nat => l) (@app nat) (fun _ _ _ _ => true)
    [OBegin 1 3; OSubTris [10; 11; 12] [(0, 1, 2)]; OEnd] fresh <> None.
Proof. split; vm_compute; [reflexivity|discriminate]. Qed.
Print Assumptions bvh_bad_index_refuted.

(** A triangle added between beginReplaceModel and endReplaceModel is accepted;
    rebuilding then overruns the node array that endModel sized. *)
Theorem bvh_add_replacing_refuted :
  brun (fun l : list nat => l) (@app nat) (fun _ _ _ _ => true)
    [OBegin 1 3; OTriangle 1 2 3; OEnd; OBeginReplace; OTriangle 4 5 6;
     OReplaceTriangle 1 2 3; OReplaceTriangle 4 5 6; OEndReplace false true] fresh = None /\
  brun (fun l : list nat => l) (@app nat) (fun _ _ _ _ => true)
    [OBegin 1 3; OTriangle 1 2 3; OEnd; OBeginReplace; OTriangle 4 5 6;
     OReplaceTriangle 1 2 3; OReplaceTriangle 4 5 6] fresh <> None.
Proof. split; vm_compute; [reflexivity|discriminate]. Qed.
Print Assumptions bvh_add_replacing_refuted.

(** Triangles without vertices pass endModel: the return code is OK and the
    state PROCESSED although no hierarchy was built (buildTree's error code is
    dropped). *)
Theorem bvh_unknown_type_refuted :
  match brun (fun l : list nat => l) (@app nat) (fun _ _ _ _ => true)
    [OBegin 1 3; OSubTris [] [(0, 1, 2)]; OEnd] fresh with
  | Some (cs, m) => cs = [COk; COk; COk] /\ m_st m = SProcessed /\ m_nb m = 1 /\ m_bvs m = [None]
  | None => False
  end.
Proof. vm_compute. repeat split. Qed.
Print Assumptions bvh_unknown_type_refuted.

(** ** C26: the hierarchy after endModel *)

(** In state PROCESSED (after endModel, or after endReplaceModel with or without
    refitting) there is a binary tree stored in [bvs] with root 0: its nodes are
    exactly the [2n-1] cells, each primitive is in exactly one leaf, each node
    records the segment of [primitive_indices] holding the primitives below it
    and its bounding volume encloses all their points. *)
Theorem bvh_processed : forall V BV (fit : list V -> BV) plus split (inb : BV -> V -> Prop),
  (forall l x, In x l -> inb (fit l) x) ->
  (forall a b x, inb a x -> inb (plus a b) x) -> (forall a b x, inb b x -> inb (plus a b) x) ->
  forall os, proper_history os spec0 -> forall cs m, brun fit plus split os fresh = Some (cs, m) ->
  m_st m = SProcessed ->
  let a := snd (arun os spec0) in
  let n := prim_count (a_verts a) (a_tris a) in
  1 <= n /\ m_nb m = 2 * n - 1 /\ length (m_bvs m) = 2 * n - 1 /\
  Permutation (m_prims m) (seq 0 n) /\
  exists t, tid t = 0 /\ tleaves t = m_prims m /\ Permutation (tids t) (seq 0 (2 * n - 1)) /\
    good (fun bv p => forall x, In x (prim_points (a_verts a) (a_tris a) p) -> inb bv x) (m_bvs m) t 0.
Proof.
  intros V BV fit plus split inb H1 H2 H3 os Hp cs m E Hst a n.
  destruct (run_rel V BV fit plus split inb H1 H2 H3 os fresh spec0) as (m' & E' & Hrel);
    [repeat split|apply rel_fresh|exact Hp|].
  rewrite E in E'. injection E' as _ <-. fold a in Hrel. destruct Hrel as [Hs Hr]. rewrite Hst in Hs. rewrite <- Hs in Hr.
  destruct Hr as ((_ & Hne & _) & _ & _ & T1 & T2 & T3 & T4 & T5). fold n in T1, T2, T3, T4, T5.
  split; [apply prim_count_pos; exact Hne|]. auto.
Qed.
Print Assumptions bvh_processed.

(** The split loop puts the primitives the rule sends left before those it
    sends right; the cut point never leaves an empty side. *)
Theorem bvh_partition : forall right l,
  let pl := part_loop right [] [] l in
  Permutation (fst pl) l /\
  (forall x, In x (firstn (snd pl) (fst pl)) -> right x = false) /\
  (forall x, In x (skipn (snd pl) (fst pl)) -> right x = true) /\
  (2 <= length l -> 1 <= cut (snd pl) (length l) <= length l - 1).
Proof.
  intros right l. cbv zeta.
  split; [apply (part_loop_perm right l [] [])|].
  destruct (part_loop_sides right l [] []) as [A B]; [intros x []|intros x []|].
  split; [exact A|]. split; [exact B|]. intros H. apply cut_bounds; [exact H|].
  apply (part_loop_le right l [] []).
Qed.
Print Assumptions bvh_partition.

(** ** C27: refitting *)

(** In state UPDATED (after endUpdateModel, any mode) every node encloses both
    the previous and the new positions of all primitives below it. *)
Theorem bvh_updated : forall V BV (fit : list V -> BV) plus split (inb : BV -> V -> Prop),
  (forall l x, In x l -> inb (fit l) x) ->
  (forall a b x, inb a x -> inb (plus a b) x) -> (forall a b x, inb b x -> inb (plus a b) x) ->
  forall os, proper_history os spec0 -> forall cs m, brun fit plus split os fresh = Some (cs, m) ->
  m_st m = SUpdated ->
  let a := snd (arun os spec0) in
  let n := prim_count (a_verts a) (a_tris a) in
  1 <= n /\ m_nb m = 2 * n - 1 /\ length (m_bvs m) = 2 * n - 1 /\
  Permutation (m_prims m) (seq 0 n) /\
  exists t, tid t = 0 /\ tleaves t = m_prims m /\ Permutation (tids t) (seq 0 (2 * n - 1)) /\
    good (fun bv p =>
      (forall x, In x (prim_points (a_old a) (a_tris a) p) -> inb bv x) /\
      (forall x, In x (prim_points (a_verts a) (a_tris a) p) -> inb bv x)) (m_bvs m) t 0.
Proof.
  intros V BV fit plus split inb H1 H2 H3 os Hp cs m E Hst a n.
  destruct (run_rel V BV fit plus split inb H1 H2 H3 os fresh spec0) as (m' & E' & Hrel);
    [repeat split|apply rel_fresh|exact Hp|].
  rewrite E in E'. injection E' as _ <-. fold a in Hrel. destruct Hrel as [Hs Hr]. rewrite Hst in Hs. rewrite <- Hs in Hr.
  destruct Hr as ((_ & Hne & _) & _ & _ & _ & T1 & T2 & T3 & T4 & T5). fold n in T1, T2, T3, T4, T5.
  split; [apply prim_count_pos; exact Hne|]. auto.
Qed.
Print Assumptions bvh_updated.

(** Every enclosed point is enclosed at the root: the hierarchy of a refitted
    model bounds the whole mesh. *)
Theorem bvh_root_encloses : forall V BV (fit : list V -> BV) plus split (inb : BV -> V -> Prop),
  (forall l x, In x l -> inb (fit l) x) ->
  (forall a b x, inb a x -> inb (plus a b) x) -> (forall a b x, inb b x -> inb (plus a b) x) ->
  forall os, proper_history os spec0 -> forall cs m, brun fit plus split os fresh = Some (cs, m) ->
  m_st m = SProcessed \/ m_st m = SUpdated ->
  exists nd, cell (m_bvs m) 0 = Some nd /\
    let a := snd (arun os spec0) in
    forall p x, p < prim_count (a_verts a) (a_tris a) ->
      In x (prim_points (a_verts a) (a_tris a) p) -> inb (n_bv nd) x.
Proof.
  intros V BV fit plus split inb H1 H2 H3 os Hp cs m E [Hst|Hst].
  - destruct (bvh_processed _ _ _ _ _ _ H1 H2 H3 os Hp cs m E Hst) as (_ & _ & _ & T4 & t & T5 & T6 & _ & T8).
    destruct t; destruct T8 as [(bv & ch & Hc & Hi & _) _]; rewrite T5 in Hc; eexists; (split; [exact Hc|]);
      cbv zeta; cbn [n_bv]; intros pr x Hpn Hx; eapply Hi; try exact Hx; rewrite T6;
      (eapply Permutation_in; [symmetry; exact T4|]); apply in_seq; lia.
  - destruct (bvh_updated _ _ _ _ _ _ H1 H2 H3 os Hp cs m E Hst) as (_ & _ & _ & T4 & t & T5 & T6 & _ & T8).
    destruct t; destruct T8 as [(bv & ch & Hc & Hi & _) _]; rewrite T5 in Hc; eexists; (split; [exact Hc|]);
      cbv zeta; cbn [n_bv]; intros pr x Hpn Hx; eapply Hi; try exact Hx; rewrite T6;
      (eapply Permutation_in; [symmetry; exact T4|]); apply in_seq; lia.
Qed.
Print Assumptions bvh_root_encloses.

(** ** Instance: axis-aligned boxes

    BVFitter<AABB>::fit adds the points one by one to an empty box
    (BV_fitter-inl.h 240-282); [operator +] is [merge]. *)
Definition fit_aabb (M : Z) (l : list vec) : aabb := fold_left add_pt l (empty_box M).

Lemma fit_aabb_encl : forall M l x, In x l -> in_box x (fit_aabb M l).
Proof.
  intros M l x. unfold fit_aabb. generalize (empty_box M).
  assert (Hk : forall l b, in_box x b -> in_box x (fold_left add_pt l b)).
  { clear l. induction l as [|y l IH]; intros b H; [exact H|]. cbn [fold_left]. apply IH.
    unfold in_box, add_pt, vmin, vmax in *. cbn in *. lia. }
  induction l as [|y l IH]; intros b H; [contradiction|]. cbn [fold_left]. destruct H as [->|H].
  - apply Hk. unfold in_box, add_pt, vmin, vmax. cbn. lia.
  - apply IH. exact H.
Qed.

Theorem bvh_aabb : forall M split os, proper_history os spec0 ->
  forall cs m, brun (fit_aabb M) merge split os fresh = Some (cs, m) ->
  m_st m = SProcessed \/ m_st m = SUpdated ->
  exists nd, cell (m_bvs m) 0 = Some nd /\
    let a := snd (arun os spec0) in
    forall p x, p < prim_count (a_verts a) (a_tris a) ->
      In x (prim_points (a_verts a) (a_tris a) p) -> in_box x (n_bv nd).
Proof.
  intros M split os Hp cs m E Hst.
  apply (bvh_root_encloses _ _ (fit_aabb M) merge split (fun b x => in_box x b)) with (cs := cs); try assumption.
  - apply fit_aabb_encl.
  - intros a b x. unfold in_box, merge, vmin, vmax. cbn. lia.
  - intros a b x. unfold in_box, merge, vmin, vmax. cbn. lia.
Qed.
Print Assumptions bvh_aabb.

(** ** Concrete cases *)

(** Three triangles with initial sizes 0: the arrays are reallocated, the
    rule cuts at x = 5. *)
Definition ex_split (pts : nat -> list vec) (bv : aabb) (seg : list nat) (i : nat) : bool :=
  match pts i with p :: _ => (5 <? vx p)%Z | [] => false end.

Definition ex_ops : list (bop vec) :=
  [OBegin 0 0;
   OTriangle (V 9 0 0) (V 9 1 0) (V 9 0 1);
   OTriangle (V 1 0 0) (V 1 1 0) (V 1 0 1);
   OTriangle (V 2 0 0) (V 2 1 0) (V 2 0 7);
   OEnd].

Example ex_build :
  match brun (fit_aabb 1000) merge ex_split ex_ops fresh with
  | Some (cs, m) => cs = repeat COk 5 /\ m_nb m = 5 /\ m_prims m = [1; 2; 0] /\ m_vcap m = 9 /\
      map (option_map n_child) (m_bvs m) = [Some 1; Some 3; Some (-1); Some (-2); Some (-3)]%Z /\
      option_map n_bv (cell (m_bvs m) 1) = Some (Box (V 1 0 0) (V 2 1 7))
  | None => False
  end.
Proof. vm_compute. repeat split. Qed.

(** Move, refit bottom-up or top-down, then update twice. *)
Example ex_update :
  match brun (fit_aabb 1000) merge ex_split
    (ex_ops ++ [OVertex (V 0 0 0); OBeginReplace;
       OReplaceSub [V 8 0 0; V 8 1 0; V 8 0 1; V 1 0 0; V 1 1 0]; OEndReplace true true;
       OReplaceVertex (V 1 0 1); OReplaceTriangle (V 2 0 0) (V 2 1 0) (V 2 0 8); OEndReplace true true;
       OBeginUpdate; OUpdateSub (repeat (V 3 3 3) 9); OEndUpdate false false;
       OBeginUpdate; OUpdateSub (repeat (V 4 4 4) 9); OEndUpdate true false; OBeginReplace]) fresh with
  | Some (cs, m) =>
      cs = repeat COk 5 ++ [COutOfSequence; COk; COk; CIncorrectData; COk; COk; COk;
                            COk; COk; COk; COk; COk; COk; CEmptyPrevious] /\
      m_st m = SUpdated /\ option_map n_bv (cell (m_bvs m) 0) = Some (Box (V 3 3 3) (V 4 4 4))
  | None => False
  end.
Proof. vm_compute. repeat split. Qed.

Example ex_proper : proper_history ex_ops spec0.
Proof. cbn. repeat split; auto. Qed.
