(** Histories of operations on a HierarchyTree. *)
From Coq Require Import ZArith List Bool Lia Permutation Arith.
From Verif Require Import AabbZ Broadphase HTree.
Import ListNotations.
Local Open Scope Z_scope.

(** HierarchyTree members: root_node, n_leaves, opath (hierarchy_tree.h:246-252), plus the
    supply of fresh leaf addresses. *)
Record hstate := { h_root : option tree; h_n : nat; h_opath : N; h_next : nat }.
Definition hempty : hstate := {| h_root := None; h_n := 0; h_opath := 0; h_next := 0 |}.

Inductive hop :=
| HInsert (bv : aabb) (d : obj)                (** insert, 92-98 *)
| HRemove (id : nat)                           (** remove, 102-107 *)
| HUpdateLook (id : nat) (look : Z)            (** update(leaf, lookahead_level), 129-160 *)
| HUpdate (id : nat) (bv : aabb)               (** update(leaf, bv), 164-169; the overloads taking a
                                                   velocity and a margin (173-213) ignore them *)
| HClear                                       (** clear, 111-120 *)
| HRefit                                       (** refit, 276-281 *)
| HWrite (upd : list (nat * aabb))             (** leaf boxes overwritten, then refit
                                                   (dynamic_AABB_tree-inl.h:829-839) *)
| HBalInc (it : Z)                             (** balanceIncremental, 252-272 *)
| HBalTop                                      (** balanceTopdown, 239-248 *)
| HBalBot                                      (** balanceBottomup, 223-234 *)
| HInit (level : Z) (ls : list (aabb * obj)).  (** init, 68-88, with fresh leaf nodes *)

(** Fresh leaf nodes for init. *)
Fixpoint number (n : nat) (ls : list (aabb * obj)) : list (nat * aabb * obj) :=
  match ls with
  | [] => []
  | (b, d) :: r => (n, b, d) :: number (S n) r
  end.
Definition write_all (upd : list (nat * aabb)) (t : tree) : tree :=
  fold_left (fun t u => set_bv (fst u) (snd u) t) upd t.

Definition with_root (s : hstate) (r : option tree) : hstate :=
  {| h_root := r; h_n := h_n s; h_opath := h_opath s; h_next := h_next s |}.

(** One operation; [None] is undefined behaviour (unknown leaf, empty init range, divergence,
    infinite sizes). *)
Definition hstep (e : env) (s : hstate) (o : hop) : option hstate :=
  match o with
  | HInsert bv d =>
      Some {| h_root := Some (insert_leaf (Leaf (h_next s) bv d) [] (h_root s));
              h_n := S (h_n s); h_opath := h_opath s; h_next := S (h_next s) |}
  | HRemove id =>
      match remove_leaf e id (h_root s) with
      | Some (r, _) => Some {| h_root := r; h_n := h_n s - 1; h_opath := h_opath s; h_next := h_next s |}
      | None => None
      end
  | HUpdateLook id look => option_map (with_root s) (update_look e id look (h_root s))
  | HUpdate id bv => option_map (with_root s) (update_contain e id bv (h_root s))
  | HClear => Some {| h_root := None; h_n := 0; h_opath := 0; h_next := h_next s |}
  | HRefit => Some (with_root s (option_map refit (h_root s)))
  | HWrite upd =>
      if forallb (fun u => existsb (Nat.eqb (fst u)) (oids (h_root s))) upd
      then Some (with_root s (option_map (fun t => refit (write_all upd t)) (h_root s)))
      else None
  | HBalInc it =>
      let n := if it <? 0 then h_n s else Z.to_nat it in
      match balance_inc e n (h_opath s) (h_root s) with
      | Some (r, op) => Some {| h_root := r; h_n := h_n s; h_opath := op; h_next := h_next s |}
      | None => None
      end
  | HBalTop => option_map (with_root s) (balance_topdown e (h_root s))
  | HBalBot => option_map (with_root s) (balance_bottomup e (h_root s))
  | HInit level ls =>
      match init_tree e level (number (h_next s) ls) with
      | Some t => Some {| h_root := Some t; h_n := length ls; h_opath := 0;
                          h_next := h_next s + length ls |}
      | None => None
      end
  end.
Fixpoint hrun (e : env) (ops : list hop) (s : hstate) : option hstate :=
  match ops with
  | [] => Some s
  | o :: r => match hstep e s o with Some s' => hrun e r s' | None => None end
  end.

(** ** Specification: what should be live, with no mention of trees *)

Definition has_id (id : nat) (x : nat * aabb * obj) : bool := Nat.eqb (leaf_id x) id.
Definition put_bv (id : nat) (b : aabb) (x : nat * aabb * obj) : nat * aabb * obj :=
  if has_id id x then (leaf_id x, b, leaf_data x) else x.
(** update(leaf, bv) documents that a box already containing the new one is kept. *)
Definition put_bv_fat (id : nat) (b : aabb) (x : nat * aabb * obj) : nat * aabb * obj :=
  if has_id id x && negb (contain (leaf_bv x) b) then (leaf_id x, b, leaf_data x) else x.
Definition live_step (st : list (nat * aabb * obj) * nat) (o : hop) : list (nat * aabb * obj) * nat :=
  let (live, next) := st in
  match o with
  | HInsert bv d => ((next, bv, d) :: live, S next)
  | HRemove id => (filter (fun x => negb (has_id id x)) live, next)
  | HUpdate id bv => (map (put_bv_fat id bv) live, next)
  | HClear => ([], next)
  | HWrite upd => (fold_left (fun l u => map (put_bv (fst u) (snd u)) l) upd live, next)
  | HInit _ ls => (number next ls, next + length ls)%nat
  | HUpdateLook _ _ | HRefit | HBalInc _ | HBalTop | HBalBot => (live, next)
  end.
Definition live_run (ops : list hop) : list (nat * aabb * obj) * nat :=
  fold_left live_step ops ([], 0%nat).

(** Operations on the leaves that exist, and boxes of finite size: the documented usage. *)
Definition valid_op (e : env) (B : aabb) (live : list (nat * aabb * obj)) (o : hop) : Prop :=
  match o with
  | HInsert bv _ => True
  | HRemove id | HUpdateLook id _ | HUpdate id _ => In id (map leaf_id live)
  | HWrite upd => forall u, In u upd -> In (fst u) (map leaf_id live)
  | HBalTop => lfits e B live /\ llevel e live
  | HBalBot => lfits e B live
  | HInit _ ls => ls <> [] /\ lfits e B (number 0 ls) /\ llevel e (number 0 ls)
  | _ => True
  end.
Fixpoint valid_ops (e : env) (B : aabb) (ops : list hop) (st : list (nat * aabb * obj) * nat) : Prop :=
  match ops with
  | [] => True
  | o :: r => valid_op e B (fst st) o /\ valid_ops e B r (live_step st o)
  end.

(** ** The invariant *)

Definition hinv (s : hstate) (st : list (nat * aabb * obj) * nat) : Prop :=
  owf (h_root s) /\ Permutation (oleaves (h_root s)) (fst st) /\
  h_n s = length (fst st) /\ h_next s = snd st /\
  NoDup (map leaf_id (fst st)) /\ (forall x, In x (fst st) -> (leaf_id x < snd st)%nat).

Lemma put_bv_id id b x : leaf_id (put_bv id b x) = leaf_id x.
Proof. unfold put_bv. destruct (has_id id x); reflexivity. Qed.
Lemma put_bv_fat_id id b x : leaf_id (put_bv_fat id b x) = leaf_id x.
Proof. unfold put_bv_fat. destruct (_ && _); reflexivity. Qed.

Lemma map_ids (f : nat * aabb * obj -> nat * aabb * obj) l :
  (forall x, leaf_id (f x) = leaf_id x) -> map leaf_id (map f l) = map leaf_id l.
Proof. intros H. rewrite map_map. apply map_ext; auto. Qed.

Lemma number_ids n ls : map leaf_id (number n ls) = seq n (length ls).
Proof. revert n; induction ls as [|[b d] ls IH]; intros n; cbn; auto. rewrite IH; auto. Qed.
Lemma number_length n ls : length (number n ls) = length ls.
Proof. revert n; induction ls as [|[b d] ls IH]; intros n; cbn; auto. Qed.
Lemma number_bound n ls x : In x (number n ls) -> (n <= leaf_id x < n + length ls)%nat.
Proof. intros H. apply (in_map leaf_id) in H. rewrite number_ids in H. apply in_seq in H. lia. Qed.

Lemma write_all_leaves upd t :
  leaves (write_all upd t) = fold_left (fun l u => map (put_bv (fst u) (snd u)) l) upd (leaves t).
Proof.
  unfold write_all. revert t; induction upd as [|[i b] upd IH]; intros t; cbn [fold_left]; auto.
  rewrite IH, set_bv_leaves. reflexivity.
Qed.
Lemma fold_put_perm (upd : list (nat * aabb)) l l' : Permutation l l' ->
  Permutation (fold_left (fun l u => map (put_bv (fst u) (snd u)) l) upd l)
              (fold_left (fun l u => map (put_bv (fst u) (snd u)) l) upd l').
Proof.
  revert l l'; induction upd as [|u upd IH]; intros l l' H; cbn; auto.
  apply IH. apply Permutation_map; auto.
Qed.
Lemma fold_put_ids (upd : list (nat * aabb)) l :
  map leaf_id (fold_left (fun l u => map (put_bv (fst u) (snd u)) l) upd l) = map leaf_id l.
Proof.
  revert l; induction upd as [|u upd IH]; intros l; cbn; auto.
  rewrite IH. apply map_ids. intros; apply put_bv_id.
Qed.

Lemma filter_other_id id x l : leaf_id x = id -> NoDup (map leaf_id (x :: l)) ->
  filter (fun y => negb (has_id id y)) (x :: l) = l.
Proof.
  intros <- H. cbn. unfold has_id at 1. rewrite Nat.eqb_refl. cbn.
  inversion H; subst. clear H H3. induction l as [|y l IH]; cbn; auto.
  cbn in H2. unfold has_id at 1. destruct (Nat.eqb_spec (leaf_id y) (leaf_id x)) as [E|E].
  - exfalso; apply H2; auto.
  - cbn. f_equal. apply IH. tauto.
Qed.

Lemma put_other (f : nat * aabb * obj -> nat * aabb * obj) id l :
  (forall x, leaf_id x <> id -> f x = x) -> ~ In id (map leaf_id l) -> map f l = l.
Proof.
  intros Hf Hn. induction l as [|y l IH]; cbn in *; auto.
  rewrite Hf by tauto. rewrite IH by tauto. reflexivity.
Qed.

Lemma find_unique t id b d b' d' : NoDup (ids t) ->
  In (id, b, d) (leaves t) -> In (id, b', d') (leaves t) -> (b, d) = (b', d').
Proof.
  unfold ids. intros Hnd H1 H2. revert Hnd H1 H2. generalize (leaves t). intros l.
  induction l as [|y l IH]; cbn; intros Hnd; [tauto|]. inversion Hnd; subst.
  intros [->|H3] [E|H4]; auto.
  - congruence.
  - exfalso. apply H1. apply (in_map leaf_id) in H4. exact H4.
  - subst. exfalso. apply H1. apply (in_map leaf_id) in H3. exact H3.
Qed.

Lemma hstep_inv e s st o s' : env_ok e -> hinv s st -> hstep e s o = Some s' -> hinv s' (live_step st o).
Proof.
  intros He (W & P & N & X & ND & LT) H. destruct st as [live next]. cbn [fst snd] in *.
  assert (IDP : Permutation (oids (h_root s)) (map leaf_id live)) by (apply Permutation_map; auto).
  destruct o as [bv d|id|id look|id bv| | |upd|it| | |level ls]; cbn [hstep] in H; unfold hinv; cbn [live_step fst snd].
  - (* insert *)
    injection H as <-. cbn [h_root h_n h_next]. rewrite X in *.
    destruct (insert_leaf_ok next bv d [] (h_root s) W) as (W' & P').
    split; [exact W'|]. split; [cbn; rewrite P', P; auto|]. split; [cbn; lia|]. split; auto.
    cbn [map]. split.
    + constructor; auto. cbn. rewrite in_map_iff. intros (y & E & Hy). specialize (LT y Hy). lia.
    + intros y [<-|Hy]; cbn; [lia|]. specialize (LT y Hy). lia.
  - (* remove *)
    destruct (remove_leaf e id (h_root s)) as [[r p]|] eqn:E; [|discriminate].
    injection H as <-. cbn [h_root h_n h_next].
    destruct (h_root s) as [t|] eqn:Er; [|discriminate].
    assert (Hin : In id (ids t)).
    { destruct (in_dec Nat.eq_dec id (ids t)) as [|Hn]; auto.
      rewrite (remove_leaf_none e id (Some t)) in E; auto; discriminate. }
    destruct (remove_leaf_ok e id t W Hin) as (r' & p' & b & d & E' & Hf & Wr & Pr).
    rewrite E in E'. injection E' as -> ->.
    assert (PL : Permutation live ((id, b, d) :: oleaves r')) by (rewrite <- P; exact Pr).
    assert (ND' : NoDup (map leaf_id ((id, b, d) :: oleaves r'))).
    { eapply Permutation_NoDup; [apply Permutation_map, PL|auto]. }
    assert (PF : Permutation (filter (fun x => negb (has_id id x)) live) (oleaves r')).
    { assert (Hfp : forall (f : nat * aabb * obj -> bool) l l', Permutation l l' ->
         Permutation (filter f l) (filter f l')).
      { intros f l l' Hp. induction Hp; cbn; auto.
        - destruct (f x); auto.
        - destruct (f x), (f y); auto; constructor.
        - etransitivity; eauto. }
      rewrite (Hfp _ _ _ PL). rewrite filter_other_id; auto. }
    split; auto. split; [symmetry; auto|].
    split. { apply Permutation_length in PL. apply Permutation_length in PF. cbn in PL. lia. }
    split; auto. split.
    + eapply Permutation_NoDup; [apply Permutation_map; symmetry; apply PF|]. inversion ND'; auto.
    + intros x Hx. apply filter_In in Hx. apply LT; tauto.
  - (* update with lookahead *)
    destruct (update_look e id look (h_root s)) as [r|] eqn:E; [|discriminate].
    injection H as <-. cbn.
    destruct (h_root s) as [t|] eqn:Er; [|discriminate].
    assert (Hin : In id (ids t)).
    { unfold update_look in E. destruct (find_leaf id t) as [[b d]|] eqn:Ef; [|discriminate].
      apply find_leaf_in in Ef. apply (in_map leaf_id) in Ef. exact Ef. }
    destruct (update_look_ok e id look t W Hin) as (t' & E' & W' & P').
    rewrite E in E'. injection E' as ->.
    repeat split; auto. cbn. rewrite P'. exact P.
  - (* update with a box *)
    unfold update_contain in H. destruct (h_root s) as [t|] eqn:Er; [|discriminate].
    destruct (find_leaf id t) as [[b0 d0]|] eqn:Ef; [|discriminate].
    pose proof (find_leaf_in _ _ _ _ Ef) as Hfi.
    assert (Hin : In id (ids t)) by (apply (in_map leaf_id) in Hfi; exact Hfi).
    assert (NDt : NoDup (ids t)) by (eapply Permutation_NoDup; [symmetry; exact IDP|auto]).
    assert (Ids : map leaf_id (map (put_bv_fat id bv) live) = map leaf_id live)
      by (apply map_ids; intros; apply put_bv_fat_id).
    assert (Goal1 : NoDup (map leaf_id (map (put_bv_fat id bv) live))) by (rewrite Ids; auto).
    assert (Goal2 : forall x, In x (map (put_bv_fat id bv) live) -> (leaf_id x < next)%nat).
    { intros x Hx. apply in_map_iff in Hx as (y & <- & Hy). rewrite put_bv_fat_id. auto. }
    destruct (contain b0 bv) eqn:Ec.
    + injection H as <-. cbn. split; auto. split; [|rewrite map_length; auto].
      rewrite P. erewrite map_ext_in with (g := fun x => x); [rewrite map_id; auto|].
      intros [[i b1] d1] Hy. unfold put_bv_fat, has_id; cbn.
      destruct (Nat.eqb_spec i id) as [->|]; auto. cbn.
      rewrite <- P in Hy. cbn in Hy. assert (HE := find_unique t id b0 d0 b1 d1 NDt Hfi Hy). injection HE as <- <-.
      rewrite Ec. reflexivity.
    + destruct (update_bv_ok e id bv t W Hin) as (t' & b & d & rest & E' & W' & P1 & P2).
      rewrite E' in H. cbn in H. injection H as <-. cbn. split; auto.
      split; [|rewrite map_length; auto]. rewrite P2. cbn [oleaves] in P. rewrite <- P, P1.
      assert (NDr : NoDup (map leaf_id ((id, b, d) :: rest))).
      { eapply Permutation_NoDup; [apply Permutation_map, P1|exact NDt]. }
      assert (Hb : In (id, b, d) (leaves t)) by (rewrite P1; left; auto).
      assert (HE := find_unique t id b0 d0 b d NDt Hfi Hb). injection HE as <- <-.
      cbn [map].
      assert (put_bv_fat id bv (id, b0, d0) = (id, bv, d0)) as ->.
      { unfold put_bv_fat, has_id; cbn. rewrite Nat.eqb_refl, Ec. reflexivity. }
      apply perm_skip. rewrite (put_other _ id); auto; [|inversion NDr; auto].
      intros x Hx. unfold put_bv_fat, has_id. destruct (Nat.eqb_spec (leaf_id x) id); [congruence|auto].
  - (* clear *)
    injection H as <-. cbn. repeat split; auto. constructor. intros x [].
  - (* refit *)
    injection H as <-. cbn. destruct (h_root s) as [t|] eqn:Er; cbn in *.
    + rewrite refit_leaves. repeat split; auto using refit_wf.
    + repeat split; auto.
  - (* write *)
    destruct (forallb _ upd); [|discriminate]. injection H as <-. cbn.
    assert (Lw : forall l, length (fold_left (fun l u => map (put_bv (fst u) (snd u)) l) upd l) = length l).
    { intros l. rewrite <- (map_length leaf_id), fold_put_ids, map_length; auto. }
    split; [destruct (h_root s); cbn; auto using refit_wf|].
    split. { destruct (h_root s) as [t|]; cbn in *.
             - rewrite refit_leaves, write_all_leaves. apply fold_put_perm; auto.
             - apply Permutation_nil in P. rewrite P. clear. induction upd; cbn; auto. }
    split; [rewrite Lw; auto|]. split; auto. rewrite fold_put_ids. split; auto.
    intros x Hx. apply (in_map leaf_id) in Hx. rewrite fold_put_ids in Hx.
    apply in_map_iff in Hx as (y & <- & Hy). auto.
  - (* balanceIncremental *)
    destruct (balance_inc_ok e (if it <? 0 then h_n s else Z.to_nat it) (h_opath s) (h_root s) W)
      as (r & op & E & W' & P').
    rewrite E in H. injection H as <-. cbn. repeat split; auto. rewrite P'; auto.
  - (* balanceTopdown *)
    destruct (balance_topdown e (h_root s)) as [r|] eqn:E; [|discriminate]. injection H as <-.
    apply balance_topdown_ok in E as (W' & P'); auto. cbn. repeat split; auto. rewrite P'; auto.
  - (* balanceBottomup *)
    destruct (balance_bottomup e (h_root s)) as [r|] eqn:E; [|discriminate]. injection H as <-.
    apply balance_bottomup_ok in E as (W' & P'); auto. cbn. repeat split; auto. rewrite P'; auto.
  - (* init *)
    destruct (init_tree e level (number (h_next s) ls)) as [t|] eqn:E; [|discriminate].
    injection H as <-. apply init_tree_ok in E as (W' & P'); auto. rewrite X in *. cbn.
    repeat split; auto.
    + rewrite number_length; auto.
    + rewrite number_ids. apply seq_NoDup.
    + intros x Hx. apply number_bound in Hx. lia.
Qed.

Lemma hrun_inv e ops s st s' : env_ok e -> hinv s st -> hrun e ops s = Some s' ->
  hinv s' (fold_left live_step ops st).
Proof.
  intros He. revert s st; induction ops as [|o ops IH]; intros s st Hi; cbn [hrun fold_left].
  - intros [= <-]; auto.
  - destruct (hstep e s o) as [s1|] eqn:E; [|discriminate]. intros H.
    eapply IH; eauto. eapply hstep_inv; eauto.
Qed.

Lemma hempty_inv : hinv hempty ([], 0%nat).
Proof. repeat split; cbn; auto. constructor. intros x []. Qed.

Lemma lfits_perm e B l l' : Permutation l l' -> lfits e B l -> lfits e B l'.
Proof. intros P [H1 H2]; split; auto. intros x Hx; apply H2. rewrite P; auto. Qed.
Lemma llevel_perm e l l' : Permutation l l' -> llevel e l -> llevel e l'.
Proof. intros P H E. eapply Permutation_NoDup; [apply Permutation_map; eauto|auto]. Qed.

Lemma number_map n m ls (f : aabb * obj -> Z * Z * Z) :
  (map (fun x => f (leaf_bv x, leaf_data x)) (number n ls)) =
  (map (fun x => f (leaf_bv x, leaf_data x)) (number m ls)).
Proof. revert n m; induction ls as [|[b d] ls IH]; intros n m; cbn; auto. f_equal; auto. Qed.

Lemma number_in n m ls x : In x (number n ls) -> exists y, In y (number m ls) /\ leaf_bv y = leaf_bv x.
Proof.
  revert n m; induction ls as [|[b d] ls IH]; intros n m; cbn; [intros []|].
  intros [<-|H]; [eexists; split; [left; reflexivity|reflexivity]|].
  destruct (IH (S n) (S m) H) as (y & Hy & E). eauto.
Qed.

Lemma hstep_some e B s st o : env_ok e -> hinv s st -> valid_op e B (fst st) o ->
  exists s', hstep e s o = Some s'.
Proof.
  intros He (W & P & N & X & ND & LT) V. destruct st as [live next]. cbn [fst snd] in *.
  assert (IDP : Permutation (oids (h_root s)) (map leaf_id live)) by (apply Permutation_map; auto).
  destruct o as [bv d|id|id look|id bv| | |upd|it| | |level ls]; cbn [hstep valid_op] in *; eauto.
  - rewrite <- IDP in V. destruct (h_root s) as [t|] eqn:Er; [|destruct V].
    destruct (remove_leaf_ok e id t W V) as (r & p & b & d & -> & _). eauto.
  - rewrite <- IDP in V. destruct (h_root s) as [t|] eqn:Er; [|destruct V].
    destruct (update_look_ok e id look t W V) as (t' & -> & _). cbn; eauto.
  - rewrite <- IDP in V. destruct (h_root s) as [t|] eqn:Er; [|destruct V].
    unfold update_contain. destruct (find_leaf_some id t V) as (b & d & ->).
    destruct (contain b bv); cbn [option_map]; eauto.
    destruct (update_bv_ok e id bv t W V) as (t' & ? & ? & ? & -> & _). cbn; eauto.
  - assert (forallb (fun u => existsb (Nat.eqb (fst u)) (oids (h_root s))) upd = true) as ->; eauto.
    apply forallb_forall. intros u Hu. apply existsb_exists. exists (fst u).
    split; [rewrite IDP; auto|apply Nat.eqb_refl].
  - destruct (balance_inc_ok e (if it <? 0 then h_n s else Z.to_nat it) (h_opath s) (h_root s) W)
      as (r & op & -> & _). eauto.
  - destruct V as [V1 V2]. destruct (h_root s) as [t|] eqn:Er; cbn; eauto.
    destruct (topdown_some e B (map mk_leaf (leaves t)) He) as (t' & ->); cbn; eauto using all_wf_mk.
    + apply llevel_ok. eapply llevel_perm; [symmetry; exact P|auto].
    + apply lfits_fits. eapply lfits_perm; [symmetry; exact P|auto].
    + pose proof (leaves_nonempty t). destruct (leaves t); [congruence|discriminate].
  - destruct (h_root s) as [t|] eqn:Er; cbn; eauto.
    destruct (bottomup_root_some e B (map mk_leaf (leaves t))) as (t' & ->); cbn; eauto using all_wf_mk.
    + apply lfits_fits. eapply lfits_perm; [symmetry; exact P|auto].
    + pose proof (leaves_nonempty t). destruct (leaves t); [congruence|discriminate].
  - destruct V as (V1 & [V2 V2'] & V3).
    destruct (init_tree_some e B level (number (h_next s) ls) He) as (t & ->); eauto.
    + split; auto. intros x Hx. destruct (number_in _ 0 _ _ Hx) as (y & Hy & <-). auto.
    + intros E. specialize (V3 E).
      pose proof (number_map (h_next s) 0 ls (fun x => cen3 (Leaf 0 (fst x) (snd x)))) as M.
      unfold cen3, cen2 in *; cbn in *. rewrite M. exact V3.
    + destruct ls as [|[b d] ls]; [congruence|discriminate].
Qed.

Lemma hrun_some e B ops s st : env_ok e -> hinv s st -> valid_ops e B ops st ->
  exists s', hrun e ops s = Some s'.
Proof.
  intros He. revert s st; induction ops as [|o ops IH]; intros s st Hi V; cbn [hrun valid_ops] in *; eauto.
  destruct V as [V1 V2]. destruct (hstep_some e B s st o He Hi V1) as (s1 & E). rewrite E.
  eapply IH; eauto. eapply hstep_inv; eauto.
Qed.
