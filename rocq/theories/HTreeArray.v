(** implementation_array::HierarchyTree and DynamicAABBTreeCollisionManager_Array
    (include/fcl/broadphase/detail/hierarchy_tree_array-inl.h,
     include/fcl/broadphase/broadphase_dynamic_AABB_tree_array-inl.h).

    The nodes live in one array and are named by their index.  The functional tree of HTree.v
    is reused: only leaf indices are observable, so interior indices are left out and the
    index given to a new leaf is any index not in use ([a_fresh], the free list).  The number
    of nodes in use is 2*n_leaves-1, which is what the capacity is compared with. *)
From Coq Require Import ZArith List Bool Lia Permutation Arith.
From Verif Require Import AabbZ Broadphase QueryComb HTree HTreeRun DynTree.
Import ListNotations.
Local Open Scope Z_scope.

(** dtree members (hierarchy_tree_array.h:239-253) and manager members table, setup_. *)
Record aman := { a_root : option tree; a_n : nat; a_opath : N; a_cap : nat;
                 a_table : list (obj * nat); a_setup : bool }.
Definition aman_new : aman :=
  {| a_root := None; a_n := 0; a_opath := 0; a_cap := 16; a_table := []; a_setup := false |}.

Definition a_with (m : aman) (r : option tree) : aman :=
  {| a_root := r; a_n := a_n m; a_opath := a_opath m; a_cap := a_cap m;
     a_table := a_table m; a_setup := a_setup m |}.
Definition a_unset (m : aman) : aman :=
  {| a_root := a_root m; a_n := a_n m; a_opath := a_opath m; a_cap := a_cap m;
     a_table := a_table m; a_setup := false |}.

Section Array.
  Variables (e : env) (c : cfg).
  (** allocateNode (949-974) takes the next free index. *)
  Variable fresh : list nat -> nat.

  (** registerObject (784-790), insert (287-294).  The new inner node is made by
      createNode(prev, nodes[leaf].bv, nodes[root].bv) (977-988), whose arguments are
      references into the array: when the array is full allocateNode replaces and frees it, and
      the references dangle ([None]).  The array has even size, so the leaf itself always
      fits. *)
  Definition a_register (box : obj -> aabb) (o : obj) (m : aman) : option aman :=
    let id := fresh (map snd (a_table m) ++ oids (a_root m)) in
    let m' := {| a_root := Some (insert_leaf (Leaf id (box o) o) [] (a_root m));
                 a_n := S (a_n m); a_opath := a_opath m; a_cap := a_cap m;
                 a_table := assign o id (a_table m); a_setup := a_setup m |} in
    match a_root m with
    | None => Some m'
    | Some _ => if Nat.ltb (2 * a_n m) (a_cap m) then Some m' else None
    end.

  (** registerObjects (748-780), init (82-287): leaves are numbered from 0 and the array gets
      exactly twice as many nodes. *)
  Definition a_registers (box : obj -> aabb) (l : list obj) (m : aman) : option aman :=
    match l with
    | [] => Some m
    | _ =>
        if Nat.ltb 0 (a_n m) then opt_fold (a_register box) l m
        else
          match init_tree e (c_level c) (number 0 (map (fun o => (box o, o)) l)) with
          | Some t => Some {| a_root := Some t; a_n := length l; a_opath := 0;
                              a_cap := 2 * length l; a_table := assign_all 0 l (a_table m);
                              a_setup := true |}
          | None => None
          end
    end.

  (** unregisterObject (792-799), remove (298-303). *)
  Definition a_unregister (o : obj) (m : aman) : option aman :=
    match lookup o (a_table m) with
    | Some id =>
        match remove_leaf e id (a_root m) with
        | Some (r, _) => Some {| a_root := r; a_n := a_n m - 1; a_opath := a_opath m; a_cap := a_cap m;
                                 a_table := erase o (a_table m); a_setup := a_setup m |}
        | None => None
        end
    | None => None
    end.

  (** balanceTopdown (409-436): the leaves are copied to the front of the array, in tree order,
      which renumbers them; the table is not told. *)
  Definition renumber (ls : list leaf) : list leaf := number 0 (map (fun x => (leaf_bv x, leaf_data x)) ls).
  Definition a_topdown (root : option tree) : option (option tree) :=
    match root with
    | None => Some None
    | Some t => option_map Some (topdown e (map mk_leaf (renumber (leaves t))))
    end.

  (** setup (804-825), balanceIncremental (440-460). *)
  Definition a_setup_ (m : aman) : option aman :=
    if a_setup m then Some m
    else
      let done r op := Some {| a_root := r; a_n := a_n m; a_opath := op; a_cap := a_cap m;
                               a_table := a_table m; a_setup := true |} in
      if Nat.eqb (a_n m) 0 then done (a_root m) (a_opath m)
      else if c_flat c (root_height (a_root m)) (a_n m) then
        match balance_inc e (if c_pass c <? 0 then a_n m else Z.to_nat (c_pass c)) (a_opath m) (a_root m) with
        | Some (r, op) => done r op
        | None => None
        end
      else
        match a_topdown (a_root m) with
        | Some r => done r (a_opath m)
        | None => None
        end.

  (** update() (829-844). *)
  Definition a_update (box : obj -> aabb) (m : aman) : option aman :=
    let upd := map (fun p => (snd p, box (fst p))) (a_table m) in
    if forallb (fun u => existsb (Nat.eqb (fst u)) (oids (a_root m))) upd
    then a_setup_ (a_unset (a_with m (option_map (fun t => refit (write_all upd t)) (a_root m))))
    else None.

  (** HierarchyTree::update_ (919-935).  Unlike the pointer version the leaf is only reinserted
      when something is left of the tree, and the search starts at the node removeLeaf
      returned. *)
  Definition a_update_node (id : nat) (bv : aabb) (root : option tree) : option (option tree) :=
    match root with
    | None => None
    | Some t =>
        match find_leaf id t with
        | Some (b, d) =>
            if contain b bv then Some root
            else
              match remove_leaf e id root with
              | Some (None, _) => Some None
              | Some (Some r, p) =>
                  let p' := if 0 <=? e_look e then climb (Z.to_nat (e_look e)) p else p in
                  Some (Some (insert_leaf (Leaf id bv d) p' (Some r)))
              | None => None
              end
        | None => None
        end
    end.
  (** update_(obj) (848-858). *)
  Definition a_update_one (box : obj -> aabb) (o : obj) (m : aman) : option aman :=
    match lookup o (a_table m) with
    | None => Some (a_unset m)
    | Some id =>
        match a_root m with
        | None => None
        | Some t =>
            match find_leaf id t with
            | None => None
            | Some (b, _) =>
                if e_equal e b (box o) then Some (a_unset m)
                else match a_update_node id (box o) (a_root m) with
                     | Some r => Some (a_unset (a_with m r))
                     | None => None
                     end
            end
        end
    end.

  (** clear (305-319; 882-886). *)
  Definition a_clear (m : aman) : aman :=
    {| a_root := None; a_n := 0; a_opath := 0; a_cap := 16; a_table := []; a_setup := a_setup m |}.

  Definition astep (op : dop) (w : aman * (obj -> aabb)) : option (aman * (obj -> aabb)) :=
    let (m, box) := w in
    let keep r := option_map (fun m' => (m', box)) r in
    match op with
    | DMove o b => Some (m, moved box o b)
    | DReg o => keep (a_register box o m)
    | DRegs l => keep (a_registers box l m)
    | DUnreg o => keep (a_unregister o m)
    | DSetup => keep (a_setup_ m)
    | DUpdate => keep (a_update box m)
    | DUpdateObj o =>
        keep (match a_update_one box o m with Some m1 => a_setup_ m1 | None => None end)
    | DUpdateObjs l =>
        keep (match opt_fold (a_update_one box) l m with Some m1 => a_setup_ m1 | None => None end)
    | DClear => keep (Some (a_clear m))
    end.
  Definition arun (ops : list dop) (box0 : obj -> aabb) : option (aman * (obj -> aabb)) :=
    opt_fold astep ops (aman_new, box0).
End Array.

(** What the managers should hold: object and box, with no tree in sight. *)
Definition store_upd (e : env) (box : obj -> aabb) (o : obj) (p : obj * aabb) : obj * aabb :=
  if Nat.eqb (fst p) o && negb (e_equal e (snd p) (box o)) && negb (contain (snd p) (box o))
  then (o, box o) else p.
Definition store_step (e : env) (st : list (obj * aabb) * (obj -> aabb)) (op : dop)
  : list (obj * aabb) * (obj -> aabb) :=
  let (s, box) := st in
  match op with
  | DMove o b => (s, moved box o b)
  | DReg o => ((o, box o) :: s, box)
  | DRegs l => (map (fun o => (o, box o)) l ++ s, box)
  | DUnreg o => (filter (fun p => negb (Nat.eqb (fst p) o)) s, box)
  | DSetup => (s, box)
  | DUpdate => (map (fun p => (fst p, box (fst p))) s, box)
  | DUpdateObj o => (map (store_upd e box o) s, box)
  | DUpdateObjs l => (fold_left (fun s o => map (store_upd e box o) s) l s, box)
  | DClear => ([], box)
  end.
Definition store (e : env) (ops : list dop) (box0 : obj -> aabb) : list (obj * aabb) :=
  fst (fold_left (store_step e) ops ([], box0)).

Definition held (x : leaf) : obj * aabb := (leaf_data x, leaf_bv x).

(** No single-object manager is asked to update its only object. *)
Definition not_alone (regs : list obj) (op : dop) : Prop :=
  match op with
  | DUpdateObj _ | DUpdateObjs _ => length regs <> 1%nat
  | _ => True
  end.
Fixpoint never_alone (ops : list dop) (regs : list obj) : Prop :=
  match ops with
  | [] => True
  | op :: r => not_alone regs op /\ never_alone r (reg_step regs op)
  end.

(** ** Invariant *)

Section Inv.
  Variables (e : env) (c : cfg) (fresh : list nat -> nat).
  Hypothesis He : env_ok e.
  Hypothesis Hfresh : forall l, ~ In (fresh l) l.
  Hypothesis Hflat : forall h n, c_flat c h n = true.

  Definition ainv (m : aman) (regs : list obj) (st : list (obj * aabb)) : Prop :=
    owf (a_root m) /\ NoDup (oids (a_root m)) /\ a_n m = length (oleaves (a_root m)) /\
    Permutation (a_table m) (map entry (oleaves (a_root m))) /\
    Permutation (map held (oleaves (a_root m))) st /\
    Permutation (map leaf_data (oleaves (a_root m))) regs /\ NoDup regs.

  Lemma ainv_data m regs st : ainv m regs st -> NoDup (map leaf_data (oleaves (a_root m))).
  Proof. intros (_ & _ & _ & _ & _ & P & N). eapply Permutation_NoDup; [symmetry|]; eauto. Qed.
  Lemma ainv_keys m regs st : ainv m regs st -> NoDup (map fst (a_table m)).
  Proof.
    intros H. pose proof (ainv_data _ _ _ H) as N. destruct H as (_ & _ & _ & P & _).
    eapply Permutation_NoDup; [symmetry; apply table_keys; eauto|auto].
  Qed.
  Lemma ainv_perm m regs regs' st st' : ainv m regs st -> Permutation regs regs' -> Permutation st st' ->
    ainv m regs' st'.
  Proof.
    intros (A & B & C & D & E & F & G) P1 P2. repeat (split; auto).
    - rewrite E; auto.
    - rewrite F; auto.
    - eapply Permutation_NoDup; eauto.
  Qed.
  (** Replacing the tree by one with the same leaves. *)
  Lemma ainv_leaves m m' regs st : ainv m regs st -> owf (a_root m') ->
    Permutation (oleaves (a_root m')) (oleaves (a_root m)) ->
    a_n m' = a_n m -> a_table m' = a_table m -> ainv m' regs st.
  Proof.
    intros (A & B & C & D & E & F & G) W P N T. unfold ainv, oids in *. rewrite N, T.
    split; auto. split; [eapply Permutation_NoDup; [apply Permutation_map; symmetry; exact P|auto]|].
    split; [rewrite (Permutation_length P); auto|]. rewrite P. auto.
  Qed.

  Lemma ainv_intro m regs st L : owf (a_root m) -> Permutation (oleaves (a_root m)) L ->
    NoDup (map leaf_id L) -> a_n m = length L -> Permutation (a_table m) (map entry L) ->
    Permutation (map held L) st -> Permutation (map leaf_data L) regs -> NoDup regs -> ainv m regs st.
  Proof.
    intros W P N C D E F G. unfold ainv, oids.
    split; [exact W|]. split; [exact (Permutation_NoDup (Permutation_map leaf_id (Permutation_sym P)) N)|].
    split; [rewrite (Permutation_length P); exact C|].
    split; [exact (Permutation_trans D (Permutation_map entry (Permutation_sym P)))|].
    split; [exact (Permutation_trans (Permutation_map held P) E)|].
    split; [exact (Permutation_trans (Permutation_map leaf_data P) F)|exact G].
  Qed.

  Lemma a_register_inv box o m m' regs st : ~ In o regs -> ainv m regs st ->
    a_register fresh box o m = Some m' -> ainv m' (o :: regs) ((o, box o) :: st).
  Proof using Hfresh.
    intros Ho (A & B & C & D & E & F & G) H. unfold a_register in H.
    set (id := fresh (map snd (a_table m) ++ oids (a_root m))) in *.
    assert (Hid : ~ In id (oids (a_root m))).
    { intros Hi. apply (Hfresh (map snd (a_table m) ++ oids (a_root m))). apply in_app_iff. auto. }
    destruct (insert_leaf_ok id (box o) o [] (a_root m) A) as (W & P).
    assert (H' : Some {| a_root := Some (insert_leaf (Leaf id (box o) o) [] (a_root m));
                 a_n := S (a_n m); a_opath := a_opath m; a_cap := a_cap m;
                 a_table := assign o id (a_table m); a_setup := a_setup m |} = Some m').
    { destruct (a_root m); [destruct (Nat.ltb _ _); [auto|discriminate]|auto]. }
    injection H' as <-. eapply ainv_intro; cbn [a_root a_n a_table oleaves owf]; [exact W|exact P|..].
    - constructor; auto.
    - cbn [length]. rewrite C. reflexivity.
    - unfold assign. rewrite erase_absent.
      + apply perm_skip. exact D.
      + intros Hi. apply Ho. eapply Permutation_in; [exact F|].
        eapply Permutation_in; [apply table_keys; exact D|exact Hi].
    - apply perm_skip. exact E.
    - apply perm_skip. exact F.
    - constructor; auto.
  Qed.

  Lemma a_register_fold box l m m' regs st : NoDup (l ++ regs) -> ainv m regs st ->
    opt_fold (a_register fresh box) l m = Some m' ->
    ainv m' (l ++ regs) (map (fun o => (o, box o)) l ++ st).
  Proof using Hfresh.
    revert m regs st; induction l as [|o l IH]; intros m regs st ND HI H; cbn [opt_fold app map] in *.
    - injection H as <-. auto.
    - destruct (a_register fresh box o m) as [m1|] eqn:E; [|discriminate].
      inversion ND as [|? ? Ho ND']; subst. rewrite in_app_iff in Ho.
      apply (a_register_inv box o m m1 regs st) in E; auto.
      apply (IH _ (o :: regs)) with (st := (o, box o) :: st) in H; auto.
      + eapply ainv_perm; [exact H| |]; symmetry; apply Permutation_middle.
      + apply (Permutation_NoDup (l := o :: l ++ regs)); [apply Permutation_middle|].
        constructor; auto. rewrite in_app_iff. tauto.
  Qed.

  Lemma held_number n (box : obj -> aabb) l :
    map held (number n (map (fun o => (box o, o)) l)) = map (fun o => (o, box o)) l.
  Proof. revert n; induction l as [|o l IH]; intros n; cbn; auto. rewrite IH; auto. Qed.

  Lemma a_registers_inv box l m m' regs st : NoDup (l ++ regs) -> ainv m regs st ->
    a_registers e c fresh box l m = Some m' ->
    ainv m' (l ++ regs) (map (fun o => (o, box o)) l ++ st).
  Proof using Hfresh He.
    intros ND HI H. unfold a_registers in H. destruct l as [|o0 l0] eqn:El.
    - injection H as <-. auto.
    - rewrite <- El in *. clear El o0 l0. destruct (Nat.ltb_spec 0 (a_n m)) as [Hn|Hn].
      + eapply a_register_fold; eauto.
      + destruct (init_tree e _ _) as [t|] eqn:E; [|discriminate]. injection H as <-.
        destruct HI as (A & B & C & D & EE & F & G).
        assert (Z : oleaves (a_root m) = []) by (destruct (oleaves (a_root m)); auto; cbn in C; lia).
        rewrite Z in *. apply Permutation_nil in EE. apply Permutation_nil in F.
        apply Permutation_sym, Permutation_nil in D. subst. rewrite !app_nil_r in *.
        apply init_tree_ok in E as (W & P); auto.
        eapply ainv_intro; cbn [a_root a_n a_table oleaves owf]; [exact W|exact P|..].
        * rewrite number_ids. apply seq_NoDup.
        * rewrite number_length, map_length. reflexivity.
        * rewrite D, entry_number, assign_all_perm, app_nil_r; auto.
        * rewrite held_number; auto.
        * rewrite data_number; auto.
        * auto.
  Qed.

  Lemma filter_map_comm {X Y} (f : X -> Y) (p : Y -> bool) (q : X -> bool) l :
    (forall x, In x l -> p (f x) = q x) -> filter p (map f l) = map f (filter q l).
  Proof.
    induction l as [|x l IH]; cbn; intros H; auto. rewrite H by auto.
    destruct (q x); cbn; rewrite IH by auto; auto.
  Qed.

  Lemma a_unregister_inv o m m' regs st : ainv m regs st -> a_unregister e o m = Some m' ->
    ainv m' (remove Nat.eq_dec o regs) (filter (fun p => negb (Nat.eqb (fst p) o)) st).
  Proof.
    intros HI H. pose proof (ainv_data _ _ _ HI) as ND. pose proof (ainv_keys _ _ _ HI) as NK.
    destruct HI as (A & B & C & D & EE & F & G). unfold a_unregister in H.
    destruct (lookup o (a_table m)) as [id|] eqn:EL; [|discriminate].
    destruct (remove_leaf e id (a_root m)) as [[r p]|] eqn:E; [|discriminate]. injection H as <-.
    destruct (a_root m) as [t|] eqn:Er; [|discriminate]. cbn [oleaves] in *.
    apply lookup_in in EL; auto. rewrite D in EL. apply in_map_iff in EL as (x0 & Ex0 & Hx0).
    injection Ex0 as Eo Ei.
    assert (Hin : In id (ids t)) by (rewrite <- Ei; apply in_map; auto).
    destruct (remove_leaf_ok e id t A Hin) as (r' & p' & b & d & E' & Hf & Wr & Pr).
    rewrite E in E'. injection E' as -> ->.
    assert (Ed : d = o).
    { apply find_leaf_in in Hf. pose proof (id_unique _ _ _ B Hf Hx0) as U. cbn in U.
      rewrite <- U in Eo by auto. exact Eo. }
    subst d.
    assert (ND' : NoDup (map leaf_data ((id, b, o) :: oleaves r')))
      by (eapply Permutation_NoDup; [apply Permutation_map; exact Pr|auto]).
    apply NoDup_cons_iff in ND' as [Hn ND'']. cbn in Hn.
    assert (B' : NoDup (map leaf_id ((id, b, o) :: oleaves r')))
      by (eapply Permutation_NoDup; [apply Permutation_map; exact Pr|auto]).
    apply NoDup_cons_iff in B' as [Hn' B''].
    assert (Keep : forall {Y} (f : leaf -> Y) (q : Y -> bool), (forall x, q (f x) = negb (Nat.eqb (leaf_data x) o)) ->
       filter q (map f (oleaves r')) = map f (oleaves r')).
    { intros Y f q Hq. rewrite (filter_map_comm f q (fun x => true)).
      - f_equal. clear. induction (oleaves r'); cbn; auto. f_equal; auto.
      - intros x Hx. rewrite Hq. apply negb_true_iff, Nat.eqb_neq. intros E2. apply Hn. rewrite <- E2.
        apply in_map; auto. }
    unfold ainv. cbn [a_root a_n a_table]. split; auto. split; auto.
    split; [rewrite C, (Permutation_length Pr); cbn; lia|].
    split. { unfold erase. rewrite (filter_perm _ _ _ D), (filter_perm _ _ _ (Permutation_map entry Pr)). cbn [map filter entry fst leaf_data snd].
             rewrite Nat.eqb_refl. cbn. rewrite (Keep _ entry); auto. }
    split. { rewrite <- (filter_perm _ _ _ EE), (filter_perm _ _ _ (Permutation_map held Pr)). cbn [map filter held fst leaf_data snd].
             rewrite Nat.eqb_refl. cbn. rewrite (Keep _ held); auto. }
    split. { rewrite <- (remove_perm o _ _ F).
             rewrite (remove_perm o _ _ (Permutation_map leaf_data Pr)). cbn.
             destruct (Nat.eq_dec o o); [|congruence]. rewrite notin_remove; auto. }
    apply remove_nodup; auto.
  Qed.

  Lemma a_setup_inv m m' regs st : ainv m regs st -> a_setup_ e c m = Some m' -> ainv m' regs st.
  Proof using Hflat.
    intros HI H. unfold a_setup_ in H. destruct (a_setup m); [injection H as <-; auto|].
    destruct (Nat.eqb (a_n m) 0); [injection H as <-; eapply ainv_leaves; eauto; apply HI|].
    rewrite Hflat in H.
    destruct (balance_inc_ok e (if c_pass c <? 0 then a_n m else Z.to_nat (c_pass c)) (a_opath m) (a_root m))
      as (r & op & E & W & P); [apply HI|].
    rewrite E in H. injection H as <-. eapply ainv_leaves; eauto.
  Qed.

  Lemma a_update_inv box m m' regs st : ainv m regs st -> a_update e c box m = Some m' ->
    ainv m' regs (map (fun p => (fst p, box (fst p))) st).
  Proof using Hflat.
    intros HI H. unfold a_update in H.
    set (upd := map (fun p => (snd p, box (fst p))) (a_table m)) in *.
    destruct (forallb _ upd); [|discriminate]. eapply a_setup_inv; eauto. clear H.
    pose proof HI as (A & B & C & D & EE & F & G).
    set (L := oleaves (a_root m)) in *.
    assert (NL : oleaves (option_map (fun t => refit (write_all upd t)) (a_root m)) =
                 map (fun x => (leaf_id x, box (leaf_data x), leaf_data x)) L).
    { transitivity (fold_left (fun l u => map (put_bv (fst u) (snd u)) l) upd L).
      - unfold L. destruct (a_root m) as [t|]; cbn.
        + rewrite refit_leaves, write_all_leaves. reflexivity.
        + clear. induction upd; cbn; auto.
      - rewrite fold_put_map. apply map_ext_in. intros x Hx. apply put_all_spec.
        + intros u Hu Eu. unfold upd in Hu. rewrite D in Hu. rewrite map_map in Hu.
          apply in_map_iff in Hu as (y & <- & Hy). cbn in *. do 2 f_equal. apply (id_unique L); auto.
        + left. unfold upd. rewrite map_map. cbn. rewrite D, map_map. cbn. apply in_map; auto. }
    unfold ainv, oids. cbn [a_root a_n a_table a_unset a_with]. rewrite NL, !map_map, map_length. cbn.
    split. { destruct (a_root m); cbn; auto using refit_wf. }
    split; auto. split; auto. split; [rewrite D; reflexivity|].
    split; auto. rewrite <- EE, map_map. reflexivity.
  Qed.

  Lemma a_update_one_inv box o m m' regs st : ainv m regs st -> length regs <> 1%nat ->
    a_update_one e box o m = Some m' -> ainv m' regs (map (store_upd e box o) st).
  Proof.
    intros HI HL H. pose proof (ainv_data _ _ _ HI) as ND. pose proof (ainv_keys _ _ _ HI) as NK.
    pose proof HI as (A & B & C & D & EE & F & G). unfold a_update_one in H.
    assert (Un : forall q, In q st -> fst q <> o -> store_upd e box o q = q).
    { intros q _ Hq. unfold store_upd. apply Nat.eqb_neq in Hq. rewrite Hq. reflexivity. }
    assert (Same : (forall q, In q st -> store_upd e box o q = q) -> ainv (a_unset m) regs (map (store_upd e box o) st)).
    { intros Hq. rewrite (map_ext_in _ (fun x => x)) by auto. rewrite map_id.
      eapply ainv_leaves; eauto; apply HI. }
    destruct (lookup o (a_table m)) as [id|] eqn:EL.
    - apply lookup_in in EL; auto. rewrite D in EL. apply in_map_iff in EL as (x0 & Ex0 & Hx0).
      injection Ex0 as Eo Ei.
      destruct (a_root m) as [t|] eqn:Er; [|discriminate]. cbn [oleaves owf oids] in *.
      destruct (find_leaf id t) as [[b d]|] eqn:Ef; [|discriminate].
      pose proof (find_leaf_in _ _ _ _ Ef) as Hfi.
      assert (Ex : x0 = (id, b, d)) by (apply (id_unique (leaves t)); auto).
      subst x0. cbn in Eo. subst d.
      assert (Only : forall q, In q st -> fst q = o -> snd q = b).
      { intros q Hq Eq. rewrite <- EE in Hq. apply in_map_iff in Hq as (y & <- & Hy). cbn in *.
        pose proof (leaf_unique _ _ _ ND Hy Hfi) as U. rewrite U; auto. }
      destruct (e_equal e b (box o)) eqn:Eeq.
      + injection H as <-. apply Same. intros q Hq. destruct (Nat.eq_dec (fst q) o) as [Eq|Eq]; auto.
        unfold store_upd. rewrite (Only q Hq Eq), Eeq, andb_false_r. reflexivity.
      + unfold a_update_node in H. rewrite Ef in H. destruct (contain b (box o)) eqn:Ec.
        * injection H as <-. assert (a_with m (Some t) = m) as -> by (destruct m; cbn in *; subst; auto).
          apply Same. intros q Hq. destruct (Nat.eq_dec (fst q) o) as [Eq|Eq]; auto.
          unfold store_upd. rewrite (Only q Hq Eq), Ec, andb_false_r. reflexivity.
        * assert (Hin : In id (ids t)) by (apply (in_map leaf_id) in Hfi; exact Hfi).
          destruct (remove_leaf_ok e id t A Hin) as (r' & p' & b' & d' & E' & Hf & Wr & Pr).
          rewrite Ef in Hf. injection Hf as <- <-. rewrite E' in H.
          destruct r' as [r|].
          2:{ exfalso. apply HL. rewrite <- (Permutation_length F), map_length, (Permutation_length Pr). reflexivity. }
          injection H as <-. set (g := if 0 <=? e_look e then _ else _).
          destruct (insert_leaf_ok id (box o) o g (Some r) Wr) as (W & P).
          assert (NDp : NoDup (map leaf_data ((id, b, o) :: leaves r)))
            by (eapply Permutation_NoDup; [apply Permutation_map; exact Pr|auto]).
          apply NoDup_cons_iff in NDp as [Hn _]. cbn in Hn.
          apply (Permutation_map held) in Pr as Prh.
          eapply ainv_intro; cbn [a_root a_n a_table a_unset a_with oleaves owf]; [exact W|exact P|..].
          { exact (Permutation_NoDup (Permutation_map leaf_id Pr) B). }
          { rewrite C, (Permutation_length Pr). reflexivity. }
          { exact (Permutation_trans D (Permutation_map entry Pr)). }
          2:{ exact (Permutation_trans (Permutation_map leaf_data (Permutation_sym Pr)) F). }
          2:{ exact G. }
          symmetry. eapply Permutation_trans; [apply Permutation_map; symmetry; exact EE|].
          eapply Permutation_trans; [apply Permutation_map; exact Prh|].
          cbn [map oleaves]. change (held (id, b, o)) with (o, b). change (held (id, box o, o)) with (o, box o).
          assert (store_upd e box o (o, b) = (o, box o)) as ->.
          { unfold store_upd; cbn. rewrite Nat.eqb_refl, Eeq, Ec. reflexivity. }
          apply perm_skip. rewrite map_map. erewrite (map_ext_in (fun x => store_upd e box o (held x)) held); [reflexivity|].
          intros x Hx. unfold store_upd, held; cbn.
          destruct (Nat.eqb_spec (leaf_data x) o) as [E2|E2]; auto.
          exfalso. apply Hn. rewrite <- E2. apply in_map; auto.
    - injection H as <-. apply Same. intros q Hq. apply Un; auto. intros Eq.
      apply lookup_none in EL. apply EL. rewrite (table_keys _ _ D), <- Eq.
      rewrite <- EE in Hq. apply in_map_iff in Hq as (y & <- & Hy). cbn. apply in_map; auto.
  Qed.

  Lemma a_update_fold box l m m' regs st : ainv m regs st -> length regs <> 1%nat ->
    opt_fold (a_update_one e box) l m = Some m' ->
    ainv m' regs (fold_left (fun s o => map (store_upd e box o) s) l st).
  Proof.
    revert m st; induction l as [|o l IH]; intros m st HI HL H; cbn [opt_fold fold_left] in *.
    - injection H as <-; auto.
    - destruct (a_update_one e box o m) as [m1|] eqn:E; [|discriminate].
      eapply IH; eauto. eapply a_update_one_inv; eauto.
  Qed.

  Lemma astep_inv op m box m' box' regs st : proper_op regs op -> not_alone regs op -> ainv m regs st ->
    astep e c fresh op (m, box) = Some (m', box') ->
    ainv m' (reg_step regs op) (fst (store_step e (st, box) op)) /\ box' = snd (store_step e (st, box) op).
  Proof using He Hfresh Hflat.
    intros V NA HI H. destruct op as [o b|o|l|o| | |o|l|];
      cbn [astep proper_op not_alone reg_step store_step fst snd] in *.
    - injection H as <- <-. auto.
    - destruct (a_register fresh box o m) as [m1|] eqn:E; [|discriminate]. injection H as <- <-.
      split; auto. eapply a_register_inv; eauto.
    - destruct (a_registers e c fresh box l m) as [m1|] eqn:E; [|discriminate]. injection H as <- <-.
      split; auto. eapply a_registers_inv; eauto.
    - destruct (a_unregister e o m) as [m1|] eqn:E; [|discriminate]. injection H as <- <-.
      split; auto. eapply a_unregister_inv; eauto.
    - destruct (a_setup_ e c m) as [m1|] eqn:E; [|discriminate]. injection H as <- <-.
      split; auto. eapply a_setup_inv; eauto.
    - destruct (a_update e c box m) as [m1|] eqn:E; [|discriminate]. injection H as <- <-.
      split; auto. eapply a_update_inv; eauto.
    - destruct (a_update_one e box o m) as [m0|] eqn:E0; [|discriminate].
      destruct (a_setup_ e c m0) as [m1|] eqn:E; [|discriminate]. injection H as <- <-.
      split; auto. eapply a_setup_inv; eauto. eapply a_update_one_inv; eauto.
    - destruct (opt_fold _ l m) as [m0|] eqn:E0; [|discriminate].
      destruct (a_setup_ e c m0) as [m1|] eqn:E; [|discriminate]. injection H as <- <-.
      split; auto. eapply a_setup_inv; eauto. eapply a_update_fold; eauto.
    - injection H as <- <-. split; auto. unfold ainv; cbn. repeat split; auto; constructor.
  Qed.

  Lemma arun_inv_gen ops m box m' box' regs st : proper ops regs -> never_alone ops regs -> ainv m regs st ->
    opt_fold (astep e c fresh) ops (m, box) = Some (m', box') ->
    ainv m' (fold_left reg_step ops regs) (fst (fold_left (store_step e) ops (st, box))) /\
    box' = snd (fold_left (store_step e) ops (st, box)).
  Proof using He Hfresh Hflat.
    revert m box regs st; induction ops as [|op ops IH]; intros m box regs st V NA HI H.
    - injection H as <- <-. auto.
    - cbn [opt_fold proper never_alone fold_left] in *. destruct V as [V1 V2]. destruct NA as [N1 N2].
      destruct (astep e c fresh op (m, box)) as [[m1 box1]|] eqn:E; [|discriminate].
      apply (astep_inv op m box m1 box1 regs st) in E as [E Eb]; auto. subst box1.
      destruct (store_step e (st, box) op) as [st1 b1] eqn:Es. cbn [fst snd] in *.
      eapply IH; eauto.
  Qed.
End Inv.

(** ** The pointer manager holds the same store *)

Definition pinv (m : dman) (regs : list obj) (st : list (obj * aabb)) : Prop :=
  exists live, hinv (d_tree m) (live, h_next (d_tree m)) /\
    Permutation (map leaf_data live) regs /\ NoDup regs /\
    Permutation (d_table m) (map entry live) /\ Permutation (map held live) st.

Section Pointer.
  Variables (e : env) (c : cfg).
  Hypothesis He : env_ok e.

  Lemma p_register_inv box o m m' regs st : ~ In o regs -> pinv m regs st ->
    d_register e box o m = Some m' -> pinv m' (o :: regs) ((o, box o) :: st).
  Proof using He.
    intros Ho (live & HI & PR & NR & PT & PS) H. unfold d_register in H.
    destruct (hstep e (d_tree m) (HInsert (box o) o)) as [h|] eqn:E; [|discriminate].
    injection H as <-. pose proof (hstep_hinv _ _ _ _ _ He HI E) as HI'. cbn [live_step fst] in HI'.
    exists ((h_next (d_tree m), box o, o) :: live). cbn [d_tree d_table map]. split; auto.
    split; [apply perm_skip; exact PR|]. split; [constructor; auto|]. split; [|apply perm_skip; exact PS].
    unfold assign. rewrite erase_absent; [apply perm_skip; exact PT|]. rewrite (table_keys _ _ PT), PR. auto.
  Qed.
  Lemma pinv_perm m regs regs' st st' : pinv m regs st -> Permutation regs regs' -> Permutation st st' ->
    pinv m regs' st'.
  Proof.
    intros (live & HI & PR & NR & PT & PS) P1 P2. exists live. split; auto. split; [rewrite PR; auto|].
    split; [eapply Permutation_NoDup; eauto|]. split; auto. rewrite PS; auto.
  Qed.
  Lemma p_register_fold box l m m' regs st : NoDup (l ++ regs) -> pinv m regs st ->
    opt_fold (d_register e box) l m = Some m' ->
    pinv m' (l ++ regs) (map (fun o => (o, box o)) l ++ st).
  Proof using He.
    revert m regs st; induction l as [|o l IH]; intros m regs st ND HI H; cbn [opt_fold app map] in *.
    - injection H as <-. auto.
    - destruct (d_register e box o m) as [m1|] eqn:E; [|discriminate].
      apply NoDup_cons_iff in ND as [Ho ND']. rewrite in_app_iff in Ho.
      apply (p_register_inv box o m m1 regs st) in E; auto.
      apply (IH _ (o :: regs)) with (st := (o, box o) :: st) in H; auto.
      + eapply pinv_perm; [exact H| |]; symmetry; apply Permutation_middle.
      + apply (Permutation_NoDup (l := o :: l ++ regs)); [apply Permutation_middle|].
        constructor; auto. rewrite in_app_iff. tauto.
  Qed.
  Lemma p_registers_inv box l m m' regs st : NoDup (l ++ regs) -> pinv m regs st ->
    d_registers e c box l m = Some m' -> pinv m' (l ++ regs) (map (fun o => (o, box o)) l ++ st).
  Proof using He.
    intros ND HI H. unfold d_registers in H. destruct l as [|o0 l0] eqn:El.
    - injection H as <-. auto.
    - rewrite <- El in *. clear El o0 l0. destruct (Nat.ltb_spec 0 (h_n (d_tree m))) as [Hn|Hn].
      + eapply p_register_fold; eauto.
      + destruct (hstep e (d_tree m) _) as [h|] eqn:E; [|discriminate]. injection H as <-.
        destruct HI as (live & HI & PR & NR & PT & PS).
        assert (live = []). { destruct HI as (_ & _ & HN & _). cbn in HN. destruct live; auto. cbn in HN. lia. }
        subst live. apply Permutation_nil in PR. apply Permutation_nil in PS. subst regs st. rewrite !app_nil_r in *.
        apply Permutation_sym, Permutation_nil in PT.
        pose proof (hstep_hinv _ _ _ _ _ He HI E) as HI'. cbn [live_step fst] in HI'.
        exists (number (h_next (d_tree m)) (map (fun o => (box o, o)) l)). cbn [d_tree d_table].
        split; auto. split; [rewrite data_number; auto|]. split; auto. split.
        * rewrite PT, entry_number, assign_all_perm, app_nil_r; auto.
        * rewrite held_number. reflexivity.
  Qed.
  Lemma p_unregister_inv o m m' regs st : pinv m regs st -> d_unregister e o m = Some m' ->
    pinv m' (remove Nat.eq_dec o regs) (filter (fun p => negb (Nat.eqb (fst p) o)) st).
  Proof using He.
    intros (live & HI & PR & NR & PT & PS) H. unfold d_unregister in H.
    destruct (lookup o (d_table m)) as [id|] eqn:EL; [|discriminate].
    destruct (hstep e (d_tree m) (HRemove id)) as [h|] eqn:E; [|discriminate]. injection H as <-.
    pose proof (hstep_hinv _ _ _ _ _ He HI E) as HI'. cbn [live_step fst] in HI'.
    assert (NDD : NoDup (map leaf_data live)) by (eapply Permutation_NoDup; [symmetry|]; eauto).
    assert (NDI : NoDup (map leaf_id live)) by (destruct HI as (_ & _ & _ & _ & ND & _); exact ND).
    apply lookup_in in EL; [|eapply Permutation_NoDup; [symmetry; apply table_keys; eauto|auto]].
    rewrite PT in EL. apply in_map_iff in EL as (x0 & Ex0 & Hx0). injection Ex0 as Eo Ei.
    assert (Same : forall x, In x live -> has_id id x = Nat.eqb (leaf_data x) o).
    { intros x Hx. unfold has_id. destruct (Nat.eqb_spec (leaf_id x) id) as [E1|E1].
      - assert (x = x0); [|subst; symmetry; apply Nat.eqb_refl].
        apply (id_unique live); auto. congruence.
      - symmetry. apply Nat.eqb_neq. intros E2. apply E1.
        rewrite <- Ei. f_equal. apply (leaf_unique live); auto. congruence. }
    set (live' := filter (fun x => negb (has_id id x)) live) in *.
    assert (EF : live' = filter (fun x => negb (Nat.eqb (leaf_data x) o)) live).
    { unfold live'. apply filter_ext_in. intros x Hx. rewrite Same; auto. }
    exists live'. cbn [d_tree d_table]. split; auto. split; [|split; [|split]].
    - rewrite EF. rewrite <- (remove_perm o _ _ PR). clear. induction live as [|x l IH]; cbn; auto.
      destruct (Nat.eq_dec o (leaf_data x)) as [E|E]; destruct (Nat.eqb_spec (leaf_data x) o); cbn; auto; congruence.
    - apply remove_nodup; auto.
    - rewrite EF. unfold erase. rewrite (filter_perm _ _ _ PT).
      rewrite (filter_map_comm entry _ (fun x => negb (Nat.eqb (leaf_data x) o))); auto.
    - rewrite EF, <- (filter_perm _ _ _ PS).
      rewrite (filter_map_comm held _ (fun x => negb (Nat.eqb (leaf_data x) o))); auto.
  Qed.
  Lemma p_setup_inv m m' regs st : pinv m regs st -> d_setup_ e c m = Some m' -> pinv m' regs st.
  Proof using He.
    intros (live & HI & PR & NR & PT & PS) H. unfold d_setup_ in H.
    destruct (d_setup m); [injection H as <-; exists live; auto|].
    destruct (Nat.eqb (h_n (d_tree m)) 0); [injection H as <-; exists live; auto|].
    destruct (hstep e (d_tree m) _) as [h|] eqn:E; [|discriminate]. injection H as <-.
    pose proof (hstep_hinv _ _ _ _ _ He HI E) as HI'. exists live. cbn [d_tree d_table].
    destruct (c_flat c _ _); auto.
  Qed.
  Lemma p_update_inv box m m' regs st : pinv m regs st -> d_update e c box m = Some m' ->
    pinv m' regs (map (fun p => (fst p, box (fst p))) st).
  Proof using He.
    intros (live & HI & PR & NR & PT & PS) H. unfold d_update in H.
    destruct (hstep e (d_tree m) _) as [h|] eqn:E; [|discriminate].
    eapply p_setup_inv; eauto. clear H.
    pose proof (hstep_hinv _ _ _ _ _ He HI E) as HI'. cbn [live_step fst] in HI'.
    set (upd := map (fun p => (snd p, box (fst p))) (d_table m)) in *.
    assert (NDI : NoDup (map leaf_id live)) by (destruct HI as (_ & _ & _ & _ & ND & _); exact ND).
    assert (Val : forall x, In x live ->
       fold_left (fun x u => put_bv (fst u) (snd u) x) upd x = (leaf_id x, box (leaf_data x), leaf_data x)).
    { intros x Hx. apply put_all_spec.
      - intros u Hu Eu. unfold upd in Hu. rewrite PT in Hu. rewrite map_map in Hu.
        apply in_map_iff in Hu as (y & <- & Hy). cbn in *. do 2 f_equal. apply (id_unique live); auto.
      - left. unfold upd. rewrite map_map. cbn. rewrite PT, map_map. cbn. apply in_map; auto. }
    rewrite fold_put_map in HI'.
    exists (map (fun x => fold_left (fun x u => put_bv (fst u) (snd u) x) upd x) live).
    rewrite (map_ext_in _ (fun x => (leaf_id x, box (leaf_data x), leaf_data x))) in * by auto.
    cbn [d_tree d_table unset set_tree]. split; auto. rewrite !map_map. cbn. split; auto. split; auto.
    split; [rewrite PT; reflexivity|]. rewrite <- PS, map_map. reflexivity.
  Qed.
  Lemma p_update_one_inv box o m m' regs st : pinv m regs st ->
    d_update_one e box o m = Some m' -> pinv m' regs (map (store_upd e box o) st).
  Proof using He.
    intros (live & HI & PR & NR & PT & PS) H. unfold d_update_one in H.
    assert (NDD : NoDup (map leaf_data live)) by (eapply Permutation_NoDup; [symmetry|]; eauto).
    assert (NDI : NoDup (map leaf_id live)) by (destruct HI as (_ & _ & _ & _ & ND & _); exact ND).
    assert (NDT : NoDup (map fst (d_table m))) by
      (eapply Permutation_NoDup; [symmetry; apply table_keys; eauto|auto]).
    assert (Same : (forall x, In x live -> store_upd e box o (held x) = held x) ->
              pinv (unset m) regs (map (store_upd e box o) st)).
    { intros Hq. exists live. cbn [d_tree d_table unset]. split; auto. split; auto. split; auto. split; auto.
      rewrite <- PS, map_map. rewrite (map_ext_in (fun x => store_upd e box o (held x)) held) by auto. reflexivity. }
    destruct (lookup o (d_table m)) as [id|] eqn:EL.
    - apply lookup_in in EL; auto. rewrite PT in EL. apply in_map_iff in EL as (x0 & Ex0 & Hx0).
      injection Ex0 as Eo Ei.
      destruct (h_root (d_tree m)) as [t|] eqn:Er; [|discriminate].
      destruct (find_leaf id t) as [[b d]|] eqn:Ef; [|discriminate].
      apply find_leaf_in in Ef.
      assert (Ex : x0 = (id, b, d)).
      { apply (id_unique live); auto. destruct HI as (_ & P & _). cbn in P. rewrite Er in P. rewrite <- P. auto. }
      assert (Eb : leaf_bv x0 = b) by (rewrite Ex; reflexivity).
      assert (One : forall x, In x live -> leaf_data x = o -> x = x0).
      { intros x Hx E. apply (leaf_unique live); auto. congruence. }
      destruct (e_equal e b (box o)) eqn:Eq.
      + injection H as <-. apply Same. intros x Hx. unfold store_upd, held; cbn.
        destruct (Nat.eqb_spec (leaf_data x) o) as [E2|E2]; auto.
        rewrite (One x Hx E2), Eb, Eq. reflexivity.
      + destruct (hstep e (d_tree m) (HUpdate id (box o))) as [h|] eqn:E; [|discriminate]. injection H as <-.
        pose proof (hstep_hinv _ _ _ _ _ He HI E) as HI'. cbn [live_step fst] in HI'.
        exists (map (put_bv_fat id (box o)) live). cbn [d_tree d_table unset set_tree]. split; auto.
        assert (DD : forall x, leaf_data (put_bv_fat id (box o) x) = leaf_data x).
        { intros x. unfold put_bv_fat. destruct (_ && _); auto. }
        rewrite !map_map. split; [rewrite (map_ext _ _ DD); auto|]. split; auto. split.
        * rewrite PT. erewrite map_ext; [reflexivity|]. intros x. unfold entry. rewrite DD, put_bv_fat_id; auto.
        * rewrite <- PS, map_map. erewrite map_ext_in; [reflexivity|]. intros x Hx. cbn beta.
          unfold store_upd, put_bv_fat, has_id, held. cbn [fst snd].
          destruct (Nat.eqb_spec (leaf_data x) o) as [E2|E2].
          -- pose proof (One x Hx E2) as ->. rewrite Ei, Nat.eqb_refl, Eb, Eq. cbn [andb negb].
             destruct (contain b (box o)); cbn [negb]; [rewrite Eb; auto|]. cbn. rewrite Eo. auto.
          -- destruct (Nat.eqb_spec (leaf_id x) id) as [E3|E3]; auto.
             exfalso. apply E2. rewrite <- Eo. f_equal. apply (id_unique live); auto. congruence.
    - injection H as <-. apply Same. intros x Hx. unfold store_upd, held; cbn.
      destruct (Nat.eqb_spec (leaf_data x) o) as [E2|E2]; auto. exfalso.
      apply lookup_none in EL. apply EL. rewrite (table_keys _ _ PT), <- E2. apply in_map; auto.
  Qed.
  Lemma p_update_fold box l m m' regs st : pinv m regs st ->
    opt_fold (d_update_one e box) l m = Some m' ->
    pinv m' regs (fold_left (fun s o => map (store_upd e box o) s) l st).
  Proof using He.
    revert m st; induction l as [|o l IH]; intros m st HI H; cbn [opt_fold fold_left] in *.
    - injection H as <-; auto.
    - destruct (d_update_one e box o m) as [m1|] eqn:E; [|discriminate].
      eapply IH; eauto. eapply p_update_one_inv; eauto.
  Qed.
  Lemma pstep_inv op m box m' box' regs st : proper_op regs op -> pinv m regs st ->
    dstep e c op (m, box) = Some (m', box') ->
    pinv m' (reg_step regs op) (fst (store_step e (st, box) op)) /\ box' = snd (store_step e (st, box) op).
  Proof using He.
    intros V HI H. destruct op as [o b|o|l|o| | |o|l|];
      cbn [dstep proper_op reg_step store_step fst snd] in *.
    - injection H as <- <-. auto.
    - destruct (d_register e box o m) as [m1|] eqn:E; [|discriminate]. injection H as <- <-.
      split; auto. eapply p_register_inv; eauto.
    - destruct (d_registers e c box l m) as [m1|] eqn:E; [|discriminate]. injection H as <- <-.
      split; auto. eapply p_registers_inv; eauto.
    - destruct (d_unregister e o m) as [m1|] eqn:E; [|discriminate]. injection H as <- <-.
      split; auto. eapply p_unregister_inv; eauto.
    - destruct (d_setup_ e c m) as [m1|] eqn:E; [|discriminate]. injection H as <- <-.
      split; auto. eapply p_setup_inv; eauto.
    - destruct (d_update e c box m) as [m1|] eqn:E; [|discriminate]. injection H as <- <-.
      split; auto. eapply p_update_inv; eauto.
    - destruct (d_update_one e box o m) as [m0|] eqn:E0; [|discriminate].
      destruct (d_setup_ e c m0) as [m1|] eqn:E; [|discriminate]. injection H as <- <-.
      split; auto. eapply p_setup_inv; eauto. eapply p_update_one_inv; eauto.
    - destruct (opt_fold _ l m) as [m0|] eqn:E0; [|discriminate].
      destruct (d_setup_ e c m0) as [m1|] eqn:E; [|discriminate]. injection H as <- <-.
      split; auto. eapply p_setup_inv; eauto. eapply p_update_fold; eauto.
    - injection H as <- <-. split; auto. exists []. cbn. split; [|repeat split; auto; constructor].
      repeat split; cbn; auto; try constructor; tauto.
  Qed.
  Lemma prun_inv_gen ops m box m' box' regs st : proper ops regs -> pinv m regs st ->
    opt_fold (dstep e c) ops (m, box) = Some (m', box') ->
    pinv m' (fold_left reg_step ops regs) (fst (fold_left (store_step e) ops (st, box))) /\
    box' = snd (fold_left (store_step e) ops (st, box)).
  Proof using He.
    revert m box regs st; induction ops as [|op ops IH]; intros m box regs st V HI H.
    - injection H as <- <-. auto.
    - cbn [opt_fold proper fold_left] in *. destruct V as [V1 V2].
      destruct (dstep e c op (m, box)) as [[m1 box1]|] eqn:E; [|discriminate].
      apply (pstep_inv op m box m1 box1 regs st) in E as [E Eb]; auto. subst box1.
      destruct (store_step e (st, box) op) as [st1 b1] eqn:Es. cbn [fst snd] in *.
      eapply IH; eauto.
  Qed.
End Pointer.

(** collide(obj), collide(), collide(other), getObjects, size, empty (890-1040).  The recursions
    (465-690) are those of the pointer manager with indices for pointers.  A manager of non-zero
    size and no root reads the node before the array ([None]). *)
Definition a_on (m : aman) (f : tree -> query) : option query :=
  if Nat.eqb (a_n m) 0 then Some cskip else option_map f (a_root m).
Definition a_collide_obj (m : aman) (box : obj -> aabb) (o : obj) : option query :=
  a_on m (fun t => tq_collide t (box o) o).
Definition a_collide_self (m : aman) : option query := a_on m self_collide.
Definition a_get (m : aman) : option (list (option obj)) :=
  if Nat.leb (length (a_table m)) (a_n m) then
    Some (map (fun p => Some (fst p)) (a_table m) ++ repeat None (a_n m - length (a_table m)))
  else None.
