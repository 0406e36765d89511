(** C18: detail::IntervalTree. *)
From Coq Require Import ZArith List Bool Lia Permutation Arith Sorted.
From Verif Require Import IntervalTree.
Import ListNotations.
Local Open Scope Z_scope.

(** The intervals (identity, low, high) that a history leaves stored. *)
Definition stored_step (l : list (nat * (Z * Z))) (op : iop) : list (nat * (Z * Z)) :=
  match op with
  | IIns k h iv => (iv, (k, h)) :: l
  | IDel iv => filter (fun e => negb (Nat.eqb (fst e) iv)) l
  end.
Definition stored (ops : list iop) : list (nat * (Z * Z)) := fold_left stored_step ops [].
(** Every inserted interval is an interval with finite ends, and is not stored already. *)
Definition good_op (MX : Z) (l : list (nat * (Z * Z))) (op : iop) : Prop :=
  match op with
  | IIns k h iv => k <= h /\ - MX <= h /\ ~ In iv (map fst l)
  | IDel _ => True
  end.
Definition good_history (MX : Z) (ops : list iop) : Prop :=
  forall n op, nth_error ops n = Some op -> good_op MX (stored (firstn n ops)) op.

Lemma stored_snoc ops op : stored (ops ++ [op]) = stored_step (stored ops) op.
Proof. unfold stored. rewrite fold_left_app. reflexivity. Qed.
Lemma good_snoc MX ops op : good_history MX (ops ++ [op]) -> good_history MX ops /\ good_op MX (stored ops) op.
Proof.
  intros H. split.
  - intros n o Hn. specialize (H n o). rewrite nth_error_app1, firstn_app in H
      by (apply nth_error_Some; congruence).
    replace (n - length ops)%nat with 0%nat in H by (assert (n < length ops)%nat by (apply nth_error_Some; congruence); lia).
    cbn in H. rewrite app_nil_r in H. auto.
  - specialize (H (length ops) op). rewrite nth_error_app2, Nat.sub_diag, firstn_app, Nat.sub_diag, firstn_all in H by lia.
    cbn in H. rewrite app_nil_r in H. auto.
Qed.
Lemma run_snoc MX ops op : i_run MX (ops ++ [op]) = i_step MX (i_run MX ops) op.
Proof. unfold i_run. rewrite fold_left_app. reflexivity. Qed.

Lemma filter_id {A} (f : A -> bool) l : (forall x, In x l -> f x = true) -> filter f l = l.
Proof.
  induction l as [|x l IH]; cbn; intros H; auto. rewrite (H x) by auto. f_equal. apply IH. auto.
Qed.
Lemma filter_drop (a b : list (nat * (Z * Z))) iv kh : NoDup (map fst (a ++ (iv, kh) :: b)) ->
  filter (fun e => negb (Nat.eqb (fst e) iv)) (a ++ (iv, kh) :: b) = a ++ b.
Proof.
  rewrite map_app. cbn. intros H. apply NoDup_remove_2 in H. rewrite filter_app. cbn. rewrite Nat.eqb_refl. cbn.
  rewrite in_app_iff in H.
  rewrite !filter_id; auto; intros x Hx; apply negb_true_iff, Nat.eqb_neq; intros <-; apply H;
    [right|left]; apply in_map; auto.
Qed.
Lemma Permutation_filter {A} (f : A -> bool) l l' : Permutation l l' -> Permutation (filter f l) (filter f l').
Proof.
  induction 1; cbn; auto.
  - destruct (f x); auto.
  - destruct (f x), (f y); auto using perm_swap.
  - eapply Permutation_trans; eauto.
Qed.

Lemma run_inv MX ops : good_history MX ops -> forall t nr, i_run MX ops = Some (t, nr) ->
  iok MX t /\ root_black t /\ Permutation (elems t) (stored ops) /\ NoDup (map fst (elems t)) /\
  Forall (fun e => ekey e <= ehigh e) (elems t).
Proof.
  induction ops as [|op ops IH] using rev_ind; intros Hg t nr H.
  { cbn in H. injection H as <- <-. cbn. repeat split; auto; try constructor. }
  apply good_snoc in Hg as [Hg Ho]. rewrite run_snoc in H. specialize (IH Hg).
  destruct (i_run MX ops) as [[t0 nr0]|]; [|discriminate]. destruct (IH t0 nr0 eq_refl) as (I & R & P & N & F).
  rewrite stored_snoc. cbn [i_step] in H. destruct op as [k h iv|iv]; cbn [stored_step].
  - destruct Ho as (Hk & Hh & Hn).
    destruct (i_insert_total MX k h iv t0 nr0 R) as (t1 & nr1 & E & R'). rewrite E in H. injection H as <- <-.
    apply i_insert_spec in E as (I' & a & b & Ea & Eb); auto.
    assert (P' : Permutation (elems t1) ((iv, (k, h)) :: elems t0)).
    { rewrite Ea, Eb. apply Permutation_sym, Permutation_middle. }
    split; auto. split; auto. split; [|split].
    + eapply Permutation_trans; [apply P'|]. auto.
    + eapply Permutation_NoDup; [apply Permutation_sym, (Permutation_map fst P')|]. cbn. constructor; auto.
      intros Hin. apply Hn. eapply Permutation_in; [apply (Permutation_map fst P)|]. auto.
    + rewrite Eb. rewrite Ea in F. apply Forall_app in F as [F1 F2]. apply Forall_app. split; auto.
  - pose proof (i_delete_root MX iv _ _ _ _ R H) as R'.
    apply i_delete_spec in H as (I' & a & kh & b & Ea & Eb); auto.
    split; auto. split; auto. rewrite Ea in N, F. split; [|split].
    + rewrite Eb, <- (filter_drop a b iv kh) by auto. apply Permutation_filter. rewrite <- Ea. auto.
    + rewrite Eb. rewrite map_app in *. cbn in N. apply NoDup_remove_1 in N. auto.
    + rewrite Eb. apply Forall_app in F as [F1 F2]. apply Forall_app. split; auto. inversion F2; auto.
Qed.

(** After every history that does not corrupt the tree, query(low, high) with low above the
    sentinel's value returns exactly the stored intervals that meet [low, high], each once. *)
Theorem interval_query_exact : forall MX ops s low high, good_history MX ops -> i_run MX ops = Some s ->
  - MX < low -> low <= high ->
  exists res, i_query MX low high s = Some res /\ NoDup res /\
    forall iv, In iv res <-> exists k h, In (iv, (k, h)) (stored ops) /\ exists x, low <= x <= high /\ k <= x <= h.
Proof.
  intros MX ops [t nr] low high Hg H Hl Hq. destruct (run_inv MX ops Hg t nr H) as (I & R & P & N & F).
  rewrite i_query_eq. eexists. split; [reflexivity|]. split; [apply qres_nodup; auto|].
  intros iv. rewrite (qres_exact MX low high Hq Hl t I F iv). split.
  - intros ([iv' [k h]] & He & <- & T1 & T2). exists k, h. split; [eapply Permutation_in; eauto|].
    rewrite Forall_forall in F. specialize (F _ He). unfold ekey, ehigh in *; cbn in *. exists (Z.max low k). lia.
  - intros (k & h & He & x & Hx & Hy). exists (iv, (k, h)). split; [|split; auto].
    + eapply Permutation_in; [apply Permutation_sym|]; eauto.
    + unfold touches, ekey, ehigh; cbn. lia.
Qed.
Print Assumptions interval_query_exact.

(** The tree holds exactly the stored intervals, in search-tree order, every node knows the
    largest upper end below it. *)
Theorem interval_tree_content : forall MX ops t nr, good_history MX ops -> i_run MX ops = Some (t, nr) ->
  Permutation (elems t) (stored ops) /\
  (forall d l r p, t = plug (INode d l r) p ->
     (forall e, In e (elems l) -> ekey e <= n_key d) /\ (forall e, In e (elems r) -> n_key d <= ekey e) /\
     (exists e, In e (elems (INode d l r)) /\ ehigh e = n_max d) /\
     (forall e, In e (elems (INode d l r)) -> ehigh e <= n_max d)).
Proof.
  intros MX ops t nr Hg H. destruct (run_inv MX ops Hg t nr H) as ([Hm Hs] & R & P & N & F).
  split; auto. intros d l r p E. rewrite E in Hm, Hs. apply mok_plug in Hm as [Hm _]. rewrite elems_plug in Hs.
  apply ss_sub in Hs as [_ Hs]. apply ss_sub in Hs as [Hs _]. cbn [elems] in Hs.
  apply ss_split in Hs as (_ & _ & F1 & F2). rewrite Forall_forall in F1, F2.
  split; auto. split; auto. apply imax_maxl in Hm as Em. cbn [imax] in Em. rewrite Em.
  assert (HM : forall e, In e (elems (INode d l r)) -> ehigh e <= maxl MX (elems (INode d l r)))
    by (intros; apply maxl_in; auto).
  split; auto.
  assert (Hx : - MX <= n_high d).
  { assert (He : In (item d) (elems t)) by (rewrite E, elems_plug; apply in_app_iff; right; apply in_app_iff; left;
      cbn; apply in_app_iff; right; left; auto).
    apply (Permutation_in _ P) in He.
    assert (G : forall ops, good_history MX ops -> forall e, In e (stored ops) -> - MX <= ehigh e).
    { clear. induction ops as [|op ops IH] using rev_ind; intros Hg e He; [destruct He|].
      apply good_snoc in Hg as [Hg Ho]. rewrite stored_snoc in He. destruct op as [k h iv|iv]; cbn in He.
      - destruct He as [<-|He]; [apply Ho|auto].
      - apply filter_In in He as [He _]. auto. }
    exact (G ops Hg _ He). }
  destruct (Z.le_gt_cases (maxl MX (elems (INode d l r))) (- MX)) as [Q|Q].
  - exists (item d). split; [cbn; apply in_app_iff; right; left; auto|].
    assert (In (item d) (elems (INode d l r))) as Hi by (cbn; apply in_app_iff; right; left; auto).
    specialize (HM _ Hi). unfold ehigh in *. cbn [item fst snd] in *. lia.
  - destruct (maxl_ge MX _ _ Q (Z.le_refl _)) as (e & He & Hh). exists e. split; auto. specialize (HM e He). lia.
Qed.
Print Assumptions interval_tree_content.

(** Insertion always succeeds. *)
Theorem interval_insert_total : forall MX ops s k h iv, good_history MX ops -> i_run MX ops = Some s ->
  exists s', i_run MX (ops ++ [IIns k h iv]) = Some s'.
Proof.
  intros MX ops [t nr] k h iv Hg H. destruct (run_inv MX ops Hg t nr H) as (_ & R & _).
  rewrite run_snoc, H. cbn. destruct (i_insert_total MX k h iv t nr R) as (t' & nr' & E & _). eauto.
Qed.
Print Assumptions interval_insert_total.

(** Deleting an interval that is not stored deletes the sentinel: undefined behaviour. *)
Theorem interval_delete_absent_refuted : forall MX ops s iv, good_history MX ops -> i_run MX ops = Some s ->
  ~ In iv (map fst (stored ops)) -> i_run MX (ops ++ [IDel iv]) = None.
Proof.
  intros MX ops [t nr] iv Hg H Hn. rewrite run_snoc, H. cbn.
  pose proof (search_spec iv t []) as HS. destruct (search iv t []) as [[[[z l] r] p]|] eqn:E; auto.
  destruct HS as [HS <-]. exfalso. apply Hn. destruct (run_inv MX ops Hg t nr H) as (_ & _ & P & _).
  eapply Permutation_in; [apply (Permutation_map fst P)|]. cbn in HS. rewrite <- HS, elems_plug, !map_app.
  apply in_app_iff. right. apply in_app_iff. left. cbn. rewrite map_app. apply in_app_iff. right. left. reflexivity.
Qed.
Print Assumptions interval_delete_absent_refuted.

(** Even with intervals that are all stored, a deletion can rotate around the sentinel: the
    insertion repaints parent and uncle red instead of black, and the rebalancing of the
    deletion then meets a shape it does not expect. *)
Definition corrupting : list iop :=
  [IIns 18 19 0; IIns 3 4 3; IIns 0 1 4; IIns 12 13 5; IIns 13 14 6; IIns 9 10 7;
   IDel 0; IIns 14 15 9; IDel 4; IDel 5; IDel 6].
Definition good_op_dec (MX : Z) (l : list (nat * (Z * Z))) (op : iop) : bool :=
  match op with
  | IIns k h iv => (k <=? h) && (- MX <=? h) && negb (existsb (Nat.eqb iv) (map fst l))
  | IDel iv => existsb (Nat.eqb iv) (map fst l)
  end.
Fixpoint all_good (MX : Z) (l : list (nat * (Z * Z))) (ops : list iop) : bool :=
  match ops with [] => true | op :: r => good_op_dec MX l op && all_good MX (stored_step l op) r end.
Lemma all_good_spec MX ops : forall l, all_good MX l ops = true ->
  forall n op, nth_error ops n = Some op -> good_op MX (fold_left stored_step (firstn n ops) l) op /\
    (forall iv, op = IDel iv -> In iv (map fst (fold_left stored_step (firstn n ops) l))).
Proof.
  induction ops as [|o ops IH]; intros l H n op Hn; [destruct n; discriminate|].
  cbn in H. apply andb_true_iff in H as [H1 H2]. destruct n as [|n]; cbn in Hn |- *; [|apply IH; auto].
  injection Hn as <-. destruct o as [k h iv|iv]; cbn in H1 |- *.
  - apply andb_true_iff in H1 as [H1 H3]. apply andb_true_iff in H1 as [Hk Hh].
    apply Z.leb_le in Hk, Hh. apply negb_true_iff in H3. split; [|discriminate]. repeat split; auto.
    intros Hin. rewrite <- not_true_iff_false in H3. apply H3. apply existsb_exists. exists iv.
    split; auto. apply Nat.eqb_refl.
  - split; auto. intros iv' [= <-]. apply existsb_exists in H1 as (x & Hx & E). apply Nat.eqb_eq in E. subst; auto.
Qed.
(** numeric_limits<double>::max() *)
Definition dbl_max : Z := 2 ^ 1024 - 2 ^ 971.
Theorem interval_delete_refuted :
  good_history dbl_max corrupting /\
  (forall n iv, nth_error corrupting n = Some (IDel iv) -> In iv (map fst (stored (firstn n corrupting)))) /\
  i_run dbl_max (firstn 10 corrupting) <> None /\ i_run dbl_max corrupting = None.
Proof.
  assert (G : all_good dbl_max [] corrupting = true) by (vm_compute; reflexivity).
  pose proof (all_good_spec dbl_max corrupting [] G) as S. split; [|split; [|split]].
  - intros n op Hn. apply (S n op Hn).
  - intros n iv Hn. destruct (S n _ Hn) as [_ B]. exact (B iv eq_refl).
  - vm_compute. discriminate.
  - vm_compute. reflexivity.
Qed.
Print Assumptions interval_delete_refuted.

(** With low = -max() (and an interval to the right of the root), the query enters the sentinel
    and never tries the right branch. *)
Theorem interval_query_lowest_refuted :
  let ops := [IIns 0 1 1; IIns 5 6 2] in
  good_history dbl_max ops /\
  exists s, i_run dbl_max ops = Some s /\ i_query dbl_max (- dbl_max) 100 s = Some [1%nat].
Proof.
  intros ops. split.
  - assert (G : all_good dbl_max [] ops = true) by (vm_compute; reflexivity).
    pose proof (all_good_spec dbl_max ops [] G) as S. intros n op Hn. apply (S n op Hn).
  - eexists. split; [vm_compute; reflexivity|]. vm_compute. reflexivity.
Qed.
Print Assumptions interval_query_lowest_refuted.

(** A history with rotations and a deletion; the query of [4, 11]. *)
Definition interval_case : list iop :=
  [IIns 10 20 1; IIns 5 7 2; IIns 1 3 3; IIns 12 13 4; IIns 0 9 5; IDel 2; IIns 11 11 6].
Example interval_case_good : good_history 1000 interval_case.
Proof.
  pose proof (all_good_spec 1000 interval_case [] eq_refl) as S. intros n op Hn. apply (S n op Hn).
Qed.
Example interval_case_query : exists s, i_run 1000 interval_case = Some s /\
  i_query 1000 4 11 s = Some [1%nat; 5%nat; 6%nat].
Proof. eexists. split; [vm_compute; reflexivity|vm_compute; reflexivity]. Qed.
