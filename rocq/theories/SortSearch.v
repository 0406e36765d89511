(** std::sort, std::upper_bound and std::lower_bound on vectors of objects with a sort key. *)
From Coq Require Import ZArith List Bool Lia Permutation Arith Sorted.
From Verif Require Import AabbZ Broadphase.
Import ListNotations.
Local Open Scope Z_scope.

(** Any sorting routine: the order of equal keys is not specified by std::sort. *)
Definition sorter := (obj -> Z) -> list obj -> list obj.
Definition by_key {A} (key : A -> Z) (a b : A) : Prop := key a <= key b.
Definition sorts (srt : sorter) : Prop := forall key l,
  Permutation (srt key l) l /\ StronglySorted (by_key key) (srt key l).

(** libstdc++ __upper_bound / __lower_bound (bits/stl_algo.h): [before v x] is comp(v, x), for
    lower_bound negated comp(x, v).  [fuel] counts the remaining length. *)
Fixpoint bsearch (fuel : nat) (goleft : Z -> bool) (keys : list Z) (first len : nat) : nat :=
  match fuel with
  | O => first
  | S f =>
      if Nat.eqb len 0 then first
      else
        let half := Nat.div len 2 in
        if goleft (nth (first + half) keys 0) then bsearch f goleft keys first half
        else bsearch f goleft keys (first + half + 1) (len - half - 1)
  end.
Definition upper_bound (keys : list Z) (v : Z) : nat :=
  bsearch (length keys) (fun k => v <? k) keys 0 (length keys).
Definition lower_bound (keys : list Z) (v : Z) : nat :=
  bsearch (length keys) (fun k => negb (k <? v)) keys 0 (length keys).

(** On a range partitioned by the predicate the result is the partition point. *)
Lemma bsearch_spec goleft keys k : (k <= length keys)%nat ->
  (forall i, (i < length keys)%nat -> goleft (nth i keys 0) = negb (Nat.ltb i k)) ->
  forall fuel first len, (len <= fuel)%nat -> (first <= k)%nat -> (k <= first + len)%nat ->
  (first + len <= length keys)%nat -> bsearch fuel goleft keys first len = k.
Proof.
  intros Hk Hg. induction fuel as [|f IH]; intros first len H1 H2 H3 H4; cbn [bsearch]; [lia|].
  destruct (Nat.eqb_spec len 0) as [->|Hl]; [lia|].
  assert (Hh : (Nat.div len 2 < len)%nat) by (apply Nat.div_lt; lia).
  rewrite Hg by lia. destruct (Nat.ltb_spec (first + Nat.div len 2) k); cbn [negb]; apply IH; lia.
Qed.

Lemma sorted_split {A} (key : A -> Z) l v : StronglySorted (by_key key) l ->
  exists k, (k <= length l)%nat /\
    firstn k l = filter (fun a => key a <=? v) l /\
    skipn k l = filter (fun a => negb (key a <=? v)) l /\
    forall i, (i < length l)%nat -> (v <? nth i (map key l) 0) = negb (Nat.ltb i k).
Proof.
  induction 1 as [|a l HS IH HF].
  - exists 0%nat. cbn. repeat split; auto. intros i Hi; lia.
  - destruct IH as (k & Hk & F & S' & N). destruct (Z.leb_spec (key a) v) as [Ha|Ha].
    + exists (S k). cbn [firstn skipn filter length]. apply Z.leb_le in Ha. rewrite Ha. cbn [negb].
      split; [lia|]. split; [rewrite F; auto|]. split; auto.
      intros [|i] Hi; cbn [nth map].
      * apply Z.leb_le in Ha. cbn. apply Z.ltb_ge; auto.
      * rewrite N by lia. reflexivity.
    + exists 0%nat. cbn [firstn skipn filter length]. apply Z.leb_gt in Ha as Ha'. rewrite Ha'. cbn [negb].
      assert (All : forall x, In x l -> v < key x).
      { intros x Hx. rewrite Forall_forall in HF. specialize (HF x Hx). unfold by_key in HF. lia. }
      split; [lia|]. split; [|split].
      * symmetry. clear - All. induction l as [|x l IH]; cbn; auto. specialize (All x (or_introl eq_refl)) as Ax.
        apply Z.leb_gt in Ax. rewrite Ax. apply IH. intros y Hy. apply All. right; auto.
      * f_equal. clear - All. induction l as [|x l IH]; cbn; auto. specialize (All x (or_introl eq_refl)) as Ax.
        apply Z.leb_gt in Ax. rewrite Ax. cbn. f_equal. apply IH. intros y Hy. apply All. right; auto.
      * intros [|i] Hi; cbn [nth map].
        -- apply Z.ltb_lt in Ha. rewrite Ha. reflexivity.
        -- cbn in Hi. replace 0 with (0) by auto. assert (L : (i < length l)%nat) by lia.
           rewrite nth_indep with (d' := key a) by (rewrite map_length; lia). rewrite map_nth.
           cbn. apply Z.ltb_lt, All, nth_In; auto.
Qed.

Lemma upper_bound_spec {A} (key : A -> Z) l v : StronglySorted (by_key key) l ->
  firstn (upper_bound (map key l) v) l = filter (fun a => key a <=? v) l /\
  skipn (upper_bound (map key l) v) l = filter (fun a => negb (key a <=? v)) l.
Proof.
  intros HS. destruct (sorted_split key l v HS) as (k & Hk & F & S' & N).
  assert (upper_bound (map key l) v = k) as ->; [|auto].
  unfold upper_bound. apply bsearch_spec; rewrite ?map_length; auto; lia.
Qed.

(** std::lower_bound with comparison key < v: everything before is below v. *)
Lemma sorted_split_lt {A} (key : A -> Z) l v : StronglySorted (by_key key) l ->
  exists k, (k <= length l)%nat /\
    firstn k l = filter (fun a => key a <? v) l /\
    skipn k l = filter (fun a => negb (key a <? v)) l /\
    forall i, (i < length l)%nat -> negb (nth i (map key l) 0 <? v) = negb (Nat.ltb i k).
Proof.
  intros HS. destruct (sorted_split key l (v - 1) HS) as (k & Hk & F & S' & N).
  assert (E : forall a, (key a <=? v - 1) = (key a <? v)).
  { intros a. destruct (Z.leb_spec (key a) (v - 1)), (Z.ltb_spec (key a) v); auto; lia. }
  exists k. split; auto. split; [rewrite F; apply filter_ext; auto|].
  split; [rewrite S'; apply filter_ext; intros a; rewrite E; auto|].
  intros i Hi. rewrite <- N by auto. destruct (Z.ltb_spec (nth i (map key l) 0) v), (Z.ltb_spec (v - 1) (nth i (map key l) 0));
    auto; lia.
Qed.
Lemma lower_bound_spec {A} (key : A -> Z) l v : StronglySorted (by_key key) l ->
  firstn (lower_bound (map key l) v) l = filter (fun a => key a <? v) l /\
  skipn (lower_bound (map key l) v) l = filter (fun a => negb (key a <? v)) l.
Proof.
  intros HS. destruct (sorted_split_lt key l v HS) as (k & Hk & F & S' & N).
  assert (lower_bound (map key l) v = k) as ->; [|auto].
  unfold lower_bound. apply bsearch_spec; rewrite ?map_length; auto; lia.
Qed.

Lemma StronglySorted_ext {A} (key key' : A -> Z) l : (forall a, In a l -> key a = key' a) ->
  StronglySorted (by_key key) l -> StronglySorted (by_key key') l.
Proof.
  intros H HS. induction HS as [|a l HS IH HF]; constructor.
  - apply IH. intros x Hx. apply H. right; auto.
  - rewrite Forall_forall in *. intros x Hx. specialize (HF x Hx). unfold by_key in *.
    rewrite <- !H; cbn; auto.
Qed.

(** Insertion sort: a witness that sorters exist, used in examples. *)
Fixpoint ins (key : obj -> Z) (a : obj) (l : list obj) : list obj :=
  match l with
  | [] => [a]
  | b :: r => if key a <=? key b then a :: b :: r else b :: ins key a r
  end.
Definition isort : sorter := fun key => fold_right (ins key) [].
Lemma ins_perm key a l : Permutation (ins key a l) (a :: l).
Proof.
  induction l as [|b l IH]; cbn; auto. destruct (key a <=? key b); auto.
  rewrite IH. apply perm_swap.
Qed.
Lemma isort_sorts : sorts isort.
Proof.
  intros key l. unfold isort. induction l as [|a l [IP IS]]; cbn; [split; constructor|]. split.
  - rewrite ins_perm, IP. auto.
  - clear IP. revert IS. generalize (fold_right (ins key) [] l). clear l. intros l.
    induction l as [|b l IH]; cbn; intros IS; [repeat constructor|].
    destruct (Z.leb_spec (key a) (key b)) as [H|H].
    + constructor; auto. constructor; auto. inversion IS as [|? ? ? HF]; subst.
      rewrite Forall_forall in *. intros x Hx. specialize (HF x Hx). unfold by_key in *. lia.
    + inversion IS as [|? ? HS HF]; subst. constructor; auto.
      rewrite Forall_forall in *. intros x Hx.
      apply (Permutation_in _ (ins_perm key a l)) in Hx as [<-|Hx]; [unfold by_key; lia|auto].
Qed.

(** With distinct keys every sorter returns the same list. *)
Lemma sorted_unique {A} (key : A -> Z) l l' : Permutation l l' ->
  (forall a b, In a l -> In b l -> key a = key b -> a = b) ->
  StronglySorted (by_key key) l -> StronglySorted (by_key key) l' -> l = l'.
Proof.
  revert l'; induction l as [|a l IH]; intros l' P Inj S1 S2.
  - apply Permutation_nil in P. auto.
  - destruct l' as [|b l']; [apply Permutation_sym, Permutation_nil in P; discriminate|].
    inversion S1 as [|? ? S1' F1]; subst. inversion S2 as [|? ? S2' F2]; subst. rewrite Forall_forall in F1, F2.
    assert (a = b) as <-.
    { apply Inj; [left; auto|rewrite P; left; auto|].
      assert (Hb : In b (a :: l)) by (rewrite P; left; auto).
      assert (Ha : In a (b :: l')) by (rewrite <- P; left; auto).
      destruct Hb as [<-|Hb]; auto. destruct Ha as [->|Ha]; auto.
      specialize (F1 b Hb). specialize (F2 a Ha). unfold by_key in *. lia. }
    f_equal. apply IH; auto; [eapply Permutation_cons_inv; eauto|].
    intros x y Hx Hy. apply Inj; right; auto.
Qed.
Lemma srt_isort srt key l : sorts srt -> (forall a b, In a l -> In b l -> key a = key b -> a = b) ->
  srt key l = isort key l.
Proof.
  intros HS Inj. destruct (HS key l) as [P S]. destruct (isort_sorts key l) as [P' S'].
  apply (sorted_unique key); auto; [rewrite P, P'; auto|].
  intros a b Ha Hb. rewrite P in Ha, Hb. apply Inj; auto.
Qed.
