(** C91: the split rules and the depth of the hierarchy. *)
From Coq Require Import Reals Lra Lia List Bool Arith Permutation.
From Verif Require Import VecR Obb BvhBuild Splitter.
Import ListNotations.
Open Scope R_scope.

(** The direction of a split: a coordinate axis along a longest side, or the first axis of an oriented volume *)
Definition along (b : volume) (dir : v3) : Prop :=
  match b with
  | Aligned _ d => dir = mk3 1 0 0 /\ c1 d <= c0 d /\ c2 d <= c0 d \/ dir = mk3 0 1 0 /\ c0 d <= c1 d /\ c2 d <= c1 d \/ dir = mk3 0 0 1 /\ c0 d <= c2 d /\ c1 d <= c2 d
  | Oriented v _ => dir = v
  end.
Definition middle (ty : mtype) (t : prim) : v3 :=
  match t with (p1, p2, p3) => match ty with TRIANGLES => vscale (1 / 3) (vadd p1 (vadd p2 p3)) | POINTCLOUD => p1 end end.
(** std::sort *)
Definition sorts (sort : list R -> list R) : Prop := forall l, Permutation l (sort l) /\ forall i j, (i <= j < length l)%nat -> nth i (sort l) 0 <= nth j (sort l) 0.

Definition sum (l : list R) : R := fold_right Rplus 0 l.
Lemma fold_sum : forall {A} (f : A -> R) l s, fold_left (fun s t => s + f t) l s = s + sum (map f l).
Proof. intros A f l. induction l as [|t l IH]; intros s; cbn; [ring|]. rewrite IH. fold (sum (map f l)). ring. Qed.
Definition dir_of (b : volume) : v3 :=
  match b with Aligned _ d => match longest d with 0%nat => mk3 1 0 0 | 1%nat => mk3 0 1 0 | _ => mk3 0 0 1 end | Oriented v _ => v end.
Lemma dir_along : forall b, along b (dir_of b).
Proof.
  intros [c d|v c]; [|reflexivity]. cbn. unfold longest, geb. destruct (Rle_dec (c1 d) (c0 d)), (Rle_dec (c2 d) (c0 d)), (Rle_dec (c0 d) (c1 d)), (Rle_dec (c2 d) (c1 d)); cbn; auto 6; right; right; (split; [reflexivity|lra]).
Qed.
Lemma comp_dot : forall a q, comp a q = dot (match a with 0%nat => mk3 1 0 0 | 1%nat => mk3 0 1 0 | _ => mk3 0 0 1 end) q.
Proof. intros [|[|a]] []; unfold dot; cbn; ring. Qed.
Lemma longest_small : forall d, (longest d <= 2)%nat.
Proof. intros d. unfold longest. destruct (_ && _); [lia|]. destruct (_ && _); lia. Qed.
Lemma middle_centroid : forall ty t, centroid ty t = middle ty t.
Proof. intros [] [[[] []] []]; unfold centroid, middle, vscale, vadd; cbn; f_equal; field. Qed.

(** the value of the rules in one form *)
Definition level (ty : mtype) (dir : v3) (t : prim) : R := dot dir (middle ty t).
Lemma dot_fold : forall v l c, dot (fold_left (fun c (t : prim) => match t with (p1, p2, p3) => vadd c (vadd (vadd p1 p2) p3) end) l c) v =
  dot c v + 3 * sum (map (level TRIANGLES v) l).
Proof.
  intros v l. induction l as [|[[p1 p2] p3] l IH]; intros c; cbn [fold_left map]; [cbn; ring|]. rewrite IH. cbn [sum fold_right]. fold (sum (map (level TRIANGLES v) l)).
  unfold level at 2, middle. destruct v, c, p1, p2, p3; unfold dot, vadd, vscale; cbn. field.
Qed.
Lemma mean_value : forall sort ty b l, l <> [] -> exists mk, compute_rule sort MEAN ty b l = mk (sum (map (level ty (dir_of b)) l) / INR (length l)) /\
  forall value q, apply (mk value) q = if Rlt_dec value (dot (dir_of b) q) then true else false.
Proof.
  intros sort ty b l Hl. assert (N : 0 < INR (length l)) by (destruct l; [congruence|apply lt_0_INR; cbn; lia]). destruct b as [c d|v c]; cbn [compute_rule dir_of].
  - exists (OnAxis (longest d)). split; [|intros value q; cbn; rewrite comp_dot; reflexivity]. f_equal. unfold mean_axis. f_equal. set (dir := match longest d with 0%nat => _ | _ => _ end). destruct ty.
    + assert (G : forall l s, fold_left (fun s (t : prim) => match t with (p1, p2, p3) => s + (comp (longest d) p1 + comp (longest d) p2 + comp (longest d) p3) end) l s = s + 3 * sum (map (level TRIANGLES dir) l)).
      { clear. intros l. induction l as [|[[p1 p2] p3] l IH]; intros s; cbn [fold_left map]; [cbn; ring|]. rewrite IH. cbn [sum fold_right]. fold (sum (map (level TRIANGLES dir) l)). rewrite !comp_dot. fold dir.
        unfold level at 2, middle. destruct dir, p1, p2, p3; unfold dot, vadd, vscale; cbn. field. }
      rewrite G. field.
    + assert (G : forall l s, fold_left (fun s (t : prim) => match t with (p1, _, _) => s + comp (longest d) p1 end) l s = s + sum (map (level POINTCLOUD dir) l)).
      { clear. intros l. induction l as [|[[p1 p2] p3] l IH]; intros s; cbn [fold_left map]; [cbn; ring|]. rewrite IH. cbn [sum fold_right]. fold (sum (map (level POINTCLOUD dir) l)). rewrite comp_dot. fold dir. unfold level at 2, middle. ring. }
      rewrite G. ring.
  - exists (OnVector v). split; [|reflexivity]. f_equal. unfold mean_vector. destruct ty.
    + rewrite dot_fold. replace (dot vzero v) with 0 by (destruct v; unfold dot, vzero; cbn; ring). field. lra.
    + assert (G : forall l s, fold_left (fun s (t : prim) => match t with (p1, _, _) => s + dot p1 v end) l s = s + sum (map (level POINTCLOUD v) l)).
      { clear. intros l. induction l as [|[[p1 p2] p3] l IH]; intros s; cbn [fold_left map]; [cbn; ring|]. rewrite IH. cbn [sum fold_right]. fold (sum (map (level POINTCLOUD v) l)). unfold level at 2, middle. rewrite (dot_comm p1). ring. }
      rewrite G. f_equal. ring.
Qed.
Lemma median_value : forall sort ty b l, exists mk, compute_rule sort MEDIAN ty b l = mk (median sort (map (level ty (dir_of b)) l)) /\
  forall value q, apply (mk value) q = if Rlt_dec value (dot (dir_of b) q) then true else false.
Proof.
  intros sort ty b l. destruct b as [c d|v c]; cbn [compute_rule dir_of].
  - exists (OnAxis (longest d)). split; [|intros value q; cbn; rewrite comp_dot; reflexivity]. f_equal. f_equal. apply map_ext. intros [[p1 p2] p3]. unfold proj_axis, level, middle. rewrite !comp_dot. set (dir := match longest d with 0%nat => _ | _ => _ end).
    destruct ty; [|reflexivity]. destruct dir, p1, p2, p3; unfold dot, vadd, vscale; cbn. field.
  - exists (OnVector v). split; [|reflexivity]. f_equal. f_equal. apply map_ext. intros [[p1 p2] p3]. unfold proj_vector, level, middle. destruct ty; [|apply dot_comm]. destruct v, p1, p2, p3; unfold dot, vadd, vscale; cbn. field.
Qed.

Lemma sum_ge : forall v l, (forall x, In x l -> v <= x) -> v * INR (length l) <= sum l.
Proof. intros v l. induction l as [|x l IH]; intros H; [cbn; lra|]. cbn [length sum fold_right]. fold (sum l). rewrite S_INR. pose proof (H x (or_introl eq_refl)). specialize (IH (fun y Hy => H y (or_intror Hy))). lra. Qed.
Lemma sum_le : forall v l, (forall x, In x l -> x <= v) -> sum l <= v * INR (length l).
Proof. intros v l. induction l as [|x l IH]; intros H; [cbn; lra|]. cbn [length sum fold_right]. fold (sum l). rewrite S_INR. pose proof (H x (or_introl eq_refl)). specialize (IH (fun y Hy => H y (or_intror Hy))). lra. Qed.
Lemma sum_le_strict : forall v l y, (forall x, In x l -> x <= v) -> In y l -> y < v -> sum l < v * INR (length l).
Proof.
  intros v l y. induction l as [|x l IH]; intros H Hy L; [destruct Hy|]. cbn [length sum fold_right]. fold (sum l). rewrite S_INR. pose proof (H x (or_introl eq_refl)) as Hx.
  destruct Hy as [->|Hy]; [pose proof (sum_le v l (fun z Hz => H z (or_intror Hz))); lra|]. specialize (IH (fun z Hz => H z (or_intror Hz)) Hy L). lra.
Qed.

(** By the mean: the left side is never empty; the right side is empty only if all middles are on the same level. *)
Theorem mean_split : forall sort ty b l, l <> [] -> exists dir, along b dir /\
  let right t := apply (compute_rule sort MEAN ty b l) (centroid ty t) in
  (exists t, In t l /\ right t = false) /\
  ((exists t, In t l /\ right t = true) <-> exists t u, In t l /\ In u l /\ dot dir (middle ty t) <> dot dir (middle ty u)).
Proof.
  intros sort ty b l Hl. exists (dir_of b). split; [apply dir_along|]. destruct (mean_value sort ty b l Hl) as (mk & -> & A). set (v := sum _ / _). cbv zeta.
  assert (N : 0 < INR (length l)) by (destruct l; [congruence|apply lt_0_INR; cbn; lia]).
  assert (E : forall t, apply (mk v) (centroid ty t) = if Rlt_dec v (level ty (dir_of b) t) then true else false) by (intros t; rewrite A, middle_centroid; reflexivity).
  assert (S : sum (map (level ty (dir_of b)) l) = v * INR (length (map (level ty (dir_of b)) l))) by (rewrite map_length; unfold v; field; lra).
  assert (Low : exists t, In t l /\ level ty (dir_of b) t <= v).
  { destruct (Classical_Prop.classic (exists t, In t l /\ level ty (dir_of b) t <= v)) as [H|H]; [exact H|exfalso].
    destruct l as [|t0 l']; [congruence|]. set (l := t0 :: l') in *. assert (G : forall t, In t l -> v < level ty (dir_of b) t) by (intros t Ht; apply Rnot_le_lt; intros K; apply H; exists t; auto).
    assert (G' : forall x, In x (map (fun t => - level ty (dir_of b) t) l) -> x <= - v) by (intros x Hx; apply in_map_iff in Hx; destruct Hx as (t & <- & Ht); specialize (G t Ht); lra).
    assert (Q := sum_le_strict (- v) _ (- level ty (dir_of b) t0) G' ltac:(apply in_map_iff; exists t0; split; [reflexivity|left; reflexivity]) ltac:(specialize (G t0 (or_introl eq_refl)); lra)).
    assert (O : forall m, sum (map (fun t => - level ty (dir_of b) t) m) = - sum (map (level ty (dir_of b)) m)) by (clear; induction m as [|t m IH]; cbn; [ring|]; fold (sum (map (fun t => - level ty (dir_of b) t) m)); fold (sum (map (level ty (dir_of b)) m)); rewrite IH; ring).
    rewrite O, S, !map_length in Q. lra. }
  split; [|split].
  - destruct Low as (t & Ht & L). exists t. split; [exact Ht|]. rewrite E. destruct (Rlt_dec _ _); [lra|reflexivity].
  - intros (t & Ht & R). rewrite E in R. destruct (Rlt_dec v _) as [L|]; [|discriminate R]. destruct Low as (u & Hu & Lu). exists t, u. split; [exact Ht|]. split; [exact Hu|]. unfold level in *. lra.
  - intros (t & u & Ht & Hu & D). change (level ty (dir_of b) t <> level ty (dir_of b) u) in D.
    destruct (Classical_Prop.classic (exists t, In t l /\ v < level ty (dir_of b) t)) as [(w & Hw & L)|H]; [exists w; split; [exact Hw|]; rewrite E; destruct (Rlt_dec _ _); [reflexivity|lra]|exfalso].
    assert (G : forall x, In x (map (level ty (dir_of b)) l) -> x <= v) by (intros x Hx; apply in_map_iff in Hx; destruct Hx as (w & <- & Hw); apply Rnot_lt_le; intros K; apply H; exists w; auto).
    assert (It := in_map (level ty (dir_of b)) l t Ht). assert (Iu := in_map (level ty (dir_of b)) l u Hu).
    assert (Z : exists y, In y (map (level ty (dir_of b)) l) /\ y < v) by (destruct (Rlt_dec (level ty (dir_of b) t) v); [eauto|exists (level ty (dir_of b) u); split; [exact Iu|]; pose proof (G _ It); pose proof (G _ Iu); lra]).
    destruct Z as (y & Iy & Ly). pose proof (sum_le_strict v _ y G Iy Ly). lra.
Qed.
Print Assumptions mean_split.

(** *** Median *)
Definition above (v : R) (x : R) : bool := if Rlt_dec v x then true else false.
Lemma count_perm : forall (f : R -> bool) l l', Permutation l l' -> length (filter f l) = length (filter f l').
Proof. intros f l l' P. induction P; cbn; [reflexivity|destruct (f x); cbn; lia|destruct (f x), (f y); cbn; reflexivity|lia]. Qed.
Lemma count_split : forall v k s, (k <= length s)%nat -> (forall x, In x (firstn k s) -> x <= v) ->
  (length (filter (above v) s) <= length s - k)%nat /\ ((forall x, In x (skipn k s) -> v < x) -> length (filter (above v) s) = (length s - k)%nat).
Proof.
  intros v k s Hk H. assert (F : filter (above v) (firstn k s) = []).
  { induction (firstn k s) as [|x m IH]; [reflexivity|]. cbn. unfold above at 1. destruct (Rlt_dec v x); [specialize (H x (or_introl eq_refl)); lra|]. apply IH. intros y Hy. apply H. right. exact Hy. }
  rewrite <- (firstn_skipn k s) at 1 3. rewrite !filter_app, F. cbn [app]. rewrite <- (skipn_length k s). split.
  - clear. induction (skipn k s) as [|x m IH]; [cbn; lia|]. cbn. destruct (above v x); cbn; lia.
  - intros G. induction (skipn k s) as [|x m IH]; [reflexivity|]. cbn. unfold above at 1. destruct (Rlt_dec v x) as [|n]; [|exfalso; apply n, G; left; reflexivity]. cbn. rewrite IH; [reflexivity|]. intros y Hy. apply G. right. exact Hy.
Qed.
Lemma in_firstn_nth : forall k (s : list R) x, In x (firstn k s) -> exists i, (i < k)%nat /\ (i < length s)%nat /\ nth i s 0 = x.
Proof.
  induction k as [|k IH]; intros [|y s] x H; cbn in H; try contradiction H. destruct H as [->|H]; [exists 0%nat; cbn; repeat split; lia|].
  destruct (IH s x H) as (i & A & B & C). exists (S i). cbn. repeat split; [lia|lia|exact C].
Qed.
Lemma in_skipn_nth : forall k (s : list R) x, In x (skipn k s) -> exists i, (k <= i < length s)%nat /\ nth i s 0 = x.
Proof.
  induction k as [|k IH]; intros s x H; [cbn in H; destruct (In_nth s x 0 H) as (i & A & B); exists i; split; [lia|exact B]|]. destruct s as [|y s]; [destruct H|]. cbn in H.
  destruct (IH s x H) as (i & A & B). exists (S i). cbn. split; [lia|exact B].
Qed.
Lemma median_count : forall sort l, sorts sort -> l <> [] ->
  (length (filter (above (median sort l)) l) <= length l / 2)%nat /\ (NoDup l -> length (filter (above (median sort l)) l) = (length l / 2)%nat).
Proof.
  intros sort l Hs Hl. destruct (Hs l) as (P & O). assert (L := Permutation_length P). set (n := length l) in *. set (s := sort l) in *.
  assert (n <> 0)%nat by (unfold n; destruct l; cbn; [congruence|lia]).
  rewrite (count_perm _ _ _ P). pose proof (Nat.div_mod n 2 ltac:(lia)) as D. pose proof (Nat.mod_upper_bound n 2 ltac:(lia)) as M.
  assert (Q : forall k v, (k <= n)%nat -> (n - k = n / 2)%nat -> (forall i, (i < k)%nat -> nth i s 0 <= v) -> (NoDup l -> forall i, (k <= i < n)%nat -> v < nth i s 0) ->
    (length (filter (above v) s) <= n / 2)%nat /\ (NoDup l -> length (filter (above v) s) = (n / 2)%nat)).
  { intros k v Hk E A B. destruct (count_split v k s ltac:(lia)) as (C1 & C2). { intros x Hx. apply in_firstn_nth in Hx. destruct Hx as (i & Hi & _ & <-). apply A, Hi. }
    split; [lia|]. intros ND. rewrite C2; [lia|]. intros x Hx. apply in_skipn_nth in Hx. destruct Hx as (i & Hi & <-). apply B; [exact ND|lia]. }
  assert (ST : NoDup l -> forall i j, (i < j < n)%nat -> nth i s 0 < nth j s 0).
  { intros ND i j Hij. assert (NS : NoDup s) by (eapply Permutation_NoDup; [exact P|exact ND]). destruct (Rle_lt_or_eq_dec _ _ (O i j ltac:(lia))) as [K|K]; [exact K|]. apply (proj1 (NoDup_nth s 0) NS i j ltac:(lia) ltac:(lia)) in K. lia. }
  unfold median. fold n. fold s. destruct (Nat.eqb_spec (n mod 2) 1) as [E|E].
  - apply (Q (S (n / 2))); [lia|lia| |].
    + intros i Hi. apply O. replace ((n - 1) / 2)%nat with (n / 2)%nat; [lia|]. apply Nat.div_unique with 0%nat; lia.
    + intros ND i Hi. apply ST; [exact ND|]. replace ((n - 1) / 2)%nat with (n / 2)%nat; [lia|]. apply Nat.div_unique with 0%nat; lia.
  - apply (Q (n / 2)%nat); [lia|lia| |].
    + intros i Hi. pose proof (O i (n / 2 - 1)%nat ltac:(lia)). pose proof (O (n / 2 - 1)%nat (n / 2)%nat ltac:(lia)). lra.
    + intros ND i Hi. pose proof (ST ND (n / 2 - 1)%nat (n / 2)%nat ltac:(lia)). pose proof (O (n / 2)%nat i ltac:(lia)). lra.
Qed.
(** By the median: at most half of the primitives are on the right side, and exactly half (rounded down) if no two middles are on the same level. *)
Theorem median_split : forall sort ty b l, sorts sort -> l <> [] -> exists dir, along b dir /\
  let right t := apply (compute_rule sort MEDIAN ty b l) (centroid ty t) in
  (length (filter right l) <= length l / 2)%nat /\
  (NoDup (map (fun t => dot dir (middle ty t)) l) -> length (filter right l) = (length l / 2)%nat).
Proof.
  intros sort ty b l Hs Hl. exists (dir_of b). split; [apply dir_along|]. destruct (median_value sort ty b l) as (mk & -> & A). cbv zeta.
  destruct (median_count sort (map (level ty (dir_of b)) l) Hs ltac:(destruct l; cbn; congruence)) as (C1 & C2). rewrite map_length in C1, C2.
  assert (E : forall v m, length (filter (fun t => apply (mk v) (centroid ty t)) m) = length (filter (above v) (map (level ty (dir_of b)) m))).
  { intros v m. induction m as [|t m IH]; [reflexivity|]. cbn. rewrite A, middle_centroid. unfold above at 1. fold (level ty (dir_of b) t). destruct (Rlt_dec v (level ty (dir_of b) t)); cbn; lia. }
  rewrite E. split; [exact C1|exact C2].
Qed.
Print Assumptions median_split.

(** *** The centre of the volume *)
(** For points and their exact box: the left side is never empty, and the right side only if all points are equal. *)
Theorem center_split : forall sort l lo hi, l <> [] ->
  (forall p q r, In (p, q, r) l -> forall a, comp a lo <= comp a p <= comp a hi) ->
  (forall a, (exists t, In t l /\ comp a (middle POINTCLOUD t) = comp a lo) /\ (exists t, In t l /\ comp a (middle POINTCLOUD t) = comp a hi)) ->
  let right t := apply (compute_rule sort BV_CENTER POINTCLOUD (Aligned (vscale (1/2) (vadd lo hi)) (vsub hi lo)) l) (centroid POINTCLOUD t) in
  (exists t, In t l /\ right t = false) /\ ((exists t, In t l /\ right t = true) <-> exists t u, In t l /\ In u l /\ middle POINTCLOUD t <> middle POINTCLOUD u).
Proof.
  intros sort l lo hi Hl In_ Ex right. set (a := longest (vsub hi lo)).
  assert (Cc : comp a (vscale (1/2) (vadd lo hi)) = (comp a lo + comp a hi) / 2) by (destruct a as [|[|?]], lo, hi; unfold vscale, vadd; cbn; field).
  assert (E : forall t, right t = if Rlt_dec ((comp a lo + comp a hi) / 2) (comp a (middle POINTCLOUD t)) then true else false).
  { intros t. unfold right. cbn [compute_rule apply]. fold a. rewrite Cc, middle_centroid. reflexivity. }
  destruct (Ex a) as ((t0 & H0 & E0) & (t1 & H1 & E1)).
  assert (B : forall t, In t l -> forall i, comp i lo <= comp i (middle POINTCLOUD t) <= comp i hi) by (intros [[p q] r] Ht i; apply (In_ p q r Ht)).
  assert (LH := B t0 H0 a). split; [|split].
  - exists t0. split; [exact H0|]. rewrite E, E0. destruct (Rlt_dec _ _); [lra|reflexivity].
  - intros (t & Ht & R). rewrite E in R. destruct (Rlt_dec _ _) as [L|]; [|discriminate R]. exists t, t0. split; [exact Ht|]. split; [exact H0|]. intros K. rewrite K, E0 in L. lra.
  - intros (t & u & Ht & Hu & D). exists t1. split; [exact H1|]. rewrite E, E1. destruct (Rlt_dec _ _) as [|n]; [reflexivity|exfalso]. apply D.
    assert (Z : forall i, (i <= 2)%nat -> comp i hi - comp i lo <= comp a hi - comp a lo).
    { intros i Hi. assert (W : forall i, comp i (vsub hi lo) = comp i hi - comp i lo) by (intros [|[|?]]; destruct hi, lo; unfold vsub; cbn; ring). rewrite <- !W. unfold a. generalize (vsub hi lo). clear -Hi. intros d.
      unfold longest, geb. destruct (Rle_dec (c1 d) (c0 d)), (Rle_dec (c2 d) (c0 d)), (Rle_dec (c0 d) (c1 d)), (Rle_dec (c2 d) (c1 d)); destruct i as [|[|[|?]]]; cbn; try lra; lia. }
    assert (Q : forall i, (i <= 2)%nat -> comp i (middle POINTCLOUD t) = comp i (middle POINTCLOUD u)) by (intros i Hi; specialize (Z i Hi); pose proof (B t Ht i); pose proof (B u Hu i); lra).
    pose proof (Q 0%nat ltac:(lia)) as Q0. pose proof (Q 1%nat ltac:(lia)) as Q1. pose proof (Q 2%nat ltac:(lia)) as Q2. destruct (middle POINTCLOUD t), (middle POINTCLOUD u). cbn in Q0, Q1, Q2. congruence.
Qed.
Print Assumptions center_split.

(** For an oriented box the value is the first world coordinate of the centre, not its coordinate along the split direction.  The sides are
    those of the plane through the centre if the two agree; if they differ by the half-length of the box, all points of the box are on one side. *)
Theorem center_split_oriented : forall sort ty b l q, dot (m0 (ax b)) (oc b) = c0 (oc b) ->
  (apply (compute_rule sort BV_CENTER ty (Oriented (m0 (ax b)) (oc b)) l) q = true <-> 0 < dot (m0 (ax b)) (vsub q (oc b))).
Proof.
  intros sort ty b l q H. cbn. rewrite <- H. replace (dot (m0 (ax b)) (vsub q (oc b))) with (dot (m0 (ax b)) q - dot (m0 (ax b)) (oc b)) by (destruct (m0 (ax b)), q, (oc b); unfold dot, vsub; cbn; ring).
  destruct (Rlt_dec _ _); split; try congruence; intros; lra.
Qed.
Print Assumptions center_split_oriented.
Theorem center_split_oriented_refuted : forall sort ty b l, ortho (ax b) ->
  let right q := apply (compute_rule sort BV_CENTER ty (Oriented (m0 (ax b)) (oc b)) l) q in
  (c0 (ext b) <= c0 (oc b) - dot (m0 (ax b)) (oc b) -> forall q, inobb b q -> right q = false) /\
  (c0 (oc b) - dot (m0 (ax b)) (oc b) < - c0 (ext b) -> forall q, inobb b q -> right q = true).
Proof.
  intros sort ty b l O right.
  assert (P : forall q, inobb b q -> dot (m0 (ax b)) (oc b) - c0 (ext b) <= dot (m0 (ax b)) q <= dot (m0 (ax b)) (oc b) + c0 (ext b)).
  { intros q (u0 & u1 & u2 & U & _ & _ & ->).
    assert (D : dot (m0 (ax b)) (vadd (oc b) (mapply (ax b) (mk3 u0 u1 u2))) = dot (m0 (ax b)) (oc b) + u0).
    { destruct O as (A & B & C & D & E & F). transitivity (dot (m0 (ax b)) (oc b) + (u0 * dot (m0 (ax b)) (m0 (ax b)) + u1 * dot (m0 (ax b)) (m1 (ax b)) + u2 * dot (m0 (ax b)) (m2 (ax b)))).
      - destruct (m0 (ax b)) eqn:E0, (m1 (ax b)) eqn:E1, (m2 (ax b)) eqn:E2, (oc b). unfold mapply, dot, vadd, vscale. rewrite E0, E1, E2. cbn. ring.
      - first [rewrite A, D, E; ring | rewrite A, B, C; ring | nra]. }
    rewrite D. lra. }
  split; intros H q Hq; specialize (P q Hq); unfold right; cbn; destruct (Rlt_dec _ _); try reflexivity; exfalso; lra.
Qed.
Print Assumptions center_split_oriented_refuted.

(** *** The depth of the recursion *)
Lemma part_loop_count : forall right rest g1 g2, snd (part_loop right g1 g2 rest) = (length g1 + length (filter (fun i => negb (right i)) rest))%nat.
Proof.
  intros right rest. induction rest as [|x rest IH]; intros g1 g2; cbn [part_loop filter]; [cbn; lia|]. destruct (right x); cbn [negb]; [apply IH|].
  destruct g2; rewrite IH, app_length; cbn; lia.
Qed.
Lemma nodup_r : forall (a b : list nat), NoDup (a ++ b) -> NoDup b.
Proof. induction a as [|x a IH]; intros b H; [exact H|]. inversion H; subst. apply IH. assumption. Qed.
Lemma nodup_l : forall (a b : list nat), NoDup (a ++ b) -> NoDup a.
Proof. induction a as [|x a IH]; intros b H; [constructor|]. inversion H; subst. constructor; [intros K; apply H2; apply in_or_app; left; exact K|apply (IH b); assumption]. Qed.
Section Depth.
Context {V BV : Type}.
Variables (fit : list V -> BV) (split : BV -> list nat -> nat -> bool) (pts : nat -> list V).
Lemma cut_le : forall c n, (c <= n)%nat -> (cut c n <= n)%nat.
Proof. intros c n H. unfold cut. destruct (_ || _); [|exact H]. pose proof (Nat.div_le_upper_bound n 2 n ltac:(lia) ltac:(lia)). lia. Qed.
Lemma step_perm : forall right (p : list nat) first num, (first + num <= length p)%nat ->
  Permutation p (firstn first p ++ fst (part_loop right [] [] (seg p first num)) ++ skipn (first + num) p).
Proof.
  intros right p first num H. pose proof (part_loop_perm right (seg p first num) [] []) as Q. cbn [app] in Q. rewrite Q. unfold seg.
  rewrite <- (firstn_skipn first p) at 1. apply Permutation_app_head. rewrite <- (firstn_skipn num (skipn first p)) at 1. apply Permutation_app_head. rewrite skipn_add. apply Permutation_refl.
Qed.
Lemma build_perm : forall f id first num s s', (first + num <= length (b_prims s))%nat -> build_rec fit split pts f id first num s = Some s' -> Permutation (b_prims s) (b_prims s').
Proof.
  induction f as [|f IH]; intros id first num s s' L E; [discriminate E|]. cbn [build_rec] in E. cbv zeta in E. destruct (num =? 1)%nat.
  - destruct (seg (b_prims s) first num) as [|p [|q w]]; try discriminate E. destruct (aset _ _ _); [|discriminate E]. injection E as <-. apply Permutation_refl.
  - destruct (aset _ _ _) as [bvs'|]; [|discriminate E]. set (cur := seg (b_prims s) first num) in *. set (sp := split (fit (flat_map pts cur)) cur) in *.
    pose proof (step_perm sp (b_prims s) first num L) as P. fold cur in P. set (prims' := firstn first (b_prims s) ++ fst (part_loop sp [] [] cur) ++ skipn (first + num) (b_prims s)) in *.
    assert (C : (cut (snd (part_loop sp [] [] cur)) num <= num)%nat).
    { apply cut_le. pose proof (part_loop_le sp cur [] []) as H. cbn [length] in H. assert (length cur <= num)%nat by (unfold cur, seg; rewrite firstn_length; lia). lia. }
    set (c := cut (snd (part_loop sp [] [] cur)) num) in *. destruct (build_rec fit split pts f (b_nb s) first c _) as [s2|] eqn:E2; [|discriminate E].
    apply Permutation_length in P as PL. apply IH in E2; [|cbn [b_prims]; lia]. cbn [b_prims] in E2. apply Permutation_length in E2 as L2. apply IH in E; [|lia]. rewrite P, E2. exact E.
Qed.
Variable N : nat.
Hypothesis even : forall l cur, NoDup cur -> incl cur (seq 0 N) -> (2 <= length cur)%nat -> length (filter (fun i => negb (split (fit l) cur i)) cur) = (length cur - length cur / 2)%nat.
Lemma even_depth : forall k f id first num s, (1 <= num <= 2 ^ k)%nat -> (num <= f)%nat -> (first + num <= length (b_prims s))%nat -> Permutation (seq 0 N) (b_prims s) ->
  build_rec fit split pts (S k) id first num s = build_rec fit split pts f id first num s.
Proof.
  induction k as [|k IH]; intros f id first num s Hn Hf L P; (destruct f as [|f]; [lia|]).
  - cbn in Hn. assert (num = 1%nat) by lia. subst num. reflexivity.
  - remember (S k) as k1 eqn:Ek. cbn [build_rec]. cbv zeta. destruct (Nat.eqb_spec num 1) as [E1|E1]; [reflexivity|]. destruct (aset _ _ _) as [bvs'|]; [|reflexivity].
    set (cur := seg (b_prims s) first num). set (sp := split (fit (flat_map pts cur)) cur).
    assert (Lc : length cur = num) by (unfold cur, seg; rewrite firstn_length, skipn_length; lia).
    assert (ND : NoDup (b_prims s)) by (eapply Permutation_NoDup; [exact P|apply seq_NoDup]).
    assert (Sub : b_prims s = firstn first (b_prims s) ++ cur ++ skipn (first + num) (b_prims s)).
    { unfold cur, seg. rewrite <- (firstn_skipn first (b_prims s)) at 1. f_equal. rewrite <- (firstn_skipn num (skipn first (b_prims s))) at 1. f_equal. rewrite skipn_add. reflexivity. }
    assert (NDc : NoDup cur). { rewrite Sub in ND. apply nodup_r in ND. apply nodup_l in ND. exact ND. }
    assert (Ic : incl cur (seq 0 N)). { intros x Hx. apply (Permutation_in x (Permutation_sym P)). rewrite Sub. apply in_or_app. right. apply in_or_app. left. exact Hx. }
    pose proof (part_loop_count sp cur [] []) as PC. unfold sp in PC at 2. rewrite even in PC by (try assumption; lia). rewrite Lc in PC. cbn [length] in PC.
    assert (H2 : (num / 2 < num)%nat) by (apply Nat.div_lt; lia). assert (H3 : (1 <= num / 2)%nat) by (apply Nat.div_le_lower_bound; lia). assert (H4 : (num <= 2 * (num / 2) + 1)%nat) by (pose proof (Nat.div_mod num 2 ltac:(lia)); pose proof (Nat.mod_upper_bound num 2 ltac:(lia)); lia).
    assert (Hc : cut (snd (part_loop sp [] [] cur)) num = (num - num / 2)%nat).
    { rewrite PC. unfold cut. destruct (Nat.eqb_spec (0 + (num - num / 2)) 0); [lia|]. destruct (Nat.eqb_spec (0 + (num - num / 2)) num); [lia|]. reflexivity. }
    rewrite Hc. set (c := (num - num / 2)%nat) in *. pose proof (step_perm sp (b_prims s) first num L) as SP. fold cur in SP.
    set (s1 := Bst bvs' (b_nb s + 2) _). assert (P1 : Permutation (b_prims s) (b_prims s1)) by exact SP. assert (L1 := Permutation_length P1).
    subst k1. cbn [Nat.pow] in Hn.
    assert (Hp : (num <= 2 * 2 ^ k)%nat) by lia.
    assert (Hc2 : (c <= 2 ^ k)%nat). { unfold c. pose proof (Nat.div_mod num 2 ltac:(lia)) as D. pose proof (Nat.mod_upper_bound num 2 ltac:(lia)). lia. }
    rewrite (IH f (b_nb s) first c s1) by (try lia; eapply Permutation_trans; eassumption).
    destruct (build_rec fit split pts f (b_nb s) first c s1) as [s2|] eqn:E2; [|reflexivity]. apply build_perm in E2; [|lia]. assert (L2 := Permutation_length E2).
    assert (D := Nat.div_mod num 2 ltac:(lia)). assert (Cd : (num - c = num / 2)%nat) by (unfold c; lia). assert (Cl : (num / 2 <= c)%nat) by (unfold c; lia).
    apply IH; [lia|lia|lia|]. rewrite P, P1. exact E2.
Qed.
End Depth.

(** With the median rule and no two middles on the same level, for n primitives the recursion goes no deeper than 1 + log2 n (rounded up):
    it gives the same hierarchy with this bound on its depth. *)
Theorem median_depth : forall {BV} (fit : list v3 -> BV) vol sort ty prims pts bvs cap n, sorts sort -> (1 <= n <= cap)%nat -> (2 * n - 1 <= length bvs)%nat ->
  (forall l dir i j, along (vol (fit l)) dir -> (i < n)%nat -> (j < n)%nat -> dot dir (middle ty (prims i)) = dot dir (middle ty (prims j)) -> i = j) ->
  exists s, build fit (split_rule vol sort MEDIAN ty prims) pts bvs cap n = Some s /\
    build_rec fit (split_rule vol sort MEDIAN ty prims) pts (S (Nat.log2_up n)) 0 0 n (Bst bvs 1 (seq 0 n)) = Some s.
Proof.
  intros BV fit vol sort ty prims pts bvs cap n Hs Hn Hb G. unfold build. destruct (Nat.leb_spec n cap); [|lia].
  destruct (build_rec_spec v3 BV fit (split_rule vol sort MEDIAN ty prims) pts (fun _ _ => True) (fun _ _ _ => I) n n 0 0 (Bst bvs 1 (seq 0 n))) as (s & t & E & _); cbn [b_prims b_nb b_bvs]; rewrite ?seq_length; try lia.
  exists s. split; [exact E|]. rewrite <- E. apply (even_depth fit _ pts n); cbn [b_prims]; rewrite ?seq_length; try lia; [|split; [lia|apply (proj2 (Nat.log2_log2_up_spec n ltac:(lia)))]|apply Permutation_refl].
  intros l cur ND Ic L2. destruct (median_split sort ty (vol (fit l)) (map prims cur) Hs ltac:(destruct cur; cbn in *; [lia|congruence])) as (dir & A & _ & M). cbv zeta in M.
  rewrite map_length in M. assert (M' := M). clear M. rewrite map_map in M'.
  assert (NDm : NoDup (map (fun x => dot dir (middle ty (prims x))) cur)).
  { clear -ND Ic G A. induction cur as [|x cur IH]; cbn; constructor; inversion ND; subst.
    - intros K. apply in_map_iff in K. destruct K as (y & E & Hy). assert (y = x) by (apply (G l dir y x A); [apply (in_seq n 0 y), Ic; right; exact Hy|apply (in_seq n 0 x), Ic; left; reflexivity|exact E]). subst. contradiction.
    - apply IH; [assumption|]. intros y Hy. apply Ic. right. exact Hy. }
  specialize (M' NDm).
  assert (F : forall m, length (filter (fun i => negb (split_rule vol sort MEDIAN ty prims (fit l) cur i)) m) = (length m - length (filter (fun t => apply (compute_rule sort MEDIAN ty (vol (fit l)) (map prims cur)) (centroid ty t)) (map prims m)))%nat /\
    (length (filter (fun t => apply (compute_rule sort MEDIAN ty (vol (fit l)) (map prims cur)) (centroid ty t)) (map prims m)) <= length m)%nat).
  { induction m as [|x m IH]; [cbn; lia|]. cbn [filter map length]. unfold split_rule at 1. destruct (apply _ _); cbn [negb length]; lia. }
  destruct (F cur) as (-> & _). rewrite M'. reflexivity.
Qed.
Print Assumptions median_depth.

(** With the mean rule this is false: for every n there are n points, no two on the same level, for which the recursion reaches depth n,
    one primitive being split off at a time. *)
Definition spread (i : nat) : v3 := mk3 (INR (fact (S i))) 0 0.
Lemma fact_mono : forall i j, (i <= j)%nat -> (fact i <= fact j)%nat.
Proof. intros i j H. apply fact_le, H. Qed.
Lemma level_spread : forall ty i, level ty (mk3 1 0 0) (spread i, spread i, spread i) = INR (fact (S i)).
Proof. intros [] i; unfold level, middle, spread; generalize (INR (fact (S i))); intros x; unfold dot, vscale, vadd; cbn; field. Qed.
Lemma spread_mean : forall k, (2 <= k)%nat -> INR (fact (k - 1)) <= sum (map (fun i => INR (fact (S i))) (seq 0 k)) / INR k < INR (fact k).
Proof.
  intros [|[|k]] H; try lia. assert (N : 0 < INR (S (S k))) by (apply lt_0_INR; lia). set (f := fun i => INR (fact (S i))).
  assert (P : forall m a, 0 <= sum (map f (seq a m))) by (assert (Fp : forall a, 0 <= f a) by (intros a; apply pos_INR); induction m as [|m IH]; intros a; cbn [seq map sum fold_right]; [lra|]; fold (sum (map f (seq (S a) m))); specialize (IH (S a)); specialize (Fp a); lra).
  assert (A : forall l m, sum (l ++ m) = sum l + sum m) by (clear; induction l as [|x l IH]; intros m; [change (sum m = 0 + sum m); ring|]; change (x + sum (l ++ m) = x + sum l + sum m); rewrite IH; ring).
  split.
  - apply Rmult_le_reg_r with (INR (S (S k))); [exact N|]. unfold Rdiv. rewrite Rmult_assoc, Rinv_l, Rmult_1_r by lra. replace (S (S k) - 1)%nat with (S k) by lia.
    rewrite seq_S, map_app, A. cbn [map sum fold_right plus]. specialize (P (S k) 0%nat). rewrite Rmult_comm, <- mult_INR. change (S (S k) * fact (S k))%nat with (fact (S (S k))). unfold f at 2. lra.
  - apply Rmult_lt_reg_r with (INR (S (S k))); [exact N|]. unfold Rdiv. rewrite Rmult_assoc, Rinv_l, Rmult_1_r by lra.
    assert (L : length (map f (seq 0 (S (S k)))) = S (S k)) by (rewrite map_length, seq_length; reflexivity). rewrite <- L at 3. apply sum_le_strict with (y := 1).
    + intros x Hx. apply in_map_iff in Hx. destruct Hx as (i & <- & Hi). apply in_seq in Hi. unfold f. apply le_INR, fact_mono. lia.
    + left. unfold f. cbn. reflexivity.
    + change 1 with (INR 1). apply lt_INR. apply Nat.lt_le_trans with (fact 2); [cbn; lia|apply fact_mono; lia].
Qed.
Lemma part_loop_last : forall right l z g, (forall i, In i l -> right i = false) -> right z = true -> part_loop right g [] (l ++ [z]) = (g ++ l ++ [z], length g + length l)%nat.
Proof.
  intros right l z. induction l as [|x l IH]; intros g H Z; cbn [app part_loop].
  - rewrite Z. cbn. f_equal. lia.
  - rewrite (H x (or_introl eq_refl)). rewrite IH; [|intros i Hi; apply H; right; exact Hi|exact Z]. rewrite app_length, <- app_assoc. cbn. f_equal. lia.
Qed.
Theorem mean_depth_refuted : forall {BV} (fit : list v3 -> BV) vol sort ty bvs cap n, (2 <= n <= cap)%nat -> (2 * n - 1 <= length bvs)%nat ->
  (forall l p q, In p l -> In q l -> c0 p <> c0 q -> (forall r, In r l -> c1 r = 0 /\ c2 r = 0) -> forall dir, along (vol (fit l)) dir -> dir = mk3 1 0 0) ->
  let split := split_rule vol sort MEAN ty (fun i => (spread i, spread i, spread i)) in let pts i := [spread i] in
  (exists s, build fit split pts bvs cap n = Some s) /\ build_rec fit split pts (n - 1) 0 0 n (Bst bvs 1 (seq 0 n)) = None.
Proof.
  intros BV fit vol sort ty bvs cap n Hn Hb D split pts. split.
  - unfold build. destruct (Nat.leb_spec n cap); [|lia].
    destruct (build_rec_spec v3 BV fit split pts (fun _ _ => True) (fun _ _ _ => I) n n 0 0 (Bst bvs 1 (seq 0 n))) as (s & t & E & _); cbn [b_prims b_nb b_bvs]; rewrite ?seq_length; try lia. exists s. exact E.
  - assert (Q : forall f k id nb bvs', (f < k <= n)%nat -> build_rec fit split pts f id 0 k (Bst bvs' nb (seq 0 n)) = None).
    { induction f as [|f IH]; intros k id nb bvs' Hk; [reflexivity|]. cbn [build_rec]. cbv zeta. destruct (Nat.eqb_spec k 1); [lia|]. destruct (aset _ _ _) as [b2|]; [|reflexivity]. cbn [b_prims b_nb b_bvs].
      assert (Es : seg (seq 0 n) 0 k = seq 0 k) by (unfold seg; cbn [skipn]; replace n with (k + (n - k))%nat by lia; rewrite seq_app, firstn_app, seq_length, Nat.sub_diag; cbn [firstn]; rewrite app_nil_r, <- (seq_length k 0) at 1; apply firstn_all).
      rewrite Es. set (bv := fit (flat_map pts (seq 0 k))).
      assert (Dir : dir_of (vol bv) = mk3 1 0 0).
      { apply (D (flat_map pts (seq 0 k)) (spread 0) (spread 1)); [apply in_flat_map; exists 0%nat; split; [apply in_seq; lia|left; reflexivity]|apply in_flat_map; exists 1%nat; split; [apply in_seq; lia|left; reflexivity]| | |apply dir_along].
        - cbn. lra.
        - intros r Hr. apply in_flat_map in Hr. destruct Hr as (i & _ & [<-|[]]). split; reflexivity. }
      assert (Sp : forall i, split bv (seq 0 k) i = if Rlt_dec (sum (map (fun i => INR (fact (S i))) (seq 0 k)) / INR k) (INR (fact (S i))) then true else false).
      { intros i. unfold split, split_rule. destruct (mean_value sort ty (vol bv) (map (fun i => (spread i, spread i, spread i)) (seq 0 k)) ltac:(destruct k; [lia|discriminate])) as (mk & Em & A). etransitivity; [exact (f_equal (fun r => apply r (centroid ty (spread i, spread i, spread i))) Em)|]. cbv beta. rewrite A, middle_centroid, Dir, map_length, seq_length, map_map.
        rewrite (map_ext _ (fun i => INR (fact (S i)))) by (intros j; apply level_spread). pose proof (level_spread ty i) as Li. unfold level in Li. rewrite Li. reflexivity. }
      pose proof (spread_mean k ltac:(lia)) as M. destruct k as [|k]; [lia|]. replace (S k - 1)%nat with k in M by lia.
      assert (PL : part_loop (split bv (seq 0 (S k))) [] [] (seq 0 (S k)) = (seq 0 (S k), k)).
      { rewrite seq_S at 2. rewrite part_loop_last.
        - cbn [app length]. rewrite <- seq_S, seq_length. reflexivity.
        - intros i Hi. apply in_seq in Hi. rewrite Sp. destruct (Rlt_dec _ _) as [K|]; [exfalso|reflexivity]. assert (INR (fact (S i)) <= INR (fact k)) by (apply le_INR, fact_mono; lia). lra.
        - rewrite Sp. cbn [plus]. destruct (Rlt_dec _ _); [reflexivity|lra]. }
      rewrite PL. cbn [fst snd firstn app]. assert (Ec : cut k (S k) = k). { unfold cut. destruct (Nat.eqb_spec k 0); [lia|]. destruct (Nat.eqb_spec k (S k)); [lia|]. reflexivity. }
      rewrite Ec. assert (Ep : seq 0 (S k) ++ skipn (0 + S k) (seq 0 n) = seq 0 n).
      { rewrite <- (firstn_skipn (S k) (seq 0 n)) at 2. f_equal. unfold seg in Es. cbn [skipn] in Es. symmetry. exact Es. }
      rewrite Ep. rewrite IH by lia. reflexivity. }
    apply Q. lia.
Qed.
Print Assumptions mean_depth_refuted.

(** ** The statements are about something *)
Fixpoint rinsert (x : R) (l : list R) : list R := match l with [] => [x] | y :: l' => if Rle_dec x y then x :: l else y :: rinsert x l' end.
Definition rsort (l : list R) : list R := fold_right rinsert [] l.
Lemma rinsert_perm : forall x l, Permutation (x :: l) (rinsert x l).
Proof. intros x l. induction l as [|y l IH]; [apply Permutation_refl|]. cbn. destruct (Rle_dec _ _); [apply Permutation_refl|]. apply Permutation_trans with (y :: x :: l); [apply perm_swap|apply perm_skip, IH]. Qed.
Fixpoint asc (l : list R) : Prop := match l with [] => True | x :: l' => (forall y, In y l' -> x <= y) /\ asc l' end.
Lemma rinsert_asc : forall x l, asc l -> asc (rinsert x l).
Proof.
  intros x l. induction l as [|y l IH]; [cbn; tauto|]. intros [H D]. cbn. destruct (Rle_dec x y) as [L|L].
  - split; [|split; assumption]. intros z [<-|Hz]; [exact L|]. specialize (H z Hz). lra.
  - split; [|apply IH, D]. intros z Hz. apply (Permutation_in z (Permutation_sym (rinsert_perm x l))) in Hz. destruct Hz as [<-|Hz]; [lra|apply H, Hz].
Qed.
Example rsort_sorts : sorts rsort.
Proof.
  intros l. assert (P : Permutation l (rsort l)) by (induction l as [|x l IH]; [apply Permutation_refl|]; cbn; apply Permutation_trans with (x :: rsort l); [apply perm_skip, IH|apply rinsert_perm]).
  split; [exact P|]. rewrite (Permutation_length P). assert (A : asc (rsort l)) by (clear; induction l as [|x l IH]; [exact I|]; cbn; apply rinsert_asc, IH). generalize dependent (rsort l). clear. intros s _ A. induction s as [|x s IH]; [cbn; intros; lia|].
  destruct A as [H A]. intros [|i] [|j] L; cbn [nth length] in *; try lia; [lra| |].
  - apply H, nth_In. lia.
  - apply IH; [exact A|lia].
Qed.
(** a box of size 2 along y around (10, 0, 0): both ends are on the left side *)
Example center_far : let b := mkobb (mkm (mk3 0 1 0) (mk3 (-1) 0 0) (mk3 0 0 1)) (mk3 10 0 0) (mk3 1 (1/2) (1/2)) in
  let right q := apply (compute_rule rsort BV_CENTER POINTCLOUD (Oriented (m0 (ax b)) (oc b)) []) q in
  inobb b (mk3 10 1 0) /\ inobb b (mk3 10 (-1) 0) /\ right (mk3 10 1 0) = false /\ right (mk3 10 (-1) 0) = false.
Proof.
  intros b right. assert (O : ortho (ax b)) by (unfold ortho, b, dot; cbn; repeat split; ring).
  assert (I1 : inobb b (mk3 10 1 0)) by (exists 1, 0, 0; cbn; repeat split; try lra; unfold mapply, vadd, vscale; cbn; f_equal; ring).
  assert (I2 : inobb b (mk3 10 (-1) 0)) by (exists (-1), 0, 0; cbn; repeat split; try lra; unfold mapply, vadd, vscale; cbn; f_equal; ring).
  destruct (center_split_oriented_refuted rsort POINTCLOUD b [] O) as (H & _). assert (E : c0 (ext b) <= c0 (oc b) - dot (m0 (ax b)) (oc b)) by (unfold b, dot; cbn; lra).
  split; [exact I1|]. split; [exact I2|]. split; apply (H E); assumption.
Qed.
(** n points on the diagonal, any axis-aligned volumes: depth 1 + log2 n with the median *)
Example diagonal_depth : forall (c d : list v3 -> v3) n bvs, (1 <= n)%nat -> (2 * n - 1 <= length bvs)%nat -> let p i := mk3 (INR i) (INR i) (INR i) in
  let split := split_rule (fun l => Aligned (c l) (d l)) rsort MEDIAN POINTCLOUD (fun i => (p i, p i, p i)) in
  build_rec (fun l => l) split (fun i => [p i]) (S (Nat.log2_up n)) 0 0 n (Bst bvs 1 (seq 0 n)) <> None.
Proof.
  intros c d n bvs Hn Hb p split. destruct (median_depth (fun l : list v3 => l) (fun l => Aligned (c l) (d l)) rsort POINTCLOUD (fun i => (p i, p i, p i)) (fun i => [p i]) bvs n n rsort_sorts ltac:(lia) Hb) as (s & _ & E).
  - intros l dir i j A _ _ H. apply INR_eq. cbn [along] in A. destruct A as [[-> _]|[[-> _]|[-> _]]]; unfold middle, p, dot in H; cbn in H; lra.
  - intros K. assert (Some s = None) by (rewrite <- E; exact K). discriminate.
Qed.
(** with the exact box of points on the x axis the split direction is x, as mean_depth_refuted requires *)
Definition span (f : v3 -> R) (l : list v3) : R :=
  match l with [] => 0 | p :: l' => fold_right (fun q m => Rmax (f q) m) (f p) l' - fold_right (fun q m => Rmin (f q) m) (f p) l' end.
Lemma span_pos : forall f l p q, In p l -> In q l -> Rabs (f p - f q) <= span f l.
Proof.
  intros f [|a l] p q Hp Hq; [destruct Hp|]. cbn [span]. set (M := fold_right (fun q m => Rmax (f q) m) (f a) l). set (m := fold_right (fun q m => Rmin (f q) m) (f a) l).
  assert (B : forall x, In x (a :: l) -> m <= f x <= M).
  { unfold M, m. clear. induction l as [|b l IH]; intros x Hx; [destruct Hx as [<-|[]]; cbn; lra|]. cbn [fold_right].
    pose proof (Rmax_l (f b) (fold_right (fun q m => Rmax (f q) m) (f a) l)). pose proof (Rmax_r (f b) (fold_right (fun q m => Rmax (f q) m) (f a) l)).
    pose proof (Rmin_l (f b) (fold_right (fun q m => Rmin (f q) m) (f a) l)). pose proof (Rmin_r (f b) (fold_right (fun q m => Rmin (f q) m) (f a) l)).
    destruct Hx as [<-|[<-|Hx]]; [specialize (IH a (or_introl eq_refl)); lra|lra|specialize (IH x (or_intror Hx)); lra]. }
  pose proof (B p Hp). pose proof (B q Hq). unfold Rabs. destruct (Rcase_abs _); lra.
Qed.
Lemma span_zero : forall f l, (forall r, In r l -> f r = 0) -> span f l = 0.
Proof.
  intros f [|a l] H; [reflexivity|]. cbn [span]. assert (A : f a = 0) by (apply H; left; reflexivity). rewrite A.
  assert (E : fold_right (fun q m => Rmax (f q) m) 0 l = 0 /\ fold_right (fun q m => Rmin (f q) m) 0 l = 0).
  { assert (H' : forall r, In r l -> f r = 0) by (intros r Hr; apply H; right; exact Hr). clear -H'. induction l as [|b l IH]; [split; reflexivity|]. cbn [fold_right]. destruct IH as (-> & ->); [intros r Hr; apply H'; right; exact Hr|].
    rewrite (H' b (or_introl eq_refl)). unfold Rmax, Rmin. destruct (Rle_dec 0 0); auto. }
  destruct E as (-> & ->). ring.
Qed.
Example mean_depth_box : forall n bvs, (2 <= n)%nat -> (2 * n - 1 <= length bvs)%nat ->
  build_rec (fun l => l) (split_rule (fun l => Aligned vzero (mk3 (span c0 l) (span c1 l) (span c2 l))) rsort MEAN POINTCLOUD (fun i => (spread i, spread i, spread i))) (fun i => [spread i])
    (n - 1) 0 0 n (Bst bvs 1 (seq 0 n)) = None.
Proof.
  intros n bvs Hn Hb. apply (mean_depth_refuted (fun l : list v3 => l) (fun l => Aligned vzero (mk3 (span c0 l) (span c1 l) (span c2 l))) rsort POINTCLOUD bvs n n ltac:(lia) Hb).
  intros l p q Hp Hq Hd Hz dir A. cbn [along c0 c1 c2] in A. rewrite (span_zero c1 l), (span_zero c2 l) in A by (intros r Hr; apply Hz, Hr).
  assert (P := span_pos c0 l p q Hp Hq). assert (0 < Rabs (c0 p - c0 q)) by (apply Rabs_pos_lt; lra). destruct A as [[-> _]|[[_ A]|[_ A]]]; [reflexivity|lra|lra].
Qed.
