(** C73: the adjacency, the validation and the search for extreme vertices of Convex. *)
From Coq Require Import Reals Lra Lia List Bool Arith ZArith Sorted.
From Verif Require Import VecR Prim ShapeBV P_ShapeBV Support P_Support ConvexMesh.
Import ListNotations.
Open Scope nat_scope.

(** ** Meaning *)
(** the vertex before position [i] in the cycle of a face *)
Definition before (f : list nat) (i : nat) : nat := nth (match i with 0 => length f - 1 | S j => j end) f 0.
(** [a] and [b] follow each other in a face, in one order or the other *)
Definition adjacent (fs : list (list nat)) (a b : nat) : Prop :=
  exists f i, In f fs /\ i < length f /\ ((nth i f 0 = a /\ before f i = b) \/ (nth i f 0 = b /\ before f i = a)).
Definition same_edge (a b x y : nat) : bool := ((a =? x) && (b =? y)) || ((a =? y) && (b =? x)).
(** how many sides of faces join [a] and [b] *)
Definition sides (fs : list (list nat)) (a b : nat) : nat :=
  list_sum (map (fun f => length (filter (fun i => same_edge (nth i f 0) (before f i) a b) (seq 0 (length f)))) fs).
Definition in_bounds (vcount : nat) (fs : list (list nat)) : Prop := forall f v, In f fs -> In v f -> v < vcount.
Definition used (fs : list (list nat)) (v : nat) : Prop := exists f, In f fs /\ In v f.

(** ** Lists *)
Lemma upd_length : forall A i (x : A) l, length (upd i x l) = length l.
Proof. intros A i x l. revert i. induction l; intros [|i]; cbn; auto. Qed.
Lemma upd_nth : forall A i j (x : A) l d, nth j (upd i x l) d = if (i =? j) && (i <? length l) then x else nth j l d.
Proof.
  intros A i j x l. revert i j. induction l as [|y l IH]; intros i j d; [destruct i; cbn; rewrite ?andb_false_r; reflexivity|].
  destruct i as [|i]; destruct j as [|j]; cbn [upd nth]; auto. rewrite IH. reflexivity.
Qed.
Lemma upd_app : forall A i (x : A) l l', i < length l -> upd i x (l ++ l') = upd i x l ++ l'.
Proof. intros A i x l. revert i. induction l as [|y l IH]; intros [|i] l' H; cbn in *; try lia; auto. rewrite IH by lia. reflexivity. Qed.
Lemma skipn_plus : forall A a b (l : list A), skipn a (skipn b l) = skipn (b + a) l.
Proof. intros A a b. induction b as [|b IH]; intros l; [reflexivity|]. destruct l; cbn [skipn Nat.add]; [apply skipn_nil|apply IH]. Qed.
Lemma firstn_exact : forall A (l l' : list A), firstn (length l) (l ++ l') = l.
Proof. intros. rewrite firstn_app, Nat.sub_diag, firstn_all. cbn. apply app_nil_r. Qed.

(** ** The encoding of the faces *)
Lemma decode_encode_at : forall fs pre post, decode (length fs) (length pre) (pre ++ encode fs ++ post) = Some fs.
Proof.
  induction fs as [|f fs IH]; intros pre post; [reflexivity|].
  assert (E1 : pre ++ encode (f :: fs) ++ post = (pre ++ length f :: f) ++ encode fs ++ post) by (unfold encode; cbn [flat_map]; rewrite <- !app_assoc; cbn [app]; rewrite <- ?app_assoc; reflexivity).
  assert (E2 : pre ++ encode (f :: fs) ++ post = (pre ++ [length f]) ++ f ++ encode fs ++ post) by (rewrite E1, <- !app_assoc; reflexivity).
  set (l := pre ++ encode (f :: fs) ++ post) in *. cbn [length decode].
  assert (N : nth_error l (length pre) = Some (length f)) by (rewrite E2; rewrite nth_error_app1 by (rewrite app_length; cbn; lia); rewrite nth_error_app2 by lia; rewrite Nat.sub_diag; reflexivity).
  rewrite N. cbn [bind]. replace (length pre + length f <? length l) with true by (symmetry; apply Nat.ltb_lt; rewrite E1, !app_length; cbn [length]; lia).
  assert (D : decode (length fs) (length pre + length f + 1) l = Some fs) by (rewrite E1; replace (length pre + length f + 1) with (length (pre ++ length f :: f)) by (rewrite app_length; cbn [length]; lia); apply IH).
  rewrite D. cbn [bind]. do 2 f_equal. rewrite E2.
  replace (length pre + 1) with (length (pre ++ [length f])) by (rewrite app_length; reflexivity). rewrite skipn_app, skipn_all, Nat.sub_diag. cbn [skipn app]. apply firstn_exact.
Qed.
(** C73: the documented encoding is read back. *)
Theorem decode_encode : forall fs, decode (length fs) 0 (encode fs) = Some fs.
Proof. intros fs. pose proof (decode_encode_at fs [] []) as H. cbn [app length] in H. rewrite app_nil_r in H. exact H. Qed.
Print Assumptions decode_encode.

(** ** The sides of the faces *)
Lemma steps_from_spec : forall f prev i, i < length f -> nth i (steps_from prev f) (0, 0) = (nth i f 0, nth i (prev :: f) 0).
Proof.
  induction f as [|v f IH]; intros prev i H; cbn in H; [lia|]. destruct i as [|i]; [reflexivity|]. cbn [steps_from nth]. rewrite IH by lia. reflexivity.
Qed.
Lemma steps_from_length : forall f prev, length (steps_from prev f) = length f.
Proof. induction f; intros; cbn; auto. Qed.
Lemma last_nth : forall (f : list nat) d, last f d = nth (length f - 1) f d.
Proof.
  induction f as [|a f IH]; intros d; [reflexivity|]. destruct f as [|b f]; [reflexivity|]. change (last (a :: b :: f) d) with (last (b :: f) d). rewrite IH. cbn [length]. replace (S (length f) - 1) with (length f) by lia. replace (S (S (length f)) - 1) with (S (length f)) by lia. reflexivity.
Qed.
Lemma steps_spec : forall f, steps f = map (fun i => (nth i f 0, before f i)) (seq 0 (length f)).
Proof.
  intros f. apply (nth_ext _ _ (0, 0) (0, 0)).
  - unfold steps. rewrite steps_from_length, map_length, seq_length. reflexivity.
  - intros i H. unfold steps in *. rewrite steps_from_length in H. rewrite steps_from_spec by auto.
    set (g := fun i => (nth i f 0, before f i)). rewrite (nth_indep (map g (seq 0 (length f))) (0, 0) (g 0)) by (rewrite map_length, seq_length; auto).
    rewrite map_nth, seq_nth by auto. unfold g. cbn [Nat.add]. f_equal. unfold before. destruct i; [apply last_nth|reflexivity].
Qed.
Lemma adjacent_steps : forall fs a b, adjacent fs a b <-> In (a, b) (flat_map steps fs) \/ In (b, a) (flat_map steps fs).
Proof.
  intros fs a b. assert (E : forall x y, In (x, y) (flat_map steps fs) <-> exists f i, In f fs /\ i < length f /\ nth i f 0 = x /\ before f i = y).
  { intros x y. rewrite in_flat_map. split.
    - intros (f & Hf & H). rewrite steps_spec, in_map_iff in H. destruct H as (i & Ei & Hi). apply in_seq in Hi. injection Ei as E1 E2. exists f, i. repeat split; auto; lia.
    - intros (f & i & Hf & Hi & E1 & E2). exists f. split; auto. rewrite steps_spec, in_map_iff. exists i. split; [congruence|]. apply in_seq. lia. }
  rewrite !E. split.
  - intros (f & i & Hf & Hi & [H|H]); [left|right]; exists f, i; tauto.
  - intros [(f & i & H)|(f & i & H)]; exists f, i; tauto.
Qed.
Lemma steps_in : forall f v p, In (v, p) (steps f) -> In v f /\ In p f.
Proof.
  intros f v p H. rewrite steps_spec, in_map_iff in H. destruct H as (i & E & Hi). apply in_seq in Hi. injection E as E1 E2. subst. split; [apply nth_In; lia|]. unfold before. apply nth_In. destruct i; lia.
Qed.
Lemma steps_of : forall f v, In v f -> exists p, In (v, p) (steps f).
Proof. intros f v H. destruct (In_nth f v 0 H) as (i & Hi & E). exists (before f i). rewrite steps_spec, in_map_iff. exists i. split; [congruence|apply in_seq; lia]. Qed.

(** ** Neighbours *)
Lemma ins_in : forall x l y, In y (ins x l) <-> y = x \/ In y l.
Proof.
  intros x l y. induction l as [|z l IH]; cbn [ins]; [cbn; intuition|]. destruct (Nat.ltb_spec x z); [cbn; intuition|]. destruct (Nat.eqb_spec x z) as [->|]; [cbn; intuition|]. cbn [In]. rewrite IH. intuition.
Qed.
Lemma ins_sorted : forall x l, StronglySorted lt l -> StronglySorted lt (ins x l).
Proof.
  intros x l S. induction S as [|y l S IH H]; cbn [ins]; [constructor; constructor|].
  destruct (Nat.ltb_spec x y); [constructor; [constructor; auto|constructor; [auto|]]; rewrite Forall_forall in *; intros z Hz; specialize (H z Hz); lia|].
  destruct (Nat.eqb_spec x y); [constructor; auto|]. constructor; auto. rewrite Forall_forall in *. intros z Hz. apply ins_in in Hz. destruct Hz as [->|Hz]; [lia|auto].
Qed.
Lemma insert_at_spec : forall ns i x ns', insert_at ns i x = Some ns' -> i < length ns /\ length ns' = length ns /\
  (forall v, nth v ns' [] = if v =? i then ins x (nth i ns []) else nth v ns []).
Proof.
  intros ns i x ns' H. unfold insert_at in H. destruct (Nat.ltb_spec i (length ns)) as [L|]; [|discriminate]. injection H as <-. split; auto. split; [apply upd_length|].
  intros v. rewrite upd_nth. rewrite (Nat.eqb_sym i v). destruct (Nat.eqb_spec v i); cbn [andb]; auto. destruct (Nat.ltb_spec i (length ns)); [auto|lia].
Qed.
Definition good_sets (ns : list (list nat)) (es : list (nat * nat)) : Prop :=
  (forall v, StronglySorted lt (nth v ns [])) /\ (forall v w, In w (nth v ns []) <-> In (v, w) es \/ In (w, v) es).
Lemma link_spec : forall ns e ns' es, link ns e = Some ns' -> good_sets ns es ->
  fst e < length ns /\ snd e < length ns /\ length ns' = length ns /\ good_sets ns' (e :: es).
Proof.
  intros ns [v p] ns' es H [S G]. unfold link in H. cbn [fst snd] in *. destruct (insert_at ns v p) as [n1|] eqn:E1; [|discriminate]. cbn [bind] in H.
  destruct (insert_at_spec _ _ _ _ E1) as (A1 & A2 & A3). destruct (insert_at_spec _ _ _ _ H) as (B1 & B2 & B3). rewrite A2 in *.
  assert (S1 : forall u, StronglySorted lt (nth u n1 [])) by (intros u; rewrite A3; destruct (u =? v); auto using ins_sorted).
  assert (G1 : forall u w, In w (nth u n1 []) <-> (u = v /\ w = p) \/ In (u, w) es \/ In (w, u) es).
  { intros u w. rewrite A3. destruct (Nat.eqb_spec u v) as [->|N]; [rewrite ins_in, G; intuition|rewrite G; intuition]. }
  repeat split; auto; try lia.
  - intros u. rewrite B3. destruct (u =? p); auto using ins_sorted.
  - intros Hw. rewrite B3 in Hw. destruct (Nat.eqb_spec v0 p) as [->|N]; [apply ins_in in Hw; destruct Hw as [->|Hw]; [right; left; reflexivity|]|]; apply G1 in Hw; destruct Hw as [[-> ->]|[Hw|Hw]]; cbn [In]; auto.
  - intros Hw. rewrite B3. assert (K : In w (nth v0 n1 []) \/ (v0 = p /\ w = v)).
    { cbn [In] in Hw. destruct Hw as [[E|Hw]|[E|Hw]]; [injection E as -> ->; left; apply G1; auto|left; apply G1; auto|injection E as -> ->; auto|left; apply G1; auto]. }
    destruct (Nat.eqb_spec v0 p) as [->|N]; [apply ins_in|]; destruct K as [K|[K1 K2]]; auto; congruence.
Qed.
Lemma links_spec : forall es ns ns' es0, links ns es = Some ns' -> good_sets ns es0 ->
  (forall e, In e es -> fst e < length ns /\ snd e < length ns) /\ length ns' = length ns /\ good_sets ns' (rev es ++ es0).
Proof.
  induction es as [|e es IH]; intros ns ns' es0 H G; cbn [links] in H.
  - injection H as <-. split; [intros ? []|]. auto.
  - destruct (link ns e) as [n1|] eqn:E; [|discriminate]. cbn [bind] in H. destruct (link_spec _ _ _ _ E G) as (A & B & C & D). destruct (IH _ _ _ H D) as (P & Q & T). rewrite C in *.
    split; [intros e' [<-|He']; auto|]. split; auto. cbn [rev]. rewrite <- app_assoc. exact T.
Qed.
Lemma links_defined : forall es ns, (forall e, In e es -> fst e < length ns /\ snd e < length ns) -> exists ns', links ns es = Some ns'.
Proof.
  induction es as [|e es IH]; intros ns H; [exists ns; reflexivity|]. cbn [links]. destruct (H e (or_introl eq_refl)) as [A B].
  unfold link, insert_at. destruct (Nat.ltb_spec (fst e) (length ns)); [|lia]. cbn [bind]. rewrite upd_length. destruct (Nat.ltb_spec (snd e) (length ns)); [|lia]. cbn [bind]. apply IH. intros e' He'. rewrite !upd_length. apply H. right. auto.
Qed.
Lemma good_sets_start : forall n, good_sets (repeat [] n) [].
Proof.
  intros n. assert (E : forall v, nth v (repeat (@nil nat) n) [] = []) by (induction n; intros [|v]; cbn; auto).
  split; intros v; rewrite E; [constructor|]. cbn. tauto.
Qed.
Lemma neighbor_sets_spec : forall n fs ns, neighbor_sets n fs = Some ns ->
  length ns = n /\ in_bounds n fs /\ (forall v, StronglySorted lt (nth v ns [])) /\ (forall v w, In w (nth v ns []) <-> adjacent fs v w).
Proof.
  intros n fs ns H. destruct (links_spec _ _ _ _ H (good_sets_start n)) as (A & B & C & D). rewrite repeat_length in *. split; auto. split; [|split; auto].
  - intros f v Hf Hv. destruct (steps_of f v Hv) as (p & Hp). apply (A (v, p)). apply in_flat_map. exists f. auto.
  - intros v w. rewrite D, adjacent_steps, app_nil_r, <- !in_rev. tauto.
Qed.
Lemma neighbor_sets_defined : forall n fs, in_bounds n fs -> exists ns, neighbor_sets n fs = Some ns.
Proof.
  intros n fs H. apply links_defined. intros [v p] He. rewrite repeat_length. apply in_flat_map in He. destruct He as (f & Hf & Hs). apply steps_in in Hs. cbn [fst snd]. split; apply (H f); tauto.
Qed.
(** the packed form *)
Lemma pack_spec : forall ns v arr, v + length ns <= length arr ->
  let r := pack v arr ns in
  length arr <= length r /\ (forall i, i < length arr -> (i < v \/ v + length ns <= i) -> nth_error r i = nth_error arr i) /\
  (forall k, k < length ns -> exists start, nth_error r (v + k) = Some start /\ exists pre post, r = pre ++ (length (nth k ns []) :: nth k ns []) ++ post /\ length pre = start).
Proof.
  induction ns as [|s ns IH]; intros v arr H; cbn [pack length] in *.
  - split; auto. split; auto. intros k Hk. lia.
  - set (arr' := upd v (length arr) arr ++ length s :: s). assert (L : length arr' = length arr + S (length s)) by (unfold arr'; rewrite app_length, upd_length; reflexivity).
    destruct (IH (S v) arr' ltac:(lia)) as (A & B & C). cbn zeta in *. set (r := pack (S v) arr' ns) in *.
    assert (V : nth_error arr' v = Some (length arr)).
    { unfold arr'. rewrite nth_error_app1 by (rewrite upd_length; lia). rewrite nth_error_nth' with (d := 0) by (rewrite upd_length; lia). rewrite upd_nth, Nat.eqb_refl. destruct (Nat.ltb_spec v (length arr)); [reflexivity|lia]. }
    split; [lia|]. split.
    + intros i Hi Hor. rewrite B by lia. unfold arr'. rewrite nth_error_app1 by (rewrite upd_length; lia). rewrite nth_error_nth' with (d := 0) by (rewrite upd_length; lia). rewrite (nth_error_nth' arr 0) by lia. f_equal. rewrite upd_nth. destruct (Nat.eqb_spec v i); [lia|reflexivity].
    + intros k Hk. destruct k as [|k].
      * exists (length arr). rewrite Nat.add_0_r. rewrite B by lia. split; auto.
        (* the block just written stays *)
        assert (F : forall i, length arr <= i < length arr' -> nth_error r i = nth_error arr' i) by (intros i Hi; apply B; lia).
        exists (firstn (length arr) r), (skipn (length arr') r). split; [|rewrite firstn_length; lia].
        rewrite <- (firstn_skipn (length arr) r) at 1. f_equal. rewrite <- (firstn_skipn (S (length s)) (skipn (length arr) r)) at 1. f_equal; [|rewrite skipn_plus; f_equal; lia].
        cbn [nth]. apply nth_ext with (d := 0) (d' := 0); [rewrite firstn_length, skipn_length; cbn [length]; lia|].
        intros j Hj. rewrite firstn_length, skipn_length in Hj.
        assert (E : nth_error r (length arr + j) = nth_error (length s :: s) j).
        { rewrite F by lia. unfold arr'. rewrite nth_error_app2 by (rewrite upd_length; lia). rewrite upd_length. f_equal. lia. }
        rewrite (nth_error_nth' (length s :: s) 0) in E by (cbn [length]; lia). rewrite <- (firstn_skipn (length arr) r) in E at 1. rewrite nth_error_app2 in E by (rewrite firstn_length; lia). rewrite firstn_length in E. replace (length arr + j - Nat.min (length arr) (length r)) with j in E by lia.
        rewrite <- (firstn_skipn (S (length s)) (skipn (length arr) r)) in E. rewrite nth_error_app1 in E by (rewrite firstn_length, skipn_length; lia). rewrite (nth_error_nth' _ 0) in E by (rewrite firstn_length, skipn_length; lia). congruence.
      * destruct (C k ltac:(lia)) as (st & E & X). exists st. replace (v + S k) with (S v + k) by lia. split; auto.
Qed.
Lemma neigh_pack : forall ns v, v < length ns -> neigh (pack 0 (repeat 0 (length ns)) ns) v = Some (nth v ns []).
Proof.
  intros ns v H. destruct (pack_spec ns 0 (repeat 0 (length ns))) as (A & B & C); [rewrite repeat_length; lia|]. destruct (C v H) as (st & E & pre & post & R & L). cbn [Nat.add] in E. cbn zeta in *. set (r := pack 0 _ ns) in *.
  unfold neigh. rewrite E. cbn [bind]. rewrite R at 1. rewrite <- L at 1. rewrite nth_error_app2 by lia. rewrite Nat.sub_diag. cbn [app nth_error bind].
  replace (st + length (nth v ns []) <? length r) with true by (symmetry; apply Nat.ltb_lt; rewrite R, !app_length; cbn [length]; lia).
  f_equal. rewrite R. replace (pre ++ (length (nth v ns []) :: nth v ns []) ++ post) with ((pre ++ [length (nth v ns [])]) ++ nth v ns [] ++ post) by (rewrite <- !app_assoc; reflexivity).
  replace (st + 1) with (length (pre ++ [length (nth v ns [])])) by (rewrite app_length; cbn; lia). rewrite skipn_app, skipn_all, Nat.sub_diag. cbn [skipn app]. apply firstn_exact.
Qed.
(** C73: the packed array lists, for every vertex, exactly the vertices that follow or precede it
    in a face, ascending and without repetition. *)
Theorem find_neighbors_correct : forall n fs arr, find_neighbors n fs = Some arr -> forall v, v < n ->
  exists ns, neigh arr v = Some ns /\ StronglySorted lt ns /\ forall w, In w ns <-> adjacent fs v w.
Proof.
  intros n fs arr H v Hv. unfold find_neighbors in H. destruct (neighbor_sets n fs) as [ns|] eqn:E; [|discriminate]. cbn [bind] in H. injection H as <-.
  destruct (neighbor_sets_spec _ _ _ E) as (L & _ & S & G). exists (nth v ns []). rewrite <- L. split; [apply neigh_pack; lia|]. split; auto.
Qed.
Print Assumptions find_neighbors_correct.
(** C73: it is defined exactly if every number is that of a vertex. *)
Theorem find_neighbors_defined : forall n fs, (exists arr, find_neighbors n fs = Some arr) <-> in_bounds n fs.
Proof.
  intros n fs. unfold find_neighbors. split.
  - intros (arr & H). destruct (neighbor_sets n fs) as [ns|] eqn:E; [|discriminate]. apply (neighbor_sets_spec _ _ _ E).
  - intros H. destruct (neighbor_sets_defined n fs H) as (ns & ->). eexists. reflexivity.
Qed.
Print Assumptions find_neighbors_defined.

(** ** Validation *)
Lemma edge_eqb_spec : forall a b, reflect (a = b) (edge_eqb a b).
Proof. intros [a b] [c d]. unfold edge_eqb. cbn [fst snd]. destruct (Nat.eqb_spec a c), (Nat.eqb_spec b d); cbn; constructor; congruence. Qed.
Fixpoint look (e : nat * nat) (m : list ((nat * nat) * nat)) : option nat :=
  match m with [] => None | (e', c) :: m' => if edge_eqb e e' then Some c else look e m' end.
Definition keys (m : list ((nat * nat) * nat)) := map fst m.
Lemma look_in : forall m e c, look e m = Some c -> In (e, c) m.
Proof. induction m as [|[e' c'] m IH]; intros e c H; cbn in H; [discriminate|]. destruct (edge_eqb_spec e e') as [->|]; [injection H as ->; left; auto|right; auto]. Qed.
Lemma in_look : forall m e c, NoDup (keys m) -> In (e, c) m -> look e m = Some c.
Proof.
  induction m as [|[e' c'] m IH]; intros e c N H; [destruct H|]. cbn in N. inversion N as [|? ? N1 N2]; subst. cbn [look]. destruct H as [E|H].
  - injection E as -> ->. destruct (edge_eqb_spec e e); [auto|congruence].
  - destruct (edge_eqb_spec e e') as [->|]; [exfalso; apply N1; apply (in_map fst) in H; exact H|auto].
Qed.
Lemma put_look : forall m e k e', look e' (put e k m) = if edge_eqb e' e then Some (k (match look e m with Some c => c | None => 0 end)) else look e' m.
Proof.
  induction m as [|[e1 c1] m IH]; intros e k e'; cbn [put look].
  - destruct (edge_eqb_spec e' e); reflexivity.
  - destruct (edge_eqb_spec e e1) as [->|N]; cbn [look].
    + destruct (edge_eqb_spec e' e1); reflexivity.
    + destruct (edge_eqb_spec e' e1) as [->|N']; [destruct (edge_eqb_spec e1 e); [congruence|reflexivity]|]. rewrite IH. reflexivity.
Qed.
Lemma put_keys : forall m e k e', In e' (keys (put e k m)) <-> e' = e \/ In e' (keys m).
Proof.
  induction m as [|[e1 c1] m IH]; intros e k e'; cbn [put]; [cbn; intuition|]. destruct (edge_eqb_spec e e1) as [->|N]; cbn [keys map fst In] in *; [intuition|]. unfold keys in IH. rewrite IH. intuition.
Qed.
Lemma put_nodup : forall m e k, NoDup (keys m) -> NoDup (keys (put e k m)).
Proof.
  induction m as [|[e1 c1] m IH]; intros e k N; cbn [put]; [constructor; [intros []|constructor]|]. inversion N as [|? ? N1 N2]; subst. destruct (edge_eqb_spec e e1) as [->|NE]; [constructor; auto|].
  cbn [keys map fst]. constructor; [|apply IH; auto]. intros H. apply (put_keys m e k e1) in H. destruct H as [H|H]; [congruence|auto].
Qed.
Lemma edge_same : forall a b x y, edge a b = edge x y <-> same_edge a b x y = true.
Proof.
  intros a b x y. unfold edge, same_edge. rewrite orb_true_iff, !andb_true_iff, !Nat.eqb_eq. destruct (Nat.ltb_spec b a), (Nat.ltb_spec y x); split; intros E; try (injection E as E1 E2); try (f_equal; lia); lia.
Qed.
(** the initial zeros *)
Lemma zeros_spec : forall v ns m, NoDup (keys m) -> (forall e c, look e m = Some c -> c = 0) ->
  let m' := fold_left (fun m n => put (edge v n) (fun _ => 0) m) ns m in
  NoDup (keys m') /\ (forall e c, look e m' = Some c -> c = 0) /\ (forall e, In e (keys m') <-> In e (keys m) \/ exists n, In n ns /\ e = edge v n).
Proof.
  intros v ns. induction ns as [|n ns IH]; intros m N Z; cbn [fold_left]; cbn zeta.
  - repeat split; auto. intros [H|(n & [] & _)]; auto.
  - destruct (IH (put (edge v n) (fun _ => 0) m)) as (A & B & C); [apply put_nodup; auto| |].
    + intros e c H. rewrite put_look in H. destruct (edge_eqb e (edge v n)); [congruence|eauto].
    + repeat split; auto; intros H.
      * apply C in H. destruct H as [H|(n' & H & E)]; [apply put_keys in H; destruct H as [->|H]; [right; exists n; cbn; auto|auto]|right; exists n'; cbn; auto].
      * apply C. destruct H as [H|(n' & [<-|H] & E)]; [left; apply put_keys; auto|left; apply put_keys; auto|right; exists n'; auto].
Qed.
Lemma prepare_spec : forall arr (N : nat -> list nat) vs st r, (forall v, In v vs -> neigh arr v = Some (N v)) ->
  NoDup (keys (snd st)) -> (forall e c, look e (snd st) = Some c -> c = 0) -> prepare arr vs st = Some r ->
  NoDup (keys (snd r)) /\ (forall e c, look e (snd r) = Some c -> c = 0) /\
  (forall e, In e (keys (snd r)) <-> In e (keys (snd st)) \/ exists v n, In v vs /\ In n (N v) /\ e = edge v n) /\
  (fst r = true <-> fst st = true /\ forall v, In v vs -> N v <> []).
Proof.
  intros arr N vs. induction vs as [|v vs IH]; intros st r HN ND Z H; cbn [prepare] in H.
  - injection H as <-. repeat split; auto; try tauto. intros [H|(v & n & [] & _)]; auto.
  - rewrite HN in H by (left; auto). cbn [bind] in H. destruct (zeros_spec v (N v) (snd st) ND Z) as (A & B & C). cbn zeta in *.
    destruct (IH (_, _) _ (fun u Hu => HN u (or_intror Hu)) A B H) as (P & Q & T & U). cbn [fst snd] in *. split; auto. split; auto. split.
    + intros e. rewrite T, C. split.
      * intros [[H1|(n & H1 & E)]|(u & n & H1 & H2 & E)]; [auto|right; exists v, n; cbn; auto|right; exists u, n; cbn; auto].
      * intros [H1|(u & n & [<-|H1] & H2 & E)]; [auto|left; right; exists n; auto|right; exists u, n; auto].
    + rewrite U, andb_true_iff, negb_true_iff, Nat.eqb_neq. split.
      * intros [[H1 H2] H3]. split; auto. intros u [<-|Hu]; [intros E; rewrite E in H2; apply H2; reflexivity|auto].
      * intros [H1 H2]. split; [split; auto|intros u Hu; apply H2; right; auto]. intros E. apply (H2 v (or_introl eq_refl)). destruct (N v); [auto|discriminate].
Qed.
Lemma prepare_defined : forall arr (N : nat -> list nat) vs st, (forall v, In v vs -> neigh arr v = Some (N v)) -> exists r, prepare arr vs st = Some r.
Proof. intros arr N vs. induction vs as [|v vs IH]; intros st H; cbn [prepare]; [eexists; eauto|]. rewrite H by (left; auto). cbn [bind]. apply IH. intros u Hu. apply H. right. auto. Qed.
(** the counts *)
Definition times (e : nat * nat) (es : list (nat * nat)) : nat := length (filter (fun x => edge_eqb e (edge (fst x) (snd x))) es).
Lemma counts_spec : forall es m, NoDup (keys m) ->
  let m' := fold_left (fun m e => put (edge (fst e) (snd e)) S m) es m in
  NoDup (keys m') /\ (forall e, In e (keys m') <-> In e (keys m) \/ exists x, In x es /\ e = edge (fst x) (snd x)) /\
  (forall e, In e (keys m') -> look e m' = Some (match look e m with Some c => c | None => 0 end + times e es)).
Proof.
  intros es. induction es as [|x es IH]; intros m N; cbn [fold_left]; cbn zeta.
  - repeat split; auto. + intros [H|(n & [] & _)]; auto. + intros e H. apply in_map_iff in H. destruct H as ([e' c] & E & H). cbn in E. subst e'. rewrite (in_look m e c N H). f_equal. cbn. lia.
  - destruct (IH (put (edge (fst x) (snd x)) S m) (put_nodup _ _ _ N)) as (A & B & C). cbn zeta in *. split; auto. split.
    + intros e. rewrite B, put_keys. split.
      * intros [[->|H]|(y & H & E)]; [right; exists x; cbn; auto|auto|right; exists y; cbn; auto].
      * intros [H|(y & [<-|H] & E)]; [auto|auto|right; exists y; auto].
    + intros e H. rewrite C by auto. rewrite put_look. unfold times. cbn [filter]. destruct (edge_eqb_spec e (edge (fst x) (snd x))) as [->|NE]; [|reflexivity]. cbn [length]. destruct (look (edge (fst x) (snd x)) m); f_equal; lia.
Qed.
Lemma times_sides : forall fs a b, times (edge a b) (flat_map steps fs) = sides fs a b.
Proof.
  intros fs a b. unfold times, sides. induction fs as [|f fs IH]; [reflexivity|]. cbn [flat_map map list_sum fold_right]. rewrite filter_app, app_length. f_equal; [|exact IH].
  rewrite steps_spec. generalize (seq 0 (length f)). intros l. induction l as [|i l IHl]; [reflexivity|]. cbn [map filter fst snd].
  assert (E : edge_eqb (edge a b) (edge (nth i f 0) (before f i)) = same_edge (nth i f 0) (before f i) a b).
  { destruct (edge_eqb_spec (edge a b) (edge (nth i f 0) (before f i))) as [E|E].
    - symmetry. apply edge_same. auto. - symmetry. apply not_true_is_false. intros H. apply E. symmetry. apply edge_same. auto. }
  rewrite E. destruct (same_edge (nth i f 0) (before f i) a b); cbn [length]; rewrite IHl; reflexivity.
Qed.
Lemma adjacent_used : forall fs v, used fs v <-> exists w, adjacent fs v w.
Proof.
  intros fs v. split.
  - intros (f & Hf & Hv). destruct (In_nth f v 0 Hv) as (i & Hi & E). exists (before f i), f, i. auto.
  - intros (w & f & i & Hf & Hi & [[E _]|[_ E]]); exists f; split; auto; subst v; [apply nth_In; auto|unfold before; apply nth_In; destruct i; lia].
Qed.
Lemma validate_spec : forall n fs arr, find_neighbors n fs = Some arr -> exists wt conn, validate n arr fs = Some (wt, conn) /\
  (wt = true <-> forall a b, adjacent fs a b -> sides fs a b = 2) /\ (conn = true <-> forall v, v < n -> used fs v).
Proof.
  intros n fs arr H. assert (B : in_bounds n fs) by (apply find_neighbors_defined; eauto).
  assert (HN : exists N, forall v, v < n -> neigh arr v = Some (N v) /\ forall w, In w (N v) <-> adjacent fs v w).
  { exists (fun v => match neigh arr v with Some l => l | None => [] end). intros v Hv. destruct (find_neighbors_correct n fs arr H v Hv) as (l & E & _ & G). rewrite E. auto. }
  destruct HN as (N & HN). unfold validate.
  assert (HN' : forall v, In v (seq 0 n) -> neigh arr v = Some (N v)) by (intros v Hv; apply in_seq in Hv; apply HN; lia).
  destruct (prepare_defined arr N (seq 0 n) (true, []) HN') as (r & E). rewrite E. cbn [bind].
  destruct (prepare_spec arr N (seq 0 n) (true, []) r HN') as (P & Q & T & U); [constructor|discriminate|exact E|]. cbn [fst snd keys map] in *.
  destruct (counts_spec (flat_map steps fs) (snd r) P) as (A1 & A2 & A3). cbn zeta in *. set (m := fold_left _ _ _) in *.
  eexists _, _. split; [reflexivity|].
  assert (Adj : forall a b, adjacent fs a b -> a < n /\ b < n).
  { intros a b (f & i & Hf & Hi & HH). assert (nth i f 0 < n) by (apply (B f); auto; apply nth_In; auto). assert (before f i < n) by (apply (B f); auto; unfold before; apply nth_In; destruct i; lia). lia. }
  assert (K : forall e, In e (keys m) <-> exists a b, adjacent fs a b /\ e = edge a b).
  { intros e. rewrite A2, T. split.
    - intros [[[]|(v & w & Hv & Hw & ->)]|([a b] & Hx & ->)]; [|exists a, b; split; auto; apply adjacent_steps; auto]. apply in_seq in Hv. exists v, w. split; auto. apply HN; auto. lia.
    - intros (a & b & HA & ->). apply adjacent_steps in HA. right. destruct HA as [HA|HA]; [exists (a, b)|exists (b, a)]; split; auto. cbn [fst snd]. apply edge_same. unfold same_edge. rewrite !Nat.eqb_refl. apply orb_true_r. }
  assert (LV : forall a b, adjacent fs a b -> look (edge a b) m = Some (sides fs a b)).
  { intros a b HA. rewrite A3 by (apply K; eauto). rewrite times_sides. destruct (look (edge a b) (snd r)) eqn:EL; [rewrite (Q _ _ EL)|]; reflexivity. }
  split.
  - rewrite forallb_forall. split.
    + intros F a b HA. pose proof (look_in _ _ _ (LV a b HA)) as I. apply F in I. apply Nat.eqb_eq in I. exact I.
    + intros F [e c] I. cbn [snd]. apply Nat.eqb_eq. assert (Ke : In e (keys m)) by (apply (in_map fst) in I; exact I). apply K in Ke. destruct Ke as (a & b & HA & ->). pose proof (LV a b HA) as L. rewrite (in_look _ _ _ A1 I) in L. injection L as ->. auto.
  - rewrite U. split.
    + intros [_ F] v Hv. specialize (F v ltac:(apply in_seq; lia)). apply adjacent_used. destruct (HN v Hv) as [_ G]. destruct (N v) as [|w l]; [congruence|]. exists w. apply G. left. auto.
    + intros F. split; auto. intros v Hv EN. apply in_seq in Hv. destruct (proj1 (adjacent_used fs v) (F v ltac:(lia))) as (w & Hw). destruct (HN v ltac:(lia)) as [_ G]. apply G in Hw. rewrite EN in Hw. destruct Hw.
Qed.
(** C73: the constructor, for every encoded list of faces. *)
Definition closed_mesh (n : nat) (fs : list (list nat)) : Prop :=
  (forall a b, adjacent fs a b -> sides fs a b = 2) /\ (forall v, v < n -> used fs v).
Theorem construct_spec : forall n fs throws, in_bounds n fs ->
  (construct n (length fs) (encode fs) throws = Throws /\ throws = true /\ ~ closed_mesh n fs) \/
  (exists arr via, construct n (length fs) (encode fs) throws = Built arr via /\ find_neighbors n fs = Some arr /\
     (via = true <-> 32 < n /\ closed_mesh n fs) /\ (throws = true -> closed_mesh n fs)).
Proof.
  intros n fs throws B. unfold construct. rewrite decode_encode. destruct (proj2 (find_neighbors_defined n fs) B) as (arr & E). rewrite E.
  destruct (validate_spec n fs arr E) as (wt & conn & -> & W & C).
  assert (CM : wt && conn = true <-> closed_mesh n fs) by (unfold closed_mesh; rewrite andb_true_iff, W, C; tauto).
  destruct (wt && conn) eqn:EW; cbn [negb].
  - assert (CC : closed_mesh n fs) by (apply CM; reflexivity). right. exists arr, ((32 <? n) && true). cbn [andb]. split; [reflexivity|]. split; [reflexivity|]. split; [|auto].
    rewrite andb_true_r, Nat.ltb_lt. tauto.
  - assert (NC : ~ closed_mesh n fs) by (intros Hc; apply CM in Hc; discriminate). destruct throws; cbn [andb]; [left; auto|]. right. exists arr, ((32 <? n) && false). rewrite andb_false_r. split; [reflexivity|]. split; [reflexivity|]. split; [split; [discriminate|tauto]|discriminate].
Qed.
Print Assumptions construct_spec.
(** It is undefined if a number is not that of a vertex. *)
Theorem construct_undefined : forall n fs throws, ~ in_bounds n fs -> construct n (length fs) (encode fs) throws = Undefined.
Proof.
  intros n fs throws B. unfold construct. rewrite decode_encode. destruct (find_neighbors n fs) as [arr|] eqn:E; [exfalso; apply B, find_neighbors_defined; eauto|reflexivity].
Qed.
Print Assumptions construct_undefined.
(** The documented reading, that every edge is shared by two different faces, is not implied: one
    face with two vertices passes. *)
Theorem watertight_two_faces_refuted : exists n fs, in_bounds n fs /\ length fs = 1 /\ closed_mesh n fs /\ exists arr, construct n (length fs) (encode fs) true = Built arr false.
Proof.
  exists 2, [[0; 1]]. split; [intros f v [<-|[]] [<-|[<-|[]]]; lia|]. split; auto.
  assert (E : construct 2 1 [2; 0; 1] true = Built [2; 4; 1; 1; 1; 0] false) by (vm_compute; reflexivity).
  split; [|eexists; exact E]. destruct (construct_spec 2 [[0; 1]] true) as [(H & _)|(arr & via & H & _ & _ & C)]; [intros f v [<-|[]] [<-|[<-|[]]]; lia| |apply C; auto].
  cbn [length encode flat_map app] in H. rewrite E in H. discriminate.
Qed.
Print Assumptions watertight_two_faces_refuted.

(** ** The search *)
Definition marked (visited : list bool) : nat := length (filter (fun b => b) visited).
Lemma marked_le : forall l, marked l <= length l.
Proof. unfold marked. induction l as [|[] l IH]; cbn [filter length]; lia. Qed.
Lemma marked_upd : forall l i, i < length l -> nth i l false = false -> marked (upd i true l) = S (marked l).
Proof.
  unfold marked. induction l as [|b l IH]; intros [|i] H E; cbn [length nth upd filter] in *; try lia; [subst b; reflexivity|]. destruct b; cbn [length]; rewrite IH by (auto; lia); reflexivity.
Qed.
Section Search.
Variable n : nat.
Variable val : nat -> R.
Variable ge : nat -> nat -> bool.
Hypothesis ge_val : forall i j, ge i j = true <-> (val j <= val i)%R.
Definition seen_below (visited : list bool) (ext : nat) : Prop := forall w, nth w visited false = true -> (val w <= val ext)%R.
Lemma ge_false : forall i j, ge i j = false -> (val i < val j)%R.
Proof. intros i j H. apply Rnot_le_lt. intros C. apply ge_val in C. congruence. Qed.
Lemma scan_spec : forall ns visited keep ext, length visited = n -> ext < n -> (forall w, In w ns -> w < n) -> seen_below visited ext ->
  let '(visited', keep', ext') := fold_left (scan_step ge) ns (visited, keep, ext) in
  length visited' = n /\ ext' < n /\ seen_below visited' ext' /\ (val ext <= val ext')%R /\
  (forall w, nth w visited false = true -> nth w visited' false = true) /\ (forall w, In w ns -> nth w visited' false = true) /\
  ((keep' = keep /\ ext' = ext) \/ keep' = true) /\
  marked visited <= marked visited' /\ ((keep' = true /\ keep = false) -> marked visited < marked visited').
Proof.
  induction ns as [|w ns IH]; intros visited keep ext L E B S; cbn [fold_left].
  - split; [auto|]. split; [auto|]. split; [auto|]. split; [lra|]. split; [auto|]. split; [intros w []|]. split; [auto|]. split; [lia|]. intros [-> H]; discriminate.
  - assert (W : w < n) by (apply B; left; auto). unfold scan_step at 2. destruct (nth w visited false) eqn:V.
    + specialize (IH visited keep ext L E (fun u Hu => B u (or_intror Hu)) S). destruct (fold_left (scan_step ge) ns (visited, keep, ext)) as [[visited' keep'] ext'].
      destruct IH as (A1 & A2 & A3 & A4 & A5 & A6 & A7 & A8 & A9). split; [auto|]. split; [auto|]. split; [auto|]. split; [auto|]. split; [auto|]. split; [intros u [<-|Hu]; auto|]. auto.
    + assert (L' : length (upd w true visited) = n) by (rewrite upd_length; auto).
      assert (N : forall u, nth u (upd w true visited) false = if u =? w then true else nth u visited false).
      { intros u. rewrite upd_nth, L, (Nat.eqb_sym w u). destruct (u =? w); [|reflexivity]. destruct (Nat.ltb_spec w n); [reflexivity|lia]. }
      assert (M : marked (upd w true visited) = Datatypes.S (marked visited)) by (apply marked_upd; auto; lia).
      destruct (ge w ext) eqn:G.
      * assert (S' : seen_below (upd w true visited) w) by (intros u Hu; rewrite N in Hu; apply ge_val in G; destruct (Nat.eqb_spec u w) as [Eu|]; [subst u; lra|specialize (S u Hu); lra]).
        specialize (IH (upd w true visited) true w L' W (fun u Hu => B u (or_intror Hu)) S'). destruct (fold_left (scan_step ge) ns _) as [[visited' keep'] ext'].
        destruct IH as (A1 & A2 & A3 & A4 & A5 & A6 & A7 & A8 & A9). apply ge_val in G. split; [auto|]. split; [auto|]. split; [auto|]. split; [lra|].
        split; [intros u Hu; apply A5; rewrite N; destruct (u =? w); auto|]. split; [intros u [<-|Hu]; auto; apply A5; rewrite N, Nat.eqb_refl; auto|]. split; [right; destruct A7 as [[A7 _]|A7]; auto|]. split; lia.
      * apply ge_false in G. assert (S' : seen_below (upd w true visited) ext) by (intros u Hu; rewrite N in Hu; destruct (Nat.eqb_spec u w) as [Eu|]; [subst u; lra|auto]).
        specialize (IH (upd w true visited) keep ext L' E (fun u Hu => B u (or_intror Hu)) S'). destruct (fold_left (scan_step ge) ns _) as [[visited' keep'] ext'].
        destruct IH as (A1 & A2 & A3 & A4 & A5 & A6 & A7 & A8 & A9). split; [auto|]. split; [auto|]. split; [auto|]. split; [auto|].
        split; [intros u Hu; apply A5; rewrite N; destruct (u =? w); auto|]. split; [intros u [<-|Hu]; auto; apply A5; rewrite N, Nat.eqb_refl; auto|]. split; [auto|]. split; lia.
Qed.
Variable arr : list nat.
Variable nbr : nat -> list nat.
Hypothesis nbr_ok : forall v, v < n -> neigh arr v = Some (nbr v) /\ forall w, In w (nbr v) -> w < n.
Lemma walk_spec : forall fuel visited ext, length visited = n -> ext < n -> seen_below visited ext -> n < fuel + marked visited ->
  exists r, walk fuel arr ge visited ext = Some r /\ r < n /\ (val ext <= val r)%R /\ forall w, In w (nbr r) -> (val w <= val r)%R.
Proof.
  induction fuel as [|fuel IH]; intros visited ext L E S F; [pose proof (marked_le visited); lia|]. cbn [walk]. destruct (nbr_ok ext E) as [N B]. rewrite N. cbn [bind].
  pose proof (scan_spec (nbr ext) visited false ext L E B S) as H. destruct (fold_left (scan_step ge) (nbr ext) (visited, false, ext)) as [[visited' keep'] ext'].
  destruct H as (A1 & A2 & A3 & A4 & A5 & A6 & A7 & A8 & A9). destruct keep'.
  - destruct (IH visited' ext' A1 A2 A3) as (r & W & R1 & R2 & R3); [specialize (A9 (conj eq_refl eq_refl)); lia|]. exists r. split; auto. split; auto. split; [lra|auto].
  - assert (Ex : ext' = ext) by (destruct A7 as [[_ A7]|A7]; [exact A7|discriminate A7]). rewrite Ex in *. exists ext. split; [reflexivity|split; [auto|split; [lra|intros w Hw; apply A3, A6, Hw]]].
Qed.
Lemma linear_spec : forall m k e, e < n -> k + m <= n -> (forall j, j < k -> (val j <= val e)%R) ->
  let r := fold_left (fun e i => if negb (ge e i) then i else e) (seq k m) e in r < n /\ forall j, j < k + m -> (val j <= val r)%R.
Proof.
  induction m as [|m IH]; intros k e E K H; cbn [seq fold_left]; cbn zeta; [split; auto; intros j Hj; apply H; lia|].
  destruct (ge e k) eqn:G; cbn [negb].
  - destruct (IH (S k) e E ltac:(lia)) as [A B]; [|split; [exact A|intros j Hj; apply B; lia]].
    intros j Hj. destruct (Nat.eq_dec j k) as [->|]; [apply ge_val; auto|apply H; lia].
  - apply ge_false in G. destruct (IH (S k) k ltac:(lia) ltac:(lia)) as [A B]; [|split; [exact A|intros j Hj; apply B; lia]].
    intros j Hj. destruct (Nat.eq_dec j k) as [->|]; [lra|]. specialize (H j ltac:(lia)). lra.
Qed.
End Search.
Lemma ge_dot_val : forall vs d i j, ge_dot vs d i j = true <-> (dot d (vert vs j) <= dot d (vert vs i))%R.
Proof. intros. unfold ge_dot. destruct (Rle_dec _ _); split; auto; discriminate. Qed.
(** C73: on every mesh the constructor accepts, the search ends, at a vertex that no neighbour
    exceeds; the linear search ends at one that no vertex exceeds. *)
Theorem find_index_ends : forall vs fs throws arr via d, construct (length vs) (length fs) (encode fs) throws = Built arr via -> vs <> [] ->
  exists r, find_index (length vs) arr via (ge_dot vs d) = Some r /\ r < length vs /\
    (forall w, adjacent fs r w -> (dot d (vert vs w) <= dot d (vert vs r))%R) /\
    (via = false -> forall w, w < length vs -> (dot d (vert vs w) <= dot d (vert vs r))%R).
Proof.
  intros vs fs throws arr via d H NE. set (n := length vs) in *. assert (P : 0 < n) by (unfold n; destruct vs; [congruence|cbn; lia]).
  assert (FN : find_neighbors n fs = Some arr).
  { unfold construct in H. rewrite decode_encode in H. destruct (find_neighbors n fs) as [a|]; [|discriminate]. destruct (validate n a fs) as [[wt conn]|]; [|discriminate]. destruct (negb (wt && conn) && throws); [discriminate|]. injection H as -> _. reflexivity. }
  assert (B : in_bounds n fs) by (apply find_neighbors_defined; eauto).
  assert (AB : forall a b, adjacent fs a b -> b < n).
  { intros a b (f & i & Hf & Hi & HH). assert (nth i f 0 < n) by (apply (B f); auto; apply nth_In; auto). assert (before f i < n) by (apply (B f); auto; unfold before; apply nth_In; destruct i; lia). lia. }
  unfold find_index. replace (n =? 0) with false by (symmetry; apply Nat.eqb_neq; lia). destruct via.
  - set (nbr := fun v => match neigh arr v with Some l => l | None => [] end).
    assert (NB : forall v, v < n -> neigh arr v = Some (nbr v) /\ forall w, In w (nbr v) <-> adjacent fs v w).
    { intros v Hv. unfold nbr. destruct (find_neighbors_correct n fs arr FN v Hv) as (l & E & _ & G). rewrite E. auto. }
    destruct (walk_spec n (fun i => dot d (vert vs i)) (ge_dot vs d) (ge_dot_val vs d) arr nbr) with (fuel := S n) (visited := repeat false n) (ext := 0) as (r & W & R1 & R2 & R3).
    + intros v Hv. destruct (NB v Hv) as [E G]. split; auto. intros w Hw. apply G in Hw. eauto.
    + apply repeat_length. + auto. + intros w Hw. rewrite nth_repeat in Hw. discriminate.
    + lia.
    + exists r. split; auto. split; auto. split; [|discriminate]. intros w Hw. apply R3. apply NB; auto.
  - destruct (linear_spec n (fun i => dot d (vert vs i)) (ge_dot vs d) (ge_dot_val vs d) (n - 1) 1 0 P ltac:(lia)) as [A C]; [intros j Hj; replace j with 0 by lia; lra|]. cbn zeta in *.
    exists (linear n (ge_dot vs d)). unfold linear. split; auto. split; auto. split; [intros w Hw; apply C; specialize (AB _ _ Hw); lia|intros _ w Hw; apply C; lia].
Qed.
Print Assumptions find_index_ends.

(** A vertex from which the edges span the whole mesh: every other vertex is reached by a sum of
    non-negative multiples of the edges.  This holds at every corner of a convex polytope; it fails
    at a vertex inside a face. *)
Open Scope R_scope.
Fixpoint combo (vs : list v3) (x : nat) (l : list (R * nat)) : v3 :=
  match l with [] => vzero | (t, k) :: l' => vadd (vscale t (vsub (vert vs k) (vert vs x))) (combo vs x l') end.
Definition corner (vs : list v3) (fs : list (list nat)) (x : nat) : Prop :=
  forall y, (y < length vs)%nat -> exists l, (forall t k, In (t, k) l -> 0 <= t /\ adjacent fs x k) /\ vsub (vert vs y) (vert vs x) = combo vs x l.
Lemma combo_le : forall vs d x l, (forall t k, In (t, k) l -> 0 <= t /\ dot d (vert vs k) <= dot d (vert vs x)) -> dot d (combo vs x l) <= 0.
Proof.
  intros vs d x l. induction l as [|[t k] l IH]; intros H; cbn [combo]; [unfold dot, vzero; cbn; lra|]. rewrite dot_add_r, dot_scale_r, dot_sub_r.
  destruct (H t k (or_introl eq_refl)) as [Ht Hk]. assert (dot d (combo vs x l) <= 0) by (apply IH; intros; apply H; right; auto). assert (0 <= t * (dot d (vert vs x) - dot d (vert vs k))) by (apply Rmult_le_pos; lra). lra.
Qed.
(** C73: if every vertex is a corner, or the search is linear, the vertex found is extreme among
    all vertices, hence among all points of the polytope. *)
Theorem find_extreme_correct : forall vs fs throws arr via d, construct (length vs) (length fs) (encode fs) throws = Built arr via -> vs <> [] ->
  (via = true -> forall x, (x < length vs)%nat -> corner vs fs x) ->
  exists p, find_extreme vs arr via d = Some p /\ In p vs /\ (forall v, In v vs -> dot d v <= dot d p) /\ forall q, hull vs q -> dot d q <= dot d p.
Proof.
  intros vs fs throws arr via d H NE C. destruct (find_index_ends vs fs throws arr via d H NE) as (r & F & R & LM & LIN).
  assert (G : forall v, In v vs -> dot d v <= dot d (vert vs r)).
  { intros v Hv. destruct (In_nth vs v vzero Hv) as (y & Hy & <-). fold (vert vs y). destruct via; [|apply LIN; auto].
    destruct (C eq_refl r R y Hy) as (l & Hl & E). pose proof (combo_le vs d r l (fun t k I => conj (proj1 (Hl t k I)) (LM k (proj2 (Hl t k I))))) as K. rewrite <- E, dot_sub_r in K. lra. }
  unfold find_extreme. rewrite F. cbn [bind]. exists (vert vs r). split; [reflexivity|split; [apply nth_In; auto|split; [exact G|intros q Hq; apply Hq; exact G]]].
Qed.
Print Assumptions find_extreme_correct.
(** C73: with this search the callback of C72 returns extreme points of the placed polytope. *)
Theorem convex_support_extreme : forall big eps vs fs throws arr via X dir, construct (length vs) (length fs) (encode fs) throws = Built arr via -> vs <> [] ->
  (via = true -> forall x, (x < length vs)%nat -> corner vs fs x) -> dir <> vzero -> ortho (tf_rot X) ->
  extreme (placed X (hull vs)) dir (ccd_support big eps (fun vs d => match find_extreme vs arr via d with Some p => p | None => vzero end) (Polytope vs) X dir).
Proof.
  intros big eps vs fs throws arr via X dir H NE C D O. apply (ccd_support_extreme big eps _ (Polytope vs) X dir); [exact NE|intros []|exact D|exact O| |exact I].
  cbn [finds]. destruct (find_extreme_correct vs fs throws arr via (mtapply (tf_rot X) dir) H NE C) as (p & -> & A & B & _). auto.
Qed.
Print Assumptions convex_support_extreme.

(** ** What convex.h asks of a mesh (61-87, 146-162) *)
Definition side (vs : list v3) (f : list nat) (j : nat) : v3 := vsub (vert vs (nth j f 0%nat)) (vert vs (before f j)).
Definition documented (vs : list v3) (fs : list (list nat)) : Prop :=
  forall f, In f fs -> exists nrm h, norm2 nrm = 1 /\ (forall i, In i f -> dot nrm (vert vs i) = h) /\
    (forall i, (i < length vs)%nat -> dot nrm (vert vs i) <= h) /\
    forall j, (j < length f)%nat -> let c := cross (side vs f j) (side vs f ((j + 1) mod length f)) in dot c nrm = norm c.

(** Integer coordinates, to check examples by computation. *)
Definition z3 : Type := (Z * Z * Z)%type.
Definition zv (p : z3) : v3 := let '(x, y, z) := p in mk3 (IZR x) (IZR y) (IZR z).
Definition zsub (p q : z3) : z3 := let '(x, y, z) := p in let '(a, b, c) := q in (x - a, y - b, z - c)%Z.
Definition zdot (p q : z3) : Z := let '(x, y, z) := p in let '(a, b, c) := q in (x * a + y * b + z * c)%Z.
Definition zcross (p q : z3) : z3 := let '(x, y, z) := p in let '(a, b, c) := q in (y * c - z * b, z * a - x * c, x * b - y * a)%Z.
Lemma zv_sub : forall p q, vsub (zv p) (zv q) = zv (zsub p q).
Proof. intros [[x y] z] [[a b] c]. unfold vsub, zv, zsub. cbn. rewrite !minus_IZR. reflexivity. Qed.
Lemma zv_dot : forall p q, dot (zv p) (zv q) = IZR (zdot p q).
Proof. intros [[x y] z] [[a b] c]. unfold dot, zv, zdot. cbn [c0 c1 c2]. rewrite !plus_IZR, !mult_IZR. reflexivity. Qed.
Lemma zv_cross : forall p q, cross (zv p) (zv q) = zv (zcross p q).
Proof. intros [[x y] z] [[a b] c]. unfold cross, zv, zcross. cbn [c0 c1 c2]. rewrite !minus_IZR, !mult_IZR. reflexivity. Qed.
Definition zvert (zs : list z3) (i : nat) : z3 := nth i zs (0, 0, 0)%Z.
Lemma zvert_ok : forall zs i, vert (map zv zs) i = zv (zvert zs i).
Proof. intros zs i. unfold vert, zvert. change vzero with (zv (0, 0, 0)%Z). apply map_nth. Qed.
Definition zside (zs : list z3) (f : list nat) (j : nat) : z3 := zsub (zvert zs (nth j f 0%nat)) (zvert zs (before f j)).
Lemma zside_ok : forall zs f j, side (map zv zs) f j = zv (zside zs f j).
Proof. intros. unfold side, zside. rewrite !zvert_ok. apply zv_sub. Qed.
Definition zface_ok (zs : list z3) (f : list nat) : bool :=
  let nn := zcross (zside zs f 0) (zside zs f 1) in
  let h := zdot nn (zvert zs (nth 0 f 0%nat)) in
  (0 <? zdot nn nn)%Z && forallb (fun i => (zdot nn (zvert zs i) =? h)%Z) f && forallb (fun i => (zdot nn (zvert zs i) <=? h)%Z) (seq 0 (length zs)) &&
  forallb (fun j => let c := zcross (zside zs f j) (zside zs f ((j + 1) mod length f)) in (zdot (zcross c nn) (zcross c nn) =? 0)%Z && (0 <=? zdot c nn)%Z) (seq 0 (length f)).
Lemma parallel_norm : forall c nn, norm2 (cross c nn) = 0 -> 0 <= dot c nn -> 0 < norm2 nn -> dot c (vscale (/ norm nn) nn) = norm c.
Proof.
  intros c nn E P Q. assert (N : 0 < norm nn) by (unfold norm; apply sqrt_lt_R0; auto). rewrite dot_scale_r.
  assert (D : dot c nn = norm c * norm nn).
  { apply Rsqr_inj; auto; [apply Rmult_le_pos; [apply norm_nonneg|lra]|]. unfold Rsqr. pose proof (lagrange c nn) as L. rewrite E in L. replace (norm c * norm nn * (norm c * norm nn)) with ((norm c * norm c) * (norm nn * norm nn)) by ring. rewrite !norm_sq. lra. }
  rewrite D. field. lra.
Qed.
Lemma zface_sound : forall zs fs, forallb (zface_ok zs) fs = true -> documented (map zv zs) fs.
Proof.
  intros zs fs H f Hf. rewrite forallb_forall in H. specialize (H f Hf). unfold zface_ok in H. set (nn := zcross (zside zs f 0) (zside zs f 1)) in *. set (h := zdot nn (zvert zs (nth 0 f 0%nat))) in *.
  rewrite !andb_true_iff, !forallb_forall in H. destruct H as [[[A B] C] D]. apply Z.ltb_lt in A.
  assert (N2 : 0 < norm2 (zv nn)) by (unfold norm2; rewrite zv_dot; apply IZR_lt; auto). assert (N : 0 < norm (zv nn)) by (unfold norm; apply sqrt_lt_R0; auto).
  exists (vscale (/ norm (zv nn)) (zv nn)), (/ norm (zv nn) * IZR h). split; [rewrite norm2_scale, <- norm_sq; field; lra|]. split; [|split].
  - intros i Hi. rewrite dot_scale_l, zvert_ok, zv_dot. specialize (B i Hi). apply Z.eqb_eq in B. rewrite B. reflexivity.
  - intros i Hi. rewrite map_length in Hi. rewrite dot_scale_l, zvert_ok, zv_dot. apply Rmult_le_compat_l; [left; apply Rinv_0_lt_compat; auto|]. apply IZR_le, Z.leb_le, C, in_seq. lia.
  - intros j Hj c. specialize (D j ltac:(apply in_seq; lia)). cbn zeta in D. apply andb_true_iff in D. destruct D as [D1 D2]. apply Z.eqb_eq in D1. apply Z.leb_le in D2.
    unfold c. rewrite !zside_ok, zv_cross. apply parallel_norm; auto; [unfold norm2; rewrite zv_cross, zv_dot; apply (IZR_eq _ _ D1)|rewrite zv_dot; apply IZR_le, D2].
Qed.
Lemma walk_ext : forall arr ge ge', (forall i j, ge i j = ge' i j) -> forall fuel visited ext, walk fuel arr ge visited ext = walk fuel arr ge' visited ext.
Proof.
  intros arr ge ge' E. assert (F : forall ns st, fold_left (scan_step ge) ns st = fold_left (scan_step ge') ns st).
  { induction ns as [|w ns IH]; intros [[v k] e]; cbn [fold_left]; auto. unfold scan_step at 2 4. rewrite E. destruct (nth w v false); auto. }
  induction fuel as [|fuel IH]; intros visited ext; cbn [walk]; auto. destruct (neigh arr ext); cbn [bind]; auto. rewrite F. destruct (fold_left _ _ _) as [[v k] e]. destruct k; auto.
Qed.
Definition zge (zs : list z3) (d : z3) (i j : nat) : bool := (zdot d (zvert zs j) <=? zdot d (zvert zs i))%Z.
Lemma zge_ok : forall zs d i j, ge_dot (map zv zs) (zv d) i j = zge zs d i j.
Proof.
  intros zs d i j. unfold ge_dot, zge. rewrite !zvert_ok, !zv_dot. destruct (Rle_dec _ _) as [H|H]; symmetry; [apply Z.leb_le, le_IZR, H|]. apply Z.leb_gt. apply lt_IZR. lra.
Qed.

(** ** Refutation of the guarantee of findExtremeVertex *)
(** A prism over a convex polygon with 16 corners.  The bottom is cut into triangles around a point
    (vertex 0), and one of them into three (vertex 17), as the comment of the class allows. *)
Definition bad_verts : list z3 :=
  (21, 240, 0)%Z :: map (fun i => let k := Z.of_nat i in (3 * k, 3 * (k * k), 0)%Z) (seq 0 16) ++
  (8, 81, 0)%Z :: map (fun i => let k := Z.of_nat i in (3 * k, 3 * (k * k), 3)%Z) (seq 0 16).
Definition bad_faces : list (list nat) :=
  (map (fun i => [0; i + 2; i + 1]) (seq 1 14) ++ [[0; 1; 16]; [0; 2; 17]; [2; 1; 17]; [1; 0; 17]] ++
   map (fun i => [i + 1; i + 2; i + 19; i + 18]) (seq 0 15) ++ [[16; 1; 18; 33]; seq 18 16])%nat.
(** C73: the guarantee fails for a mesh that meets every requirement of the class and passes the
    validation: the search returns a lowest vertex instead of a highest one. *)
Theorem find_extreme_refuted : exists vs fs arr d p, (32 < length vs)%nat /\ in_bounds (length vs) fs /\ documented vs fs /\ closed_mesh (length vs) fs /\
  construct (length vs) (length fs) (encode fs) true = Built arr true /\ find_extreme vs arr true d = Some p /\
  (forall v, In v vs -> dot d p <= dot d v) /\ exists v, In v vs /\ dot d p < dot d v.
Proof.
  set (vs := map zv bad_verts). assert (L : length vs = 34%nat) by (unfold vs; rewrite map_length; reflexivity).
  destruct (construct 34 (length bad_faces) (encode bad_faces) true) as [| |arr via] eqn:E; [vm_compute in E; discriminate|vm_compute in E; discriminate|].
  exists vs, bad_faces, arr, (zv (0, 0, 1)%Z), (vert vs 0). rewrite L. split; [lia|].
  assert (IB : in_bounds 34 bad_faces).
  { assert (H : forallb (fun f => forallb (fun v => (v <? 34)%nat) f) bad_faces = true) by (vm_compute; reflexivity). intros f v Hf Hv. rewrite forallb_forall in H. specialize (H f Hf). rewrite forallb_forall in H. apply Nat.ltb_lt, H, Hv. }
  split; [exact IB|]. split; [apply zface_sound; vm_compute; reflexivity|].
  assert (V : via = true) by (vm_compute in E; injection E as _ <-; reflexivity). subst via.
  split.
  { destruct (construct_spec 34 bad_faces true IB) as [(H & _)|(a & v & H & _ & _ & C)]; [rewrite E in H; discriminate|apply C; reflexivity]. }
  split; [exact E|]. split; [|split].
  - unfold find_extreme. rewrite L. replace (find_index 34 arr true (ge_dot vs (zv (0, 0, 1)%Z))) with (Some 0%nat); [reflexivity|]. unfold find_index. cbn [Nat.eqb]. rewrite (walk_ext _ _ (zge bad_verts (0, 0, 1)%Z) (fun i j => zge_ok bad_verts (0, 0, 1)%Z i j)).
    vm_compute in E. injection E as <-. vm_compute. reflexivity.
  - intros v Hv. apply in_map_iff in Hv. destruct Hv as (q & <- & Hq). unfold vs. rewrite zvert_ok, !zv_dot. apply IZR_le.
    assert (H : forallb (fun q => (0 <=? zdot (0, 0, 1) q)%Z) bad_verts = true) by (vm_compute; reflexivity). rewrite forallb_forall in H. specialize (H q Hq). apply Z.leb_le in H. exact H.
  - exists (vert vs 33). split; [apply nth_In; rewrite L; lia|]. unfold vs. rewrite !zvert_ok, !zv_dot. apply IZR_lt. vm_compute. reflexivity.
Qed.
Print Assumptions find_extreme_refuted.

(** ** Examples *)
(** A prism over a convex polygon with 17 corners: the neighbours are walked and every vertex is a
    corner, so every direction gets an extreme vertex. *)
Definition prism_verts : list z3 :=
  map (fun i => let k := Z.of_nat i in (k, k * k, 0)%Z) (seq 0 17) ++ map (fun i => let k := Z.of_nat i in (k, k * k, 1)%Z) (seq 0 17).
Definition prism_faces : list (list nat) :=
  (map (fun i => [i; i + 1; i + 18; i + 17]) (seq 0 16) ++ [[16; 0; 17; 33]; rev (seq 0 17); seq 17 17])%nat.
Definition adjb (fs : list (list nat)) (a b : nat) : bool :=
  existsb (fun f => existsb (fun i => same_edge (nth i f 0%nat) (before f i) a b) (seq 0 (length f))) fs.
Lemma adjb_sound : forall fs a b, adjb fs a b = true -> adjacent fs a b.
Proof.
  intros fs a b H. apply existsb_exists in H. destruct H as (f & Hf & H). apply existsb_exists in H. destruct H as (i & Hi & H). apply in_seq in Hi.
  unfold same_edge in H. rewrite orb_true_iff, !andb_true_iff, !Nat.eqb_eq in H. exists f, i. split; auto. split; [lia|]. tauto.
Qed.
(** coefficients, times 240 *)
Definition flat_coeff (i j : nat) : list (Z * nat) :=
  let k := (Z.of_nat j - Z.of_nat i)%Z in
  if (i =? 0)%nat then [((k * k - k)%Z, 16%nat); ((16 * k * (16 - k))%Z, 1%nat)]
  else if (i =? 16)%nat then [((k * k + k)%Z, 0%nat); ((- (16 * k * (16 + k)))%Z, 15%nat)]
  else [((120 * (k * k - k))%Z, (i - 1)%nat); ((120 * (k * k + k))%Z, (i + 1)%nat)].
Definition prism_coeff (x y : nat) : list (Z * nat) :=
  if (x <? 17)%nat then (if (y <? 17)%nat then flat_coeff x y else (240%Z, (x + 17)%nat) :: flat_coeff x (y - 17))
  else let l := map (fun ck => (fst ck, (snd ck + 17)%nat)) (flat_coeff (x - 17) (if (y <? 17)%nat then y else y - 17)%nat) in
       if (y <? 17)%nat then (240%Z, (x - 17)%nat) :: l else l.
Fixpoint zcombo (zs : list z3) (x : nat) (l : list (Z * nat)) : z3 :=
  match l with [] => (0, 0, 0)%Z | (t, k) :: l' => let '(a, b, c) := zsub (zvert zs k) (zvert zs x) in let '(a', b', c') := zcombo zs x l' in (t * a + a', t * b + b', t * c + c')%Z end.
Lemma zcombo_ok : forall zs x l, combo (map zv zs) x (map (fun ck => (IZR (fst ck) / 240, snd ck)) l) = vscale (/ 240) (zv (zcombo zs x l)).
Proof.
  intros zs x l. induction l as [|[t k] l IH]; cbn [map combo zcombo fst snd]; [unfold vscale, vzero, zv; cbn; f_equal; ring|].
  rewrite IH, !zvert_ok, zv_sub. destruct (zsub (zvert zs k) (zvert zs x)) as [[a b] c]. destruct (zcombo zs x l) as [[a' b'] c']. unfold zv, vadd, vscale. cbn [c0 c1 c2]. rewrite !plus_IZR, !mult_IZR. f_equal; field.
Qed.
Definition z3_eqb (p q : z3) : bool := let '(x, y, z) := p in let '(a, b, c) := q in ((x =? a) && (y =? b) && (z =? c))%Z.
Lemma z3_eqb_ok : forall p q, z3_eqb p q = true -> p = q.
Proof. intros [[x y] z] [[a b] c] H. unfold z3_eqb in H. rewrite !andb_true_iff, !Z.eqb_eq in H. destruct H as [[-> ->] ->]. reflexivity. Qed.
Definition scale240 (p : z3) : z3 := let '(x, y, z) := p in (240 * x, 240 * y, 240 * z)%Z.
Definition prism_check : bool :=
  forallb (fun x => forallb (fun y => let l := prism_coeff x y in
    forallb (fun ck => (0 <=? fst ck)%Z && adjb prism_faces x (snd ck)) l && z3_eqb (zcombo prism_verts x l) (scale240 (zsub (zvert prism_verts y) (zvert prism_verts x)))) (seq 0 34)) (seq 0 34).
Example ex_prism_corner : forall x, (x < 34)%nat -> corner (map zv prism_verts) prism_faces x.
Proof.
  assert (C : prism_check = true) by (vm_compute; reflexivity). unfold prism_check in C. rewrite forallb_forall in C.
  intros x Hx y Hy. rewrite map_length in Hy. change (length prism_verts) with 34%nat in Hy. specialize (C x ltac:(apply in_seq; lia)). rewrite forallb_forall in C. specialize (C y ltac:(apply in_seq; lia)). cbn zeta in C. apply andb_true_iff in C. destruct C as [C1 C2]. rewrite forallb_forall in C1. apply z3_eqb_ok in C2.
  exists (map (fun ck => (IZR (fst ck) / 240, snd ck)) (prism_coeff x y)). split.
  - intros t k H. apply in_map_iff in H. destruct H as ([c k'] & E & H). injection E as <- <-. specialize (C1 _ H). apply andb_true_iff in C1. destruct C1 as [P A]. apply Z.leb_le in P. apply IZR_le in P. cbn [fst snd] in *. split; [lra|]. apply adjb_sound, A.
  - rewrite zcombo_ok, C2, !zvert_ok, zv_sub. generalize (zsub (zvert prism_verts y) (zvert prism_verts x)). intros [[a b] c]. unfold scale240, zv, vscale. cbn [c0 c1 c2]. rewrite !mult_IZR. f_equal; field.
Qed.
Example ex_prism : exists arr, construct 34 (length prism_faces) (encode prism_faces) true = Built arr true /\
  forall d, exists p, find_extreme (map zv prism_verts) arr true d = Some p /\ In p (map zv prism_verts) /\ forall q, hull (map zv prism_verts) q -> dot d q <= dot d p.
Proof.
  destruct (construct 34 (length prism_faces) (encode prism_faces) true) as [| |arr via] eqn:E; [vm_compute in E; discriminate|vm_compute in E; discriminate|].
  assert (V : via = true) by (vm_compute in E; injection E as _ <-; reflexivity). subst via. exists arr. split; [reflexivity|]. intros d.
  destruct (find_extreme_correct (map zv prism_verts) prism_faces true arr true d) as (p & A & B & _ & C).
  - rewrite map_length. exact E. - discriminate. - intros _ x Hx. rewrite map_length in Hx. apply ex_prism_corner. exact Hx.
  - exists p. auto.
Qed.
