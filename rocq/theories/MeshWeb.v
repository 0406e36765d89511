(** The combinatorial surface behind the sphere, ellipsoid, cylinder and cone meshes of ShapeMesh:
    [rows] rings of [seg] vertices joined by quads cut in two, closed by two fans. *)
From Coq Require Import List Arith Lia Bool Permutation Relations.
From Verif Require Import BvhModel ShapeMesh.
Import ListNotations.

(** Directed edges of a triangle and of a list of triangles. *)
Definition edges1 {A : Type} (t : A * A * A) : list (A * A) := match t with (a, b, c) => [(a, b); (b, c); (c, a)] end.
Definition edges {A : Type} (ts : list (A * A * A)) : list (A * A) := flat_map edges1 ts.
(** A closed oriented surface: no directed edge is used twice, and every one is matched by its reverse. *)
Definition closed {A : Type} (ts : list (A * A * A)) : Prop :=
  NoDup (edges ts) /\ forall u v, In (u, v) (edges ts) -> In (v, u) (edges ts).
Definition linked {A : Type} (ts : list (A * A * A)) : A -> A -> Prop := clos_refl_trans A (fun u v => In (u, v) (edges ts)).
Definition rot {A : Type} (t : A * A * A) : A * A * A := match t with (a, b, c) => (b, c, a) end.
Definition tmap {A B : Type} (f : A -> B) (t : A * A * A) : B * B * B := match t with (a, b, c) => (f a, f b, f c) end.

Section Web.
Variables rows seg : nat.
Inductive vert := Ring (i j : nat) | Top | Bot.
Inductive cell := Upper (i j : nat) | Lower (i j : nat) | Cap (j : nat) | Base (j : nat).
Definition nx (j : nat) : nat := if j =? seg - 1 then 0 else j + 1.
Definition face (c : cell) : vert * vert * vert :=
  match c with
  | Upper i j => (Ring i j, Ring (i + 1) j, Ring i (nx j))
  | Lower i j => (Ring i (nx j), Ring (i + 1) j, Ring (i + 1) (nx j))
  | Cap j => (Top, Ring 0 j, Ring 0 (nx j))
  | Base j => (Ring (rows - 1) j, Bot, Ring (rows - 1) (nx j))
  end.
Definition okc (c : cell) : Prop :=
  match c with Upper i j | Lower i j => i < rows - 1 /\ j < seg | Cap j | Base j => j < seg end.
Definition okv (v : vert) : Prop := match v with Ring i j => i < rows /\ j < seg | _ => True end.
Definition idx (v : vert) : nat := match v with Ring i j => i * seg + j | Top => rows * seg | Bot => rows * seg + 1 end.
Definition cells : list cell :=
  loop2 (rows - 1) seg (fun i j => [Upper i j; Lower i j]) ++ flat_map (fun j => [Cap j; Base j]) (seq 0 seg).

Lemma nx_cases : forall j, j < seg -> (j = seg - 1 /\ nx j = 0) \/ (j < seg - 1 /\ nx j = j + 1).
Proof. intros j H. unfold nx. destruct (Nat.eqb_spec j (seg - 1)); lia. Qed.
Lemma nx_lt : forall j, j < seg -> nx j < seg.
Proof. intros j H. destruct (nx_cases j H); lia. Qed.
Lemma nx_back : forall j, j < seg -> exists k, k < seg /\ nx k = j.
Proof.
  intros j H. destruct j as [|j].
  - exists (seg - 1). split; [lia|]. unfold nx. rewrite Nat.eqb_refl. reflexivity.
  - exists j. split; [lia|]. unfold nx. destruct (Nat.eqb_spec j (seg - 1)); lia.
Qed.

Lemma cells_ok : forall c, In c cells <-> okc c.
Proof.
  intros c. unfold cells, loop2. rewrite in_app_iff, !in_flat_map. split.
  - intros [(i & Hi & H)|(j & Hj & H)].
    + apply in_flat_map in H. destruct H as (j & Hj & H). apply in_seq in Hi, Hj. cbn in H. destruct H as [<-|[<-|[]]]; cbn; lia.
    + apply in_seq in Hj. cbn in H. destruct H as [<-|[<-|[]]]; cbn; lia.
  - destruct c as [i j|i j|j|j]; cbn [okc]; intros H.
    + left. exists i. split; [apply in_seq; lia|]. apply in_flat_map. exists j. split; [apply in_seq; lia|cbn; auto].
    + left. exists i. split; [apply in_seq; lia|]. apply in_flat_map. exists j. split; [apply in_seq; lia|cbn; auto].
    + right. exists j. split; [apply in_seq; lia|cbn; auto].
    + right. exists j. split; [apply in_seq; lia|cbn; auto].
Qed.

Lemma nodup_app : forall B (l1 l2 : list B), NoDup l1 -> NoDup l2 -> (forall z, In z l1 -> ~ In z l2) -> NoDup (l1 ++ l2).
Proof.
  intros B. induction l1 as [|b l1 IH1]; intros l2 N1 N2 D12; [exact N2|]. inversion N1; subst. cbn. constructor.
  - rewrite in_app_iff. intros [?|?]; [contradiction|]. apply (D12 b); [now left|assumption].
  - apply IH1; try assumption. intros z Hz. apply D12. now right.
Qed.
Lemma nodup_flat : forall A B (f : A -> list B) l, NoDup l -> (forall x, In x l -> NoDup (f x)) ->
  (forall x y z, In x l -> In y l -> In z (f x) -> In z (f y) -> x = y) -> NoDup (flat_map f l).
Proof.
  intros A B f l. induction l as [|a l IH]; intros N F D; [constructor|]. cbn. inversion N; subst.
  apply nodup_app.
  - apply F. now left.
  - apply IH; [assumption|intros; apply F; now right|]. intros x y z Hx Hy. apply D; now right.
  - intros z Hz H. apply in_flat_map in H. destruct H as (x & Hx & Hzx).
    assert (a = x) by (apply (D a x z); [now left|now right| |]; assumption). subst. contradiction.
Qed.

Lemma cells_nodup : NoDup cells.
Proof.
  unfold cells, loop2. apply nodup_app.
  - apply nodup_flat; [apply seq_NoDup| |].
    + intros i _. apply nodup_flat; [apply seq_NoDup| |].
      * intros j _. repeat constructor; cbn; intuition discriminate.
      * intros x y z _ _ [<-|[<-|[]]] [E|[E|[]]]; inversion E; reflexivity.
    + intros x y z _ _ H1 H2. apply in_flat_map in H1, H2. destruct H1 as (j & _ & [<-|[<-|[]]]), H2 as (k & _ & [E|[E|[]]]); inversion E; reflexivity.
  - apply nodup_flat; [apply seq_NoDup| |].
    + intros j _. repeat constructor; cbn; intuition discriminate.
    + intros x y z _ _ [<-|[<-|[]]] [E|[E|[]]]; inversion E; reflexivity.
  - intros z H1 H2. apply in_flat_map in H1, H2. destruct H1 as (i & _ & H1). apply in_flat_map in H1.
    destruct H1 as (j & _ & [<-|[<-|[]]]), H2 as (k & _ & [E|[E|[]]]); discriminate.
Qed.

(** With three or more vertices on a ring, a directed edge belongs to one face only. *)
Lemma edge_owner : 3 <= seg -> forall c d e, okc c -> okc d -> In e (edges1 (face c)) -> In e (edges1 (face d)) -> c = d.
Proof.
  intros S3 c d e Hc Hd H1 H2.
  destruct c as [i j|i j|j|j], d as [k l|k l|l|l]; cbn [okc] in Hc, Hd;
    pose proof (nx_cases j ltac:(lia)) as Nj; pose proof (nx_cases l ltac:(lia)) as Nl;
    cbn [face edges1] in H1, H2; destruct H1 as [<-|[<-|[<-|[]]]], H2 as [E|[E|[E|[]]]]; inversion E; subst; try (exfalso; lia);
    f_equal; try lia; exfalso; lia.
Qed.
Lemma face_edges_nodup : 2 <= seg -> forall c, okc c -> NoDup (edges1 (face c)).
Proof.
  intros S2 c Hc. destruct c as [i j|i j|j|j]; cbn [okc] in Hc; pose proof (nx_cases j ltac:(lia)) as Nj; cbn [face edges1];
    repeat constructor; cbn [In]; intros H; repeat destruct H as [H|H]; try contradiction; inversion H; lia.
Qed.
(** Every edge is matched by its reverse, for any number of vertices on a ring. *)
Lemma edge_back : 1 <= rows -> forall c u v, okc c -> In (u, v) (edges1 (face c)) -> exists d, okc d /\ In (v, u) (edges1 (face d)).
Proof.
  intros R1 c u v Hc H.
  destruct c as [i j|i j|j|j]; cbn [okc] in Hc; destruct (nx_back j) as (k & Hk & Ek); try lia;
    pose proof (nx_lt j ltac:(lia)) as Hn; cbn [face edges1] in H; destruct H as [E|[E|[E|[]]]]; inversion E; subst u v; clear E.
  - exists (Lower i k). cbn [okc face edges1 In]. rewrite Ek. split; [lia|auto].
  - exists (Lower i j). cbn [okc face edges1 In]. split; [lia|auto].
  - destruct i as [|i].
    + exists (Cap j). cbn [okc face edges1 In]. split; [lia|auto].
    + exists (Lower i j). cbn [okc face edges1 In]. replace (i + 1) with (S i) by lia. split; [lia|auto].
  - exists (Upper i j). cbn [okc face edges1 In]. split; [lia|auto].
  - destruct (Nat.eq_dec (i + 1) (rows - 1)) as [e|ne].
    + exists (Base j). cbn [okc face edges1 In]. rewrite e. split; [lia|auto].
    + exists (Upper (i + 1) j). cbn [okc face edges1 In]. split; [lia|auto].
  - exists (Upper i (nx j)). cbn [okc face edges1 In]. split; [lia|auto].
  - exists (Cap k). cbn [okc face edges1 In]. rewrite Ek. split; [lia|auto].
  - destruct (Nat.eq_dec rows 1) as [e|ne].
    + exists (Base j). cbn [okc face edges1 In]. rewrite e. cbn. split; [lia|auto].
    + exists (Upper 0 j). cbn [okc face edges1 In]. split; [lia|auto].
  - exists (Cap (nx j)). cbn [okc face edges1 In]. split; [lia|auto].
  - exists (Base k). cbn [okc face edges1 In]. rewrite Ek. split; [lia|auto].
  - exists (Base (nx j)). cbn [okc face edges1 In]. split; [lia|auto].
  - destruct (Nat.eq_dec rows 1) as [e|ne].
    + exists (Cap j). cbn [okc face edges1 In]. rewrite e. cbn. split; [lia|auto].
    + exists (Lower (rows - 2) j). cbn [okc face edges1 In]. replace (rows - 2 + 1) with (rows - 1) by lia. split; [lia|auto].
Qed.
Lemma face_ok : 1 <= rows -> forall c u v, okc c -> In (u, v) (edges1 (face c)) -> okv u /\ okv v.
Proof.
  intros R1 c u v Hc H. destruct c as [i j|i j|j|j]; cbn [okc] in Hc; pose proof (nx_lt j ltac:(lia)) as Hn;
    cbn [face edges1] in H; destruct H as [E|[E|[E|[]]]]; inversion E; subst u v; cbn [okv]; lia.
Qed.

Definition web : list (vert * vert * vert) := map face cells.
Lemma in_web : forall e, In e (edges web) <-> exists c, okc c /\ In e (edges1 (face c)).
Proof.
  intros e. unfold edges, web. rewrite in_flat_map. split.
  - intros (t & Ht & He). apply in_map_iff in Ht. destruct Ht as (c & <- & Hc). exists c. split; [now apply cells_ok|exact He].
  - intros (c & Hc & He). exists (face c). split; [|exact He]. apply in_map_iff. exists c. split; [reflexivity|now apply cells_ok].
Qed.
Lemma web_closed : 1 <= rows -> 3 <= seg -> closed web.
Proof.
  intros R1 S3. split.
  - assert (Em : edges web = flat_map (fun c => edges1 (face c)) cells) by (unfold edges, web; rewrite flat_map_concat_map, map_map, <- flat_map_concat_map; reflexivity).
    rewrite Em. apply nodup_flat; [apply cells_nodup| |].
    + intros c Hc. apply face_edges_nodup; [lia|now apply cells_ok].
    + intros c d e Hc Hd. apply edge_owner; try assumption; now apply cells_ok.
  - intros u v H. apply in_web in H. destruct H as (c & Hc & H). apply in_web. eapply edge_back; eassumption.
Qed.

(** Vertex numbers. *)
Lemma idx_inj : forall u v, okv u -> okv v -> idx u = idx v -> u = v.
Proof.
  assert (M : forall i j, i < rows -> j < seg -> i * seg + j < rows * seg) by (intros; nia).
  intros [i j| |] [k l| |]; cbn [okv idx]; intros Hu Hv E; try reflexivity; try lia.
  - assert (i = k) by (destruct (Nat.lt_trichotomy i k) as [|[|]]; [nia|assumption|nia]). subst. f_equal. lia.
  - pose proof (M i j). lia.
  - pose proof (M i j). lia.
  - pose proof (M k l). lia.
  - pose proof (M k l). lia.
Qed.
Lemma idx_lt : forall v, okv v -> idx v < rows * seg + 2.
Proof. intros [i j| |]; cbn [okv idx]; intros; nia. Qed.
Lemma idx_onto : 1 <= seg -> forall k, k < rows * seg + 2 -> exists v, okv v /\ idx v = k.
Proof.
  intros S1 k Hk. destruct (le_lt_dec (rows * seg) k) as [H|H].
  - destruct (Nat.eq_dec k (rows * seg)) as [->|ne]; [exists Top; split; [exact I|reflexivity]|]. exists Bot. split; [exact I|cbn; lia].
  - exists (Ring (k / seg) (k mod seg)). cbn [okv idx]. pose proof (Nat.div_mod k seg ltac:(lia)). pose proof (Nat.mod_upper_bound k seg ltac:(lia)).
    split; [split; [apply Nat.div_lt_upper_bound; lia|lia]|lia].
Qed.

Lemma linked_web : 1 <= rows -> 1 <= seg -> forall v, okv v -> linked web Top v /\ linked web v Top.
Proof.
  intros R1 P1.
  assert (S1 : forall u v c, okc c -> In (u, v) (edges1 (face c)) -> linked web u v /\ linked web v u).
  { intros u v c Hc H. split; apply rt_step, in_web; [exists c; auto|]. eapply edge_back; eassumption. }
  assert (Tr : forall u v w, linked web u v /\ linked web v u -> linked web v w /\ linked web w v -> linked web u w /\ linked web w u).
  { intros u v w [? ?] [? ?]. split; eapply rt_trans; eassumption. }
  assert (Rg : forall i j, i < rows -> j < seg -> linked web Top (Ring i j) /\ linked web (Ring i j) Top).
  { induction i as [|i IH]; intros j Hi Hj.
    - apply (S1 _ _ (Cap j)); cbn; auto.
    - apply (Tr _ (Ring i j)); [apply IH; lia|]. apply (S1 _ _ (Upper i j)); cbn [okc face edges1 In]; [lia|]. rewrite Nat.add_1_r. auto. }
  intros [i j| |] Hv; cbn [okv] in Hv.
  - apply Rg; lia.
  - split; apply rt_refl.
  - apply (Tr _ (Ring (rows - 1) 0)); [apply Rg; lia|]. apply (S1 _ _ (Base 0)); cbn [okc face edges1 In]; [lia|auto].
Qed.

(** ** Numbered meshes built from the web *)
Definition numbered : list tri := map (fun c => tmap idx (face c)) cells.
(** A list of triangles is the web up to order of the triangles and the corner each one starts at. *)
Definition follows (ts : list tri) : Prop :=
  Permutation (edges ts) (edges numbered) /\
  (forall t, In t ts -> exists c, okc c /\ let f := tmap idx (face c) in t = f \/ t = rot f \/ t = rot (rot f)).

Lemma edges_map : forall (l : list cell), edges (map (fun c => tmap idx (face c)) l) = map (fun e => (idx (fst e), idx (snd e))) (edges (map face l)).
Proof.
  induction l as [|c l IH]; [reflexivity|]. unfold edges in *. cbn [map flat_map]. rewrite IH, map_app. f_equal. destruct (face c) as [[x y] z]. reflexivity.
Qed.
Lemma numbered_edge : forall u v, In (u, v) (edges numbered) <-> exists a b, In (a, b) (edges web) /\ u = idx a /\ v = idx b.
Proof.
  intros u v. unfold numbered. rewrite edges_map, in_map_iff. split.
  - intros ([a b] & E & H). inversion E. exists a, b. auto.
  - intros (a & b & H & -> & ->). exists (a, b). auto.
Qed.
Lemma web_okv : 1 <= rows -> forall a b, In (a, b) (edges web) -> okv a /\ okv b.
Proof. intros R1 a b H. apply in_web in H. destruct H as (c & Hc & H). eapply face_ok; eassumption. Qed.

Lemma numbered_closed : 1 <= rows -> 3 <= seg -> closed numbered.
Proof.
  intros R1 S3. destruct (web_closed R1 S3) as [N B]. split.
  - unfold numbered. rewrite edges_map. fold web. clear B.
    assert (O : forall e, In e (edges web) -> okv (fst e) /\ okv (snd e)) by (intros [a b] H; apply web_okv; assumption).
    revert N O. generalize (edges web). induction l as [|e l IH]; intros N O; [constructor|]. inversion N; subst. cbn. constructor.
    + intros H. apply in_map_iff in H. destruct H as (e' & E & H'). inversion E as [[E1 E2]].
      destruct (O e (or_introl eq_refl)) as [O1 O2], (O e' (or_intror H')) as [O3 O4].
      apply idx_inj in E1, E2; try assumption. destruct e, e'; cbn in *; subst. contradiction.
    + apply IH; [assumption|]. intros e' H. apply O. now right.
  - intros u v H. apply numbered_edge in H. destruct H as (a & b & H & -> & ->). apply numbered_edge. exists b, a. auto.
Qed.
Lemma follows_closed : 1 <= rows -> 3 <= seg -> forall ts, follows ts -> closed ts.
Proof.
  intros R1 S3 ts [P _]. destruct (numbered_closed R1 S3) as [N B]. split.
  - apply Permutation_NoDup with (l := edges numbered); [now apply Permutation_sym|exact N].
  - intros u v H. apply (Permutation_in _ P) in H. apply (Permutation_in _ (Permutation_sym P)). auto.
Qed.
Lemma follows_linked : 1 <= rows -> 1 <= seg -> forall ts, follows ts -> forall k l, k < rows * seg + 2 -> l < rows * seg + 2 -> linked ts k l.
Proof.
  intros R1 S1 ts [P _].
  assert (L : forall a b, linked web a b -> linked ts (idx a) (idx b)).
  { intros a b H. induction H as [a b H| |]; [|apply rt_refl|eapply rt_trans; eassumption].
    apply rt_step. apply (Permutation_in _ (Permutation_sym P)). apply numbered_edge. eauto. }
  intros k l Hk Hl. destruct (idx_onto S1 k Hk) as (a & Ha & <-), (idx_onto S1 l Hl) as (b & Hb & <-).
  apply L. apply rt_trans with Top; apply linked_web; assumption.
Qed.
Lemma follows_range : 1 <= rows -> forall ts, follows ts -> forall a b c, In (a, b, c) ts -> a < rows * seg + 2 /\ b < rows * seg + 2 /\ c < rows * seg + 2.
Proof.
  intros R1 ts [P _] a b c H.
  assert (F : forall u v, In (u, v) (edges1 (a, b, c)) -> u < rows * seg + 2).
  { intros u v Hu. assert (He : In (u, v) (edges ts)) by (apply in_flat_map; eauto). apply (Permutation_in _ P) in He.
    apply numbered_edge in He. destruct He as (x & y & Hx & -> & _). apply idx_lt, (web_okv R1 _ _ Hx). }
  split; [|split]; eapply F; cbn; eauto.
Qed.

(** ** Loops *)
Lemma edges_app : forall A (l k : list (A * A * A)), edges (l ++ k) = edges l ++ edges k.
Proof. intros. apply flat_map_app. Qed.
Lemma perm_flat : forall A B (f g : A -> list B) l, (forall x, In x l -> Permutation (f x) (g x)) -> Permutation (flat_map f l) (flat_map g l).
Proof.
  intros A B f g l. induction l as [|a l IH]; intros H; [constructor|]. cbn. apply Permutation_app; [apply H; now left|]. apply IH. intros x Hx. apply H. now right.
Qed.
Lemma edges_flat : forall A B (f : A -> list (B * B * B)) l, edges (flat_map f l) = flat_map (fun x => edges (f x)) l.
Proof. intros A B f l. induction l as [|a l IH]; [reflexivity|]. cbn [flat_map]. rewrite edges_app, IH. reflexivity. Qed.
Lemma perm_split : forall A B (f g : A -> list B) l, Permutation (flat_map (fun x => f x ++ g x) l) (flat_map f l ++ flat_map g l).
Proof.
  intros A B f g l. induction l as [|a l IH]; [constructor|]. cbn. rewrite <- !app_assoc. apply Permutation_app_head.
  apply Permutation_trans with (g a ++ flat_map f l ++ flat_map g l); [now apply Permutation_app_head|].
  rewrite !app_assoc. apply Permutation_app_tail, Permutation_app_comm.
Qed.
Lemma perm_loop2 : forall A (f g : nat -> nat -> list (A * A * A)) n k, (forall i j, i < n -> j < k -> Permutation (edges (f i j)) (edges (g i j))) ->
  Permutation (edges (loop2 n k f)) (edges (loop2 n k g)).
Proof.
  intros A f g n k H. unfold loop2. rewrite !edges_flat. apply perm_flat. intros i Hi. apply in_seq in Hi. rewrite !edges_flat. apply perm_flat. intros j Hj. apply in_seq in Hj. apply H; lia.
Qed.
Lemma in_loop2 : forall A (f : nat -> nat -> list A) n k x, In x (loop2 n k f) <-> exists i j, i < n /\ j < k /\ In x (f i j).
Proof.
  intros A f n k x. unfold loop2. rewrite in_flat_map. split.
  - intros (i & Hi & H). apply in_flat_map in H. destruct H as (j & Hj & H). apply in_seq in Hi, Hj. exists i, j. repeat split; try lia; assumption.
  - intros (i & j & Hi & Hj & H). exists i. split; [apply in_seq; lia|]. apply in_flat_map. exists j. split; [apply in_seq; lia|exact H].
Qed.
Lemma in_loop : forall A (f : nat -> A) n x, In x (loop n f) <-> exists j, j < n /\ x = f j.
Proof.
  intros A f n x. unfold loop. rewrite in_map_iff. split.
  - intros (j & <- & Hj). apply in_seq in Hj. exists j. split; [lia|reflexivity].
  - intros (j & Hj & ->). exists j. split; [reflexivity|apply in_seq; lia].
Qed.
Lemma map_loop2 : forall A B (g : A -> B) (f : nat -> nat -> list A) n k, map g (loop2 n k f) = loop2 n k (fun i j => map g (f i j)).
Proof.
  intros A B g f n k. unfold loop2.
  assert (M : forall (h : nat -> list A) l, map g (flat_map h l) = flat_map (fun x => map g (h x)) l).
  { intros h l. induction l as [|a l IH]; [reflexivity|]. cbn. rewrite map_app, IH. reflexivity. }
  rewrite M. apply flat_map_ext. intros i. apply M.
Qed.
Lemma loop_flat : forall A (f : nat -> A) n, loop n f = flat_map (fun j => [f j]) (seq 0 n).
Proof. intros A f n. unfold loop. induction (seq 0 n) as [|a l IH]; [reflexivity|]. cbn. rewrite IH. reflexivity. Qed.
Lemma loop2_length : forall A (f : nat -> nat -> list A) n k p, (forall i j, length (f i j) = p) -> length (loop2 n k f) = n * k * p.
Proof.
  intros A f n k p H. unfold loop2.
  assert (M : forall B C (h : B -> list C) l q, (forall x, length (h x) = q) -> length (flat_map h l) = length l * q).
  { intros B C h l q Hq. induction l as [|a l IH]; [reflexivity|]. cbn. rewrite app_length, IH, Hq. reflexivity. }
  rewrite (M _ _ _ _ (k * p)); [rewrite seq_length; lia|]. intros i. rewrite (M _ _ _ _ p); [rewrite seq_length; reflexivity|]. intros j. apply H.
Qed.
Lemma nth_loop2 : forall A (f : nat -> nat -> A) n k i j, i < n -> j < k -> nth_error (loop2 n k (fun i j => [f i j])) (i * k + j) = Some (f i j).
Proof.
  intros A f n k i j Hi Hj. unfold loop2.
  assert (G : forall m s, i < m -> nth_error (flat_map (fun i => flat_map (fun j => [f i j]) (seq 0 k)) (seq s m)) (i * k + j) = Some (f (s + i) j)).
  { clear Hi. revert j Hj. induction i as [|i IH]; intros j Hj m s Hm; destruct m as [|m]; try lia; cbn [seq flat_map].
    - rewrite nth_error_app1 by (rewrite <- loop_flat; unfold loop; rewrite map_length, seq_length; lia).
      rewrite <- loop_flat. unfold loop. rewrite nth_error_map. cbn. replace (s + 0) with s by lia.
      rewrite (nth_error_nth' _ 0) by (rewrite seq_length; lia). rewrite seq_nth by lia. reflexivity.
    - rewrite nth_error_app2 by (rewrite <- loop_flat; unfold loop; rewrite map_length, seq_length; lia).
      rewrite <- loop_flat at 1. unfold loop. rewrite map_length, seq_length. replace (S i * k + j - k) with (i * k + j) by lia.
      rewrite IH by lia. f_equal. f_equal. lia. }
  rewrite (G n 0) by lia. reflexivity.
Qed.
Lemma nth_loop : forall A (f : nat -> A) n j, j < n -> nth_error (loop n f) j = Some (f j).
Proof.
  intros A f n j Hj. unfold loop. rewrite nth_error_map, (nth_error_nth' _ 0) by (rewrite seq_length; lia). rewrite seq_nth by lia. reflexivity.
Qed.
End Web.
Arguments okc rows seg c : assert.

(** ** The triangle lists of the code *)
Lemma dec_pos : forall n, 1 <= n -> dec n = n - 1.
Proof. intros n H. unfold dec. destruct (Nat.eqb_spec n 0); lia. Qed.
Lemma nxt_nx : forall n j, 1 <= n -> nxt n j = nx n j.
Proof. intros n j H. unfold nxt, nx. rewrite dec_pos by exact H. reflexivity. Qed.
Lemma wrap : forall n s j, 1 <= n -> (if j =? dec n then s else s + j + 1) = s + nx n j.
Proof. intros n s j H. unfold nx. rewrite dec_pos by exact H. destruct (j =? n - 1); lia. Qed.

Lemma ball_follows : forall seg ring, 1 <= seg -> 1 <= ring -> follows ring seg (ball_tris seg ring).
Proof.
  intros seg ring Hs Hr.
  assert (E : ball_tris seg ring = numbered ring seg).
  { unfold ball_tris, numbered, cells. rewrite dec_pos by lia. rewrite map_app, map_loop2. f_equal.
    - unfold loop2. apply flat_map_ext. intros i. apply flat_map_ext. intros j. unfold ball_quad. rewrite !wrap by lia. reflexivity.
    - assert (M : forall A B (g : A -> B) (h : nat -> list A) l, map g (flat_map h l) = flat_map (fun x => map g (h x)) l).
      { intros A B g h l. induction l as [|a l IH]; [reflexivity|]. cbn. rewrite map_app, IH. reflexivity. }
      rewrite M. apply flat_map_ext. intros j. unfold ball_caps. rewrite nxt_nx, !wrap, !dec_pos by lia. reflexivity. }
  rewrite E. split; [apply Permutation_refl|]. intros t Ht. unfold numbered in Ht. apply in_map_iff in Ht. destruct Ht as (c & <- & Hc).
  apply cells_ok in Hc. exists c. split; [exact Hc|]. now left.
Qed.

(** The sides and caps of the cylinder and cone, [rows] rings of [tot] vertices *)
Definition tube (rows tot : nat) : list tri :=
  loop tot (fun i => (rows * tot, i, nxt tot i))
  ++ loop tot (fun i => (rows * tot + 1, (rows - 1) * tot + nxt tot i, (rows - 1) * tot + i))
  ++ loop2 (rows - 1) tot (side_quad tot).
Lemma edges1_rot : forall A (t : A * A * A), Permutation (edges1 (rot t)) (edges1 t).
Proof. intros A [[a b] c]. cbn. apply Permutation_sym. apply (Permutation_cons_append [(b, c); (c, a)] (a, b)). Qed.
Lemma side_quad_faces : forall rows tot i j, 1 <= tot ->
  side_quad tot i j = [rot (rot (tmap (idx rows tot) (face rows tot (Upper i j)))); tmap (idx rows tot) (face rows tot (Lower i j))].
Proof.
  intros rows tot i j Ht. unfold side_quad. cbn [tmap face idx rot]. rewrite !nxt_nx by lia.
  replace (if j =? dec tot then tot else j + 1 + tot) with (tot + nx tot j) by (unfold nx; rewrite dec_pos by lia; destruct (j =? tot - 1); lia).
  replace (i * tot + (j + tot)) with ((i + 1) * tot + j) by lia. replace (i * tot + (tot + nx tot j)) with ((i + 1) * tot + nx tot j) by lia. reflexivity.
Qed.
Lemma tube_follows : forall rows tot, 1 <= tot -> 1 <= rows -> follows rows tot (tube rows tot).
Proof.
  intros rows tot Ht Hr.
  assert (C : forall i, (rows * tot, i, nxt tot i) = tmap (idx rows tot) (face rows tot (Cap i))) by (intros i; cbn; rewrite nxt_nx by lia; reflexivity).
  assert (B : forall i, (rows * tot + 1, (rows - 1) * tot + nxt tot i, (rows - 1) * tot + i) = rot (tmap (idx rows tot) (face rows tot (Base i)))) by (intros i; cbn [tmap face idx rot]; rewrite nxt_nx by lia; reflexivity).
  split.
  - unfold tube, numbered, cells. rewrite !map_app, map_loop2, !edges_app, !app_assoc. apply Permutation_trans with (1 := Permutation_app_comm _ _). apply Permutation_app.
    + apply perm_loop2. intros i j Hi Hj. rewrite (side_quad_faces rows) by exact Ht. unfold edges. cbn [map flat_map]. apply Permutation_app_tail.
      eapply Permutation_trans; apply edges1_rot.
    + assert (M : forall A B (g : A -> B) (h : nat -> list A) l, map g (flat_map h l) = flat_map (fun x => map g (h x)) l).
      { intros A B0 g h l. induction l as [|a l IH]; [reflexivity|]. cbn. rewrite map_app, IH. reflexivity. }
      rewrite M, !loop_flat, !edges_flat. apply Permutation_sym. refine (Permutation_trans _ (perm_split _ _ _ _ _)). apply perm_flat. intros j Hj.
      rewrite C, B. unfold edges. cbn [map flat_map]. rewrite !app_nil_r. apply Permutation_app_head. apply Permutation_sym, edges1_rot.
  - intros t H. unfold tube in H. rewrite !in_app_iff, !in_loop, in_loop2 in H. destruct H as [(j & Hj & ->)|[(j & Hj & ->)|(i & j & Hi & Hj & H)]].
    + exists (Cap j). split; [exact Hj|]. rewrite C. now left.
    + exists (Base j). split; [exact Hj|]. rewrite B. right. now left.
    + rewrite (side_quad_faces rows) in H by exact Ht. destruct H as [<-|[<-|[]]].
      * exists (Upper i j). split; [cbn; lia|]. right. now right.
      * exists (Lower i j). split; [cbn; lia|]. now left.
Qed.
Lemma cyl_tube : forall tot num, 1 <= num -> cyl_tris tot num = tube (num + 1) tot.
Proof. intros tot num H. unfold cyl_tris, tube. replace (num + 1 - 1) with num by lia. reflexivity. Qed.
Lemma cone_tube : forall tot num, 1 <= num -> cone_tris tot num = tube num tot.
Proof. intros tot num H. unfold cone_tris, tube. rewrite dec_pos by exact H. reflexivity. Qed.
Lemma cyl_follows : forall tot num, 1 <= tot -> 1 <= num -> follows (num + 1) tot (cyl_tris tot num).
Proof. intros. rewrite cyl_tube by assumption. apply tube_follows; lia. Qed.
Lemma cone_follows : forall tot num, 1 <= tot -> 1 <= num -> follows num tot (cone_tris tot num).
Proof. intros. rewrite cone_tube by assumption. apply tube_follows; lia. Qed.
Lemma ball_length : forall seg ring, 1 <= ring -> length (ball_tris seg ring) = 2 * ring * seg.
Proof.
  intros seg ring H. unfold ball_tris. rewrite app_length, (loop2_length _ _ _ _ 2) by reflexivity. rewrite dec_pos by exact H.
  assert (M : forall l, length (flat_map (ball_caps seg ring) l) = 2 * length l) by (induction l as [|a l IH]; [reflexivity|cbn [flat_map]; rewrite app_length, IH; cbn; lia]).
  rewrite M, seq_length. nia.
Qed.
Lemma tube_length : forall rows tot, 1 <= rows -> length (tube rows tot) = 2 * rows * tot.
Proof.
  intros rows tot H. unfold tube, loop. rewrite !app_length, !map_length, seq_length, (loop2_length _ _ _ _ 2) by reflexivity. nia.
Qed.
Lemma edges_length : forall A (ts : list (A * A * A)), length (edges ts) = 3 * length ts.
Proof. intros A ts. unfold edges. induction ts as [|[[a b] c] ts IH]; [reflexivity|]. cbn [flat_map]. rewrite app_length, IH. cbn. lia. Qed.
