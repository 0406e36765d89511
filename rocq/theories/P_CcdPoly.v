(** The polytope of the libccd extension stays a closed surface. *)
From Coq Require Import Reals Lra Lia List Bool Arith Permutation.
From Verif Require Import VecR Support Gjk CcdGjk CcdPoly.
Import ListNotations.
Open Scope nat_scope.

(** Vertices u and w are the ends of edge e *)
Definition joins (P : pt) (e u w : nat) : Prop :=
  (ea (pe P e) = u /\ eb (pe P e) = w) \/ (ea (pe P e) = w /\ eb (pe P e) = u).
Definition has (P : pt) (f e : nat) : Prop := exists i, i < 3 /\ side P f i = e.
Definition on_edge (P : pt) (e f : nat) : Prop := l0 (pe P e) = Some f \/ l1 (pe P e) = Some f.
(** A closed surface of triangles: the sides of every face are edges of the polytope and form a triangle, and
    every edge has two different faces; faces and edges know each other *)
Definition triangle (P : pt) (f : nat) : Prop := exists a b c, a <> b /\ b <> c /\ c <> a /\
  joins P (side P f 0) a b /\ joins P (side P f 1) b c /\ joins P (side P f 2) c a.
Definition closed (P : pt) : Prop :=
  NoDup (vs P) /\ NoDup (es P) /\ NoDup (fs P) /\
  (forall e, In e (es P) -> In (ea (pe P e)) (vs P) /\ In (eb (pe P e)) (vs P)) /\
  (forall e, In e (es P) -> exists f g, f <> g /\ l0 (pe P e) = Some f /\ l1 (pe P e) = Some g) /\
  (forall f, In f (fs P) -> triangle P f) /\
  (forall f e, In f (fs P) -> has P f e -> In e (es P) /\ on_edge P e f) /\
  (forall e f, In e (es P) -> on_edge P e f -> In f (fs P) /\ has P f e).
(** The next pointer is not in use *)
Definition fresh (P : pt) : Prop := forall x, In x (vs P) \/ In x (es P) \/ In x (fs P) -> x < nx P.

Lemma mem_in x l : mem x l = true <-> In x l.
Proof.
  unfold mem. rewrite existsb_exists. split; [intros [y [H E]]; apply Nat.eqb_eq in E; subst; exact H|intro H; exists x; split; [exact H|apply Nat.eqb_refl]].
Qed.
Lemma mem_out x l : mem x l = false <-> ~ In x l.
Proof. rewrite <- mem_in. destruct (mem x l); split; intro H; try congruence; try (intro; discriminate). Qed.
Lemma ins_in x y l : In y (ins x l) <-> y = x \/ In y l.
Proof.
  unfold ins. destruct (mem x l) eqn:M; [apply mem_in in M; split; [auto|intros [ -> |]; auto]|]. rewrite in_app_iff. cbn. split; [intros [|[ -> |[]]]; auto|intros [ -> |]; auto].
Qed.
Lemma ins_nodup x l : NoDup l -> NoDup (ins x l).
Proof.
  intro H. unfold ins. destruct (mem x l) eqn:M; [exact H|]. apply mem_out in M. apply NoDup_rev in H. rewrite <- (rev_involutive (l ++ [x])). apply NoDup_rev. rewrite rev_app_distr. cbn. constructor; [rewrite <- in_rev; exact M|exact H].
Qed.

Section Patch.
Variable P : pt.
Variable seen : nat -> nat -> bool.
Hypothesis C : closed P.

Lemma edge_two e : In e (es P) -> exists f g, f <> g /\ l0 (pe P e) = Some f /\ l1 (pe P e) = Some g /\ In f (fs P) /\ In g (fs P) /\ has P f e /\ has P g e.
Proof.
  intro H. destruct C as (_&_&_&_&T&_&_&B). destruct (T e H) as [f [g [N [F G]]]]. destruct (B e f H (or_introl F)) as [A1 A2]. destruct (B e g H (or_intror G)) as [B1 B2]. exists f, g. auto 10.
Qed.
Lemma face_edge f i : In f (fs P) -> i < 3 -> In (side P f i) (es P) /\ on_edge P (side P f i) f.
Proof. intros H L. destruct C as (_&_&_&_&_&_&A&_). apply (A f); [exact H|exists i; auto]. Qed.
(** The face on the other side *)
Lemma across_ok f e : In f (fs P) -> has P f e -> exists g, across P f e = Some g /\ g <> f /\ In g (fs P) /\ has P g e /\ In e (es P) /\
  (forall h, on_edge P e h <-> h = f \/ h = g).
Proof.
  intros H E. destruct C as (_&_&_&_&_&_&A&_). destruct (A f e H E) as [I O]. destruct (edge_two e I) as (a&b&N&A0&A1&Fa&Fb&Ha&Hb). unfold across, on_edge in *. rewrite A0, A1 in *.
  destruct (Nat.eqb_spec a f) as [ -> |D].
  - exists b. repeat split; auto. + intros [X|X]; injection X; auto. + intros [ -> | -> ]; auto.
  - assert (b = f) by (destruct O as [X|X]; injection X; congruence). subst b. exists a. repeat split; auto. + intros [X|X]; injection X; auto. + intros [ -> | -> ]; auto.
Qed.

(** Reached from f across edges where the test said visible *)
Inductive reach (f : nat) : nat -> Prop :=
| reach_here : reach f f
| reach_step : forall h g e, reach f h -> has P h e -> has P g e -> h <> g -> seen g e = true -> reach f g.
Definition rejected (s : patch) (h : nat) : Prop := exists g e, In g (vis s) /\ has P g e /\ has P h e /\ g <> h /\ seen h e = false.

Record okp (f0 : nat) (s : patch) : Prop := {
  o_vis : NoDup (vis s); o_hid : NoDup (hid s); o_bor : NoDup (border s); o_inn : NoDup (inner s);
  o_vin : forall g, In g (vis s) -> In g (fs P) /\ reach f0 g;
  o_hin : forall g, In g (hid s) -> In g (fs P) /\ ~ In g (vis s) /\ rejected s g;
  o_innq : forall e, In e (inner s) -> In e (es P) /\ forall g, on_edge P e g -> In g (vis s);
  o_borq : forall e, In e (border s) -> In e (es P) /\ exists g h, on_edge P e g /\ on_edge P e h /\ In g (vis s) /\ In h (hid s) }.
Definition told (s : patch) (e : nat) : Prop := In e (inner s) \/ In e (border s).
Definition grows (s t : patch) : Prop := incl (vis s) (vis t) /\ incl (hid s) (hid t) /\ incl (inner s) (inner t) /\ incl (border s) (border t).
Definition left_ (s : patch) : nat := length (filter (fun g => negb (mem g (vis s))) (fs P)).

Lemma grows_refl s : grows s s.
Proof. repeat split; apply incl_refl. Qed.
Lemma grows_trans s t u : grows s t -> grows t u -> grows s u.
Proof. intros (A&B&D&E) (A'&B'&D'&E'). repeat split; eapply incl_tran; eauto. Qed.
Lemma told_grows s t e : grows s t -> told s e -> told t e.
Proof. intros (A&B&D&E) [H|H]; [left|right]; auto. Qed.
Lemma filter_le {A} (p q : A -> bool) l : (forall x, In x l -> q x = true -> p x = true) -> length (filter q l) <= length (filter p l).
Proof.
  induction l as [|a l IH]; intro H; cbn; [lia|]. pose proof (IH (fun x I => H x (or_intror I))). destruct (q a) eqn:Q; [rewrite (H a (or_introl eq_refl) Q); cbn; lia|destruct (p a); cbn; lia].
Qed.
Lemma left_grows s t : grows s t -> left_ t <= left_ s.
Proof.
  intros (A&_). apply filter_le. intros x _ H. apply negb_true_iff in H. apply mem_out in H. apply negb_true_iff, mem_out. auto.
Qed.
Lemma filter_lt {A} (p q : A -> bool) l a : (forall x, In x l -> q x = true -> p x = true) -> In a l -> p a = true -> q a = false -> length (filter q l) < length (filter p l).
Proof.
  induction l as [|b l IH]; intros H I Pa Qa; [destruct I|]. cbn. destruct I as [ -> |I].
  - rewrite Pa, Qa. cbn. apply le_n_S, filter_le. intros; apply H; auto; right; auto.
  - pose proof (IH (fun x J => H x (or_intror J)) I Pa Qa). destruct (q b) eqn:Q; [rewrite (H b (or_introl eq_refl) Q); cbn; lia|destruct (p b); cbn; lia].
Qed.
Lemma left_ins s t g : In g (fs P) -> ~ In g (vis s) -> vis t = ins g (vis s) -> left_ t < left_ s.
Proof.
  intros F N E. unfold left_. rewrite E. apply (filter_lt _ _ _ g); auto.
  - intros x _ H. apply negb_true_iff in H. apply mem_out in H. apply negb_true_iff, mem_out. intro Z. apply H, ins_in. auto.
  - apply negb_true_iff, mem_out; auto.
  - apply negb_false_iff, mem_in, ins_in. auto.
Qed.

Lemma as_inner_ok f0 s e : okp f0 s -> In e (es P) -> (forall g, on_edge P e g -> In g (vis s)) ->
  exists t, as_inner e s = Seen t /\ okp f0 t /\ grows s t /\ told t e /\ vis t = vis s.
Proof.
  intros [] I A. unfold as_inner. destruct (mem e (border s)) eqn:M.
  - exfalso. apply mem_in in M. destruct (o_borq0 e M) as [_ [g [h (G&H&G1&H1)]]]. destruct (o_hin0 h H1) as (_&N&_). apply N, A, H.
  - eexists. split; [reflexivity|]. split; [|split; [|split]].
    + constructor; cbn; auto using ins_nodup. intros e' H. apply ins_in in H. destruct H as [ -> |H]; auto.
    + repeat split; cbn; try apply incl_refl. intros x H. apply ins_in. auto.
    + left. cbn. apply ins_in. auto.
    + reflexivity.
Qed.
Lemma as_border_ok f0 s e g h : okp f0 s -> In e (es P) -> on_edge P e g -> on_edge P e h -> In g (vis s) -> In h (hid s) ->
  exists t, as_border e s = Seen t /\ okp f0 t /\ grows s t /\ told t e /\ vis t = vis s.
Proof.
  intros [] I G H G1 H1. unfold as_border. destruct (mem e (inner s)) eqn:M.
  - exfalso. apply mem_in in M. destruct (o_innq0 e M) as [_ A]. destruct (o_hin0 h H1) as (_&N&_). apply N, A, H.
  - eexists. split; [reflexivity|]. split; [|split; [|split]].
    + constructor; cbn; auto using ins_nodup. intros e' K. apply ins_in in K. destruct K as [ -> |K]; auto. split; [exact I|exists g, h; auto].
    + repeat split; cbn; try apply incl_refl. intros x K. apply ins_in. auto.
    + right. cbn. apply ins_in. auto.
    + reflexivity.
Qed.

(** What a call has done: all edges of the faces it added are classified *)
Definition done (f0 : nat) (s t : patch) : Prop :=
  okp f0 t /\ grows s t /\ forall g, In g (vis t) -> ~ In g (vis s) -> forall k, k < 3 -> told t (side P g k).
Lemma done_refl f0 s : okp f0 s -> done f0 s s.
Proof. intro H. split; [exact H|]. split; [apply grows_refl|]. intros g A B. contradiction. Qed.
Lemma done_trans f0 s t u : done f0 s t -> done f0 t u -> done f0 s u.
Proof.
  intros (_&G1&D1) (O2&G2&D2). split; [exact O2|]. split; [eapply grows_trans; eauto|]. intros g A B k K.
  destruct (in_dec Nat.eq_dec g (vis t)) as [I|N]; [eapply told_grows; eauto|apply D2; auto].
Qed.

Lemma visit_ok : forall n f0 f i s, okp f0 s -> In f (vis s) -> i < 3 -> left_ s < n ->
  exists t, visit P seen n f i s = Seen t /\ done f0 s t /\ told t (side P f i).
Proof.
  induction n as [|n IH]; intros f0 f i s O F Li Ln; [lia|]. cbn [visit].
  destruct (o_vin _ _ O f F) as [Ff Rf]. destruct (across_ok f (side P f i) Ff (ex_intro _ i (conj Li eq_refl))) as (g&Eg&Ng&Fg&Hg&Ie&Oe). rewrite Eg. set (e := side P f i) in *.
  assert (He : has P f e) by (exists i; auto).
  destruct (mem g (vis s)) eqn:M1.
  - apply mem_in in M1. destruct (as_inner_ok f0 s e O Ie) as (t&Et&Ot&Gt&Tt&Vt); [intros h Hh; apply Oe in Hh; destruct Hh as [ -> | -> ]; auto|].
    exists t. split; [exact Et|]. split; [|exact Tt]. split; [exact Ot|]. split; [exact Gt|]. intros x A B. rewrite Vt in A. contradiction.
  - apply mem_out in M1. destruct (mem g (hid s)) eqn:M2.
    + apply mem_in in M2. destruct (as_border_ok f0 s e f g O Ie) as (t&Et&Ot&Gt&Tt&Vt); auto; [apply Oe; auto|apply Oe; auto|].
      exists t. split; [exact Et|]. split; [|exact Tt]. split; [exact Ot|]. split; [exact Gt|]. intros x A B. rewrite Vt in A. contradiction.
    + apply mem_out in M2. destruct (seen g e) eqn:Sg.
      * set (s0 := Patch (border s) (ins g (vis s)) (hid s) (inner s)).
        assert (O0 : okp f0 s0).
        { destruct O. constructor; cbn; auto using ins_nodup.
          - intros x H. apply ins_in in H. destruct H as [ -> |H]; auto. split; [exact Fg|]. apply (reach_step f0 f g e); auto.
          - intros x H. destruct (o_hin0 x H) as (A&B&(y&z&D1&D2)). split; [exact A|]. split; [intro Z; apply ins_in in Z; destruct Z as [ -> |Z]; auto|]. exists y, z. split; [cbn; apply ins_in; auto|exact D2].
          - intros x H. destruct (o_innq0 x H) as [A B]. split; [exact A|]. intros y Hy. apply ins_in. right. apply B, Hy.
          - intros x H. destruct (o_borq0 x H) as [A (y&z&B1&B2&B3&B4)]. split; [exact A|]. exists y, z. repeat split; auto. cbn. apply ins_in; auto. }
        assert (G0 : grows s s0) by (repeat split; cbn; try apply incl_refl; intros x H; apply ins_in; auto).
        destruct (as_inner_ok f0 s0 e O0 Ie) as (s1&E1&O1&G1&T1&V1); [intros h Hh; apply Oe in Hh; cbn; apply ins_in; destruct Hh as [ -> | -> ]; auto|].
        rewrite E1. cbn [bindp].
        assert (L1 : left_ s1 < n) by (pose proof (left_ins s s1 g Fg M1 V1); lia).
        assert (Gg : In g (vis s1)) by (rewrite V1; cbn; apply ins_in; auto).
        assert (GO : forall k u, k < 3 -> okp f0 u -> grows s1 u -> exists t, (if Nat.eqb (side P g k) e then Seen u else visit P seen n g k u) = Seen t /\ done f0 u t /\ told t (side P g k)).
        { intros k u Hk Ou Gu. destruct (Nat.eqb_spec (side P g k) e) as [E|E].
          - exists u. split; [reflexivity|]. split; [apply done_refl; exact Ou|]. rewrite E. eapply told_grows; eauto.
          - apply IH; auto. + apply Gu; auto. + pose proof (left_grows s1 u Gu). lia. }
        destruct (GO 0 s1) as (s2&E2&D2&T2); [lia|exact O1|apply grows_refl|]. rewrite E2. cbn [bindp].
        destruct (GO 1 s2) as (s3&E3&D3&T3); [lia|apply D2|apply D2|]. rewrite E3. cbn [bindp].
        destruct (GO 2 s3) as (s4&E4&D4&T4); [lia|apply D3|eapply grows_trans; [apply D2|apply D3]|]. rewrite E4.
        assert (D14 : done f0 s1 s4) by (eapply done_trans; [exact D2|]; eapply done_trans; [exact D3|exact D4]).
        exists s4. split; [reflexivity|]. split.
        -- split; [apply D4|]. split; [eapply grows_trans; [exact G0|]; eapply grows_trans; [exact G1|apply D14]|].
           intros x A B k Hk. destruct (Nat.eq_dec x g) as [ -> |Nx].
           ++ assert (Hk3 : k = 0 \/ k = 1 \/ k = 2) by lia. destruct Hk3 as [ -> |[ -> | -> ]]; [|eapply told_grows; [apply D4|exact T3]|exact T4].
              eapply told_grows; [apply D4|]. eapply told_grows; [apply D3|exact T2].
           ++ destruct D14 as (_&_&Q). apply Q; auto. rewrite V1. cbn. intro Z. apply ins_in in Z. destruct Z; contradiction.
        -- eapply told_grows; [apply D14|exact T1].
      * unfold as_border. destruct (mem e (inner s)) eqn:M3.
        { exfalso. apply mem_in in M3. destruct (o_innq _ _ O e M3) as [_ A]. apply M1, A, Oe. auto. }
        cbn [bindp border vis hid inner]. eexists. split; [reflexivity|]. split; [|right; cbn; apply ins_in; auto].
        split; [|split; [repeat split; cbn; try apply incl_refl; intros x H; apply ins_in; auto|intros x A B; contradiction]].
        destruct O. constructor; cbn; auto using ins_nodup.
        -- intros x H. apply ins_in in H. destruct H as [ -> |H]; [|exact (o_hin0 x H)]. split; [exact Fg|]. split; [exact M1|]. exists f, e. auto 10.
        -- intros x H. apply ins_in in H. destruct H as [ -> |H].
           ++ split; [exact Ie|]. exists f, g. split; [apply Oe; auto|]. split; [apply Oe; auto|]. split; [exact F|]. apply ins_in; auto.
           ++ destruct (o_borq0 x H) as [A (y&z&B1&B2&B3&B4)]. split; [exact A|]. exists y, z. repeat split; auto. apply ins_in; auto.
Qed.

Lemma patch_ok f : In f (fs P) -> exists s, visible_patch P seen f = Seen s /\ okp f s /\ In f (vis s) /\
  forall g k, In g (vis s) -> k < 3 -> told s (side P g k).
Proof.
  intro F. unfold visible_patch. set (s0 := Patch [] [f] [] []). assert (L0 : left_ s0 <= length (fs P)) by (unfold left_; clear; induction (fs P) as [|a l IH]; cbn [filter length]; [lia|destruct (negb _); cbn [length]; lia]).
  assert (O0 : okp f s0).
  { constructor; cbn; try (constructor; fail); try (intros g []; fail); [constructor; [intros []|constructor]|]. intros g [ <- |[]]. split; [exact F|constructor]. }
  destruct (visit_ok (S (length (fs P))) f f 0 s0 O0) as (s1&E1&D1&T1); [left; reflexivity|lia|lia|].
  assert (F1 : In f (vis s1)) by (apply D1; left; reflexivity).
  destruct (visit_ok (S (length (fs P))) f f 1 s1) as (s2&E2&D2&T2); [apply D1|exact F1|lia|pose proof (left_grows s0 s1 (proj1 (proj2 D1))); lia|].
  assert (F2 : In f (vis s2)) by (apply D2; exact F1).
  destruct (visit_ok (S (length (fs P))) f f 2 s2) as (s3&E3&D3&T3); [apply D2|exact F2|lia|pose proof (left_grows s0 s1 (proj1 (proj2 D1))); pose proof (left_grows s1 s2 (proj1 (proj2 D2))); lia|].
  rewrite E1. cbn [bindp]. rewrite E2. cbn [bindp]. exists s3. split; [exact E3|]. split; [apply D3|]. split; [apply D3; exact F2|].
  intros g k G K. destruct (Nat.eq_dec g f) as [ -> |N].
  - assert (H : k = 0 \/ k = 1 \/ k = 2) by lia. destruct H as [ -> |[ -> | -> ]]; [eapply told_grows; [apply D3|]; eapply told_grows; [apply D2|exact T1]|eapply told_grows; [apply D3|exact T2]|exact T3].
  - assert (D : done f s0 s3) by (eapply done_trans; [exact D1|]; eapply done_trans; [exact D2|exact D3]). apply D; auto. cbn. intros [Z|[]]; congruence.
Qed.
End Patch.

(** On a closed polytope the patch is always found: whatever the outcome of the tests, no edge is classified
    twice, no missing face is used, the sets are those of the documentation and the check of the debug build
    succeeds. *)
Theorem patch_classified P seen f : closed P -> In f (fs P) ->
  exists s, visible_patch P seen f = Seen s /\ sane P s = true /\ In f (vis s) /\
    (forall g, In g (vis s) -> In g (fs P) /\ reach P seen f g) /\
    (forall e, In e (inner s) <-> In e (es P) /\ forall g, on_edge P e g -> In g (vis s)) /\
    (forall e, In e (border s) <-> In e (es P) /\ exists g h, on_edge P e g /\ on_edge P e h /\ In g (vis s) /\ ~ In h (vis s)) /\
    (forall g h e, In g (vis s) -> has P g e -> has P h e -> In h (fs P) -> ~ In h (vis s) -> rejected P seen s h) /\
    NoDup (vis s) /\ NoDup (inner s) /\ NoDup (border s).
Proof.
  intros C F. destruct (patch_ok P seen C f F) as (s&E&O&Fv&T). exists s. split; [exact E|].
  assert (INN : forall e, In e (inner s) <-> In e (es P) /\ forall g, on_edge P e g -> In g (vis s)).
  { intro e. split; [apply (o_innq _ _ _ _ O)|]. intros [I A]. destruct (edge_two P C e I) as (a&b&N&A0&A1&Fa&Fb&(k&Hk&Ek)&_).
    assert (Va : In a (vis s)) by (apply A; left; exact A0). destruct (T a k Va Hk) as [H|H]; rewrite Ek in H; [exact H|].
    destruct (o_borq _ _ _ _ O e H) as [_ (x&y&X&Y&Vx&Hy)]. destruct (o_hin _ _ _ _ O y Hy) as (_&Z&_). exfalso. apply Z, A, Y. }
  assert (BOR : forall e, In e (border s) <-> In e (es P) /\ exists g h, on_edge P e g /\ on_edge P e h /\ In g (vis s) /\ ~ In h (vis s)).
  { intro e. split.
    - intro H. destruct (o_borq _ _ _ _ O e H) as [I (x&y&X&Y&Vx&Hy)]. split; [exact I|]. exists x, y. destruct (o_hin _ _ _ _ O y Hy) as (_&Z&_). auto.
    - intros [I (x&y&X&Y&Vx&Ny)]. destruct (edge_two P C e I) as (a&b&N&A0&A1&Fa&Fb&_). destruct C as (_&_&_&_&_&_&_&B). destruct (B e x I X) as [_ (k&Hk&Ek)].
      destruct (T x k Vx Hk) as [H|H]; rewrite Ek in H; [|exact H]. destruct (o_innq _ _ _ _ O e H) as [_ Z]. exfalso. apply Ny, Z, Y. }
  split.
  { unfold sane. apply andb_true_iff. split; [apply andb_true_iff; split|]; apply forallb_forall.
    - intros g G. destruct (mem g (vis s)) eqn:M; [apply orb_true_r|]. apply mem_out in M. rewrite orb_false_r. apply negb_true_iff.
      assert (H : forall k, k < 3 -> mem (side P g k) (inner s) = false).
      { intros k Hk. apply mem_out. intro Z. apply M. destruct (o_innq _ _ _ _ O _ Z) as [_ A]. apply A. apply (face_edge P C g k G Hk). }
      rewrite !H by lia. reflexivity.
    - intros e I. destruct (edge_two P C e I) as (a&b&N&A0&A1&Fa&Fb&_). rewrite A0, A1. cbn [sees]. destruct (mem a (vis s)) eqn:Ma; destruct (mem b (vis s)) eqn:Mb; cbn; auto.
      + apply mem_in in Ma, Mb. apply mem_in, INN. split; [exact I|]. intros g [H|H]; rewrite ?A0, ?A1 in H; injection H; intros <-; auto.
      + apply mem_in in Ma. apply mem_out in Mb. apply mem_in, BOR. split; [exact I|]. exists a, b. unfold on_edge. auto.
      + apply mem_in in Mb. apply mem_out in Ma. apply mem_in, BOR. split; [exact I|]. exists b, a. unfold on_edge. auto.
    - intros b B. apply negb_true_iff, mem_out. intro Z. apply BOR in B. apply INN in Z. destruct B as [_ (x&y&X&Y&Vx&Ny)]. apply Ny, Z, Y. }
  split; [exact Fv|]. split; [apply (o_vin _ _ _ _ O)|]. split; [exact INN|]. split; [exact BOR|]. split.
  - intros g h e G Hg Hh Fh Nh. destruct (o_vin _ _ _ _ O g G) as [Fg _].
    destruct (across_ok P C g e Fg Hg) as (g'&_&Ng&Fg'&Hg'&Ie&Oe). assert (B : In e (border s)).
    { apply BOR. split; [exact Ie|]. exists g, h. split; [apply Oe; auto|]. split; [|auto]. destruct C as (_&_&_&_&_&_&A&_). apply (A h e Fh Hh). }
    destruct (o_borq _ _ _ _ O e B) as [_ (x&y&X&Y&Vx&Hy)]. assert (y = h); [|subst; apply (o_hin _ _ _ _ O h Hy)].
    destruct (o_hin _ _ _ _ O y Hy) as (_&Ny&_). assert (H : on_edge P e h) by (destruct C as (_&_&_&_&_&_&A&_); apply (A h e Fh Hh)).
    apply Oe in Y, H. destruct Y as [ -> | -> ], H as [ -> | -> ]; auto; contradiction.
  - destruct O; auto.
Qed.
Print Assumptions patch_classified.

(** ** Removing the patch *)
Lemma upd_same {A} (m : nat -> A) k x : upd m k x k = x.
Proof. unfold upd. now rewrite Nat.eqb_refl. Qed.
Lemma upd_other {A} (m : nat -> A) k x i : i <> k -> upd m k x i = m i.
Proof. intro H. unfold upd. destruct (Nat.eqb_spec i k); [contradiction|reflexivity]. Qed.
Lemma upd3 {A} (h : A -> A) (m : nat -> A) a b c e : a <> b -> b <> c -> c <> a ->
  let w m e := upd m e (h (m e)) in
  w (w (w m a) b) c e = (if (Nat.eqb e a || Nat.eqb e b || Nat.eqb e c)%bool then h (m e) else m e).
Proof.
  intros N1 N2 N3 w. unfold w.
  destruct (Nat.eqb_spec e c) as [ -> |Nc]; [rewrite orb_true_r, upd_same, upd_other, upd_other by auto; reflexivity|].
  rewrite upd_other by auto. destruct (Nat.eqb_spec e b) as [ -> |Nb]; [rewrite orb_true_r; cbn; rewrite upd_same, upd_other by auto; reflexivity|].
  rewrite upd_other by auto. destruct (Nat.eqb_spec e a) as [ -> |Na]; cbn; [apply upd_same|apply upd_other; auto].
Qed.
Lemma sides_differ P f : triangle P f -> side P f 0 <> side P f 1 /\ side P f 1 <> side P f 2 /\ side P f 2 <> side P f 0.
Proof.
  intros (a&b&c&N1&N2&N3&J0&J1&J2). unfold joins in *. repeat split; intro E; rewrite E in *; destruct J0, J1, J2; intuition congruence.
Qed.
Lemma has_b P f e : ((e =? side P f 0) || (e =? side P f 1) || (e =? side P f 2) = true)%nat%bool <-> has P f e.
Proof.
  split.
  - intro H. apply orb_true_iff in H. destruct H as [H|H]; [apply orb_true_iff in H; destruct H as [H|H]|]; apply Nat.eqb_eq in H; [exists 0|exists 1|exists 2]; auto with arith.
  - intros (i&L&E). assert (H : i = 0 \/ i = 1 \/ i = 2) by lia. destruct H as [ -> |[ -> | -> ]]; rewrite <- E, Nat.eqb_refl; rewrite ?orb_true_r; reflexivity.
Qed.
Definition slots2 (l : list nat) : option nat * option nat :=
  match l with [] => (None, None) | [a] => (Some a, None) | a :: b :: _ => (Some a, Some b) end.
Definition live (D : list nat) (f g : nat) : list nat := filter (fun x => negb (mem x D)) [f; g].

Lemma remove_in x y l : In y (List.remove Nat.eq_dec x l) <-> In y l /\ y <> x.
Proof.
  induction l as [|a l IH]; cbn; [tauto|]. destruct (Nat.eq_dec x a) as [ -> |N]; cbn; rewrite IH; split; intuition; try congruence.
Qed.
Lemma remove_nodup x l : NoDup l -> NoDup (List.remove Nat.eq_dec x l).
Proof.
  induction 1 as [|a l N H IH]; cbn; [constructor|]. destruct (Nat.eq_dec x a); [exact IH|]. constructor; [rewrite remove_in; tauto|exact IH].
Qed.
Lemma mem_snoc y D x : mem y (D ++ [x]) = (mem y D || Nat.eqb y x)%bool.
Proof. unfold mem. rewrite existsb_app. cbn. now rewrite orb_false_r. Qed.
Lemma unlink_ends x e : ea (unlink x e) = ea e /\ eb (unlink x e) = eb e.
Proof. unfold unlink. destruct (l0 e); [destruct (Nat.eqb _ _)|]; auto. Qed.

Lemma del_faces P : closed P -> forall D, NoDup D -> incl D (fs P) ->
  let Q := fold_left del_face D P in
  vs Q = vs P /\ es Q = es P /\ pv Q = pv P /\ pf Q = pf P /\ nx Q = nx P /\ NoDup (fs Q) /\
  (forall f, In f (fs Q) <-> In f (fs P) /\ ~ In f D) /\
  (forall e, ea (pe Q e) = ea (pe P e) /\ eb (pe Q e) = eb (pe P e)) /\
  (forall e f g, In e (es P) -> l0 (pe P e) = Some f -> l1 (pe P e) = Some g -> (l0 (pe Q e), l1 (pe Q e)) = slots2 (live D f g)).
Proof.
  intros C D. induction D as [|x D IH] using rev_ind; intros N I Q; subst Q.
  - cbn. destruct C as (_&_&N3&_). do 5 (split; [reflexivity|]). split; [exact N3|]. split; [intuition|]. split; [auto|]. intros e f g _ A B. rewrite A, B. reflexivity.
  - rewrite fold_left_app. cbn [fold_left]. assert (Nx : ~ In x D /\ NoDup D).
    { apply NoDup_remove in N. rewrite app_nil_r in N. tauto. }
    destruct IH as (A1&A2&A3&A4&A5&A6&A7&A8&A9); [tauto|intros y Y; apply I, in_app_iff; auto|]. set (Q := fold_left del_face D P) in *.
    assert (Fx : In x (fs P)) by (apply I, in_app_iff; right; left; reflexivity).
    assert (SD : forall f i, side Q f i = side P f i) by (intros; unfold side; rewrite A4; reflexivity).
    assert (W : forall e, pe (del_face Q x) e = if ((e =? side P x 0) || (e =? side P x 1) || (e =? side P x 2))%bool then unlink x (pe Q e) else pe Q e).
    { intro e. destruct C as (_&_&_&_&_&T&_). destruct (sides_differ P x (T x Fx)) as (S1&S2&S3). unfold del_face. cbn [pe]. rewrite !SD. rewrite upd3; auto. }
    split; [exact A1|]. split; [exact A2|]. split; [exact A3|]. split; [exact A4|]. split; [exact A5|]. split; [apply remove_nodup; exact A6|].
    split; [|split].
    + intro f. cbn [del_face fs]. rewrite remove_in, A7, in_app_iff. cbn. split; intuition; subst; auto.
    + intro e. rewrite W. destruct (_ || _)%bool; [|apply A8]. destruct (unlink_ends x (pe Q e)) as [X Y]. rewrite X, Y. apply A8.
    + intros e f g Ie F0 G0. rewrite W. pose proof (A9 e f g Ie F0 G0) as R. destruct C as (_&_&_&_&T2&_&FE&EF).
      destruct (T2 e Ie) as (f'&g'&Nfg&X0&X1). rewrite F0 in X0. rewrite G0 in X1. injection X0 as <-. injection X1 as <-.
      assert (Hx : has P x e <-> x = f \/ x = g).
      { split; [intro H; destruct (FE x e Fx H) as [_ [O|O]]; rewrite ?F0, ?G0 in O; injection O; auto|].
        intros [ -> | -> ]; apply EF; auto; [left|right]; auto. }
      unfold live in *. cbn [filter] in *. rewrite !mem_snoc. destruct Nx as [Nx _]. apply mem_out in Nx.
      destruct (_ || _)%bool eqn:B.
      * apply has_b in B. apply Hx in B. unfold unlink. pose proof (f_equal fst R) as R0. pose proof (f_equal snd R) as R1. cbn [fst snd] in R0, R1. rewrite R0, R1. destruct B as [ <- | <- ].
        -- rewrite Nx, Nat.eqb_refl. cbn [negb orb]. destruct (Nat.eqb_spec g x) as [|_]; [congruence|]. destruct (mem g D); cbn; rewrite Nat.eqb_refl; reflexivity.
        -- rewrite Nx, Nat.eqb_refl. cbn [negb orb]. destruct (Nat.eqb_spec f x) as [|_]; [congruence|]. destruct (mem f D); cbn; [rewrite Nat.eqb_refl; reflexivity|]. destruct (Nat.eqb_spec f x); [congruence|reflexivity].
      * assert (Hn : ~ has P x e) by (intro H; apply has_b in H; congruence). destruct (Nat.eqb_spec f x) as [->|_]; [exfalso; apply Hn, Hx; auto|]. destruct (Nat.eqb_spec g x) as [->|_]; [exfalso; apply Hn, Hx; auto|]. rewrite !orb_false_r. exact R.
Qed.

(** The sets of a patch: internal edges are those between two of its faces, border edges those with one face in it *)
Definition patch_of (P : pt) (s : patch) : Prop :=
  incl (vis s) (fs P) /\ NoDup (vis s) /\ NoDup (inner s) /\ NoDup (border s) /\
  (forall e, In e (inner s) <-> In e (es P) /\ forall g, on_edge P e g -> In g (vis s)) /\
  (forall e, In e (border s) <-> In e (es P) /\ exists g h, on_edge P e g /\ on_edge P e h /\ In g (vis s) /\ ~ In h (vis s)).

Lemma del_edges : forall D P, (forall e, In e D -> l0 (pe P e) = None) ->
  let Q := fold_left del_edge D P in
  vs Q = vs P /\ fs Q = fs P /\ pv Q = pv P /\ pf Q = pf P /\ pe Q = pe P /\ nx Q = nx P /\ (NoDup (es P) -> NoDup (es Q)) /\
  forall e, In e (es Q) <-> In e (es P) /\ ~ In e D.
Proof.
  induction D as [|x D IH]; intros P H Q; subst Q; cbn [fold_left]; [intuition|].
  assert (E : del_edge P x = Pt (vs P) (List.remove Nat.eq_dec x (es P)) (fs P) (pv P) (pe P) (pf P) (nx P)) by (unfold del_edge; rewrite H by (left; reflexivity); reflexivity).
  destruct (IH (del_edge P x)) as (A1&A2&A3&A4&A5&A6&A7&A8).
  { intros e I. rewrite E. cbn. apply H. right. exact I. }
  set (Q := fold_left del_edge D (del_edge P x)) in *. rewrite E in A1, A2, A3, A4, A5, A6, A7, A8. cbn [vs es fs pv pf pe nx] in *. do 6 (split; [assumption|]). split; [intro N; apply A7, remove_nodup, N|].
  intro e. rewrite A8, remove_in. cbn. split; intuition.
Qed.

Lemma cut_ok ord P s : (forall l, Permutation (ord l) l) -> closed P -> patch_of P s ->
  let Q := cut ord P s in
  vs Q = vs P /\ pv Q = pv P /\ pf Q = pf P /\ nx Q = nx P /\ NoDup (es Q) /\ NoDup (fs Q) /\
  (forall f, In f (fs Q) <-> In f (fs P) /\ ~ In f (vis s)) /\ (forall e, In e (es Q) <-> In e (es P) /\ ~ In e (inner s)) /\
  (forall e, ea (pe Q e) = ea (pe P e) /\ eb (pe Q e) = eb (pe P e)) /\
  (forall e, In e (border s) -> exists h, on_edge P e h /\ ~ In h (vis s) /\ l0 (pe Q e) = Some h /\ l1 (pe Q e) = None) /\
  (forall e, In e (es Q) -> ~ In e (border s) -> l0 (pe Q e) = l0 (pe P e) /\ l1 (pe Q e) = l1 (pe P e)).
Proof.
  intros HO C (V&N1&N2&N3&INN&BOR) Q. unfold cut in Q.
  assert (Vi : forall x, In x (ord (vis s)) <-> In x (vis s)) by (intro x; split; apply Permutation_in; [|apply Permutation_sym]; apply HO).
  assert (Ii : forall x, In x (ord (inner s)) <-> In x (inner s)) by (intro x; split; apply Permutation_in; [|apply Permutation_sym]; apply HO).
  destruct (del_faces P C (ord (vis s))) as (A1&A2&A3&A4&A5&A6&A7&A8&A9).
  { eapply Permutation_NoDup; [apply Permutation_sym, HO|exact N1]. }
  { intros x X. apply V, Vi, X. }
  set (Q1 := fold_left del_face (ord (vis s)) P) in *.
  assert (LV : forall x, mem x (ord (vis s)) = true <-> In x (vis s)) by (intro x; rewrite mem_in; apply Vi).
  assert (T2 : forall e, In e (es P) -> exists f g, f <> g /\ l0 (pe P e) = Some f /\ l1 (pe P e) = Some g) by apply C.
  destruct (del_edges (ord (inner s)) Q1) as (B1&B2&B3&B4&B5&B6&B7&B8).
  { intros e I. apply Ii, INN in I. destruct I as [I A]. destruct (T2 e I) as (f&g&N&F0&G0). pose proof (A9 e f g I F0 G0) as R. apply (f_equal fst) in R. cbn [fst] in R. rewrite R.
    unfold live. cbn [filter]. assert (F1 : mem f (ord (vis s)) = true) by (apply LV, A; left; exact F0). assert (G1 : mem g (ord (vis s)) = true) by (apply LV, A; right; exact G0). rewrite F1, G1. reflexivity. }
  fold Q in B1, B2, B3, B4, B5, B6, B7, B8. rewrite B1, B2, B3, B4, B5, B6.
  split; [exact A1|]. split; [exact A3|]. split; [exact A4|]. split; [exact A5|]. split; [apply B7; rewrite A2; apply C|]. split; [exact A6|].
  split; [intro f; rewrite A7, Vi; tauto|]. split; [intro e; rewrite B8, A2, Ii; tauto|]. split; [exact A8|]. split.
  - intros e B. apply BOR in B. destruct B as [I (g&h&G&H&Vg&Nh)]. destruct (T2 e I) as (a&b&N&F0&G0). pose proof (A9 e a b I F0 G0) as R.
    pose proof (f_equal fst R) as R0. pose proof (f_equal snd R) as R1. cbn [fst snd] in R0, R1. exists h. split; [exact H|]. split; [exact Nh|]. rewrite R0, R1.
    assert (Mg : mem g (ord (vis s)) = true) by (apply LV; exact Vg). assert (Mh : mem h (ord (vis s)) = false) by (destruct (mem h (ord (vis s))) eqn:E; [exfalso; apply Nh, LV, E|reflexivity]).
    assert (Z : (a = g /\ b = h) \/ (a = h /\ b = g)).
    { destruct G as [G|G], H as [H|H]; [exfalso; apply Nh; replace h with g by congruence; exact Vg|left; split; congruence|right; split; congruence|exfalso; apply Nh; replace h with g by congruence; exact Vg]. }
    unfold live. cbn [filter]. destruct Z as [[ -> -> ]|[ -> -> ]]; rewrite Mg, Mh; auto.
  - intros e I NB. apply B8 in I. rewrite A2, Ii in I. destruct I as [I NI]. destruct (T2 e I) as (a&b&N&F0&G0). pose proof (A9 e a b I F0 G0) as R.
    pose proof (f_equal fst R) as R0. pose proof (f_equal snd R) as R1. cbn [fst snd] in R0, R1. rewrite R0, R1, F0, G0. unfold live. cbn [filter].
    assert (Xa : on_edge P e a) by (left; exact F0). assert (Xb : on_edge P e b) by (right; exact G0).
    destruct (mem a (ord (vis s))) eqn:Ma; destruct (mem b (ord (vis s))) eqn:Mb; auto.
    + exfalso. apply NI, INN. split; [exact I|]. apply LV in Ma, Mb. intros g [G|G]; rewrite ?F0, ?G0 in G; injection G as <-; auto.
    + exfalso. apply NB, BOR. split; [exact I|]. exists a, b. apply LV in Ma. repeat split; auto. rewrite <- LV. congruence.
    + exfalso. apply NB, BOR. split; [exact I|]. exists b, a. apply LV in Mb. repeat split; auto. rewrite <- LV. congruence.
Qed.

(** ** Closing the hole *)
Section Join.
Variable P : pt.
Variable v : nat.
(** The number of edges of a list that end in u *)
Definition at_end (b u : nat) : bool := (Nat.eqb (ea (pe P b)) u || Nat.eqb (eb (pe P b)) u)%bool.
Definition cnt (l : list nat) (u : nat) : nat := length (filter (fun b => at_end b u) l).
Variable B : list nat.
Hypothesis deg : forall u, cnt B u = 0 \/ cnt B u = 2.
Hypothesis nodupB : NoDup B.

(** D: border edges done, T: border edges to do *)
Record W (D T : list nat) (Q : pt) (m : nat -> option nat) : Prop := {
  w_split : Permutation (D ++ T) B;
  w_v : In v (vs Q);
  w_nv : NoDup (vs Q); w_ne : NoDup (es Q); w_nf : NoDup (fs Q); w_fresh : fresh Q;
  w_ends : forall e, In e (es Q) -> In (ea (pe Q e)) (vs Q) /\ In (eb (pe Q e)) (vs Q);
  w_tri : forall f, In f (fs Q) -> triangle Q f;
  w_fe : forall f e, In f (fs Q) -> has Q f e -> In e (es Q) /\ on_edge Q e f;
  w_ef : forall e f, In e (es Q) -> on_edge Q e f -> In f (fs Q) /\ has Q f e;
  w_B : forall e, In e (D ++ T) -> In e (es Q) /\ ea (pe Q e) = ea (pe P e) /\ eb (pe Q e) = eb (pe P e) /\
        ea (pe P e) <> eb (pe P e) /\ ea (pe P e) <> v /\ eb (pe P e) <> v;
  w_m : forall u x, m u = Some x -> In x (es Q) /\ ea (pe Q x) = v /\ eb (pe Q x) = u /\ ~ In x (D ++ T) /\ 1 <= cnt (D ++ T) u;
  w_m0 : forall u, m u = None -> cnt D u = 0;
  w_T : forall e, In e T -> exists h, l0 (pe Q e) = Some h /\ l1 (pe Q e) = None;
  w_full : forall e, In e (es Q) -> ~ In e T -> (forall u, m u <> Some e) -> exists f g, f <> g /\ l0 (pe Q e) = Some f /\ l1 (pe Q e) = Some g;
  w_slots : forall u x, m u = Some x ->
    (cnt D u = 0 /\ l0 (pe Q x) = None /\ l1 (pe Q x) = None) \/
    (cnt D u = 1 /\ exists f, l0 (pe Q x) = Some f /\ l1 (pe Q x) = None) \/
    (cnt D u = 2 /\ exists f g, f <> g /\ l0 (pe Q x) = Some f /\ l1 (pe Q x) = Some g) }.

Lemma cnt_app l k u : cnt (l ++ k) u = cnt l u + cnt k u.
Proof. unfold cnt. rewrite filter_app, app_length. reflexivity. Qed.
Lemma cnt_perm l k u : Permutation l k -> cnt l u = cnt k u.
Proof.
  unfold cnt. induction 1; cbn; auto; [destruct (at_end x u); cbn; auto|destruct (at_end x u), (at_end y u); reflexivity|congruence].
Qed.

Lemma spoke_ok D T Q m u : W D T Q m -> In u (vs Q) -> u <> v -> 1 <= cnt (D ++ T) u ->
  exists x Q' m', spoke v (Q, m) u = (x, (Q', m')) /\ W D T Q' m' /\ m' u = Some x /\ vs Q' = vs Q /\ (forall w y, m w = Some y -> m' w = Some y).
Proof.
  intros w Iu Nu Cu. unfold spoke. cbn [fst snd]. destruct (m u) as [x|] eqn:Mu; [exists x, Q, m; auto 6|].
  unfold add_edge. set (x := nx Q). eexists _, _, _. split; [reflexivity|].
  assert (Fx : forall y, In y (vs Q) \/ In y (es Q) \/ In y (fs Q) -> y <> x) by (intros y Y; pose proof (w_fresh _ _ _ _ w y Y); unfold x; lia).
  assert (PE : forall e, In e (es Q) -> upd (pe Q) x (Edge v u None None) e = pe Q e) by (intros e E; apply upd_other, Fx; auto).
  assert (DT : forall e, In e (D ++ T) -> In e (es Q)) by (intros e E; apply (w_B _ _ _ _ w e E)).
  set (Q' := Pt (vs Q) (es Q ++ [x]) (fs Q) (pv Q) (upd (pe Q) x (Edge v u None None)) (pf Q) (S x)).
  assert (HH : forall f e, has Q' f e <-> has Q f e) by (intros; unfold has, side; cbn; tauto).
  assert (OE : forall e f, In e (es Q) -> (on_edge Q' e f <-> on_edge Q e f)) by (intros e f E; unfold on_edge; cbn [Q' pe]; rewrite PE by exact E; tauto).
  assert (OX : forall f, ~ on_edge Q' x f) by (intros f [O|O]; cbn [Q' pe] in O; rewrite upd_same in O; discriminate).
  assert (IE : forall e, In e (es Q') <-> In e (es Q) \/ e = x) by (intro e; cbn [Q' es]; rewrite in_app_iff; cbn; intuition).
  split; [|split; [apply upd_same|split; [reflexivity|intros z y Hz; rewrite upd_other; [exact Hz|intros ->; congruence]]]].
  destruct w. constructor; auto.
  - change (es Q') with (es Q ++ [x]). apply NoDup_rev in w_ne0. rewrite <- (rev_involutive (es Q ++ [x])). apply NoDup_rev. rewrite rev_app_distr. cbn. constructor; [rewrite <- in_rev; intro Z; apply (Fx x); auto|exact w_ne0].
  - intros y Y. cbn [Q' nx]. rewrite IE in Y. cbn [Q' vs fs] in Y. destruct Y as [Y|[[Y| -> ]|Y]]; [| |lia|]; assert (y < nx Q) by (apply w_fresh0; auto); unfold x; lia.
  - intros e E. apply IE in E. cbn [Q' pe vs]. destruct E as [E| -> ]; [rewrite PE by exact E; apply w_ends0, E|rewrite upd_same; auto].
  - intros f F. destruct (w_tri0 f F) as (a&b&c&N1&N2&N3&J). exists a, b, c. do 3 (split; [assumption|]).
    assert (JJ : forall k y z, k < 3 -> joins Q (side Q f k) y z -> joins Q' (side Q' f k) y z).
    { intros k y z Hk H. destruct (w_fe0 f (side Q f k) F (ex_intro _ k (conj Hk eq_refl))) as [E _]. unfold joins in *. change (side Q' f k) with (side Q f k). cbn [Q' pe]. rewrite PE by exact E. exact H. }
    destruct J as (J0&J1&J2). repeat split; apply JJ; auto.
  - intros f e F H. apply HH in H. destruct (w_fe0 f e F H) as [E O]. split; [apply IE; auto|apply OE; auto].
  - intros e f E O. apply IE in E. destruct E as [E| -> ]; [|destruct (OX f O)]. apply OE in O; auto. destruct (w_ef0 e f E O) as [F H]. split; [exact F|apply HH, H].
  - intros e E. destruct (w_B0 e E) as (I&X). split; [apply IE; auto|]. cbn [Q' pe]. rewrite PE by exact I. exact X.
  - intros z y Hz. cbn [Q' pe]. destruct (Nat.eq_dec z u) as [ -> |Nz].
    + rewrite upd_same in Hz. injection Hz as <-. rewrite upd_same. split; [apply IE; auto|]. split; [reflexivity|]. split; [reflexivity|]. split; [|exact Cu]. intro Z. apply (Fx x); auto.
    + rewrite upd_other in Hz by exact Nz. destruct (w_m1 z y Hz) as (I&X). split; [apply IE; auto|]. rewrite PE by exact I. exact X.
  - intros z Hz. destruct (Nat.eq_dec z u) as [ -> |Nz]; [rewrite upd_same in Hz; discriminate|rewrite upd_other in Hz by exact Nz; auto].
  - intros e E. cbn [Q' pe]. rewrite PE by (apply DT, in_app_iff; auto). apply w_T0, E.
  - intros e E NT NM. apply IE in E. destruct E as [E| -> ]; [|exfalso; apply (NM u), upd_same]. cbn [Q' pe]. rewrite PE by exact E. apply w_full0; auto. intros z Hz. apply (NM z). rewrite upd_other; [exact Hz|intros ->; congruence].
  - intros z y Hz. cbn [Q' pe]. destruct (Nat.eq_dec z u) as [ -> |Nz].
    + rewrite upd_same in Hz. injection Hz as <-. rewrite upd_same. left. auto.
    + rewrite upd_other in Hz by exact Nz. destruct (w_m1 z y Hz) as (I&_). rewrite PE by exact I. auto.
Qed.
Lemma link_ends f e : ea (link f e) = ea e /\ eb (link f e) = eb e.
Proof. unfold link. destruct (l0 e); auto. Qed.
Lemma snoc_nodup {A} (l : list A) x : NoDup l -> ~ In x l -> NoDup (l ++ [x]).
Proof.
  intros N H. apply NoDup_rev in N. rewrite <- (rev_involutive (l ++ [x])). apply NoDup_rev. rewrite rev_app_distr. cbn. constructor; [rewrite <- in_rev; exact H|exact N].
Qed.
Lemma face_ok D T Q m b x y : W D (b :: T) Q m -> m (ea (pe P b)) = Some x -> m (eb (pe P b)) = Some y -> W (D ++ [b]) T (add_face Q b x y) m.
Proof.
  intros w Mx My. set (u := ea (pe P b)) in *. set (z := eb (pe P b)) in *. set (F := nx Q).
  assert (Ib : In b (D ++ b :: T)) by (apply in_app_iff; right; left; reflexivity).
  destruct (w_B _ _ _ _ w b Ib) as (Eb&Ub&Zb&Nuz&Nu&Nz). fold u z in Ub, Zb, Nuz, Nu, Nz.
  destruct (w_m _ _ _ _ w u x Mx) as (Ex&Ax&Bx&Nx&Cx). destruct (w_m _ _ _ _ w z y My) as (Ey&Ay&By&Ny&Cy).
  assert (Nbx : b <> x) by (intros ->; contradiction). assert (Nby : b <> y) by (intros ->; contradiction). assert (Nxy : x <> y) by (intros ->; congruence).
  assert (Cu : cnt D u <= 1).
  { pose proof (cnt_perm _ _ u (w_split _ _ _ _ w)) as K. rewrite cnt_app in K. unfold cnt in K at 2. cbn [filter] in K. unfold at_end in K at 1. fold u in K. rewrite Nat.eqb_refl in K. cbn in K. destruct (deg u); lia. }
  assert (Cz : cnt D z <= 1).
  { pose proof (cnt_perm _ _ z (w_split _ _ _ _ w)) as K. rewrite cnt_app in K. unfold cnt in K at 2. cbn [filter] in K. unfold at_end in K at 1. fold z in K. rewrite Nat.eqb_refl, orb_true_r in K. cbn in K. destruct (deg z); lia. }
  assert (Rx : l1 (pe Q x) = None) by (destruct (w_slots _ _ _ _ w u x Mx) as [(_&_&H)|[(_&(f&_&H))|(H&_)]]; auto; lia).
  assert (Ry : l1 (pe Q y) = None) by (destruct (w_slots _ _ _ _ w z y My) as [(_&_&H)|[(_&(f&_&H))|(H&_)]]; auto; lia).
  assert (Rb : exists h, l0 (pe Q b) = Some h /\ l1 (pe Q b) = None) by (apply (w_T _ _ _ _ w); left; reflexivity).
  assert (Ff : forall k, In k (vs Q) \/ In k (es Q) \/ In k (fs Q) -> k <> F) by (intros k K; pose proof (w_fresh _ _ _ _ w k K); unfold F; lia).
  set (Q' := add_face Q b x y).
  assert (PE : forall e, pe Q' e = if ((e =? b) || (e =? x) || (e =? y))%bool then link F (pe Q e) else pe Q e).
  { intro e. unfold Q', add_face. cbn [pe]. fold F. apply upd3; auto. }
  assert (EN : forall e, ea (pe Q' e) = ea (pe Q e) /\ eb (pe Q' e) = eb (pe Q e)) by (intro e; rewrite PE; destruct (_ || _)%bool; [apply link_ends|auto]).
  assert (JN : forall e i j, joins Q' e i j <-> joins Q e i j) by (intros e i j; unfold joins; destruct (EN e) as [ -> -> ]; tauto).
  assert (SI : forall f i, f <> F -> side Q' f i = side Q f i) by (intros f i N; unfold side; cbn [Q' add_face pf]; fold F; rewrite upd_other by exact N; reflexivity).
  assert (SF : side Q' F 0 = b /\ side Q' F 1 = x /\ side Q' F 2 = y) by (unfold side; cbn [Q' add_face pf]; fold F; rewrite upd_same; auto).
  assert (HF : forall e, has Q' F e <-> e = b \/ e = x \/ e = y).
  { intro e. destruct SF as (S0&S1&S2). split.
    - intros (i&Li&E). assert (H : i = 0 \/ i = 1 \/ i = 2) by lia. destruct H as [ -> |[ -> | -> ]]; [left|right; left|right; right]; congruence.
    - intros [ -> |[ -> | -> ]]; [exists 0|exists 1|exists 2]; auto with arith. }
  assert (HH : forall f e, f <> F -> (has Q' f e <-> has Q f e)) by (intros f e N; unfold has; split; intros (i&L&E); exists i; rewrite SI in * by exact N; auto).
  assert (IF : forall f, In f (fs Q') <-> In f (fs Q) \/ f = F) by (intro f; cbn [Q' add_face fs]; fold F; rewrite in_app_iff; cbn; intuition).
  assert (ME : forall e, ((e =? b) || (e =? x) || (e =? y) = true)%bool <-> e = b \/ e = x \/ e = y) by (intro e; rewrite !orb_true_iff, !Nat.eqb_eq; tauto).
  assert (R3 : forall e, e = b \/ e = x \/ e = y -> l1 (pe Q e) = None) by (intros e [ -> |[ -> | -> ]]; auto; destruct Rb as (h&_&H); exact H).
  assert (OE : forall e f, In e (es Q) -> (on_edge Q' e f <-> on_edge Q e f \/ (f = F /\ (e = b \/ e = x \/ e = y)))).
  { intros e f E. unfold on_edge. rewrite PE. destruct (_ || _)%bool eqn:M.
    - apply ME in M. pose proof (R3 e M) as R1. unfold link. destruct (l0 (pe Q e)) as [c|] eqn:L; cbn [l0 l1]; rewrite R1.
      + split; [intros [H|H]; [left; left; exact H|right; split; [congruence|exact M]]|intros [[H|H]|[ -> _]]; [left; exact H|discriminate|right; reflexivity]].
      + split; [intros [H|H]; [right; split; [congruence|exact M]|discriminate]|intros [[H|H]|[ -> _]]; [discriminate|discriminate|left; reflexivity]].
    - assert (~ (e = b \/ e = x \/ e = y)) by (intro Z; apply ME in Z; congruence). tauto. }
  assert (E3 : forall e, e = b \/ e = x \/ e = y -> In e (es Q)) by (intros e [ -> |[ -> | -> ]]; auto).
  assert (CN : forall k, cnt (D ++ [b]) k = cnt D k + if at_end b k then 1 else 0) by (intro k; rewrite cnt_app; unfold cnt at 2; cbn [filter]; destruct (at_end b k); reflexivity).
  assert (OL : forall e f, In e (es Q) -> on_edge Q e f -> f <> F) by (intros e f E O; apply Ff; right; right; apply (w_ef _ _ _ _ w e f E O)).
  destruct w. constructor; auto.
  - rewrite <- app_assoc. exact w_split0.
  - cbn [Q' add_face fs]. fold F. apply snoc_nodup; [exact w_nf0|]. intro Z. apply (Ff F); auto.
  - intros k K. rewrite IF in K. cbn [Q' add_face nx vs es] in *. fold F. destruct K as [K|[K|[K| -> ]]]; [| | |lia]; assert (k < nx Q) by (apply w_fresh0; auto); unfold F; lia.
  - intros e E. destruct (EN e) as [ -> -> ]. apply w_ends0, E.
  - intros f H. apply IF in H. destruct (Nat.eq_dec f F) as [ -> |Nf].
    + destruct SF as (S0&S1&S2). exists z, u, v. split; [congruence|]. split; [exact Nu|]. split; [congruence|]. rewrite S0, S1, S2, !JN. split; [right; auto|]. split; [right; auto|]. left; auto.
    + destruct H as [H|H]; [|contradiction]. destruct (w_tri0 f H) as (i&j&k&N1&N2&N3&J). exists i, j, k. rewrite !SI, !JN by exact Nf. auto.
  - intros f e H K. apply IF in H. destruct (Nat.eq_dec f F) as [ -> |Nf].
    + apply HF in K. split; [apply E3, K|apply OE; auto].
    + destruct H as [H|H]; [|contradiction]. apply HH in K; auto. destruct (w_fe0 f e H K) as [E O]. split; [exact E|apply OE; auto].
  - intros e f E O. apply OE in O; [|exact E]. destruct O as [O|[ -> M]].
    + pose proof (OL e f E O) as HOL. destruct (w_ef0 e f E O) as [H K]. split; [apply IF; auto|apply HH; auto].
    + split; [apply IF; auto|apply HF, M].
  - intros e E. rewrite <- app_assoc in E. destruct (w_B0 e E) as (I&X&Y). destruct (EN e) as [ -> -> ]. auto.
  - intros k e H. destruct (w_m1 k e H) as (I&X&Y). destruct (EN e) as [ -> -> ]. rewrite <- app_assoc. auto.
  - intros k H. rewrite CN, w_m2 by exact H. unfold at_end. fold u z. destruct (Nat.eqb_spec u k) as [ <- |]; [congruence|]. destruct (Nat.eqb_spec z k) as [ <- |]; [congruence|]. reflexivity.
  - intros e E. rewrite PE. destruct (_ || _)%bool eqn:M; [|apply w_T0; right; exact E]. apply ME in M. exfalso.
    assert (Z : In e (D ++ b :: T)) by (apply in_app_iff; right; right; exact E). destruct M as [ -> |[ -> | -> ]]; try contradiction.
    assert (NB : NoDup B) by (exact nodupB). apply (Permutation_NoDup (Permutation_sym w_split0)) in NB. apply NoDup_remove_2 in NB. apply NB, in_app_iff. auto.
  - intros e E NT NM. rewrite PE. destruct (_ || _)%bool eqn:M.
    + apply ME in M. destruct M as [ -> |[ -> | -> ]]; [|exfalso; apply (NM u Mx)|exfalso; apply (NM z My)]. destruct Rb as (h&L0&L1). exists h, F. unfold link. rewrite L0. cbn. split; [|auto]. apply (OL b); [exact Eb|left; exact L0].
    + apply w_full0; auto. intros [ <- |Z]; [|contradiction]. assert (Z : (b = b \/ b = x \/ b = y)) by auto. apply ME in Z. congruence.
  - intros k e H. rewrite CN, PE. unfold at_end. fold u z. assert (MM : e = b \/ e = x \/ e = y <-> k = u \/ k = z).
    { destruct (w_m1 k e H) as (I&X&Y&V&_). split; [intros [ -> |[ -> | -> ]]; [contradiction|left; congruence|right; congruence]|intros [ -> | -> ]; right; [left|right]; congruence]. }
    destruct ((e =? b) || (e =? x) || (e =? y))%bool eqn:M.
    + apply ME, MM in M. assert (A : ((u =? k) || (z =? k))%bool = true) by (rewrite orb_true_iff, !Nat.eqb_eq; intuition). rewrite A. assert (K1 : cnt D k <= 1) by (destruct M as [ -> | -> ]; assumption).
      unfold link. right. destruct (w_slots0 k e H) as [(K&L0&L1)|[(K&(h&L0&L1))|(K&_)]]; [left|right|lia]; rewrite L0; cbn [l0 l1].
      * split; [lia|]. exists F. auto.
      * split; [lia|]. exists h, F. split; [|auto]. apply (OL e); [apply (w_m1 k e H)|left; exact L0].
    + assert (A : ((u =? k) || (z =? k))%bool = false).
      { apply not_true_iff_false. rewrite orb_true_iff, !Nat.eqb_eq. intro Z. assert (Z' : e = b \/ e = x \/ e = y) by (apply MM; intuition). apply ME in Z'. congruence. }
      rewrite A, Nat.add_0_r. apply w_slots0, H.
Qed.

Lemma join_ok D T Q m b : W D (b :: T) Q m -> exists Q' m', join v (Q, m) b = (Q', m') /\ vs Q' = vs Q /\ W (D ++ [b]) T Q' m'.
Proof.
  intro w. assert (Ib : In b (D ++ b :: T)) by (apply in_app_iff; right; left; reflexivity).
  destruct (w_B _ _ _ _ w b Ib) as (Eb&Ub&Zb&Nuz&Nu&Nz). destruct (w_ends _ _ _ _ w b Eb) as [Vu Vz]. rewrite Ub in Vu. rewrite Zb in Vz.
  assert (Cu : 1 <= cnt (D ++ b :: T) (ea (pe P b))) by (rewrite cnt_app; unfold cnt at 2; cbn [filter]; unfold at_end at 1; rewrite Nat.eqb_refl; cbn; lia).
  assert (Cz : 1 <= cnt (D ++ b :: T) (eb (pe P b))) by (rewrite cnt_app; unfold cnt at 2; cbn [filter]; unfold at_end at 1; rewrite Nat.eqb_refl, orb_true_r; cbn; lia).
  destruct (spoke_ok D (b :: T) Q m _ w Vu Nu Cu) as (x&Q1&m1&E1&w1&Mx&V1&K1).
  destruct (spoke_ok D (b :: T) Q1 m1 (eb (pe P b)) w1) as (y&Q2&m2&E2&w2&My&V2&K2); [rewrite V1; exact Vz|exact Nz|exact Cz|].
  unfold join. cbn [fst]. rewrite Ub, Zb, E1, E2. cbn [fst snd]. eexists _, _. split; [reflexivity|]. split; [cbn [add_face vs]; congruence|].
  apply face_ok; auto.
Qed.
Lemma joins_ok : forall T D Q m, W D T Q m -> exists Q' m', fold_left (join v) T (Q, m) = (Q', m') /\ vs Q' = vs Q /\ W (D ++ T) [] Q' m'.
Proof.
  induction T as [|b T IH]; intros D Q m w.
  - exists Q, m. rewrite app_nil_r. auto.
  - destruct (join_ok D T Q m b w) as (Q1&m1&E1&V1&w1). cbn [fold_left]. rewrite E1. destruct (IH _ _ _ w1) as (Q2&m2&E2&V2&w2). exists Q2, m2. rewrite <- app_assoc in w2. split; [exact E2|]. split; [congruence|exact w2].
Qed.
Lemma W_closed D Q m : W D [] Q m -> closed Q /\ fresh Q.
Proof.
  intros []. split; [|exact w_fresh0]. split; [exact w_nv0|]. split; [exact w_ne0|]. split; [exact w_nf0|]. split; [exact w_ends0|]. split; [|auto].
  intros e E. set (u := eb (pe Q e)). destruct (m u) as [x|] eqn:M; [destruct (Nat.eq_dec x e) as [ -> |N]|].
  - destruct (w_m1 u e M) as (_&_&_&_&G). rewrite app_nil_r in *. rewrite (cnt_perm _ _ u w_split0) in G. assert (C2 : cnt D u = 2) by (rewrite (cnt_perm _ _ u w_split0); destruct (deg u); lia).
    destruct (w_slots0 u e M) as [(K&_)|[(K&_)|(_&K)]]; [lia|lia|exact K].
  - apply w_full0; auto. intros k K. destruct (w_m1 k e K) as (_&_&H&_). unfold u in M. rewrite H in M. congruence.
  - apply w_full0; auto. intros k K. destruct (w_m1 k e K) as (_&_&H&_). unfold u in M. rewrite H in M. congruence.
Qed.
End Join.

(** The edges of a list that end in vertex u *)
Definition ends_at (P : pt) (l : list nat) (u : nat) : nat := length (filter (fun b => (ea (pe P b) =? u) || (eb (pe P b) =? u))%bool l).

(** If every vertex of the border is on two border edges, the expanded polytope is a closed surface again: the
    new vertex is in it, the faces of the patch and their common edges are gone, every other face is kept. *)
Theorem expand_closed ord P s q : (forall l, Permutation (ord l) l) -> closed P -> fresh P -> patch_of P s ->
  (forall u, ends_at P (border s) u = 0 \/ ends_at P (border s) u = 2) ->
  let Q := patch_in ord P s q in
  closed Q /\ fresh Q /\ vs Q = vs P ++ [nx P].
Proof.
  intros HO C FR PO deg Q. destruct (cut_ok ord P s HO C PO) as (A1&A2&A3&A4&A5&A6&A7&A8&A9&A10&A11). destruct PO as (V&N1&N2&N3&INN&BOR).
  unfold Q, patch_in. set (Q0 := cut ord P s) in *. cbn [add_vertex].
  assert (Pb : forall x, In x (ord (border s)) <-> In x (border s)) by (intro x; split; apply Permutation_in; [|apply Permutation_sym]; apply HO).
  destruct C as (C1&C2&C3&C4&C5&C6&C7&C8).
  set (Q1 := Pt (vs Q0 ++ [nx Q0]) (es Q0) (fs Q0) (upd (pv Q0) (nx Q0) q) (pe Q0) (pf Q0) (S (nx Q0))).
  assert (SD : forall f i, side Q1 f i = side P f i) by (intros; unfold side; cbn [Q1 pf]; rewrite A3; reflexivity).
  assert (HS : forall f e, has Q1 f e <-> has P f e) by (intros f e; unfold has; split; intros (i&L&E); exists i; rewrite SD in *; auto).
  assert (IB : forall e, In e (border s) -> In e (es Q0)).
  { intros e B. apply A8. apply BOR in B. destruct B as [I (g&h&G&H&Vg&Nh)]. split; [exact I|]. intro Z. apply INN in Z. apply Nh, Z, H. }
  assert (w : W P (nx Q0) (border s) [] (ord (border s)) Q1 (fun _ => None)).
  { constructor; cbn [app]; auto.
    - cbn [Q1 vs]. apply in_app_iff. right. left. reflexivity.
    - cbn [Q1 vs]. rewrite A1. apply snoc_nodup; [exact C1|]. intro Z. assert (nx Q0 < nx P) by (apply FR; auto). lia.
    - intros x X. cbn [Q1 nx vs es fs] in *. rewrite A4. destruct X as [X|[X|X]].
      + rewrite A1, A4 in X. apply in_app_iff in X. destruct X as [X|[ <- |[]]]; [assert (x < nx P) by (apply FR; auto)|]; lia.
      + apply A8 in X. assert (x < nx P) by (apply FR; right; left; apply X). lia.
      + apply A7 in X. assert (x < nx P) by (apply FR; right; right; apply X). lia.
    - intros e E. cbn [Q1 pe vs es] in *. destruct (A9 e) as [ -> -> ]. rewrite A1. apply A8 in E. destruct (C4 e (proj1 E)). split; apply in_app_iff; auto.
    - intros f F. cbn [Q1 fs] in F. apply A7 in F. destruct (C6 f (proj1 F)) as (a&b&c&X1&X2&X3&J). exists a, b, c. rewrite !SD. unfold joins in *. cbn [Q1 pe]. destruct (A9 (side P f 0)) as [ -> -> ]. destruct (A9 (side P f 1)) as [ -> -> ]. destruct (A9 (side P f 2)) as [ -> -> ]. auto.
    - intros f e F H. cbn [Q1 fs es] in *. apply HS in H. apply A7 in F. destruct F as [F NF]. destruct (C7 f e F H) as [E O].
      assert (E0 : In e (es Q0)) by (apply A8; split; [exact E|]; intro Z; apply INN in Z; apply NF, Z, O). split; [exact E0|]. unfold on_edge. cbn [Q1 pe].
      destruct (in_dec Nat.eq_dec e (border s)) as [B|NB]; [|destruct (A11 e E0 NB) as [ -> -> ]; exact O].
      destruct (A10 e B) as (h&Hh&Nh&L0&L1). left. rewrite L0. f_equal. apply BOR in B. destruct B as [_ (g&k&G&K&Vg&Nk)]. destruct (C5 e E) as (a&b&Nab&La&Lb). unfold on_edge in *. rewrite La, Lb in *.
      assert (g = a \/ g = b) by (destruct G as [G|G]; injection G; auto). assert (h = a \/ h = b) by (destruct Hh as [G'|G']; injection G'; auto). assert (f = a \/ f = b) by (destruct O as [G'|G']; injection G'; auto).
      assert (h <> g) by (intros ->; contradiction). assert (f <> g) by (intros ->; contradiction). intuition congruence.
    - intros e f E O. cbn [Q1 es fs] in *. rewrite A7. assert (E' := E). apply A8 in E'. destruct E' as [E1 NI].
      assert (X : on_edge P e f /\ ~ In f (vis s)).
      { unfold on_edge in O. cbn [Q1 pe] in O. destruct (in_dec Nat.eq_dec e (border s)) as [B|NB].
        - destruct (A10 e B) as (h&Hh&Nh&L0&L1). rewrite L0, L1 in O. destruct O as [O|O]; [injection O as <-; auto|discriminate].
        - destruct (A11 e E NB) as [L0 L1]. rewrite L0, L1 in O. split; [exact O|]. intro Z. destruct (C5 e E1) as (a&b&Nab&La&Lb).
          apply NI, INN. split; [exact E1|]. intros g G. destruct (in_dec Nat.eq_dec g (vis s)) as [Y|Y]; [exact Y|exfalso]. apply NB, BOR. split; [exact E1|]. exists f, g. auto. }
      destruct X as [X Nf]. destruct (C8 e f E1 X) as [F H]. split; [auto|]. apply HS, H.
    - intros e E. apply Pb in E. split; [apply IB, E|]. cbn [Q1 pe]. destruct (A9 e) as [ -> -> ]. do 2 (split; [reflexivity|]). apply BOR in E. destruct E as [E (g&_&G&_)]. destruct (C8 e g E G) as [F (i&Li&Hi)].
      destruct (C4 e E) as [Va Vb]. split; [|split; intro Z; [assert (ea (pe P e) < nx P) by (apply FR; auto)|assert (eb (pe P e) < nx P) by (apply FR; auto)]; lia].
      destruct (C6 g F) as (a&b&c&X1&X2&X3&J0&J1&J2). assert (Li3 : i = 0 \/ i = 1 \/ i = 2) by lia. unfold joins in *. destruct Li3 as [ -> |[ -> | -> ]]; rewrite Hi in *; intuition congruence.
    - intros u x H. discriminate.
    - intros e E. apply Pb in E. destruct (A10 e E) as (h&_&_&L). exists h. exact L.
    - intros e E NT _. cbn [Q1 pe es] in *. rewrite Pb in NT. destruct (A11 e E NT) as [ -> -> ]. apply C5. apply A8 in E. apply E.
    - intros u x H. discriminate. }
  destruct (joins_ok P (nx Q0) (border s) deg N3 _ _ _ _ w) as (Q2&m2&E2&V2&w2). fold Q1. rewrite E2. cbn [fst]. destruct (W_closed P (nx Q0) (border s) deg _ _ _ w2) as [X Y]. split; [exact X|]. split; [exact Y|]. rewrite V2. cbn [Q1 vs]. rewrite A1, A4. reflexivity.
Qed.
Print Assumptions expand_closed.

(** ** A border that meets itself *)
Section Pinch.
Variable P : pt.
Variable v N0 : nat.
Variable B : list nat.
Hypothesis oldB : forall b, In b B -> b < N0.
Variables (VS FS : list nat) (PV : nat -> sp).
Record V (D : list nat) (Q : pt) (m : nat -> option nat) : Prop := {
  v_B : incl D B;
  v_nd : NoDup D;
  v_nx : N0 <= nx Q;
  v_lt : forall f, In f (fs Q) -> f < nx Q /\ forall i, side Q f i < nx Q;
  v_vs : vs Q = VS; v_pv : pv Q = PV;
  v_old : forall f, f < N0 -> pf Q f = pf P f /\ (In f (fs Q) -> In f FS);
  v_ends : forall b, b < N0 -> ea (pe Q b) = ea (pe P b) /\ eb (pe Q b) = eb (pe P b);
  v_m : forall u x, m u = Some x -> N0 <= x < nx Q /\ ea (pe Q x) = v /\ eb (pe Q x) = u /\ In x (es Q);
  v_m0 : forall u b, m u = None -> In b D -> at_end P b u = false;
  v_D : forall b, In b D -> exists f x y, In f (fs Q) /\ pf Q f = (b, x, y) /\ m (ea (pe P b)) = Some x /\ m (eb (pe P b)) = Some y;
  v_has : forall u x f, m u = Some x -> In f (fs Q) -> has Q f x -> In (side Q f 0) D /\ at_end P (side Q f 0) u = true /\ N0 <= f;
  v_one : forall f g, In f (fs Q) -> In g (fs Q) -> N0 <= f -> N0 <= g -> side Q f 0 = side Q g 0 -> f = g;
  v_new : forall f, In f (fs Q) -> N0 <= f -> In (side Q f 0) D }.

Lemma spoke_V D Q m u : V D Q m -> exists x Q' m', spoke v (Q, m) u = (x, (Q', m')) /\ V D Q' m' /\ m' u = Some x /\ (forall w y, m w = Some y -> m' w = Some y).
Proof.
  intro w. unfold spoke. cbn [fst snd]. destruct (m u) as [x|] eqn:Mu; [exists x, Q, m; auto|].
  unfold add_edge. set (x := nx Q). eexists _, _, _. split; [reflexivity|]. split; [|split; [apply upd_same|intros z y Hz; rewrite upd_other; [exact Hz|intros ->; congruence]]].
  set (Q' := Pt (vs Q) (es Q ++ [x]) (fs Q) (pv Q) (upd (pe Q) x (Edge v u None None)) (pf Q) (S x)).
  destruct w. assert (PE : forall e, e < x -> pe Q' e = pe Q e) by (intros e E; cbn [Q' pe]; apply upd_other; lia).
  constructor; auto.
  - cbn [Q' nx]. unfold x. lia.
  - intros f F. destruct (v_lt0 f F) as [A1 A2]. cbn [Q' nx]. split; [unfold x; lia|]. intro i. change (side Q' f i) with (side Q f i). specialize (A2 i). unfold x. lia.
  - intros b Hb. rewrite PE; [auto|]. unfold x. lia.
  - intros w y Hw. cbn [Q' nx es]. destruct (Nat.eq_dec w u) as [ -> |N].
    + rewrite upd_same in Hw. injection Hw as <-. split; [unfold x; lia|]. cbn [Q' pe]. rewrite upd_same. split; [reflexivity|]. split; [reflexivity|apply in_app_iff; right; left; reflexivity].
    + rewrite upd_other in Hw by exact N. destruct (v_m1 w y Hw) as (A1&A2&A2'&A3). split; [unfold x; lia|]. rewrite PE by (unfold x; lia). split; [exact A2|]. split; [exact A2'|apply in_app_iff; auto].
  - intros w b Hw Hb. destruct (Nat.eq_dec w u) as [ -> |N]; [rewrite upd_same in Hw; discriminate|]. rewrite upd_other in Hw by exact N. eauto.
  - intros b Hb. destruct (v_D0 b Hb) as (f&y&z&A1&A2&A3&A4). exists f, y, z. split; [exact A1|]. split; [exact A2|]. split; (rewrite upd_other; [assumption|intro E; rewrite E in *; congruence]).
  - intros w y f Hw F H. destruct (Nat.eq_dec w u) as [ -> |N].
    + rewrite upd_same in Hw. injection Hw as <-. exfalso. destruct H as (i&_&E). change (side Q' f i) with (side Q f i) in E. pose proof (proj2 (v_lt0 f F) i). unfold x in E. lia.
    + rewrite upd_other in Hw by exact N. exact (v_has0 w y f Hw F H).
Qed.
Lemma join_V D Q m b : V D Q m -> In b B -> ~ In b D -> exists Q' m', join v (Q, m) b = (Q', m') /\ V (D ++ [b]) Q' m'.
Proof.
  intros w Ib Nb. pose proof (v_ends _ _ _ w b (oldB b Ib)) as [E1 E2]. destruct (spoke_V D Q m (ea (pe P b)) w) as (x&Q1&m1&S1&w1&Mx0&K1). destruct (spoke_V D Q1 m1 (eb (pe P b)) w1) as (y&Q2&m2&S2&w2&My&K2).
  assert (Mx : m2 (ea (pe P b)) = Some x) by (apply K2, Mx0). unfold join. cbn [fst]. rewrite E1, E2, S1, S2. cbn [fst snd]. eexists _, _. split; [reflexivity|].
  clear S1 S2 w w1 Mx0 K1 K2 Q m Q1 m1 E1 E2. rename Q2 into Q. rename m2 into m. set (F := nx Q). set (Q' := add_face Q b x y). destruct w2.
  assert (SI : forall f i, f <> F -> side Q' f i = side Q f i) by (intros f i N; unfold side; cbn [Q' add_face pf]; fold F; rewrite upd_other by exact N; reflexivity).
  assert (PF : pf Q' F = (b, x, y)) by (cbn [Q' add_face pf]; fold F; apply upd_same).
  assert (SF : side Q' F 0 = b /\ side Q' F 1 = x /\ forall i, 2 <= i -> side Q' F i = y) by (unfold side; rewrite PF; split; [|split]; auto; intros [|[|i]] L; [lia|lia|reflexivity]).
  assert (IF : forall f, In f (fs Q') <-> In f (fs Q) \/ f = F) by (intro f; cbn [Q' add_face fs]; fold F; rewrite in_app_iff; cbn; intuition).
  assert (NF : forall f, In f (fs Q) -> f <> F) by (intros f H; destruct (v_lt0 f H) as [L _]; unfold F; lia).
  assert (EN : forall e, ea (pe Q' e) = ea (pe Q e) /\ eb (pe Q' e) = eb (pe Q e)).
  { intro e. cbn [Q' add_face pe]. fold F. unfold upd. repeat match goal with |- context [Nat.eqb ?p ?q] => destruct (Nat.eqb_spec p q); subst end; rewrite ?(proj1 (link_ends _ _)), ?(proj2 (link_ends _ _)); auto. }
  destruct (v_m1 _ _ Mx) as (Lx&_&Bx&Ix). destruct (v_m1 _ _ My) as (Ly&_&By&Iy). pose proof (oldB b Ib) as Lb.
  assert (NX : nx Q' = S (nx Q)) by reflexivity.
  constructor; auto.
  - intros k K. apply in_app_iff in K. destruct K as [K|[ <- |[]]]; auto.
  - apply snoc_nodup; auto.
  - rewrite NX. lia.
  - intros f H. apply IF in H. rewrite NX. destruct (Nat.eq_dec f F) as [ -> |N].
    + split; [unfold F; lia|]. destruct SF as (S0&S1&S2). intros [|[|i]]; [rewrite S0|rewrite S1|rewrite S2 by lia]; lia.
    + destruct H as [H|H]; [|contradiction]. destruct (v_lt0 f H) as [A1 A2]. split; [lia|]. intro i. rewrite SI by exact N. specialize (A2 i). lia.
  - intros f Lf. assert (N : f <> F) by (unfold F; lia). split; [cbn [Q' add_face pf]; fold F; rewrite upd_other by exact N; apply v_old0; exact Lf|]. rewrite IF. intros [H|H]; [|contradiction]. apply v_old0; auto.
  - intros k K. destruct (EN k) as [ -> -> ]. auto.
  - intros u e H. destruct (v_m1 u e H) as (A1&A2&A3). destruct (EN e) as [ -> -> ]. rewrite NX. split; [lia|]. auto.
  - intros u k H K. apply in_app_iff in K. destruct K as [K|[ <- |[]]]; [eauto|]. unfold at_end. destruct (Nat.eqb_spec (ea (pe P b)) u) as [E|_]; [congruence|]. destruct (Nat.eqb_spec (eb (pe P b)) u) as [E|_]; [congruence|]. reflexivity.
  - intros k K. apply in_app_iff in K. destruct K as [K|[ <- |[]]].
    + destruct (v_D0 k K) as (f&y'&z'&A1&A2&A3&A4). exists f, y', z'. split; [apply IF; auto|]. split; [|auto]. cbn [Q' add_face pf]. fold F. rewrite upd_other by (apply NF, A1). exact A2.
    + exists F, x, y. split; [apply IF; auto|]. auto.
  - intros u e f H K (i&Li&E). apply IF in K. destruct (Nat.eq_dec f F) as [ -> |N].
    + destruct SF as (S0&S1&S2). rewrite S0. split; [apply in_app_iff; right; left; reflexivity|]. split; [|unfold F; lia]. destruct (v_m1 u e H) as (Le&_&Be&_). unfold at_end. rewrite orb_true_iff, !Nat.eqb_eq.
      assert (HI : i = 0 \/ i = 1 \/ i = 2) by lia. destruct HI as [ -> |[ -> | -> ]]; [rewrite S0 in E; lia|rewrite S1 in E; left; congruence|rewrite S2 in E by lia; right; congruence].
    + destruct K as [K|K]; [|contradiction]. rewrite SI in E by exact N. destruct (v_has0 u e f H K (ex_intro _ i (conj Li E))) as (A1&A2&A3). rewrite SI by exact N. split; [apply in_app_iff; auto|]. auto.
  - intros f g Hf Hg Nf Ng E. apply IF in Hf, Hg. destruct (Nat.eq_dec f F) as [ -> |N1]; destruct (Nat.eq_dec g F) as [ -> |N2]; auto.
    + destruct Hg as [Hg|Hg]; [|contradiction]. destruct SF as (S0&_). rewrite S0, SI in E by exact N2. exfalso. apply Nb. rewrite E. auto.
    + destruct Hf as [Hf|Hf]; [|contradiction]. destruct SF as (S0&_). rewrite S0, SI in E by exact N1. exfalso. apply Nb. rewrite <- E. auto.
    + destruct Hf as [Hf|Hf]; [|contradiction]. destruct Hg as [Hg|Hg]; [|contradiction]. rewrite !SI in E by assumption. auto.
  - intros f Hf Lf. apply IF in Hf. apply in_app_iff. destruct (Nat.eq_dec f F) as [ -> |N1]; [right; left; symmetry; apply SF|]. destruct Hf as [Hf|Hf]; [|contradiction]. rewrite SI by exact N1. auto.
Qed.
Lemma joins_V : forall T D Q m, V D Q m -> incl T B -> NoDup (D ++ T) -> exists Q' m', fold_left (join v) T (Q, m) = (Q', m') /\ V (D ++ T) Q' m'.
Proof.
  induction T as [|b T IH]; intros D Q m w I N.
  - exists Q, m. rewrite app_nil_r. auto.
  - destruct (join_V D Q m b w) as (Q1&m1&E1&w1); [apply I; left; reflexivity|intro Z; apply NoDup_remove_2 in N; apply N, in_app_iff; auto|].
    cbn [fold_left]. rewrite E1. destruct (IH _ _ _ w1) as (Q2&m2&E2&w2); [intros x X; apply I; right; exact X|rewrite <- app_assoc; exact N|]. exists Q2, m2. rewrite <- app_assoc in w2. auto.
Qed.
Lemma V_deg Q m D u : V D Q m -> closed Q -> cnt P D u = 0 \/ cnt P D u = 2.
Proof.
  intros w C. destruct w. unfold cnt. set (l := filter (fun b => at_end P b u) D). assert (Il : forall b, In b l <-> In b D /\ at_end P b u = true) by (intro b; apply (filter_In (fun b => at_end P b u))).
  assert (Nl : NoDup l) by (apply NoDup_filter; exact v_nd0). destruct (m u) as [x|] eqn:M.
  - destruct (v_m1 u x M) as (Lx&_&Bx&Ix). destruct (edge_two Q C x Ix) as (f&g&N&L0&L1&Ff&Fg&Hf&Hg). destruct (v_has0 u x f M Ff Hf) as (A1&A2&A3). destruct (v_has0 u x g M Fg Hg) as (B1&B2&B3). right.
    set (k := [side Q f 0; side Q g 0]). assert (Nk : NoDup k) by (constructor; [intros [E|[]]; apply N; symmetry; apply v_one0; auto|constructor; [intros []|constructor]]).
    assert (I1 : incl k l) by (intros b [ <- |[ <- |[]]]; apply Il; auto).
    assert (I2 : incl l k).
    { intros b Hb. apply Il in Hb. destruct Hb as [Db Eb]. destruct (v_D0 b Db) as (h&y&z&H1&H2&H3&H4). assert (Sh : side Q h 0 = b) by (unfold side; rewrite H2; reflexivity).
      assert (Hx : has Q h x). { unfold at_end in Eb. apply orb_true_iff in Eb. rewrite !Nat.eqb_eq in Eb. destruct Eb as [E|E]; [exists 1|exists 2]; split; auto; unfold side; rewrite H2; congruence. }
      destruct C as (_&_&_&_&_&_&FE&_). destruct (FE h x H1 Hx) as [_ [O|O]]; [rewrite L0 in O|rewrite L1 in O]; injection O as <-; [left|right; left]; exact Sh. }
    apply NoDup_incl_length in I1; auto. apply NoDup_incl_length in I2; auto. cbn in *. lia.
  - left. destruct l as [|b l'] eqn:E; [reflexivity|]. exfalso. assert (Hb : In b (b :: l')) by (left; reflexivity). apply Il in Hb. destruct Hb as [Hb Eb]. rewrite (v_m2 u b M Hb) in Eb. discriminate.
Qed.
End Pinch.

Lemma patch_in_V ord P s q : (forall l, Permutation (ord l) l) -> closed P -> fresh P -> patch_of P s ->
  exists m, V P (nx P) (S (nx P)) (border s) (vs P ++ [nx P]) (fs (cut ord P s)) (upd (pv P) (nx P) q) (ord (border s)) (patch_in ord P s q) m.
Proof.
  intros HO C FR PO. destruct (cut_ok ord P s HO C PO) as (A1&A2&A3&A4&A5&A6&A7&A8&A9&A10&A11). destruct PO as (Vv&N1&N2&N3&INN&BOR).
  unfold patch_in. set (Q0 := cut ord P s) in *. cbn [add_vertex].
  assert (Pb : forall x, In x (ord (border s)) <-> In x (border s)) by (intro x; split; apply Permutation_in; [|apply Permutation_sym]; apply HO).
  set (Q1 := Pt (vs Q0 ++ [nx Q0]) (es Q0) (fs Q0) (upd (pv Q0) (nx Q0) q) (pe Q0) (pf Q0) (S (nx Q0))) in *.
  assert (SD : forall f i, side Q1 f i = side P f i) by (intros; unfold side; cbn [Q1 pf]; rewrite A3; reflexivity).
  assert (oldB : forall b, In b (border s) -> b < S (nx P)) by (intros b H; apply BOR in H; assert (b < nx P) by (apply FR; right; left; apply H); lia).
  assert (w : V P (nx P) (S (nx P)) (border s) (vs P ++ [nx P]) (fs Q0) (upd (pv P) (nx P) q) [] Q1 (fun _ => None)).
  { assert (FL : forall f, In f (fs Q1) -> f < nx P) by (intros f F; cbn [Q1 fs] in F; apply A7 in F; apply FR; right; right; apply F).
    constructor; try (intros; discriminate); try (intros b []; fail).
    - constructor.
    - cbn [Q1 nx]. lia.
    - intros f F. cbn [Q1 nx]. split; [specialize (FL f F); lia|]. intro i. rewrite SD. cbn [Q1 fs] in F. apply A7 in F. destruct F as [F _].
      assert (Z : forall j, j < 3 -> side P f j < nx P) by (intros j Hj; destruct (face_edge P C f j F Hj) as [E _]; apply FR; auto).
      assert (HI : side P f i < nx P) by (destruct i as [|[|i]]; [apply Z; lia|apply Z; lia|]; replace (side P f (S (S i))) with (side P f 2) by (unfold side; destruct (pf P f) as [[? ?] ?]; reflexivity); apply Z; lia). lia.
    - cbn [Q1 vs]. congruence.
    - cbn [Q1 pv]. congruence.
    - intros f _. cbn [Q1 pf fs]. rewrite A3. auto.
    - intros b _. cbn [Q1 pe]. apply A9.
    - intros k b _ [].
    - intros f g Hf Hg Lf. specialize (FL f Hf). lia.
    - intros f F L. specialize (FL f F). lia. }
  destruct (joins_V P (nx P) (S (nx P)) (border s) oldB _ _ _ (ord (border s)) [] Q1 (fun _ => None) w) as (Q2&m2&E2&w2); [intros x X; apply Pb, X|cbn; eapply Permutation_NoDup; [apply Permutation_sym, HO|exact N3]|].
  exists m2. rewrite A4. rewrite E2. exact w2.
Qed.

(** Otherwise it is not: the vertex gets one edge for several pairs of faces, and an edge has room for two. *)
Theorem pinched_open ord P s q u : (forall l, Permutation (ord l) l) -> closed P -> fresh P -> patch_of P s ->
  ends_at P (border s) u <> 0 -> ends_at P (border s) u <> 2 -> ~ closed (patch_in ord P s q).
Proof.
  intros HO C FR PO D0 D2 CQ. destruct (patch_in_V ord P s q HO C FR PO) as (m2&w2).
  pose proof (V_deg P _ _ _ _ _ _ _ m2 (ord (border s)) u w2 CQ) as Z. rewrite (cnt_perm P _ _ u (HO (border s))) in Z. unfold ends_at in *. unfold cnt, at_end in Z. destruct Z; contradiction.
Qed.
Print Assumptions pinched_open.

(** ** The first polytopes *)
(** A decision procedure for [closed] and [fresh] *)
Definition nodupb (l : list nat) : bool := Nat.eqb (length (nodup Nat.eq_dec l)) (length l).
Definition hasb (P : pt) (f e : nat) : bool := ((e =? side P f 0) || (e =? side P f 1) || (e =? side P f 2))%bool.
Definition joinsb (P : pt) (e u w : nat) : bool :=
  (((ea (pe P e) =? u) && (eb (pe P e) =? w)) || ((ea (pe P e) =? w) && (eb (pe P e) =? u)))%bool.
Definition trib (P : pt) (f : nat) : bool :=
  existsb (fun a => existsb (fun b => existsb (fun c => (negb (a =? b) && negb (b =? c) && negb (c =? a) &&
    joinsb P (side P f 0) a b && joinsb P (side P f 1) b c && joinsb P (side P f 2) c a)%bool) (vs P)) (vs P)) (vs P).
Definition onb (P : pt) (e f : nat) : bool :=
  ((match l0 (pe P e) with Some g => g =? f | None => false end) || (match l1 (pe P e) with Some g => g =? f | None => false end))%bool.
Definition closedb (P : pt) : bool :=
  (nodupb (vs P) && nodupb (es P) && nodupb (fs P) &&
   forallb (fun e => mem (ea (pe P e)) (vs P) && mem (eb (pe P e)) (vs P) &&
     match l0 (pe P e), l1 (pe P e) with
     | Some f, Some g => negb (f =? g) && mem f (fs P) && mem g (fs P) && hasb P f e && hasb P g e
     | _, _ => false
     end) (es P) &&
   forallb (fun f => trib P f && forallb (fun i => mem (side P f i) (es P) && onb P (side P f i) f) [0; 1; 2]) (fs P) &&
   forallb (fun x => x <? nx P) (vs P) && forallb (fun x => x <? nx P) (es P) && forallb (fun x => x <? nx P) (fs P))%bool.
Lemma nodupb_ok l : nodupb l = true -> NoDup l.
Proof.
  intro H. apply Nat.eqb_eq in H. apply (NoDup_incl_NoDup (NoDup_nodup Nat.eq_dec l)); [lia|]. intros x X. apply (proj1 (nodup_In Nat.eq_dec l x)) in X. exact X.
Qed.
Lemma joinsb_ok P e u w : joinsb P e u w = true -> joins P e u w.
Proof. unfold joinsb, joins. rewrite orb_true_iff, !andb_true_iff, !Nat.eqb_eq. tauto. Qed.
Lemma closedb_ok P : closedb P = true -> closed P /\ fresh P.
Proof.
  unfold closedb. rewrite !andb_true_iff, !forallb_forall. intros (((((((H1&H2)&H3)&H4)&H5)&H6)&H7)&H8).
  assert (E4 : forall e, In e (es P) -> In (ea (pe P e)) (vs P) /\ In (eb (pe P e)) (vs P) /\ exists f g, l0 (pe P e) = Some f /\ l1 (pe P e) = Some g /\ f <> g /\ In f (fs P) /\ In g (fs P) /\ has P f e /\ has P g e).
  { intros e E. specialize (H4 e E). rewrite !andb_true_iff, !mem_in in H4. destruct H4 as [[A A'] A'']. split; [exact A|]. split; [exact A'|]. destruct (l0 (pe P e)) as [f|]; [|discriminate]. destruct (l1 (pe P e)) as [g|]; [|discriminate].
    rewrite !andb_true_iff, !mem_in, negb_true_iff, Nat.eqb_neq in A''. unfold hasb in A''. rewrite !has_b in A''. exists f, g. tauto. }
  split.
  - split; [apply nodupb_ok, H1|]. split; [apply nodupb_ok, H2|]. split; [apply nodupb_ok, H3|]. split; [intros e E; destruct (E4 e E) as (A&A'&_); auto|].
    split; [intros e E; destruct (E4 e E) as (_&_&f&g&A1&A2&A3&_); exists f, g; auto|]. split; [|split].
    + intros f F. specialize (H5 f F). apply andb_true_iff in H5. destruct H5 as [T _]. unfold trib in T. apply existsb_exists in T. destruct T as (a&_&T). apply existsb_exists in T. destruct T as (b&_&T). apply existsb_exists in T. destruct T as (c&_&T).
      rewrite !andb_true_iff, !negb_true_iff, !Nat.eqb_neq in T. destruct T as (((((T1&T2)&T3)&T4)&T5)&T6). exists a, b, c. repeat (split; [assumption|]). repeat split; apply joinsb_ok; assumption.
    + intros f e F (i&L&E). specialize (H5 f F). apply andb_true_iff in H5. destruct H5 as [_ T]. rewrite forallb_forall in T. assert (Ii : In i [0; 1; 2]) by (cbn; lia). specialize (T i Ii). rewrite E, andb_true_iff, mem_in in T. destruct T as [T1 T2]. split; [exact T1|].
      unfold onb in T2. apply orb_true_iff in T2. destruct T2 as [T2|T2]; [left|right]; [destruct (l0 (pe P e))|destruct (l1 (pe P e))]; try discriminate; apply Nat.eqb_eq in T2; congruence.
    + intros e f E O. destruct (E4 e E) as (_&_&a&b&A1&A2&A3&A4&A5&A6&A7). destruct O as [O|O]; [rewrite A1 in O|rewrite A2 in O]; injection O as <-; auto.
  - intros x [X|[X|X]]; [apply H6 in X|apply H7 in X|apply H8 in X]; apply Nat.ltb_lt in X; exact X.
Qed.
Theorem tetra_closed flip a b c d : closed (tetra flip a b c d) /\ fresh (tetra flip a b c d).
Proof. apply closedb_ok. destruct flip; vm_compute; reflexivity. Qed.
Print Assumptions tetra_closed.
Theorem octa_closed a s0 b s1 s2 s3 : closed (octa a s0 b s1 s2 s3) /\ fresh (octa a s0 b s1 s2 s3).
Proof. apply closedb_ok. vm_compute; reflexivity. Qed.
Print Assumptions octa_closed.

Lemma found_patch P sn f s : closed P -> In f (fs P) -> visible_patch P sn f = Seen s -> patch_of P s.
Proof.
  intros C F E. destruct (patch_classified P sn f C F) as (t&Et&_&_&V&I&B&_&N1&N2&N3). rewrite E in Et. injection Et as <-. split; [intros g G; apply V, G|]. auto.
Qed.
(** The patch as found: a closed polytope is again closed after the expansion exactly if the border does not
    meet itself in a vertex *)
Theorem expansion ord P sn f q : (forall l, Permutation (ord l) l) -> closed P -> fresh P -> In f (fs P) ->
  exists s, visible_patch P sn f = Seen s /\
    (closed (patch_in ord P s q) <-> forall u, ends_at P (border s) u = 0 \/ ends_at P (border s) u = 2).
Proof.
  intros HO C FR F. destruct (patch_classified P sn f C F) as (s&E&_). exists s. split; [exact E|]. pose proof (found_patch P sn f s C F E) as PO. split.
  - intros CQ u. destruct (Nat.eq_dec (ends_at P (border s) u) 0) as [|N0]; [auto|]. destruct (Nat.eq_dec (ends_at P (border s) u) 2) as [|N2]; [auto|]. exfalso. exact (pinched_open ord P s q u HO C FR PO N0 N2 CQ).
  - intro D. apply expand_closed; auto.
Qed.
Print Assumptions expansion.
(** It can meet itself if the tests are inconsistent: five connected faces of the octahedron, of which two meet
    only in the vertex 4 *)
Theorem pinch_refuted : exists P sn f s, closed P /\ fresh P /\ In f (fs P) /\ visible_patch P sn f = Seen s /\
  forall ord q, (forall l, Permutation (ord l) l) -> ~ closed (patch_in ord P s q).
Proof.
  set (o := Sp vzero vzero vzero). set (P := octa o o o o o o). set (sn := fun g (_ : nat) => mem g [18; 22; 23; 24; 20]).
  destruct (octa_closed o o o o o o) as [C F]. fold P in C, F. assert (I : In 18 (fs P)) by (vm_compute; auto).
  destruct (patch_classified P sn 18 C I) as (s&E&_). exists P, sn, 18, s. split; [exact C|]. split; [exact F|]. split; [exact I|]. split; [exact E|].
  intros ord q HO. apply (pinched_open ord P s q 4 HO C F (found_patch P sn 18 s C I E)).
  - assert (X : match visible_patch P sn 18 with Seen t => ends_at P (border t) 4 <> 0 | _ => False end) by (vm_compute; discriminate). rewrite E in X. exact X.
  - assert (X : match visible_patch P sn 18 with Seen t => ends_at P (border t) 4 <> 2 | _ => False end) by (vm_compute; discriminate). rewrite E in X. exact X.
Qed.
Print Assumptions pinch_refuted.
(** The tetrahedron seen from one side: one face is replaced by three *)
Example tetra_cap a b c d q : exists s, visible_patch (tetra true a b c d) (fun _ _ => false) 10 = Seen s /\
  closed (patch_in (fun l => l) (tetra true a b c d) s q) /\ length (fs (patch_in (fun l => l) (tetra true a b c d) s q)) = 6.
Proof.
  destruct (tetra_closed true a b c d) as [C F]. assert (I : In 10 (fs (tetra true a b c d))) by (vm_compute; auto).
  eexists. split; [vm_compute; reflexivity|]. split; [apply closedb_ok; vm_compute; reflexivity|vm_compute; reflexivity].
Qed.
(** What the faces of the expanded polytope are *)
Lemma new_faces ord P s q : (forall l, Permutation (ord l) l) -> closed P -> fresh P -> patch_of P s ->
  let Q := patch_in ord P s q in
  vs Q = vs P ++ [nx P] /\ pv Q = upd (pv P) (nx P) q /\
  forall f, In f (fs Q) ->
    (In f (fs P) /\ ~ In f (vis s) /\ pf Q f = pf P f /\ forall e, In e (es P) -> ea (pe Q e) = ea (pe P e) /\ eb (pe Q e) = eb (pe P e)) \/
    (exists b x y, In b (border s) /\ pf Q f = (b, x, y) /\ ea (pe Q b) = ea (pe P b) /\ eb (pe Q b) = eb (pe P b) /\
       ea (pe Q x) = nx P /\ eb (pe Q x) = ea (pe P b) /\ ea (pe Q y) = nx P /\ eb (pe Q y) = eb (pe P b)).
Proof.
  intros HO C FR PO Q. destruct (patch_in_V ord P s q HO C FR PO) as (m&w). fold Q in w. destruct (cut_ok ord P s HO C PO) as (_&_&_&_&_&_&A7&_).
  destruct w. split; [exact v_vs0|]. split; [exact v_pv0|]. intros f F. destruct (lt_dec f (S (nx P))) as [L|L].
  - left. destruct (v_old0 f L) as [E I]. apply I, A7 in F. split; [apply F|]. split; [apply F|]. split; [exact E|]. intros e He. apply v_ends0. assert (e < nx P) by (apply FR; auto). lia.
  - right. assert (Hn : S (nx P) <= f) by lia. pose proof (v_new0 f F Hn) as I. destruct (v_D0 _ I) as (g&x&y&G&Eg&Mx&My). assert (Lg : S (nx P) <= g).
    { destruct (v_m1 _ _ Mx) as (Lx&_). apply (v_has0 _ x g Mx G). exists 1. split; [lia|]. unfold side. rewrite Eg. reflexivity. }
    assert (f = g) by (apply v_one0; auto; unfold side at 2; rewrite Eg; reflexivity). subst g.
    exists (side Q f 0), x, y. assert (Ib : In (side Q f 0) (border s)) by (apply v_B0, I). split; [exact Ib|]. split; [exact Eg|].
    assert (Lb : side Q f 0 < S (nx P)) by (destruct PO as (_&_&_&_&_&BOR); apply BOR in Ib; assert (side Q f 0 < nx P) by (apply FR; right; left; apply Ib); lia).
    destruct (v_ends0 _ Lb) as [X Y]. destruct (v_m1 _ _ Mx) as (_&X1&X2&_). destruct (v_m1 _ _ My) as (_&Y1&Y2&_). auto 10.
Qed.
