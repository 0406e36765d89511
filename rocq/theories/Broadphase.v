(** Common vocabulary for the broadphase managers.

    A broadphase query takes a user callback and user data
    (include/fcl/broadphase/broadphase_collision_manager.h:52-66): for collision
    a function of (o1, o2, cdata) returning true to stop; for distance
    a function of (o1, o2, cdata, dist&), which also updates the running minimum.
    The user data is an arbitrary state [St] threaded through the calls.
    Objects are pointers, modelled as [nat]. *)
From Coq Require Import ZArith List Bool Lia Permutation.
Import ListNotations.

Definition obj := nat.

(** CollisionCallBack<S>. *)
Definition ccallback (St : Type) := St -> obj -> obj -> St * bool.
(** DistanceCallBack<S>; the running minimum is passed by reference. *)
Definition dcallback (St : Type) := St -> Z -> obj -> obj -> St * Z * bool.

(** A collision query, as a function of the callback and its data.  The boolean tells
    whether the callback asked to stop. *)
Definition query := forall St : Type, ccallback St -> St -> St * bool.
Definition dquery := forall St : Type, dcallback St -> St -> Z -> St * Z * bool.

(** ** Specification vocabulary *)

(** Calling the callback on the pairs of a list, in order, until it returns true. *)
Fixpoint run {St} (cb : ccallback St) (st : St) (ps : list (obj * obj)) : St * bool :=
  match ps with
  | [] => (st, false)
  | (a, b) :: r =>
      let (st', stop) := cb st a b in
      if stop then (st', true) else run cb st' r
  end.

(** The calls a query makes when the callback never asks to stop. *)
Definition calls (Q : query) : list (obj * obj) :=
  fst (Q (list (obj * obj)) (fun log a b => (log ++ [(a, b)], false)) []).

(** With any callback the query calls it on [calls Q], in that order, until it returns
    true, and then calls it no more. *)
Definition replays (Q : query) : Prop :=
  forall St (cb : ccallback St) st, Q St cb st = run cb st (calls Q).

(** The list of calls visits each unordered pair related by the symmetric relation [R]
    exactly once, in one of its two orders, and nothing else. *)
Definition pairs_once (l : list (obj * obj)) (R : obj -> obj -> Prop) : Prop :=
  NoDup l /\
  (forall a b, In (a, b) l -> R a b /\ ~ In (b, a) l) /\
  (forall a b, R a b -> In (a, b) l \/ In (b, a) l).

(** The list of calls visits each ordered pair in [R] exactly once and nothing else. *)
Definition ordered_once (l : list (obj * obj)) (R : obj -> obj -> Prop) : Prop :=
  NoDup l /\ (forall a b, In (a, b) l <-> R a b).

(** A distance callback that is honest about a distance [D]: it lowers the running
    minimum to the distance of the pair, and asks to stop only when the minimum reached
    [floor] (a value no distance is below). *)
Definition honest {St} (D : obj -> obj -> Z) (floor : Z) (cb : dcallback St) : Prop :=
  forall st m a b,
    let '(_, m', stop) := cb st m a b in
    m' = Z.min m (D a b) /\ (stop = true -> (m' <= floor)%Z).

(** [Q] finds the minimum of [D] over the pairs in [P] (starting from [M]) and calls the
    callback only on pairs in [P]. *)
Definition finds_min (Q : dquery) (M : Z) (P : obj -> obj -> Prop) (D : obj -> obj -> Z) : Prop :=
  forall St (cb : dcallback St) st floor,
    honest D floor cb ->
    (forall a b, P a b -> (floor <= D a b)%Z) ->
    let '(_, m, _) := Q St cb st M in
    (forall a b, P a b -> (m <= D a b)%Z) /\
    (m = M \/ exists a b, P a b /\ m = D a b).

(** Each pair the distance query calls back is in [P]: any assertion about the user data
    and the running minimum that the callback preserves on pairs of [P] holds at the end. *)
Definition dsound (Q : dquery) (P : obj -> obj -> Prop) : Prop :=
  forall St (cb : dcallback St) (Inv : St -> Z -> Prop) st m,
    (forall s d a b, P a b -> Inv s d -> let '(s', d', _) := cb s d a b in Inv s' d') ->
    Inv st m ->
    let '(s', d', _) := Q St cb st m in Inv s' d'.

(** ** Lemmas about [run] *)

Lemma run_app {St} (cb : ccallback St) st l1 l2 :
  run cb st (l1 ++ l2) =
  let (st', s) := run cb st l1 in if s then (st', true) else run cb st' l2.
Proof.
  revert st; induction l1 as [|[a b] l1 IH]; intros st; cbn.
  - reflexivity.
  - destruct (cb st a b) as [st' [|]]; auto.
Qed.

Lemma run_record l acc :
  run (fun log a b => (log ++ [(a, b)], false)) acc l = (acc ++ l, false).
Proof.
  revert acc; induction l as [|[a b] l IH]; intros acc; cbn.
  - rewrite app_nil_r; reflexivity.
  - rewrite IH, <- app_assoc. reflexivity.
Qed.

Lemma replays_of_list (Q : query) l :
  (forall St (cb : ccallback St) st, Q St cb st = run cb st l) ->
  calls Q = l /\ replays Q.
Proof.
  intros H. assert (E : calls Q = l).
  { unfold calls. rewrite H, run_record. reflexivity. }
  split; auto. intros St cb st. rewrite E. apply H.
Qed.

(** ** What "replays" gives a user: nothing is called after a stop *)

(** Record every call together with the answer it got. *)
Definition logging {St} (cb : ccallback St) : ccallback (St * list (obj * obj * bool)) :=
  fun '(st, log) a b => let (st', s) := cb st a b in ((st', log ++ [(a, b, s)]), s).

Lemma run_logging {St} (cb : ccallback St) l st log :
  exists tail,
    snd (fst (run (logging cb) (st, log) l)) = log ++ tail /\
    (forall l1 x l2, tail = l1 ++ x :: l2 -> snd x = true -> l2 = []) /\
    (snd (run (logging cb) (st, log) l) = true <-> exists x, In x tail /\ snd x = true).
Proof.
  revert st log; induction l as [|[a b] l IH]; intros st log; cbn.
  - exists []; repeat split.
    + rewrite app_nil_r; reflexivity.
    + intros l1 x l2 H; destruct l1; discriminate.
    + discriminate.
    + intros (x & [] & _).
  - destruct (cb st a b) as [st' s] eqn:E. cbn. destruct s; cbn.
    + exists [(a, b, true)]; repeat split; auto.
      * intros l1 x l2 H. destruct l1 as [|y [|? ?]]; inversion H; subst; auto.
      * intros _. exists (a, b, true); cbn; auto.
    + destruct (IH st' (log ++ [(a, b, false)])) as (t & Ht & Hs & Hb).
      exists ((a, b, false) :: t); repeat split.
      * rewrite Ht, <- app_assoc; reflexivity.
      * intros l1 x l2 H Hx. destruct l1 as [|y l1]; inversion H; subst; [discriminate|].
        eapply Hs; eauto.
      * intros H. apply Hb in H as (x & Hx & ?). exists x; cbn; auto.
      * intros (x & [<-|Hx] & H); [discriminate|]. apply Hb. eauto.
Qed.

(** The same for distance queries, whose calls depend on the running minimum. *)
Definition dlogging {St} (cb : dcallback St) : dcallback (St * list (obj * obj * bool)) :=
  fun '(st, log) m a b => let '(st', m', s) := cb st m a b in ((st', log ++ [(a, b, s)]), m', s).

Definition clean (log : list (obj * obj * bool)) : Prop := forall x, In x log -> snd x = false.

(** Either nothing answered true, or only the very last call did. *)
Definition stopped (s : bool) (log : list (obj * obj * bool)) : Prop :=
  (s = false /\ clean log) \/
  (s = true /\ exists c a b, clean c /\ log = c ++ [(a, b, true)]).

Definition dstops (Q : dquery) : Prop :=
  forall St (cb : dcallback St) st m log, clean log ->
    let '((_, log'), _, s) := Q _ (dlogging cb) (st, log) m in stopped s log'.

Lemma clean_snoc log a b : clean log -> clean (log ++ [(a, b, false)]).
Proof. intros H x Hx. apply in_app_iff in Hx as [Hx|[<-|[]]]; auto. Qed.

Lemma stopped_clean log : clean log -> stopped false log.
Proof. left; auto. Qed.

Lemma stopped_call {St} (cb : dcallback St) st log m a b : clean log ->
  let '((_, log'), _, s) := dlogging cb (st, log) m a b in stopped s log'.
Proof.
  intros H. cbn. destruct (cb st m a b) as [[st' m'] [|]].
  - right. split; auto. exists log, a, b. auto.
  - left. split; auto. apply clean_snoc; auto.
Qed.

Lemma stopped_inv s log : stopped s log -> s = false -> clean log.
Proof. intros [[_ H]|[-> _]]; [auto|discriminate]. Qed.

(** ** Small list facts used by several managers *)

Lemma NoDup_app_intro {A} (l1 l2 : list A) :
  NoDup l1 -> NoDup l2 -> (forall x, In x l1 -> ~ In x l2) -> NoDup (l1 ++ l2).
Proof.
  induction l1 as [|x l1 IH]; cbn; intros H1 H2 H; auto.
  inversion H1; subst. constructor.
  - rewrite in_app_iff; intros [?|?]; [auto|]. eapply H; eauto.
  - apply IH; auto.
Qed.

Lemma NoDup_map_inj {A B} (f : A -> B) l :
  (forall x y, In x l -> In y l -> f x = f y -> x = y) -> NoDup l -> NoDup (map f l).
Proof.
  induction l as [|x l IH]; cbn; intros Hf H; [constructor|].
  inversion H; subst. constructor.
  - rewrite in_map_iff; intros (y & E & Hy). apply Hf in E; subst; auto.
  - apply IH; auto.
Qed.

Lemma NoDup_filter {A} (f : A -> bool) l : NoDup l -> NoDup (filter f l).
Proof.
  induction 1; cbn; [constructor|]. destruct (f x); auto.
  constructor; auto. rewrite filter_In; tauto.
Qed.
