(** NaiveCollisionManager: the brute force manager
    (include/fcl/broadphase/broadphase_bruteforce-inl.h). *)
From Coq Require Import ZArith List Bool Lia Permutation Arith.
From Verif Require Import AabbZ Broadphase.
Import ListNotations.
Set Default Proof Using "Type".

(** NaiveCollisionManager<S>::objs, a std::list of object pointers. *)
Definition naive := list obj.

(** Operations of the manager (bruteforce-inl.h:60-106). *)
Inductive nop :=
| NReg (o : obj)          (** registerObject: push_back, 74-77 *)
| NRegs (os : list obj)   (** registerObjects: std::copy to back_inserter, 60-63 *)
| NUnreg (o : obj)        (** unregisterObject: list::remove, 67-70 *)
| NSetup                  (** setup: nothing, 81-84 *)
| NUpdate                 (** update: nothing, 88-91 *)
| NClear.                 (** clear, 95-98 *)

Definition naive_step (m : naive) (o : nop) : naive :=
  match o with
  | NReg x => m ++ [x]
  | NRegs xs => m ++ xs
  | NUnreg x => filter (fun y => negb (Nat.eqb y x)) m
  | NSetup | NUpdate => m
  | NClear => []
  end.
Definition naive_run (ops : list nop) : naive := fold_left naive_step ops [].

(** size, empty, getObjects (bruteforce-inl.h:102-106, 237-247). *)
Definition naive_size (m : naive) : nat := length m.
Definition naive_empty (m : naive) : bool := match m with [] => true | _ => false end.
Definition naive_get (m : naive) : list obj := m.

Section Queries.
  (** getAABB() of each object at the time of the query. *)
  Variable box : obj -> aabb.
  (** AABB<S>::distance between two boxes (only ever compared). *)
  Variable adist : aabb -> aabb -> Z.

  (** collide(obj, cdata, callback), bruteforce-inl.h:110-119. *)
  Definition naive_collide_obj (m : naive) (o : obj) : query := fun St cb st =>
    if Nat.eqb (naive_size m) 0 then (st, false)
    else (fix loop st l :=
            match l with
            | [] => (st, false)
            | o2 :: r => let (st', s) := cb st o o2 in if s then (st', true) else loop st' r
            end) st m.

  (** The inner loop of the self query, bruteforce-inl.h:147-155. *)
  Fixpoint naive_inner {St} (cb : ccallback St) (st : St) (o1 : obj) (l : list obj) : St * bool :=
    match l with
    | [] => (st, false)
    | o2 :: r =>
        if overlap (box o1) (box o2) then
          let (st', s) := cb st o1 o2 in
          if s then (st', true) else naive_inner cb st' o1 r
        else naive_inner cb st o1 r
    end.
  Fixpoint naive_outer {St} (cb : ccallback St) (st : St) (l : list obj) : St * bool :=
    match l with
    | [] => (st, false)
    | o1 :: r =>
        let (st', s) := naive_inner cb st o1 r in
        if s then (st', true) else naive_outer cb st' r
    end.
  (** collide(cdata, callback), bruteforce-inl.h:140-157. *)
  Definition naive_collide_self (m : naive) : query := fun St cb st =>
    if Nat.eqb (naive_size m) 0 then (st, false) else naive_outer cb st m.

  Fixpoint naive_cross {St} (cb : ccallback St) (st : St) (other l : list obj) : St * bool :=
    match l with
    | [] => (st, false)
    | o1 :: r => let (st', s) := naive_inner cb st o1 other in
                 if s then (st', true) else naive_cross cb st' other r
    end.
  (** collide(other_manager, cdata, callback) with a different manager,
      bruteforce-inl.h:182-205. *)
  Definition naive_collide_other (m other : naive) : query := fun St cb st =>
    if (Nat.eqb (naive_size m) 0) || (Nat.eqb (naive_size other) 0) then (st, false)
    else naive_cross cb st other m.

  (** The body shared by the distance loops: bruteforce-inl.h:130-134, 171-175, 226-230. *)
  Fixpoint naive_dinner {St} (cb : dcallback St) (st : St) (m : Z) (o1 : obj) (l : list obj)
    : St * Z * bool :=
    match l with
    | [] => (st, m, false)
    | o2 :: r =>
        if (adist (box o1) (box o2) <? m)%Z then
          let '(st', m', s) := cb st m o1 o2 in
          if s then (st', m', true) else naive_dinner cb st' m' o1 r
        else naive_dinner cb st m o1 r
    end.
  (** distance(obj, ...), bruteforce-inl.h:123-136 ([M] is numeric_limits<S>::max()). *)
  Definition naive_dist_obj (mg : naive) (o : obj) : dquery := fun St cb st M =>
    if Nat.eqb (naive_size mg) 0 then (st, M, false) else naive_dinner cb st M o mg.
  Fixpoint naive_douter {St} (cb : dcallback St) (st : St) (m : Z) (l : list obj) : St * Z * bool :=
    match l with
    | [] => (st, m, false)
    | o1 :: r =>
        let '(st', m', s) := naive_dinner cb st m o1 r in
        if s then (st', m', true) else naive_douter cb st' m' r
    end.
  (** distance(cdata, callback), bruteforce-inl.h:161-178. *)
  Definition naive_dist_self (mg : naive) : dquery := fun St cb st M =>
    if Nat.eqb (naive_size mg) 0 then (st, M, false) else naive_douter cb st M mg.
  Fixpoint naive_dcross {St} (cb : dcallback St) (st : St) (m : Z) (other l : list obj) : St * Z * bool :=
    match l with
    | [] => (st, m, false)
    | o1 :: r => let '(st', m', s) := naive_dinner cb st m o1 other in
                 if s then (st', m', true) else naive_dcross cb st' m' other r
    end.
  (** distance(other_manager, ...), bruteforce-inl.h:209-233, other manager distinct. *)
  Definition naive_dist_other (mg other : naive) : dquery := fun St cb st M =>
    if (Nat.eqb (naive_size mg) 0) || (Nat.eqb (naive_size other) 0) then (st, M, false)
    else naive_dcross cb st M other mg.

  (** ** The list of calls each query makes *)

  Definition inner_pairs (o1 : obj) (l : list obj) : list (obj * obj) :=
    map (pair o1) (filter (fun o2 => overlap (box o1) (box o2)) l).
  Fixpoint self_pairs (l : list obj) : list (obj * obj) :=
    match l with [] => [] | o1 :: r => inner_pairs o1 r ++ self_pairs r end.

  Lemma naive_inner_run {St} (cb : ccallback St) st o1 l :
    naive_inner cb st o1 l = run cb st (inner_pairs o1 l).
  Proof.
    revert st; induction l as [|o2 l IH]; intros st; cbn; auto.
    unfold inner_pairs; cbn. destruct (overlap (box o1) (box o2)); cbn; auto.
    destruct (cb st o1 o2) as [st' [|]]; auto.
  Qed.

  Lemma naive_outer_run {St} (cb : ccallback St) st l :
    naive_outer cb st l = run cb st (self_pairs l).
  Proof.
    revert st; induction l as [|o1 l IH]; intros st; cbn; auto.
    rewrite run_app, naive_inner_run. destruct (run cb st (inner_pairs o1 l)) as [st' [|]]; auto.
  Qed.

  Lemma naive_self_run m St (cb : ccallback St) st :
    naive_collide_self m St cb st = run cb st (self_pairs m).
  Proof. unfold naive_collide_self. destruct m; cbn; auto. apply (naive_outer_run cb st (o :: m)). Qed.

  Lemma naive_obj_run m o St (cb : ccallback St) st :
    naive_collide_obj m o St cb st = run cb st (map (pair o) m).
  Proof.
    unfold naive_collide_obj. destruct m as [|x m]; cbn; auto.
    destruct (cb st o x) as [s [|]]; auto. clear st.
    revert s. induction m as [|y l IH]; intros s; cbn; auto.
    destruct (cb s o y) as [s' [|]]; auto.
  Qed.

  Lemma naive_other_run m other St (cb : ccallback St) st :
    naive_collide_other m other St cb st = run cb st (flat_map (fun o1 => inner_pairs o1 other) m).
  Proof.
    assert (H : forall l s, naive_cross cb s other l = run cb s (flat_map (fun o1 => inner_pairs o1 other) l)).
    { induction l as [|z l IH]; intros s; cbn; auto.
      rewrite run_app, naive_inner_run. destruct (run cb s (inner_pairs z other)) as [s' [|]]; auto. }
    unfold naive_collide_other. rewrite <- H.
    destruct m as [|x m]; [reflexivity|]. destruct other as [|y other]; [|reflexivity].
    rewrite H. clear H. induction m; auto.
  Qed.

  Lemma in_inner_pairs o1 l a b :
    In (a, b) (inner_pairs o1 l) <-> a = o1 /\ In b l /\ overlap (box a) (box b) = true.
  Proof.
    unfold inner_pairs. rewrite in_map_iff. split.
    - intros (x & E & H). inversion E; subst. apply filter_In in H. tauto.
    - intros (-> & H1 & H2). exists b. rewrite filter_In. auto.
  Qed.

  Lemma inner_pairs_nodup o1 l : NoDup l -> NoDup (inner_pairs o1 l).
  Proof.
    intros H. apply NoDup_map_inj; [|apply NoDup_filter; auto]. intros; congruence.
  Qed.

  Lemma self_pairs_once l : NoDup l ->
    pairs_once (self_pairs l)
      (fun a b => In a l /\ In b l /\ a <> b /\ overlap (box a) (box b) = true).
  Proof.
    clear adist. induction 1 as [|x l Hx Hl IH]; cbn [self_pairs].
    - split; [constructor|]. split; intros a b; cbn; tauto.
    - destruct IH as (N & S & C). split; [|split].
      + apply NoDup_app_intro; auto using inner_pairs_nodup.
        intros [a b] H1 H2. apply in_inner_pairs in H1 as (-> & _ & _).
        apply S in H2 as ((H2 & _) & _). auto.
      + intros a b H. rewrite in_app_iff in H. rewrite in_app_iff. cbn [In].
        destruct H as [H|H].
        * apply in_inner_pairs in H as (-> & Hb & Ho). split.
          -- repeat split; auto. intros <-; auto.
          -- intros [G|G]; [apply in_inner_pairs in G as (-> & G & _); auto|].
             apply S in G as ((_ & G & _) & _). auto.
        * pose proof (S _ _ H) as ((Ha & Hb & Hne & Ho) & Hn). split; [tauto|].
          intros [G|G]; [apply in_inner_pairs in G as (-> & G & _); auto|auto].
      + cbn [In]. intros a b ([->|Ha] & [->|Hb] & Hne & Ho); try congruence; rewrite !in_app_iff.
        * left; left. apply in_inner_pairs; auto.
        * right; left. apply in_inner_pairs. rewrite overlap_sym; auto.
        * destruct (C a b) as [?|?]; auto 6.
  Qed.

  (** ** Distance *)

  Lemma naive_dinner_min {St} (cb : dcallback St) D floor (P : obj -> obj -> Prop) o1 l :
    honest D floor cb -> (forall a b, P a b -> (floor <= D a b)%Z) ->
    (forall o2, In o2 l -> (adist (box o1) (box o2) <= D o1 o2)%Z) ->
    forall st m,
    let '(_, m', s) := naive_dinner cb st m o1 l in
    (m' <= m)%Z /\
    (s = true -> forall a b, P a b -> (m' <= D a b)%Z) /\
    (s = false -> forall o2, In o2 l -> (m' <= D o1 o2)%Z).
  Proof.
    intros Hh Hf. induction l as [|o2 l IH]; intros Ha st m; cbn.
    - repeat split; try lia; try discriminate; intros _ o [].
    - destruct (Z.ltb_spec (adist (box o1) (box o2)) m) as [Hlt|Hge].
      + pose proof (Hh st m o1 o2) as Hc. destruct (cb st m o1 o2) as [[st' m'] s].
        destruct Hc as [-> Hs]. destruct s.
        * repeat split; try lia; try discriminate.
          intros _ a b Hp. specialize (Hf a b Hp). specialize (Hs eq_refl). lia.
        * specialize (IH (fun o Ho => Ha o (or_intror Ho)) st' (Z.min m (D o1 o2))).
          destruct (naive_dinner cb st' (Z.min m (D o1 o2)) o1 l) as [[st'' m''] s''].
          destruct IH as (I1 & I2 & I3). repeat split; try lia; auto.
          intros Hs'' o [<-|Ho]; [lia|auto].
      + specialize (IH (fun o Ho => Ha o (or_intror Ho)) st m).
        destruct (naive_dinner cb st m o1 l) as [[st'' m''] s''].
        destruct IH as (I1 & I2 & I3). repeat split; auto.
        intros Hs'' o [<-|Ho]; [|auto]. specialize (Ha o2 (or_introl eq_refl)). lia.
  Qed.

  Lemma naive_dinner_sound {St} (cb : dcallback St) (P : obj -> obj -> Prop) (Inv : St -> Z -> Prop) o1 l :
    (forall s d a b, P a b -> Inv s d -> let '(s', d', _) := cb s d a b in Inv s' d') ->
    (forall o2, In o2 l -> P o1 o2) ->
    forall st m, Inv st m ->
    let '(s', d', _) := naive_dinner cb st m o1 l in Inv s' d'.
  Proof.
    intros Hcb. induction l as [|o2 l IH]; intros Hp st m Hi; cbn; auto.
    destruct (adist (box o1) (box o2) <? m)%Z.
    - pose proof (Hcb st m o1 o2 (Hp o2 (or_introl eq_refl)) Hi) as Hc.
      destruct (cb st m o1 o2) as [[st' m'] s]. destruct s; auto.
      apply IH; auto. intros; apply Hp; right; auto.
    - apply IH; auto. intros; apply Hp; right; auto.
  Qed.

  Lemma naive_douter_min {St} (cb : dcallback St) D floor (P : obj -> obj -> Prop) l :
    honest D floor cb -> (forall a b, P a b -> (floor <= D a b)%Z) ->
    (forall a b, (D a b = D b a)%Z) -> NoDup l ->
    (forall o1 o2, In o1 l -> In o2 l -> (adist (box o1) (box o2) <= D o1 o2)%Z) ->
    forall st m,
    let '(_, m', s) := naive_douter cb st m l in
    (m' <= m)%Z /\
    (s = true -> forall a b, P a b -> (m' <= D a b)%Z) /\
    (s = false -> forall o1 o2, In o1 l -> In o2 l -> o1 <> o2 -> (m' <= D o1 o2)%Z).
  Proof.
    intros Hh Hf Hsym. induction l as [|o1 l IH]; intros Hnd Ha st m; cbn.
    - repeat split; try lia; try discriminate; intros _ o1 o2 [].
    - inversion Hnd; subst.
      pose proof (naive_dinner_min cb D floor P o1 l Hh Hf
        (fun o Ho => Ha o1 o (or_introl eq_refl) (or_intror Ho)) st m) as H.
      destruct (naive_dinner cb st m o1 l) as [[st' m'] s]. destruct H as (A1 & A2 & A3).
      destruct s.
      + repeat split; auto; discriminate.
      + specialize (IH H2 (fun a b Hx Hy => Ha a b (or_intror Hx) (or_intror Hy)) st' m').
        destruct (naive_douter cb st' m' l) as [[st'' m''] s''].
        destruct IH as (I1 & I2 & I3). repeat split; try lia; auto.
        intros Hs'' a b [->|Hx] [->|Hy] Hne; try congruence.
        * specialize (A3 eq_refl b Hy). lia.
        * specialize (A3 eq_refl a Hx). rewrite (Hsym a b). lia.
        * auto.
  Qed.

  Lemma naive_douter_sound {St} (cb : dcallback St) (P : obj -> obj -> Prop) (Inv : St -> Z -> Prop) l :
    (forall s d a b, P a b -> Inv s d -> let '(s', d', _) := cb s d a b in Inv s' d') ->
    NoDup l ->
    (forall o1 o2, In o1 l -> In o2 l -> o1 <> o2 -> P o1 o2) ->
    forall st m, Inv st m ->
    let '(s', d', _) := naive_douter cb st m l in Inv s' d'.
  Proof.
    intros Hcb. induction l as [|o1 l IH]; intros Hnd Hp st m Hi; cbn; auto.
    inversion Hnd; subst.
    pose proof (naive_dinner_sound cb P Inv o1 l Hcb) as H.
    specialize (H ltac:(intros o2 Ho; apply Hp; cbn; auto; intros ->; auto) st m Hi).
    destruct (naive_dinner cb st m o1 l) as [[st' m'] s]. destruct s; auto.
    apply IH; auto. intros; apply Hp; cbn; auto.
  Qed.

  Lemma naive_dcross_min {St} (cb : dcallback St) D floor (P : obj -> obj -> Prop) other l :
    honest D floor cb -> (forall a b, P a b -> (floor <= D a b)%Z) ->
    (forall o1 o2, In o1 l -> In o2 other -> (adist (box o1) (box o2) <= D o1 o2)%Z) ->
    forall st m,
    let '(_, m', s) := naive_dcross cb st m other l in
    (m' <= m)%Z /\
    (s = true -> forall a b, P a b -> (m' <= D a b)%Z) /\
    (s = false -> forall o1 o2, In o1 l -> In o2 other -> (m' <= D o1 o2)%Z).
  Proof.
    intros Hh Hf. induction l as [|o1 l IH]; intros Ha st m; cbn.
    - repeat split; try lia; try discriminate; intros _ o1 o2 [].
    - pose proof (naive_dinner_min cb D floor P o1 other Hh Hf
        (fun o Ho => Ha o1 o (or_introl eq_refl) Ho) st m) as H.
      destruct (naive_dinner cb st m o1 other) as [[st' m'] s]. destruct H as (A1 & A2 & A3).
      destruct s.
      + repeat split; auto; discriminate.
      + specialize (IH (fun a b Hx Hy => Ha a b (or_intror Hx) Hy) st' m').
        destruct (naive_dcross cb st' m' other l) as [[st'' m''] s''].
        destruct IH as (I1 & I2 & I3). repeat split; try lia; auto.
        intros Hs'' a b [->|Hx] Hy; [|auto].
        specialize (A3 eq_refl b Hy). lia.
  Qed.

  Lemma naive_dcross_sound {St} (cb : dcallback St) (P : obj -> obj -> Prop) (Inv : St -> Z -> Prop) other l :
    (forall s d a b, P a b -> Inv s d -> let '(s', d', _) := cb s d a b in Inv s' d') ->
    (forall o1 o2, In o1 l -> In o2 other -> P o1 o2) ->
    forall st m, Inv st m ->
    let '(s', d', _) := naive_dcross cb st m other l in Inv s' d'.
  Proof.
    intros Hcb. induction l as [|o1 l IH]; intros Hp st m Hi; cbn; auto.
    pose proof (naive_dinner_sound cb P Inv o1 other Hcb) as H.
    specialize (H ltac:(intros o2 Ho; apply Hp; cbn; auto) st m Hi).
    destruct (naive_dinner cb st m o1 other) as [[st' m'] s]. destruct s; auto.
    apply IH; auto. intros; apply Hp; cbn; auto.
  Qed.

  (** ** Nothing is called after a stop *)

  Lemma naive_dinner_stops o1 l : dstops (fun St cb st m => naive_dinner cb st m o1 l).
  Proof.
    intros St cb. induction l as [|o2 l IH]; intros st m log Hl; cbn [naive_dinner].
    - apply stopped_clean; auto.
    - destruct (adist (box o1) (box o2) <? m)%Z; [|apply IH; auto].
      pose proof (stopped_call cb st log m o1 o2 Hl) as H.
      destruct (dlogging cb (st, log) m o1 o2) as [[[st' log'] m'] s].
      destruct s; auto. apply IH. eapply stopped_inv; eauto.
  Qed.

  Lemma naive_douter_stops l : dstops (fun St cb st m => naive_douter cb st m l).
  Proof.
    intros St cb. induction l as [|o1 l IH]; intros st m log Hl; cbn [naive_douter].
    - apply stopped_clean; auto.
    - pose proof (naive_dinner_stops o1 l St cb st m log Hl) as H.
      destruct (naive_dinner (dlogging cb) (st, log) m o1 l) as [[[st' log'] m'] s].
      destruct s; auto. apply IH. eapply stopped_inv; eauto.
  Qed.

  Lemma naive_dcross_stops other l : dstops (fun St cb st m => naive_dcross cb st m other l).
  Proof.
    intros St cb. induction l as [|o1 l IH]; intros st m log Hl; cbn [naive_dcross].
    - apply stopped_clean; auto.
    - pose proof (naive_dinner_stops o1 other St cb st m log Hl) as H.
      destruct (naive_dinner (dlogging cb) (st, log) m o1 other) as [[[st' log'] m'] s].
      destruct s; auto. apply IH. eapply stopped_inv; eauto.
  Qed.

  Lemma naive_distance_stops_all m other o :
    dstops (naive_dist_obj m o) /\ dstops (naive_dist_self m) /\ dstops (naive_dist_other m other).
  Proof.
    split; [|split]; intros St cb st M log Hl;
      unfold naive_dist_obj, naive_dist_self, naive_dist_other;
      match goal with |- context [if ?b then _ else _] => destruct b end;
      try (apply stopped_clean; auto).
    - apply naive_dinner_stops; auto.
    - apply naive_douter_stops; auto.
    - apply naive_dcross_stops; auto.
  Qed.
End Queries.

(** An honest callback's minimum is the starting value or some visited distance. *)
Lemma honest_source (Q : dquery) P D M : dsound Q P ->
  forall St (cb : dcallback St) st floor, honest D floor cb ->
  let '(_, m, _) := Q St cb st M in m = M \/ exists a b, P a b /\ m = D a b.
Proof.
  intros Hs St cb st floor Hh.
  specialize (Hs St cb (fun _ m => m = M \/ exists a b, P a b /\ m = D a b) st M).
  cbn beta in Hs. destruct (Q St cb st M) as [[st1 m] stp]. apply Hs; auto.
  intros u d a b Hp Hd. specialize (Hh u d a b). destruct (cb u d a b) as [[u' d'] ?].
  destruct Hh as [-> _]. destruct (Z.min_spec d (D a b)) as [[_ ->]|[_ ->]]; eauto.
Qed.

Lemma naive_dist_obj_sound box adist m o :
  dsound (naive_dist_obj box adist m o) (fun a b => a = o /\ In b m).
Proof.
  intros St cb Inv st M Hcb Hi. unfold naive_dist_obj.
  destruct (Nat.eqb (naive_size m) 0); auto.
  apply (naive_dinner_sound box adist cb (fun a b => a = o /\ In b m) Inv); auto.
Qed.

Lemma naive_dist_self_sound box adist m : NoDup m ->
  dsound (naive_dist_self box adist m) (fun a b => In a m /\ In b m /\ a <> b).
Proof.
  intros Hnd St cb Inv st M Hcb Hi. unfold naive_dist_self.
  destruct (Nat.eqb (naive_size m) 0); auto.
  apply (naive_douter_sound box adist cb (fun a b => In a m /\ In b m /\ a <> b) Inv); auto.
Qed.

Lemma naive_dist_obj_min box adist m o M D :
  (forall o2, In o2 m -> (adist (box o) (box o2) <= D o o2)%Z) ->
  finds_min (naive_dist_obj box adist m o) M (fun a b => a = o /\ In b m) D.
Proof.
  intros Ha St cb st floor Hh Hf.
  pose proof (honest_source _ _ D M (naive_dist_obj_sound box adist m o) St cb st floor Hh) as Hsrc.
  unfold naive_dist_obj in *. destruct m as [|x m].
  - cbn in *. split; [|auto]. intros a b [_ []].
  - cbn [naive_size length Nat.eqb] in *.
    pose proof (naive_dinner_min box adist cb D floor _ o (x :: m) Hh Hf Ha st M) as H.
    destruct (naive_dinner box adist cb st M o (x :: m)) as [[s' m'] stop].
    destruct H as (_ & H1 & H2). split; auto.
    intros a b Hp. destruct stop; [auto|]. destruct Hp as [-> Hb]. auto.
Qed.

Lemma naive_dist_self_min box adist m M D : NoDup m ->
  (forall a b, D a b = D b a) ->
  (forall a b, In a m -> In b m -> (adist (box a) (box b) <= D a b)%Z) ->
  finds_min (naive_dist_self box adist m) M (fun a b => In a m /\ In b m /\ a <> b) D.
Proof.
  intros Hnd Hsym Ha St cb st floor Hh Hf.
  pose proof (honest_source _ _ D M (naive_dist_self_sound box adist m Hnd) St cb st floor Hh) as Hsrc.
  unfold naive_dist_self in *. destruct m as [|x m].
  - cbn in *. split; [|auto]. intros a b [[] _].
  - cbn [naive_size length Nat.eqb] in *.
    pose proof (naive_douter_min box adist cb D floor _ (x :: m) Hh Hf Hsym Hnd Ha st M) as H.
    destruct (naive_douter box adist cb st M (x :: m)) as [[s' m'] stop].
    destruct H as (_ & H1 & H2). split; auto.
    intros a b Hp. destruct stop; [auto|]. destruct Hp as (? & ? & ?). auto.
Qed.

Lemma naive_dist_other_sound box adist m other :
  dsound (naive_dist_other box adist m other) (fun a b => In a m /\ In b other).
Proof.
  intros St cb Inv st M Hcb Hi. unfold naive_dist_other.
  destruct (_ || _); auto.
  apply (naive_dcross_sound box adist cb (fun a b => In a m /\ In b other) Inv); auto.
Qed.

Lemma naive_dist_other_min box adist m other M D :
  (forall a b, In a m -> In b other -> (adist (box a) (box b) <= D a b)%Z) ->
  finds_min (naive_dist_other box adist m other) M (fun a b => In a m /\ In b other) D.
Proof.
  intros Ha St cb st floor Hh Hf.
  pose proof (honest_source _ _ D M (naive_dist_other_sound box adist m other) St cb st floor Hh) as Hsrc.
  unfold naive_dist_other in *.
  destruct m as [|x m]; [|destruct other as [|y other]].
  - cbn in *. split; [|auto]. intros a b [[] _].
  - cbn in *. split; [|auto]. intros a b [_ []].
  - cbn [naive_size length Nat.eqb orb] in *.
    pose proof (naive_dcross_min box adist cb D floor _ (y :: other) (x :: m) Hh Hf Ha st M) as H.
    destruct (naive_dcross box adist cb st M (y :: other) (x :: m)) as [[s' m'] stop].
    destruct H as (_ & H1 & H2). split; auto.
    intros a b Hp. destruct stop; [auto|]. destruct Hp as (? & ?). auto.
Qed.

(** ** Container behaviour *)

(** What the manager should hold: the multiset as a list, independent of order. *)
Fixpoint spec_objs (ops : list nop) (acc : list obj) : list obj :=
  match ops with
  | [] => acc
  | NReg x :: r => spec_objs r (x :: acc)
  | NRegs xs :: r => spec_objs r (xs ++ acc)
  | NUnreg x :: r => spec_objs r (remove Nat.eq_dec x acc)
  | NClear :: r => spec_objs r []
  | _ :: r => spec_objs r acc
  end.

Lemma remove_filter x l : remove Nat.eq_dec x l = filter (fun y => negb (Nat.eqb y x)) l.
Proof.
  induction l as [|y l IH]; cbn; auto.
  destruct (Nat.eq_dec x y) as [->|]; [rewrite Nat.eqb_refl|].
  - cbn; auto.
  - destruct (Nat.eqb_spec y x); [congruence|]. cbn; congruence.
Qed.

Lemma filter_perm {A} (f : A -> bool) l l' : Permutation l l' -> Permutation (filter f l) (filter f l').
Proof.
  induction 1; cbn; auto.
  - destruct (f x); auto.
  - destruct (f x), (f y); auto. constructor.
  - etransitivity; eauto.
Qed.

Lemma naive_container ops m acc : Permutation m acc ->
  Permutation (fold_left naive_step ops m) (spec_objs ops acc).
Proof.
  revert m acc; induction ops as [|o ops IH]; intros m acc H; cbn; auto.
  destruct o; cbn; apply IH; auto.
  - rewrite Permutation_app_comm. cbn. auto.
  - rewrite Permutation_app_comm. apply Permutation_app_head; auto.
  - rewrite remove_filter. apply filter_perm; auto.
Qed.
