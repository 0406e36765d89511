(** Distance queries that may fail to return: [None] is "still running when the fuel ran
    out".  The vocabulary mirrors the one for total queries in Broadphase.v, QueryComb.v. *)
From Coq Require Import ZArith List Bool Lia Permutation.
From Verif Require Import Broadphase QueryComb.
Import ListNotations.

Definition odquery := forall St : Type, dcallback St -> St -> Z -> option (St * Z * bool).

(** If the query returns, it found the minimum of [D] over [P]. *)
Definition ofinds_min (Q : odquery) (M : Z) (P : obj -> obj -> Prop) (D : obj -> obj -> Z) : Prop :=
  forall St (cb : dcallback St) st floor,
    honest D floor cb ->
    (forall a b, P a b -> (floor <= D a b)%Z) ->
    match Q St cb st M with
    | None => True
    | Some (_, m, _) =>
        (forall a b, P a b -> (m <= D a b)%Z) /\ (m = M \/ exists a b, P a b /\ m = D a b)
    end.
(** Each pair called back is in [P]. *)
Definition odsound (Q : odquery) (P : obj -> obj -> Prop) : Prop :=
  forall St (cb : dcallback St) (Inv : St -> Z -> Prop) st m,
    (forall s d a b, P a b -> Inv s d -> let '(s', d', _) := cb s d a b in Inv s' d') ->
    Inv st m ->
    match Q St cb st m with None => True | Some (s', d', _) => Inv s' d' end.
(** No call is made after one that answered true. *)
Definition odstops (Q : odquery) : Prop :=
  forall St (cb : dcallback St) st m log, clean log ->
    match Q _ (dlogging cb) (st, log) m with
    | None => True
    | Some ((_, log'), _, s) => stopped s log'
    end.

Definition oskip : odquery := fun _ _ st m => Some (st, m, false).
Definition olift (Q : dquery) : odquery := fun St cb st m => Some (Q St cb st m).
Definition oseq (P Q : odquery) : odquery := fun St cb st m =>
  match P St cb st m with
  | None => None
  | Some (st', m', s) => if s then Some (st', m', true) else Q St cb st' m'
  end.
(** [for(x : l) if(Q(x)) return;] *)
Definition oeach {A} (Q : A -> odquery) (l : list A) : odquery := fold_right (fun x r => oseq (Q x) r) oskip l.

Definition ocovers (Q : odquery) (floor : Z) (P : obj -> obj -> Prop) (D : obj -> obj -> Z) : Prop :=
  forall St (cb : dcallback St) st m, honest D floor cb ->
    match Q St cb st m with
    | None => True
    | Some (_, m', s) =>
      (m' <= m)%Z /\ (m' = m \/ exists a b, P a b /\ m' = D a b) /\
      (s = true -> (m' <= floor)%Z) /\
      (s = false -> forall a b, P a b -> (m' <= D a b)%Z)
    end.

Lemma ocovers_lift Q floor P D : covers Q floor P D -> ocovers (olift Q) floor P D.
Proof. intros H St cb st m Hh. exact (H St cb st m Hh). Qed.
Lemma ocovers_seq floor Q1 Q2 (P1 P2 P : obj -> obj -> Prop) D :
  (forall a b, P a b <-> P1 a b \/ P2 a b) ->
  ocovers Q1 floor P1 D -> ocovers Q2 floor P2 D -> ocovers (oseq Q1 Q2) floor P D.
Proof.
  intros HP H1 H2 St cb st m Hh. unfold oseq. specialize (H1 St cb st m Hh).
  destruct (Q1 St cb st m) as [[[st1 m1] [|]]|]; auto; destruct H1 as (A & B & C & E).
  - split; auto. split; [|split; [auto|discriminate]].
    destruct B as [->|(a & b & Hab & ->)]; auto. right. exists a, b. split; auto. apply HP; auto.
  - specialize (H2 St cb st1 m1 Hh).
    destruct (Q2 St cb st1 m1) as [[[st2 m2] s2]|]; auto. destruct H2 as (A2 & B2 & C2 & E2).
    split; [lia|]. split.
    + destruct B2 as [->|(a & b & Hab & ->)].
      * destruct B as [->|(a & b & Hab & ->)]; auto. right; exists a, b; split; auto. apply HP; auto.
      * right; exists a, b; split; auto. apply HP; auto.
    + split; auto. intros Hs a b Hp. apply HP in Hp as [Hp|Hp]; auto.
      specialize (E eq_refl a b Hp). lia.
Qed.
Lemma ocovers_each {A} (Q : A -> odquery) floor (P : A -> obj -> obj -> Prop) D l :
  (forall x, In x l -> ocovers (Q x) floor (P x) D) ->
  ocovers (oeach Q l) floor (fun a b => exists x, In x l /\ P x a b) D.
Proof.
  induction l as [|x l IH]; intros H; cbn [oeach fold_right].
  - apply ocovers_lift with (Q := dskip). apply covers_skip. intros a b (x & [] & _).
  - eapply ocovers_seq; [|apply H; left; reflexivity|apply IH; intros y Hy; apply H; right; auto].
    intros a b. split.
    + intros (y & [<-|Hy] & Hp); eauto.
    + intros [Hp|(y & Hy & Hp)]; [exists x|exists y]; cbn; auto.
Qed.
Lemma ocovers_ext floor Q (P P' : obj -> obj -> Prop) D :
  (forall a b, P a b <-> P' a b) -> ocovers Q floor P D -> ocovers Q floor P' D.
Proof.
  intros HP H St cb st m Hh. specialize (H St cb st m Hh).
  destruct (Q St cb st m) as [[[st' m'] s]|]; auto. destruct H as (A & B & C & E).
  split; auto. split; [|split; auto].
  - destruct B as [|(a & b & Hab & ->)]; auto. right; exists a, b; split; auto. apply HP; auto.
  - intros Hs a b Hp. apply E; auto. apply HP; auto.
Qed.
Lemma ocovers_finds_min Q M (P P' : obj -> obj -> Prop) D :
  (forall a b, P' a b -> exists a' b', P a' b' /\ D a' b' = D a b) -> (forall a b, P a b -> P' a b) ->
  (forall floor, ocovers Q floor P D) -> ofinds_min Q M P' D.
Proof.
  intros H1 H2 H St cb st floor Hh Hf. specialize (H floor St cb st M Hh).
  destruct (Q St cb st M) as [[[st' m'] s]|]; auto. destruct H as (A & B & C & E). split.
  - intros a b Hp. destruct s.
    + specialize (C eq_refl). specialize (Hf a b Hp). lia.
    + destruct (H1 a b Hp) as (a' & b' & Hab & <-). apply E; auto.
  - destruct B as [|(a & b & Hab & ->)]; auto. right. exists a, b; auto.
Qed.

Lemma odsound_lift P Q : dsound Q P -> odsound (olift Q) P.
Proof. intros H St cb Inv st m Hcb Hi. exact (H St cb Inv st m Hcb Hi). Qed.
Lemma odsound_seq P Q1 Q2 : odsound Q1 P -> odsound Q2 P -> odsound (oseq Q1 Q2) P.
Proof.
  intros H1 H2 St cb Inv st m Hcb H. unfold oseq. specialize (H1 St cb Inv st m Hcb H).
  destruct (Q1 St cb st m) as [[[st' m'] [|]]|]; auto. apply (H2 St cb Inv); auto.
Qed.
Lemma odsound_imp (P P' : obj -> obj -> Prop) Q : (forall a b, P a b -> P' a b) -> odsound Q P -> odsound Q P'.
Proof.
  intros HP H St cb Inv st m Hcb Hi. apply (H St cb Inv); auto.
  intros s d a b Hp Hs. exact (Hcb s d a b (HP _ _ Hp) Hs).
Qed.
Lemma odsound_each {A} (Q : A -> odquery) P l : (forall x, In x l -> odsound (Q x) P) -> odsound (oeach Q l) P.
Proof.
  induction l as [|x l IH]; intros H; cbn [oeach fold_right].
  - apply (odsound_lift P dskip), dsound_skip.
  - apply odsound_seq; [apply H; left; auto|apply IH; intros y Hy; apply H; right; auto].
Qed.

Lemma odstops_lift Q : dstops Q -> odstops (olift Q).
Proof. intros H St cb st m log Hc. exact (H St cb st m log Hc). Qed.
Lemma odstops_seq Q1 Q2 : odstops Q1 -> odstops Q2 -> odstops (oseq Q1 Q2).
Proof.
  intros H1 H2 St cb st m log H. unfold oseq. specialize (H1 St cb st m log H).
  destruct (Q1 _ (dlogging cb) (st, log) m) as [[[[st' log'] m'] [|]]|]; auto.
  apply (H2 St cb st' m' log'). eapply stopped_inv; eauto.
Qed.
Lemma odstops_each {A} (Q : A -> odquery) l : (forall x, odstops (Q x)) -> odstops (oeach Q l).
Proof.
  intros H. induction l as [|x l IH]; cbn [oeach fold_right]; [apply (odstops_lift dskip), dstops_skip|].
  apply odstops_seq; auto.
Qed.
