(** Building blocks for queries: one call, sequencing with early stop, guards.
    [if (f()) return true; if (g()) return true; return false;] is [cseq f g]. *)
From Coq Require Import ZArith List Bool Lia Permutation.
From Verif Require Import Broadphase.
Import ListNotations.

Definition cskip : query := fun _ _ st => (st, false).
Definition ccall (a b : obj) : query := fun _ cb st => cb st a b.
Definition cseq (P Q : query) : query := fun St cb st =>
  let (st', s) := P St cb st in if s then (st', true) else Q St cb st'.
Definition cwhen (c : bool) (Q : query) : query := if c then Q else cskip.

(** [Q] calls the callback on the list [l] until it asks to stop. *)
Definition plays (Q : query) (l : list (obj * obj)) : Prop :=
  forall St (cb : ccallback St) st, Q St cb st = run cb st l.

Lemma plays_skip : plays cskip [].
Proof. intros St cb st; reflexivity. Qed.
Lemma plays_call a b : plays (ccall a b) [(a, b)].
Proof. intros St cb st; cbn. unfold ccall. destruct (cb st a b) as [st' [|]]; reflexivity. Qed.
Lemma plays_seq P Q l1 l2 : plays P l1 -> plays Q l2 -> plays (cseq P Q) (l1 ++ l2).
Proof.
  intros HP HQ St cb st. unfold cseq. rewrite HP, run_app.
  destruct (run cb st l1) as [st' [|]]; auto.
Qed.
Lemma plays_when c Q l : plays Q l -> plays (cwhen c Q) (if c then l else []).
Proof. destruct c; auto using plays_skip. Qed.

Lemma plays_calls Q l : plays Q l -> calls Q = l /\ replays Q.
Proof. apply replays_of_list. Qed.

(** Distance queries. *)
Definition dskip : dquery := fun _ _ st m => (st, m, false).
Definition dcall (a b : obj) : dquery := fun _ cb st m => cb st m a b.
Definition dseq (P Q : dquery) : dquery := fun St cb st m =>
  let '(st', m', s) := P St cb st m in if s then (st', m', true) else Q St cb st' m'.
(** [if(d < min_dist) Q] *)
Definition dprune (d : Z) (Q : dquery) : dquery := fun St cb st m =>
  if (d <? m)%Z then Q St cb st m else (st, m, false).

(** What a part of a distance query achieves on the pairs in [P]. *)
Definition covers (Q : dquery) (floor : Z) (P : obj -> obj -> Prop) (D : obj -> obj -> Z) : Prop :=
  forall St (cb : dcallback St) st m, honest D floor cb ->
    let '(_, m', s) := Q St cb st m in
    (m' <= m)%Z /\ (m' = m \/ exists a b, P a b /\ m' = D a b) /\
    (s = true -> (m' <= floor)%Z) /\
    (s = false -> forall a b, P a b -> (m' <= D a b)%Z).

Lemma covers_skip floor (P : obj -> obj -> Prop) D : (forall a b, ~ P a b) -> covers dskip floor P D.
Proof.
  intros H St cb st m _. cbn. split; [lia|]. split; auto. split; [discriminate|].
  intros _ a b Hp. destruct (H _ _ Hp).
Qed.
Lemma covers_call floor a b D : covers (dcall a b) floor (fun x y => x = a /\ y = b) D.
Proof.
  intros St cb st m H. unfold dcall. specialize (H st m a b).
  destruct (cb st m a b) as [[st' m'] s]. destruct H as [-> Hs].
  split; [lia|]. split.
  - destruct (Z.min_spec m (D a b)) as [[_ ->]|[_ ->]]; [left; auto|right; eauto].
  - split; auto. intros _ x y [-> ->]. lia.
Qed.
Lemma covers_seq floor Q1 Q2 (P1 P2 P : obj -> obj -> Prop) D :
  (forall a b, P a b <-> P1 a b \/ P2 a b) ->
  covers Q1 floor P1 D -> covers Q2 floor P2 D -> covers (dseq Q1 Q2) floor P D.
Proof.
  intros HP H1 H2 St cb st m Hh. unfold dseq. specialize (H1 St cb st m Hh).
  destruct (Q1 St cb st m) as [[st1 m1] [|]]; destruct H1 as (A & B & C & E).
  - split; auto. split; [|split; [auto|discriminate]].
    destruct B as [->|(a & b & Hab & ->)]; auto. right. exists a, b. split; auto. apply HP; auto.
  - specialize (H2 St cb st1 m1 Hh).
    destruct (Q2 St cb st1 m1) as [[st2 m2] s2]. destruct H2 as (A2 & B2 & C2 & E2).
    split; [lia|]. split.
    + destruct B2 as [->|(a & b & Hab & ->)].
      * destruct B as [->|(a & b & Hab & ->)]; auto. right; exists a, b; split; auto. apply HP; auto.
      * right; exists a, b; split; auto. apply HP; auto.
    + split; auto. intros Hs a b Hp. apply HP in Hp as [Hp|Hp]; auto.
      specialize (E eq_refl a b Hp). lia.
Qed.
Lemma covers_prune floor d Q (P : obj -> obj -> Prop) D :
  (forall a b, P a b -> (d <= D a b)%Z) -> covers Q floor P D -> covers (dprune d Q) floor P D.
Proof.
  intros Hd H St cb st m Hh. unfold dprune. destruct (Z.ltb_spec d m) as [L|L].
  - apply H; auto.
  - split; [lia|]. split; auto. split; [discriminate|]. intros _ a b Hp. specialize (Hd a b Hp). lia.
Qed.
Lemma covers_ext floor Q (P P' : obj -> obj -> Prop) D :
  (forall a b, P a b <-> P' a b) -> covers Q floor P D -> covers Q floor P' D.
Proof.
  intros HP H St cb st m Hh. specialize (H St cb st m Hh).
  destruct (Q St cb st m) as [[st' m'] s]. destruct H as (A & B & C & E).
  split; auto. split; [|split; auto].
  - destruct B as [|(a & b & Hab & ->)]; auto. right; exists a, b; split; auto. apply HP; auto.
  - intros Hs a b Hp. apply E; auto. apply HP; auto.
Qed.
Lemma covers_finds_min Q M (P : obj -> obj -> Prop) D :
  (forall floor, covers Q floor P D) -> finds_min Q M P D.
Proof.
  intros H St cb st floor Hh Hf. specialize (H floor St cb st M Hh).
  destruct (Q St cb st M) as [[st' m'] s]. destruct H as (A & B & C & E). split; auto.
  intros a b Hp. destruct s; auto. specialize (C eq_refl). specialize (Hf a b Hp). lia.
Qed.
(** For self queries the callback sees one order of each pair. *)
Lemma covers_finds_min_sym Q M (P P' : obj -> obj -> Prop) D :
  (forall a b, D a b = D b a) -> (forall a b, P' a b -> P a b \/ P b a) -> (forall a b, P a b -> P' a b) ->
  (forall floor, covers Q floor P D) -> finds_min Q M P' D.
Proof.
  intros HD H1 H2 H St cb st floor Hh Hf. specialize (H floor St cb st M Hh).
  destruct (Q St cb st M) as [[st' m'] s]. destruct H as (A & B & C & E). split.
  - intros a b Hp. destruct s.
    + specialize (C eq_refl). specialize (Hf a b Hp). lia.
    + destruct (H1 a b Hp) as [Hab|Hab]; [apply E; auto|]. rewrite HD. apply E; auto.
  - destruct B as [|(a & b & Hab & ->)]; auto. right. exists a, b; auto.
Qed.

Lemma dsound_skip P : dsound dskip P.
Proof. intros St cb Inv st m _ H; exact H. Qed.
Lemma dsound_call (P : obj -> obj -> Prop) a b : P a b -> dsound (dcall a b) P.
Proof. intros Hp St cb Inv st m Hcb H. unfold dcall. exact (Hcb st m a b Hp H). Qed.
Lemma dsound_seq P Q1 Q2 : dsound Q1 P -> dsound Q2 P -> dsound (dseq Q1 Q2) P.
Proof.
  intros H1 H2 St cb Inv st m Hcb H. unfold dseq. specialize (H1 St cb Inv st m Hcb H).
  destruct (Q1 St cb st m) as [[st' m'] [|]]; auto. apply (H2 St cb Inv); auto.
Qed.
Lemma dsound_prune P d Q : dsound Q P -> dsound (dprune d Q) P.
Proof. intros H St cb Inv st m Hcb Hi. unfold dprune. destruct (d <? m)%Z; auto. apply (H St cb Inv); auto. Qed.
Lemma dsound_imp (P P' : obj -> obj -> Prop) Q : (forall a b, P a b -> P' a b) -> dsound Q P -> dsound Q P'.
Proof.
  intros HP H St cb Inv st m Hcb Hi. apply (H St cb Inv); auto.
  intros s d a b Hp Hs. exact (Hcb s d a b (HP _ _ Hp) Hs).
Qed.

Lemma dstops_skip : dstops dskip.
Proof. intros St cb st m log H. apply stopped_clean; auto. Qed.
Lemma dstops_call a b : dstops (dcall a b).
Proof. intros St cb st m log H. unfold dcall. apply stopped_call; auto. Qed.
Lemma dstops_seq Q1 Q2 : dstops Q1 -> dstops Q2 -> dstops (dseq Q1 Q2).
Proof.
  intros H1 H2 St cb st m log H. unfold dseq. specialize (H1 St cb st m log H).
  destruct (Q1 _ (dlogging cb) (st, log) m) as [[[st' log'] m'] [|]]; auto.
  apply (H2 St cb st' m' log'). eapply stopped_inv; eauto.
Qed.
Lemma dstops_prune d Q : dstops Q -> dstops (dprune d Q).
Proof.
  intros HQ St cb st m log H. unfold dprune. destruct (d <? m)%Z.
  - apply (HQ St cb st m log H).
  - apply stopped_clean; auto.
Qed.

(** [for(x : l) if(Q(x)) return;] *)
Definition ceach {A} (Q : A -> query) (l : list A) : query := fold_right (fun x r => cseq (Q x) r) cskip l.
Lemma plays_each {A} (Q : A -> query) (p : A -> list (obj * obj)) l :
  (forall x, In x l -> plays (Q x) (p x)) -> plays (ceach Q l) (flat_map p l).
Proof.
  induction l as [|x l IH]; intros H; cbn [ceach fold_right flat_map]; [apply plays_skip|].
  apply plays_seq; [apply H; left; auto|apply IH; intros y Hy; apply H; right; auto].
Qed.
Definition deach {A} (Q : A -> dquery) (l : list A) : dquery := fold_right (fun x r => dseq (Q x) r) dskip l.
Lemma covers_each {A} (Q : A -> dquery) floor (P : A -> obj -> obj -> Prop) D l :
  (forall x, In x l -> covers (Q x) floor (P x) D) ->
  covers (deach Q l) floor (fun a b => exists x, In x l /\ P x a b) D.
Proof.
  induction l as [|x l IH]; intros H; cbn [deach fold_right].
  - apply covers_skip. intros a b (x & [] & _).
  - eapply covers_seq; [|apply H; left; reflexivity|apply IH; intros y Hy; apply H; right; auto].
    intros a b. split.
    + intros (y & [<-|Hy] & Hp); eauto.
    + intros [Hp|(y & Hy & Hp)]; [exists x|exists y]; cbn; auto.
Qed.
Lemma dsound_each {A} (Q : A -> dquery) P l : (forall x, In x l -> dsound (Q x) P) -> dsound (deach Q l) P.
Proof.
  induction l as [|x l IH]; intros H; cbn [deach fold_right]; [apply dsound_skip|].
  apply dsound_seq; [apply H; left; auto|apply IH; intros y Hy; apply H; right; auto].
Qed.
Lemma dstops_each {A} (Q : A -> dquery) l : (forall x, In x l -> dstops (Q x)) -> dstops (deach Q l).
Proof.
  induction l as [|x l IH]; intros H; cbn [deach fold_right]; [apply dstops_skip|].
  apply dstops_seq; [apply H; left; auto|apply IH; intros y Hy; apply H; right; auto].
Qed.
