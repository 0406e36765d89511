(** C05 and C64 for the distance queries of the SaP, interval-tree and spatial-hash managers. *)
From Coq Require Import ZArith List Bool Lia Permutation Arith Sorted.
From Verif Require Import AabbZ Broadphase QueryComb QueryOpt SortSearch IntervalTree P_IntervalTree SSaP P_SSaP SpatialHash P_SpatialHash
  IntervalManager P_IntervalManager SaP P_SaP ExpandDist.
Import ListNotations.
Local Open Scope Z_scope.

(** ** The queries *)

Section Queries.
  Variable box : obj -> aabb.
  Variable adist : aabb -> aabb -> Z.   (* AABB<S>::distance *)
  Variable M : Z.                       (* numeric_limits<S>::max() *)

  (** SaPCollisionManager, broadphase_SaP-inl.h:650-766 (obj), 784-803 (self), 837-872 (other). *)
  Definition p_search (s : sap) (fuel : nat) (os : list obj) (T : tset) : odquery :=
    xquery box (fun a o => adist (p_cached s a) (box o)) M false (fun q => Some (p_candidates s q)) fuel os T.
  Definition p_dist_obj fuel (s : sap) (o : obj) : odquery :=
    if Nat.eqb (p_size s) 0 then oskip else p_search s fuel [o] None.
  Definition p_dist_self fuel (s : sap) : odquery :=
    if Nat.eqb (p_size s) 0 then oskip else p_search s fuel (p_arr s) (Some []).
  Definition p_dist_other fuel (s other : sap) : odquery :=
    if Nat.eqb (p_size s) 0 || Nat.eqb (p_size other) 0 then oskip
    else if Nat.ltb (p_size s) (p_size other) then p_search other fuel (p_arr s) None
    else p_search s fuel (p_arr other) None.

  (** IntervalTreeCollisionManager, broadphase_interval_tree-inl.h:419-515, 575-589, 620-645.  The
      self and cross queries run over the endpoints, so over every object twice. *)
  Definition m_search MX (m : iman) (fuel : nat) (os : list obj) (T : tset) : odquery :=
    xquery box (fun a o => adist (box a) (box o)) M false (candidates MX m) fuel os T.
  Definition m_dist_obj MX fuel (m : iman) (o : obj) : odquery :=
    if Nat.eqb (im_size m) 0 then oskip else m_search MX m fuel [o] None.
  Definition m_dist_self MX fuel (m : iman) : odquery :=
    if Nat.eqb (im_size m) 0 then oskip else m_search MX m fuel (map e_obj (iep m 0%nat)) (Some []).
  Definition m_dist_other MX fuel (m other : iman) : odquery :=
    if Nat.eqb (im_size m) 0 || Nat.eqb (im_size other) 0 then oskip
    else if Nat.ltb (im_size m) (im_size other) then m_search MX other fuel (map e_obj (iep m 0%nat)) None
    else m_search MX m fuel (map e_obj (iep other 0%nat)) None.

  (** SpatialHashingCollisionManager, broadphase_spatialhash-inl.h:309-315, 374-455, 520-540, 576-601. *)
  Definition h_search g idx (m : shm) (fuel : nat) (os : list obj) (T : tset) : odquery :=
    xquery box (fun a o => adist (box o) (box a)) M true (fun q => Some (h_candidates g idx q m)) fuel os T.
  Definition h_dist_obj g idx fuel (m : shm) (o : obj) : odquery :=
    if Nat.eqb (h_size m) 0 then oskip else h_search g idx m fuel [o] None.
  Definition h_dist_self g idx fuel (m : shm) : odquery :=
    if Nat.eqb (h_size m) 0 then oskip else h_search g idx m fuel (h_objs m) (Some []).
  Definition h_dist_other g idx fuel (m other : shm) : odquery :=
    if Nat.eqb (h_size m) 0 || Nat.eqb (h_size other) 0 then oskip
    else if Nat.ltb (h_size m) (h_size other) then h_search g idx other fuel (h_objs m) None
    else h_search g idx m fuel (h_objs other) None.
End Queries.

(** ** C05: a callback that answers true is the last one called *)

Ltac stops := repeat split; unfold p_dist_obj, p_dist_self, p_dist_other, m_dist_obj, m_dist_self, m_dist_other,
    h_dist_obj, h_dist_self, h_dist_other;
  repeat match goal with |- context [if ?c then _ else _] => destruct c end;
  first [apply (odstops_lift dskip), dstops_skip | apply xquery_stops].
Theorem sap_distance_stop_is_final : forall box adist M fuel s s2 o,
  odstops (p_dist_obj box adist M fuel s o) /\ odstops (p_dist_self box adist M fuel s) /\
  odstops (p_dist_other box adist M fuel s s2).
Proof. intros. stops. Qed.
Print Assumptions sap_distance_stop_is_final.
Theorem im_distance_stop_is_final : forall box adist M MX fuel m m2 o,
  odstops (m_dist_obj box adist M MX fuel m o) /\ odstops (m_dist_self box adist M MX fuel m) /\
  odstops (m_dist_other box adist M MX fuel m m2).
Proof. intros. stops. Qed.
Print Assumptions im_distance_stop_is_final.
Theorem h_distance_stop_is_final : forall box adist M g idx fuel m m2 o,
  odstops (h_dist_obj box adist M g idx fuel m o) /\ odstops (h_dist_self box adist M g idx fuel m) /\
  odstops (h_dist_other box adist M g idx fuel m m2).
Proof. intros. stops. Qed.
Print Assumptions h_distance_stop_is_final.

(** ** Minimality *)

(** The box distance is no less than the gap on any axis, and not negative. *)
Definition gaps (adist : aabb -> aabb -> Z) : Prop := forall a b, 0 <= adist a b /\ forall i, (i < 3)%nat ->
  coord i (bmin a) - coord i (bmax b) <= adist a b /\ coord i (bmin b) - coord i (bmax a) <= adist a b.

Lemma core_coord b v i : coord i (bmin (core_box b v)) = coord i (bmin b) - coord i v /\
  coord i (bmax (core_box b v)) = coord i (bmax b) + coord i v.
Proof. destruct b as [[? ? ?] [? ? ?]], v as [? ? ?], i as [|[|i]]; cbn; auto. Qed.
Lemma splat_coord r i : coord i (splat r) = r.
Proof. destruct i as [|[|i]]; reflexivity. Qed.
Lemma skip_min M (P : obj -> obj -> Prop) D : (forall a b, ~ P a b) -> ofinds_min oskip M P D /\ odsound oskip P.
Proof.
  intros H. split.
  - intros St cb st floor Hh Hf. cbn. split; auto. intros a b HP. destruct (H a b HP).
  - intros St cb Inv st m Hcb Hi. exact Hi.
Qed.
Lemma ext_min Q M (P P' : obj -> obj -> Prop) D : (forall a b, P a b <-> P' a b) ->
  ofinds_min Q M P D /\ odsound Q P -> ofinds_min Q M P' D /\ odsound Q P'.
Proof.
  intros E [H1 H2]. split.
  - intros St cb st floor Hh Hf. specialize (H1 St cb st floor Hh (fun a b HP => Hf a b (proj1 (E a b) HP))).
    destruct (Q St cb st M) as [[[st' m'] s]|]; auto. destruct H1 as [A B]. split; [intros a b HP; apply A, E; auto|].
    destruct B as [B|(a & b & HP & B)]; auto. right. exists a, b. split; auto. apply E; auto.
  - eapply odsound_imp; [|exact H2]. intros a b. apply E.
Qed.

(** *** SaP *)
Lemma p_search_min box adist M D s x os fuel T : pinv s x -> gaps adist -> (forall a b, D a b = D b a) ->
  (forall a o, In a (ps_regs x) -> In o os -> a <> o -> adist (ps_known x a) (box o) <= D a o) ->
  (forall a b, tested T a b = false) ->
  ofinds_min (p_search box adist M s fuel os T) M (asks_any false (ps_regs x) os) D /\
  odsound (p_search box adist M s fuel os T) (asks_any false (ps_regs x) os).
Proof.
  intros (A1 & A2 & A3 & A4 & A5 & A6 & A7 & A8) HG HS HD HT.
  assert (HR : forall q l a, Some (p_candidates s q) = Some l -> In a l -> In a (ps_regs x)).
  { intros q l a [= <-] Ha. apply (p_candidates_spec s _ q A6 A2 A8) in Ha. tauto. }
  split; [|apply xquery_sound; auto].
  apply (xquery_min box _ M false _ (ps_regs x) D (M - 1) os fuel T); auto; try lia.
  - intros a o Ha Ho Na. rewrite A5. auto.
  - intros a o r Ha Ho Na Hr _. eexists. split; [reflexivity|]. apply (p_candidates_spec s _ _ A6 A2 A8). split; auto.
    destruct (core_coord (box o) (splat r) (p_axis s)) as [-> ->]. rewrite splat_coord.
    destruct (HG (p_cached s a) (box o)) as [_ G]. specialize (G _ A8). lia.
Qed.
(** C64: the SaP manager knows an object by the box it had when it was last told about it. *)
Theorem sap_distance_obj_min : forall srt ops box0 s box o adist M D fuel, psorts srt -> p_legal_history ops box0 ->
  p_run srt ops (p_init box0, box0) = Some (s, box) -> gaps adist -> (forall a b, D a b = D b a) ->
  let x := p_spec ops box0 in let P a b := b = o /\ a <> o /\ In a (ps_regs x) in
  (forall a, In a (ps_regs x) -> a <> o -> adist (ps_known x a) (box o) <= D a o) ->
  ofinds_min (p_dist_obj box adist M fuel s o) M P D /\ odsound (p_dist_obj box adist M fuel s o) P.
Proof.
  intros srt ops box0 s box o adist M D fuel HS HL HR HG Ds x P HD. destruct (p_reach' _ _ _ _ _ HS HL HR) as (_ & I).
  fold x in I. unfold p_dist_obj, p_size. pose proof I as (A1 & _). rewrite A1.
  destruct (Nat.eqb_spec (length (ps_regs x)) 0) as [E|E].
  - apply length_zero_iff_nil in E. apply skip_min. unfold P. rewrite E. cbn; tauto.
  - eapply ext_min; [|apply (p_search_min box adist M D s x [o] fuel None I HG Ds)].
    + intros a b. unfold asks_any, asks, P. cbn [In]. split; [intros (y & [<-|[]] & H); exact H|]. intros H. exists o. auto.
    + intros a y Ha [<-|[]]; auto.
    + reflexivity.
Qed.
Print Assumptions sap_distance_obj_min.
Theorem sap_distance_self_min : forall srt ops box0 s box adist M D fuel, psorts srt -> p_legal_history ops box0 ->
  p_run srt ops (p_init box0, box0) = Some (s, box) -> gaps adist -> (forall a b, D a b = D b a) ->
  let x := p_spec ops box0 in let P a b := In a (ps_regs x) /\ In b (ps_regs x) /\ a <> b in
  (forall a b, P a b -> adist (ps_known x a) (box b) <= D a b) ->
  ofinds_min (p_dist_self box adist M fuel s) M P D /\ odsound (p_dist_self box adist M fuel s) P.
Proof.
  intros srt ops box0 s box adist M D fuel HS HL HR HG Ds x P HD. destruct (p_reach' _ _ _ _ _ HS HL HR) as (_ & I).
  fold x in I. unfold p_dist_self, p_size. pose proof I as (A1 & _). rewrite A1.
  destruct (Nat.eqb_spec (length (ps_regs x)) 0) as [E|E].
  - apply length_zero_iff_nil in E. apply skip_min. unfold P. rewrite E. cbn; tauto.
  - eapply ext_min; [|apply (p_search_min box adist M D s x (ps_regs x) fuel (Some []) I HG Ds)].
    + intros a b. unfold asks_any, asks, P. split; [intros (y & Hy & <- & H); tauto|]. intros (Ha & Hb & N). exists b. auto.
    + intros a y Ha Hy N. apply HD. unfold P; auto.
    + reflexivity.
Qed.
Print Assumptions sap_distance_self_min.
Theorem sap_distance_other_min : forall srt ops box0 s box ops2 box02 s2 adist M D fuel, psorts srt -> p_legal_history ops box0 ->
  p_run srt ops (p_init box0, box0) = Some (s, box) -> p_legal_history ops2 box02 ->
  p_run srt ops2 (p_init box02, box02) = Some (s2, box) -> gaps adist -> (forall a b, D a b = D b a) ->
  let x := p_spec ops box0 in let x2 := p_spec ops2 box02 in
  let smaller := Nat.ltb (length (ps_regs x)) (length (ps_regs x2)) in
  let P a b := a <> b /\ if smaller then In a (ps_regs x2) /\ In b (ps_regs x) else In a (ps_regs x) /\ In b (ps_regs x2) in
  (forall a b, P a b -> adist (if smaller then ps_known x2 a else ps_known x a) (box b) <= D a b) ->
  ofinds_min (p_dist_other box adist M fuel s s2) M P D /\ odsound (p_dist_other box adist M fuel s s2) P.
Proof.
  intros srt ops box0 s box ops2 box02 s2 adist M D fuel HS HL HR HL2 HR2 HG Ds x x2 smaller P HD.
  destruct (p_reach' _ _ _ _ _ HS HL HR) as (_ & I). destruct (p_reach' _ _ _ _ _ HS HL2 HR2) as (_ & I2).
  fold x in I. fold x2 in I2. unfold p_dist_other, p_size. pose proof I as (A1 & _). pose proof I2 as (A2 & _). rewrite A1, A2.
  fold smaller.
  destruct (Nat.eqb_spec (length (ps_regs x)) 0) as [E|E]; [|destruct (Nat.eqb_spec (length (ps_regs x2)) 0) as [E2|E2]]; cbn [orb].
  1,2: apply skip_min; unfold P; apply length_zero_iff_nil in E || apply length_zero_iff_nil in E2; rewrite ?E, ?E2;
    intros a b [_ H]; destruct smaller; cbn in H; tauto.
  destruct smaller; (eapply ext_min; [|apply p_search_min; [first [exact I|exact I2]|exact HG|exact Ds| |reflexivity]]).
  1,3: intros a b; unfold asks_any, asks, P; split; [intros (y & Hy & <- & H); tauto|]; intros (N & Ha & Hb); exists b; auto.
  1,2: intros a y Ha Hy N; apply HD; unfold P; auto.
Qed.
Print Assumptions sap_distance_other_min.

(** *** Interval trees *)

(** The search box, grown by any distance the callback can report below [M], stays above
    -numeric_limits::max(), the value the trees use as their sentinel. *)
Definition in_range MX M (box : obj -> aabb) (D : obj -> obj -> Z) (regs os : list obj) : Prop :=
  forall a o o' i, In a regs -> In o os -> In o' os -> a <> o -> D a o < M -> (i < 3)%nat ->
    - MX < coord i (bmin (box o')) - D a o.

Lemma max_bound (D : obj -> obj -> Z) M (l1 l2 : list obj) : exists r, r < M /\
  (forall a b, In a l1 -> In b l2 -> a <> b -> D a b < M -> D a b <= r) /\
  ((exists a b, In a l1 /\ In b l2 /\ a <> b /\ D a b < M /\ r = D a b) \/ forall a b, In a l1 -> In b l2 -> a <> b -> M <= D a b).
Proof.
  set (ps := list_prod l1 l2).
  assert (H : exists r, r < M /\ (forall p, In p ps -> fst p <> snd p -> D (fst p) (snd p) < M -> D (fst p) (snd p) <= r) /\
    ((exists p, In p ps /\ fst p <> snd p /\ D (fst p) (snd p) < M /\ r = D (fst p) (snd p)) \/
     forall p, In p ps -> fst p <> snd p -> M <= D (fst p) (snd p))).
  { induction ps as [|[a b] ps (r & L & B & W)].
    - exists (M - 1). split; [lia|]. split; [intros p []|]. right. intros p [].
    - destruct (Nat.eq_dec a b) as [->|N].
      { exists r. split; auto. split; [intros p [<-|Hp]; cbn; [tauto|auto]|].
        destruct W as [(p & Hp & W)|W]; [left; exists p; cbn; auto|right; intros p [<-|Hp]; cbn; [tauto|auto]]. }
      destruct (Z.lt_ge_cases (D a b) M) as [Lm|Lm].
      + destruct W as [(p & Hp & Np & Lp & ->)|W].
        * destruct (Z.lt_ge_cases (D (fst p) (snd p)) (D a b)) as [L2|L2].
          -- exists (D a b). split; auto. split; [intros q [<-|Hq]; cbn; [lia|]; intros; specialize (B q Hq); lia|].
             left. exists (a, b). cbn; auto.
          -- exists (D (fst p) (snd p)). split; auto. split; [intros q [<-|Hq]; cbn; [lia|auto]|]. left. exists p. cbn; auto.
        * exists (D a b). split; auto. split; [intros q [<-|Hq]; cbn; [lia|]; intros Nq Lq; specialize (W q Hq Nq); lia|].
          left. exists (a, b). cbn; auto.
      + exists r. split; auto. split; [intros q [<-|Hq]; cbn; [lia|auto]|].
        destruct W as [(p & Hp & W)|W]; [left; exists p; cbn; auto|right; intros p [<-|Hp]; cbn; [lia|auto]]. }
  destruct H as (r & L & B & W). exists r. split; auto. split.
  - intros a b Ha Hb. apply (B (a, b)). apply in_prod; auto.
  - destruct W as [([a b] & Hp & W)|W]; [left; exists a, b; apply in_prod_iff in Hp; cbn in W; tauto|right].
    intros a b Ha Hb. apply (W (a, b)), in_prod; auto.
Qed.

Lemma m_search_min MX box adist M D m x os fuel T : minv MX m box x -> current x -> gaps adist -> (forall a b, D a b = D b a) ->
  in_range MX M box D (ms_regs x) os ->
  (forall a o, In a (ms_regs x) -> In o os -> a <> o -> adist (box a) (box o) <= D a o) ->
  (forall a b, tested T a b = false) ->
  ofinds_min (m_search box adist M MX m fuel os T) M (asks_any false (ms_regs x) os) D /\
  odsound (m_search box adist M MX m fuel os T) (asks_any false (ms_regs x) os).
Proof.
  intros (ND & HF & P & V & LK & S & B) [HS HC] HG Ds HI HD HT. destruct (B HS) as (_ & f & L & Ef & HTr).
  assert (CS := fun q => IntervalManager.candidates_spec MX m box _ _ f L q Ef HTr HF ND).
  assert (HR : forall q l a, candidates MX m q = Some l -> In a l -> In a (ms_regs x)).
  { intros q l a E Ha. destruct (CS q) as (r & Er & _ & R1 & _). rewrite E in Er. injection Er as <-. auto. }
  split; [|apply xquery_sound; auto].
  destruct (max_bound D M (ms_regs x) os) as (R0 & L0 & B0 & W0).
  destruct W0 as [(a0 & b0 & Ha0 & Hb0 & N0 & D0 & E0)|W0].
  - apply (xquery_min box _ M false _ (ms_regs x) D R0 os fuel T); auto.
    intros a o r Ha Ho Na Hr Hr2. set (q := core_box (box o) (splat r)).
    destruct (HG (box a) (box o)) as [G0 G].
    assert (Fq : finite_box MX q).
    { destruct (HF o) as [Fo _]. rewrite nonempty_coord in Fo. split.
      - apply nonempty_coord. intros i Hi. destruct (core_coord (box o) (splat r) i) as [E1 E2]. fold q in E1, E2. rewrite E1, E2, splat_coord.
        specialize (Fo i Hi). lia.
      - intros i Hi. destruct (core_coord (box o) (splat r) i) as [E1 _]. fold q in E1. rewrite E1, splat_coord.
        specialize (HI a0 b0 o i Ha0 Hb0 Ho N0 D0 Hi). lia. }
    destruct (CS q) as (l & El & _ & _ & R2). exists l. split; auto. apply R2; auto. apply overlap_coord. intros i Hi.
    destruct (core_coord (box o) (splat r) i) as [E1 E2]. fold q in E1, E2. rewrite E1, E2, splat_coord. specialize (G i Hi). lia.
  - (* nothing nearer than M: any bound will do *)
    apply (xquery_min box _ M false _ (ms_regs x) D (Z.min (-1) (M - 1)) os fuel T); auto; try lia.
    + intros a o Ha Ho Na H. specialize (W0 a o Ha Ho Na). lia.
    + intros a o r Ha Ho Na Hr Hr2. destruct (HG (box a) (box o)) as [G0 _]. lia.
Qed.

Lemma ep_objs MX m box x : minv MX m box x -> forall o, In o (map e_obj (iep m 0%nat)) <-> In o (ms_regs x).
Proof.
  intros (_ & _ & P & _) o. specialize (P 0%nat ltac:(lia)).
  assert (E : map e_obj (iep m 0%nat) = map fst (map tag (iep m 0%nat))) by (rewrite map_map; reflexivity). rewrite E.
  rewrite (Permutation_map fst P). unfold tags. generalize (ms_regs x). clear. intros regs.
  induction regs as [|a r IH]; cbn; [tauto|]. cbn in IH. rewrite IH. tauto.
Qed.
Theorem im_distance_obj_min : forall MX srt ops box0 m box o adist M D fuel, esorts srt -> m_legal_history MX ops box0 ->
  m_run MX srt ops (im_empty, box0) = Some (m, box) -> current (m_spec ops) -> gaps adist -> (forall a b, D a b = D b a) ->
  let regs := ms_regs (m_spec ops) in let P a b := b = o /\ a <> o /\ In a regs in
  in_range MX M box D regs [o] ->
  (forall a, In a regs -> a <> o -> adist (box a) (box o) <= D a o) ->
  ofinds_min (m_dist_obj box adist M MX fuel m o) M P D /\ odsound (m_dist_obj box adist M MX fuel m o) P.
Proof.
  intros MX srt ops box0 m box o adist M D fuel HS HL HR HC HG Ds regs P HI HD. pose proof (im_reach _ _ _ _ _ _ HS HL HR) as I.
  pose proof (size_spec MX m box _ I) as [SZ _]. unfold m_dist_obj. rewrite SZ. fold regs.
  destruct (Nat.eqb_spec (length regs) 0) as [E|E].
  - apply length_zero_iff_nil in E. apply skip_min. unfold P. rewrite E. cbn; tauto.
  - eapply ext_min; [|apply (m_search_min MX box adist M D m _ [o] fuel None I HC HG Ds HI)].
    + intros a b. fold regs. unfold asks_any, asks, P. cbn [In]. split; [intros (y & [<-|[]] & H); exact H|]. intros H. exists o. auto.
    + intros a y Ha [<-|[]]; auto.
    + reflexivity.
Qed.
Print Assumptions im_distance_obj_min.
Theorem im_distance_self_min : forall MX srt ops box0 m box adist M D fuel, esorts srt -> m_legal_history MX ops box0 ->
  m_run MX srt ops (im_empty, box0) = Some (m, box) -> current (m_spec ops) -> gaps adist -> (forall a b, D a b = D b a) ->
  let regs := ms_regs (m_spec ops) in let P a b := In a regs /\ In b regs /\ a <> b in
  in_range MX M box D regs regs ->
  (forall a b, P a b -> adist (box a) (box b) <= D a b) ->
  ofinds_min (m_dist_self box adist M MX fuel m) M P D /\ odsound (m_dist_self box adist M MX fuel m) P.
Proof.
  intros MX srt ops box0 m box adist M D fuel HS HL HR HC HG Ds regs P HI HD. pose proof (im_reach _ _ _ _ _ _ HS HL HR) as I.
  pose proof (size_spec MX m box _ I) as [SZ _]. pose proof (ep_objs MX m box _ I) as EO. fold regs in EO. unfold m_dist_self. rewrite SZ. fold regs.
  destruct (Nat.eqb_spec (length regs) 0) as [E|E].
  - apply length_zero_iff_nil in E. apply skip_min. unfold P. rewrite E. cbn; tauto.
  - eapply ext_min; [|apply (m_search_min MX box adist M D m _ (map e_obj (iep m 0%nat)) fuel (Some []) I HC HG Ds)].
    + intros a b. fold regs. unfold asks_any, asks, P. split; [intros (y & Hy & <- & H); rewrite EO in Hy; tauto|].
      intros (Ha & Hb & N). exists b. rewrite EO. auto.
    + intros a o o' i Ha Ho Ho'. rewrite EO in Ho, Ho'. apply HI; auto.
    + intros a y Ha Hy N. rewrite EO in Hy. apply HD. unfold P; auto.
    + reflexivity.
Qed.
Print Assumptions im_distance_self_min.
Theorem im_distance_other_min : forall MX srt ops box0 m box ops2 box02 m2 adist M D fuel, esorts srt ->
  m_legal_history MX ops box0 -> m_run MX srt ops (im_empty, box0) = Some (m, box) -> current (m_spec ops) ->
  m_legal_history MX ops2 box02 -> m_run MX srt ops2 (im_empty, box02) = Some (m2, box) -> current (m_spec ops2) ->
  gaps adist -> (forall a b, D a b = D b a) ->
  let mine := ms_regs (m_spec ops) in let theirs := ms_regs (m_spec ops2) in
  let P a b := a <> b /\ if Nat.ltb (length mine) (length theirs) then In a theirs /\ In b mine else In a mine /\ In b theirs in
  in_range MX M box D mine theirs -> in_range MX M box D theirs mine ->
  (forall a b, P a b -> adist (box a) (box b) <= D a b) ->
  ofinds_min (m_dist_other box adist M MX fuel m m2) M P D /\ odsound (m_dist_other box adist M MX fuel m m2) P.
Proof.
  intros MX srt ops box0 m box ops2 box02 m2 adist M D fuel HS HL HR HC HL2 HR2 HC2 HG Ds mine theirs P HI HI2 HD.
  pose proof (im_reach _ _ _ _ _ _ HS HL HR) as I. pose proof (im_reach _ _ _ _ _ _ HS HL2 HR2) as I2.
  pose proof (size_spec MX m box _ I) as [SZ _]. pose proof (size_spec MX m2 box _ I2) as [SZ2 _].
  pose proof (ep_objs MX m box _ I) as EO. pose proof (ep_objs MX m2 box _ I2) as EO2.
  unfold m_dist_other. rewrite SZ, SZ2. fold mine theirs in EO, EO2 |- *.
  destruct (Nat.eqb_spec (length mine) 0) as [E|E]; [|destruct (Nat.eqb_spec (length theirs) 0) as [E2|E2]]; cbn [orb].
  1,2: apply skip_min; unfold P; apply length_zero_iff_nil in E || apply length_zero_iff_nil in E2; rewrite ?E, ?E2;
    intros a b [_ H]; match type of H with (if ?c then _ else _) => destruct c end; cbn in H; tauto.
  destruct (Nat.ltb (length mine) (length theirs)).
  - eapply ext_min; [|apply (m_search_min MX box adist M D m2 _ (map e_obj (iep m 0%nat)) fuel None I2 HC2 HG Ds)].
    + intros a b. fold theirs. unfold asks_any, asks, P. split; [intros (y & Hy & <- & H); rewrite EO in Hy; tauto|].
      intros (N & Ha & Hb). exists b. rewrite EO. auto.
    + intros a o o' i Ha Ho Ho'. rewrite EO in Ho, Ho'. apply HI2; auto.
    + intros a y Ha Hy N. rewrite EO in Hy. apply HD. unfold P; auto.
    + reflexivity.
  - eapply ext_min; [|apply (m_search_min MX box adist M D m _ (map e_obj (iep m2 0%nat)) fuel None I HC HG Ds)].
    + intros a b. fold mine. unfold asks_any, asks, P. split; [intros (y & Hy & <- & H); rewrite EO2 in Hy; tauto|].
      intros (N & Ha & Hb). exists b. rewrite EO2. auto.
    + intros a o o' i Ha Ho Ho'. rewrite EO2 in Ho, Ho'. apply HI; auto.
    + intros a y Ha Hy N. rewrite EO2 in Hy. apply HD. unfold P; auto.
    + reflexivity.
Qed.
Print Assumptions im_distance_other_min.

(** *** Spatial hashing *)

(** The box has extent on every axis. *)
Definition thick (b : aabb) : Prop := forall i, (i < 3)%nat -> coord i (bmin b) < coord i (bmax b).
(** The box is thick, and does not straddle the border of the scene. *)
Definition well_placed (g : grid) (b : aabb) : Prop := thick b /\ (contain (scene g) b = true \/ overlap (scene g) b = false).

Lemma h_meets g a q : well_placed g a -> (forall i, (i < 3)%nat -> coord i (bmin q) < coord i (bmax q)) ->
  (forall i, (i < 3)%nat -> coord i (bmin a) < coord i (bmax q) /\ coord i (bmin q) < coord i (bmax a)) ->
  overlap q a = true /\ (overlap (scene g) q = true -> overlap (scene g) a = true -> forall i, (i < 3)%nat -> ~ on_plane g q a i).
Proof.
  intros [Ta Pa] Tq Ho. split; [apply overlap_coord; intros i Hi; specialize (Ho i Hi); lia|].
  intros _ Oa i Hi [Hle _]. destruct Pa as [Pa|Pa]; [|congruence]. rewrite contain_coord in Pa.
  specialize (Ta i Hi). specialize (Tq i Hi). specialize (Ho i Hi). specialize (Pa i Hi). lia.
Qed.
Lemma h_search_min g idx box adist M D m regs os fuel T : parts g idx m regs box -> 0 < cell g -> nonempty (scene g) ->
  gaps adist -> (forall a b, D a b = D b a) -> (forall o, In o os -> nonempty (box o)) ->
  (forall a, In a regs -> well_placed g (box a)) ->
  (forall a o, In a regs -> In o os -> a <> o -> adist (box o) (box a) <= D a o) ->
  (forall a b, tested T a b = false) ->
  ofinds_min (h_search box adist M g idx m fuel os T) M (asks_any true regs os) D /\
  odsound (h_search box adist M g idx m fuel os T) (asks_any true regs os).
Proof.
  intros HP Hc Ns HG Ds HN HW HD HT.
  assert (CS := fun q => SpatialHash.candidates_spec g idx m regs box HP q). cbv zeta in CS.
  assert (HR : forall q l a, Some (h_candidates g idx q m) = Some l -> In a l -> In a regs).
  { intros q l a [= <-] Ha. apply (CS q); auto. }
  split; [|apply xquery_sound; auto].
  apply (xquery_min box _ M true _ regs D (M - 1) os fuel T); auto; try lia.
  intros a o r Ha Ho Na Hr _. eexists. split; [reflexivity|]. set (q := core_box (box o) (splat r)).
  assert (CC : forall i, coord i (bmin q) = coord i (bmin (box o)) - r /\ coord i (bmax q) = coord i (bmax (box o)) + r).
  { intros i. destruct (core_coord (box o) (splat r) i) as [E1 E2]. fold q in E1, E2. rewrite splat_coord in E1, E2. auto. }
  destruct (HG (box o) (box a)) as [G0 G]. specialize (HN o Ho). rewrite nonempty_coord in HN.
  assert (Tq : forall i, (i < 3)%nat -> coord i (bmin q) < coord i (bmax q)).
  { intros i Hi. destruct (CC i) as [-> ->]. specialize (HN i Hi). lia. }
  destruct (h_meets g (box a) q (HW a Ha) Tq) as [Ov Pl].
  { intros i Hi. destruct (CC i) as [-> ->]. specialize (G i Hi). lia. }
  apply (CS q); auto.
  - apply nonempty_coord. intros i Hi. specialize (Tq i Hi). lia.
  - apply nonempty_coord. intros i Hi. destruct (HW a Ha) as [Ta _]. specialize (Ta i Hi). lia.
Qed.
Theorem h_distance_obj_min : forall MX g idx ops box0 m box o adist M D fuel, 0 < cell g -> nonempty (scene g) ->
  h_legal_history g ops box0 -> h_run MX g idx ops (h_empty, box0) = Some (m, box) -> h_current (h_spec ops box0) ->
  gaps adist -> (forall a b, D a b = D b a) -> nonempty (box o) ->
  let regs := hs_regs (h_spec ops box0) in let P a b := a = o /\ b <> o /\ In b regs in
  (forall a, In a regs -> well_placed g (box a)) -> (forall a, In a regs -> a <> o -> adist (box o) (box a) <= D o a) ->
  ofinds_min (h_dist_obj box adist M g idx fuel m o) M P D /\ odsound (h_dist_obj box adist M g idx fuel m o) P.
Proof.
  intros MX g idx ops box0 m box o adist M D fuel Hc Ns HL HR HC HG Ds No regs P HW HD.
  destruct (h_reach' _ _ _ _ _ _ _ HL HR) as (Eb & I). pose proof (current_parts _ _ _ _ I HC) as HP. rewrite <- Eb in HP.
  destruct I as (E & _). unfold h_dist_obj, h_size. rewrite E. fold regs in HP |- *.
  destruct (Nat.eqb_spec (length regs) 0) as [E0|E0].
  - apply length_zero_iff_nil in E0. apply skip_min. unfold P. rewrite E0. cbn; tauto.
  - eapply ext_min; [|apply (h_search_min g idx box adist M D m regs [o] fuel None HP Hc Ns HG Ds)]; auto.
    + intros a b. unfold asks_any, asks, P. cbn [In]. split; [intros (y & [<-|[]] & H); exact H|]. intros H. exists o. auto.
    + intros y [<-|[]]; auto.
    + intros a y Ha [<-|[]] N. rewrite Ds. auto.
Qed.
Print Assumptions h_distance_obj_min.
Theorem h_distance_self_min : forall MX g idx ops box0 m box adist M D fuel, 0 < cell g -> nonempty (scene g) ->
  h_legal_history g ops box0 -> h_run MX g idx ops (h_empty, box0) = Some (m, box) -> h_current (h_spec ops box0) ->
  gaps adist -> (forall a b, D a b = D b a) ->
  let regs := hs_regs (h_spec ops box0) in let P a b := In a regs /\ In b regs /\ a <> b in
  (forall a, In a regs -> well_placed g (box a)) -> (forall a b, P a b -> adist (box a) (box b) <= D a b) ->
  ofinds_min (h_dist_self box adist M g idx fuel m) M P D /\ odsound (h_dist_self box adist M g idx fuel m) P.
Proof.
  intros MX g idx ops box0 m box adist M D fuel Hc Ns HL HR HC HG Ds regs P HW HD.
  destruct (h_reach' _ _ _ _ _ _ _ HL HR) as (Eb & I). pose proof (current_parts _ _ _ _ I HC) as HP. rewrite <- Eb in HP.
  destruct I as (E & _). unfold h_dist_self, h_size. rewrite E. fold regs in HP |- *.
  destruct (Nat.eqb_spec (length regs) 0) as [E0|E0].
  - apply length_zero_iff_nil in E0. apply skip_min. unfold P. rewrite E0. cbn; tauto.
  - eapply ext_min; [|apply (h_search_min g idx box adist M D m regs regs fuel (Some []) HP Hc Ns HG Ds)]; auto.
    + intros a b. unfold asks_any, asks, P. split; [intros (y & Hy & <- & H); intuition congruence|]. intros (Ha & Hb & N). exists a. auto.
    + intros y Hy. apply nonempty_coord. intros i Hi. destruct (HW y Hy) as [T _]. specialize (T i Hi). lia.
    + intros a y Ha Hy N. rewrite Ds. apply HD. unfold P; auto.
Qed.
Print Assumptions h_distance_self_min.
Theorem h_distance_other_min : forall MX g idx ops box0 m box ops2 box02 m2 adist M D fuel, 0 < cell g -> nonempty (scene g) ->
  h_legal_history g ops box0 -> h_run MX g idx ops (h_empty, box0) = Some (m, box) -> h_current (h_spec ops box0) ->
  h_legal_history g ops2 box02 -> h_run MX g idx ops2 (h_empty, box02) = Some (m2, box) -> h_current (h_spec ops2 box02) ->
  gaps adist -> (forall a b, D a b = D b a) ->
  let mine := hs_regs (h_spec ops box0) in let theirs := hs_regs (h_spec ops2 box02) in
  let P a b := a <> b /\ if Nat.ltb (length mine) (length theirs) then In a mine /\ In b theirs else In a theirs /\ In b mine in
  (forall a, In a mine \/ In a theirs -> well_placed g (box a)) -> (forall a b, P a b -> adist (box a) (box b) <= D a b) ->
  ofinds_min (h_dist_other box adist M g idx fuel m m2) M P D /\ odsound (h_dist_other box adist M g idx fuel m m2) P.
Proof.
  intros MX g idx ops box0 m box ops2 box02 m2 adist M D fuel Hc Ns HL HR HC HL2 HR2 HC2 HG Ds mine theirs P HW HD.
  destruct (h_reach' _ _ _ _ _ _ _ HL HR) as (Eb & I). pose proof (current_parts _ _ _ _ I HC) as HP. rewrite <- Eb in HP.
  destruct (h_reach' _ _ _ _ _ _ _ HL2 HR2) as (Eb2 & I2). pose proof (current_parts _ _ _ _ I2 HC2) as HP2. rewrite <- Eb2 in HP2.
  destruct I as (E & _). destruct I2 as (E2 & _). unfold h_dist_other, h_size. rewrite E, E2. fold mine theirs in HP, HP2 |- *.
  assert (HN : forall y, In y mine \/ In y theirs -> nonempty (box y)).
  { intros y Hy. apply nonempty_coord. intros i Hi. destruct (HW y Hy) as [T _]. specialize (T i Hi). lia. }
  destruct (Nat.eqb_spec (length mine) 0) as [E0|E0]; [|destruct (Nat.eqb_spec (length theirs) 0) as [E0'|E0']]; cbn [orb].
  1,2: apply skip_min; unfold P; apply length_zero_iff_nil in E0 || apply length_zero_iff_nil in E0'; rewrite ?E0, ?E0';
    intros a b [_ H]; match type of H with (if ?c then _ else _) => destruct c end; cbn in H; tauto.
  destruct (Nat.ltb (length mine) (length theirs)).
  - eapply ext_min; [|apply (h_search_min g idx box adist M D m2 theirs mine fuel None HP2 Hc Ns HG Ds)]; auto.
    + intros a b. unfold asks_any, asks, P. split; [intros (y & Hy & <- & H); intuition congruence|]. intros (N & Ha & Hb). exists a. auto.
    + intros a y Ha Hy N. rewrite Ds. apply HD. unfold P; auto.
  - eapply ext_min; [|apply (h_search_min g idx box adist M D m mine theirs fuel None HP Hc Ns HG Ds)]; auto.
    + intros a b. unfold asks_any, asks, P. split; [intros (y & Hy & <- & H); intuition congruence|]. intros (N & Ha & Hb). exists a. auto.
    + intros a y Ha Hy N. rewrite Ds. apply HD. unfold P; auto.
Qed.
Print Assumptions h_distance_other_min.

(** ** Termination *)

(** Growing the box of [o] by [K] half extents reaches the box [b] on every axis. *)
Definition reached (core b : aabb) (K : Z) : Prop := forall i, (i < 3)%nat ->
  coord i (bmin b) < coord i (bmax core) + K * coord i (half_extent core) /\
  coord i (bmin core) - K * coord i (half_extent core) < coord i (bmax b).
Lemma half_extent_wide b i : (i < 3)%nat -> coord i (bmin b) + 2 <= coord i (bmax b) -> 1 <= coord i (half_extent b).
Proof.
  intros Hi H. destruct b as [[a b c] [a' b' c']]. unfold half_extent.
  destruct i as [|[|[|i]]]; [| | |lia]; cbn in *;
  match goal with |- context [?x / 2] => pose proof (Z.div_le_lower_bound x 2 1 ltac:(lia)); lia end.
Qed.
Lemma times_coord n v i : coord i (times n v) = n * coord i v.
Proof. destruct i as [|[|i]]; reflexivity. Qed.
Lemma reached_mono core b K n : wide core -> reached core b K -> K <= n -> reached core b n.
Proof.
  intros W R L i Hi. specialize (R i Hi). pose proof (half_extent_wide core i Hi (W i Hi)). nia.
Qed.
Lemma wide_reaches core b : wide core -> nonempty b -> exists K, 1 <= K /\ reached core b K.
Proof.
  intros W _. set (f i := Z.max (coord i (bmin b) - coord i (bmax core) + 1) (coord i (bmin core) - coord i (bmax b) + 1)).
  exists (Z.max 1 (Z.max (f 0%nat) (Z.max (f 1%nat) (f 2%nat)))). split; [lia|]. intros i Hi.
  pose proof (half_extent_wide core i Hi (W i Hi)) as Hh. set (h := coord i (half_extent core)) in *.
  set (K := Z.max 1 _). assert (f i <= K /\ 1 <= K) by (unfold K; destruct i as [|[|[|i]]]; lia).
  assert (f i <= K * h) by nia. unfold f in *. lia.
Qed.

Theorem sap_distance_obj_terminates : forall srt ops box0 s box o a adist M D floor, psorts srt -> p_legal_history ops box0 ->
  p_run srt ops (p_init box0, box0) = Some (s, box) -> (forall a b, D a b = D b a) ->
  let x := p_spec ops box0 in
  (forall a, In a (ps_regs x) -> a <> o -> adist (ps_known x a) (box o) <= D a o) ->
  In a (ps_regs x) -> a <> o -> D a o < M -> wide (box o) ->
  exists N, forall St (cb : dcallback St) st fuel, honest D floor cb -> (N <= fuel)%nat ->
    p_dist_obj box adist M fuel s o St cb st M <> None.
Proof.
  intros srt ops box0 s box o a adist M D floor HS HL HR Ds x HD Ha Na HM HW. destruct (p_reach' _ _ _ _ _ HS HL HR) as (_ & I).
  fold x in I. destruct I as (A1 & A2 & A3 & A4 & A5 & A6 & A7 & A8).
  destruct (wide_reaches (box o) (p_cached s a) HW) as (K & HK & HRc); [rewrite A5; auto|].
  exists (Z.to_nat K + 2)%nat. intros St cb st fuel Hh Hf. unfold p_dist_obj. destruct (Nat.eqb (p_size s) 0); [discriminate|].
  unfold p_search. eapply (xquery_returns box _ M false _ (ps_regs x) D floor [o]) with (o := o) (r := []) (a := a) (K := K); auto.
  - intros q l y [= <-] Hy. apply (p_candidates_spec s _ q A6 A2 A8) in Hy. tauto.
  - discriminate.
  - intros y z Hy [<-|[]] Ny. rewrite A5. auto.
  - intros n l Hn [= <-]. apply (p_candidates_spec s _ _ A6 A2 A8). split; auto.
    destruct (core_coord (box o) (times n (half_extent (box o))) (p_axis s)) as [-> ->]. rewrite times_coord.
    pose proof (reached_mono _ _ _ n HW HRc ltac:(lia) _ A8). lia.
Qed.
Print Assumptions sap_distance_obj_terminates.

(** For the interval trees the box must stay above the sentinel while it grows. *)
Theorem im_distance_obj_terminates : forall MX srt ops box0 m box o a adist M D floor K, esorts srt -> m_legal_history MX ops box0 ->
  m_run MX srt ops (im_empty, box0) = Some (m, box) -> current (m_spec ops) -> (forall a b, D a b = D b a) ->
  let regs := ms_regs (m_spec ops) in
  (forall a, In a regs -> a <> o -> adist (box a) (box o) <= D a o) ->
  In a regs -> a <> o -> D a o < M -> wide (box o) -> 1 <= K -> reached (box o) (box a) K ->
  finite_box MX (core_box (box o) (times (2 * K) (half_extent (box o)))) ->
  forall St (cb : dcallback St) st fuel, honest D floor cb -> (Z.to_nat K + 2 <= fuel)%nat ->
    m_dist_obj box adist M MX fuel m o St cb st M <> None.
Proof.
  intros MX srt ops box0 m box o a adist M D floor K HS HL HR [HSt HC] Ds regs HD Ha Na HM HW HK HRc HFK St cb st fuel Hh Hf.
  pose proof (im_reach _ _ _ _ _ _ HS HL HR) as (ND & HF & P & V & LK & S & B). destruct (B HSt) as (_ & f & L & Ef & HTr).
  assert (CS := fun q => IntervalManager.candidates_spec MX m box _ _ f L q Ef HTr HF ND).
  unfold m_dist_obj. destruct (Nat.eqb (im_size m) 0); [discriminate|].
  unfold m_search. eapply (xquery_returns box _ M false _ regs D floor [o]) with (o := o) (r := []) (a := a) (K := K); auto.
  - intros q l y E Hy. destruct (CS q) as (r & Er & _ & R1 & _). rewrite E in Er. injection Er as <-. auto.
  - intros q. destruct (CS q) as (r & -> & _). discriminate.
  - intros y z Hy [<-|[]] Ny. auto.
  - intros n l Hn E. set (q := core_box (box o) (times n (half_extent (box o)))) in *.
    destruct (CS q) as (r & Er & _ & _ & R2). rewrite E in Er. injection Er as <-.
    assert (CC : forall i, coord i (bmin q) = coord i (bmin (box o)) - n * coord i (half_extent (box o)) /\
      coord i (bmax q) = coord i (bmax (box o)) + n * coord i (half_extent (box o))).
    { intros i. destruct (core_coord (box o) (times n (half_extent (box o))) i) as [E1 E2]. fold q in E1, E2. rewrite times_coord in E1, E2. auto. }
    assert (HH : forall i, (i < 3)%nat -> 1 <= coord i (half_extent (box o))) by (intros i Hi; apply half_extent_wide; auto).
    apply R2; auto.
    + destruct (HF o) as [Fo _]. rewrite nonempty_coord in Fo. destruct HFK as [_ HFK]. split.
      * apply nonempty_coord. intros i Hi. destruct (CC i) as [-> ->]. specialize (Fo i Hi). specialize (HH i Hi). nia.
      * intros i Hi. destruct (CC i) as [-> _]. specialize (HFK i Hi). specialize (HH i Hi).
        destruct (core_coord (box o) (times (2 * K) (half_extent (box o))) i) as [E1 _]. rewrite E1, times_coord in HFK. nia.
    + apply overlap_coord. intros i Hi. destruct (CC i) as [-> ->].
      pose proof (reached_mono _ _ _ n HW HRc ltac:(lia) _ Hi). lia.
Qed.
Print Assumptions im_distance_obj_terminates.
Theorem h_distance_obj_terminates : forall MX g idx ops box0 m box o a adist M D floor, 0 < cell g -> nonempty (scene g) ->
  h_legal_history g ops box0 -> h_run MX g idx ops (h_empty, box0) = Some (m, box) -> h_current (h_spec ops box0) ->
  (forall a b, D a b = D b a) -> let regs := hs_regs (h_spec ops box0) in
  (forall a, In a regs -> a <> o -> adist (box o) (box a) <= D o a) ->
  In a regs -> a <> o -> D a o < M -> wide (box o) -> well_placed g (box a) ->
  exists N, forall St (cb : dcallback St) st fuel, honest D floor cb -> (N <= fuel)%nat ->
    h_dist_obj box adist M g idx fuel m o St cb st M <> None.
Proof.
  intros MX g idx ops box0 m box o a adist M D floor Hc Ns HL HR HC Ds regs HD Ha Na HM HW HP.
  destruct (h_reach' _ _ _ _ _ _ _ HL HR) as (Eb & I). pose proof (current_parts _ _ _ _ I HC) as HPt. rewrite <- Eb in HPt.
  assert (CS := fun q => SpatialHash.candidates_spec g idx m _ box HPt q). cbv zeta in CS. fold regs in CS.
  assert (Nb : nonempty (box a)).
  { apply nonempty_coord. intros i Hi. destruct HP as [Ta _]. specialize (Ta i Hi). lia. }
  destruct (wide_reaches (box o) (box a) HW Nb) as (K & HK & HRc).
  exists (Z.to_nat K + 2)%nat. intros St cb st fuel Hh Hf. unfold h_dist_obj. destruct (Nat.eqb (h_size m) 0); [discriminate|].
  unfold h_search. eapply (xquery_returns box _ M true _ regs D floor [o]) with (o := o) (r := []) (a := a) (K := K); auto.
  - intros q l y [= <-] Hy. apply (CS q); auto.
  - discriminate.
  - intros y z Hy [<-|[]] Ny. rewrite Ds. auto.
  - intros n l Hn [= <-]. set (q := core_box (box o) (times n (half_extent (box o)))) in *.
    assert (CC : forall i, coord i (bmin q) = coord i (bmin (box o)) - n * coord i (half_extent (box o)) /\
      coord i (bmax q) = coord i (bmax (box o)) + n * coord i (half_extent (box o))).
    { intros i. destruct (core_coord (box o) (times n (half_extent (box o))) i) as [E1 E2]. fold q in E1, E2. rewrite times_coord in E1, E2. auto. }
    assert (HH : forall i, (i < 3)%nat -> 1 <= coord i (half_extent (box o))) by (intros i Hi; apply half_extent_wide; auto).
    assert (Tq : forall i, (i < 3)%nat -> coord i (bmin q) < coord i (bmax q)).
    { intros i Hi. destruct (CC i) as [-> ->]. specialize (HW i Hi). specialize (HH i Hi). nia. }
    destruct (h_meets g (box a) q HP Tq) as [Ov Pl].
    { intros i Hi. destruct (CC i) as [-> ->]. pose proof (reached_mono _ _ _ n HW HRc ltac:(lia) _ Hi). lia. }
    apply (CS q); auto. apply nonempty_coord. intros i Hi. specialize (Tq i Hi). lia.
Qed.
Print Assumptions h_distance_obj_terminates.

(** ** Violations *)

(** C64: with a single registered object, distance(obj) asked about that object and distance()
    never return, whatever the callback. *)
Theorem sap_distance_alone_refuted : forall srt ops box0 s box o adist M, psorts srt -> p_legal_history ops box0 ->
  p_run srt ops (p_init box0, box0) = Some (s, box) -> ps_regs (p_spec ops box0) = [o] ->
  forall St (cb : dcallback St) st fuel,
    p_dist_obj box adist M fuel s o St cb st M = None /\ p_dist_self box adist M fuel s St cb st M = None.
Proof.
  intros srt ops box0 s box o adist M HS HL HR HA St cb st fuel. destruct (p_reach' _ _ _ _ _ HS HL HR) as (_ & I).
  destruct I as (A1 & A2 & _ & _ & _ & A6 & _ & A8). rewrite HA in *. unfold p_dist_obj, p_dist_self, p_size. rewrite A1. cbn [length Nat.eqb].
  assert (H : forall q l a, Some (p_candidates s q) = Some l -> In a l -> a = o).
  { intros q l a [= <-] Ha. apply (p_candidates_spec s [o] q A6 A2 A8) in Ha as [[<-|[]] _]; auto. }
  split; apply xquery_alone; auto.
Qed.
Print Assumptions sap_distance_alone_refuted.
Theorem im_distance_alone_refuted : forall MX srt ops box0 m box o adist M, esorts srt -> m_legal_history MX ops box0 ->
  m_run MX srt ops (im_empty, box0) = Some (m, box) -> current (m_spec ops) -> ms_regs (m_spec ops) = [o] ->
  forall St (cb : dcallback St) st fuel,
    m_dist_obj box adist M MX fuel m o St cb st M = None /\ m_dist_self box adist M MX fuel m St cb st M = None.
Proof.
  intros MX srt ops box0 m box o adist M HS HL HR [HSt HC] HA St cb st fuel. pose proof (im_reach _ _ _ _ _ _ HS HL HR) as I.
  pose proof (size_spec MX m box _ I) as [SZ SL]. pose proof (ep_objs MX m box _ I) as EO.
  destruct I as (ND & HF & P & V & LK & S & B). destruct (B HSt) as (_ & f & L & Ef & HTr).
  assert (CS := fun q => IntervalManager.candidates_spec MX m box _ _ f L q Ef HTr HF ND).
  unfold m_dist_obj, m_dist_self. rewrite HA in *. rewrite SZ. cbn [length Nat.eqb].
  assert (H : forall q l a, candidates MX m q = Some l -> In a l -> a = o).
  { intros q l a E Ha. destruct (CS q) as (r & Er & _ & R1 & _). rewrite E in Er. injection Er as <-. destruct (R1 a Ha) as [<-|[]]; auto. }
  split; [apply xquery_alone; auto|]. destruct (map e_obj (iep m 0%nat)) as [|y r] eqn:Ey.
  - destruct (proj2 (EO o) (or_introl eq_refl)).
  - destruct (proj1 (EO y) (or_introl eq_refl)) as [<-|[]]. apply xquery_alone; auto.
Qed.
Print Assumptions im_distance_alone_refuted.
Theorem h_distance_alone_refuted : forall MX g idx ops box0 m box o adist M,
  h_legal_history g ops box0 -> h_run MX g idx ops (h_empty, box0) = Some (m, box) -> hs_regs (h_spec ops box0) = [o] ->
  forall St (cb : dcallback St) st fuel,
    h_dist_obj box adist M g idx fuel m o St cb st M = None /\ h_dist_self box adist M g idx fuel m St cb st M = None.
Proof.
  intros MX g idx ops box0 m box o adist M HL HR HA St cb st fuel. destruct (h_reach' _ _ _ _ _ _ _ HL HR) as (_ & I).
  destruct I as (E & _ & HP). rewrite HA in *. unfold h_dist_obj, h_dist_self, h_size. rewrite E. cbn [length Nat.eqb].
  assert (H : forall q l a, Some (h_candidates g idx q m) = Some l -> In a l -> a = o).
  { intros q l a [= <-] Ha. apply (SpatialHash.candidates_spec g idx m [o] _ HP q) in Ha as [<-|[]]; auto. }
  split; apply xquery_alone; auto.
Qed.
Print Assumptions h_distance_alone_refuted.

(** C64: a query box without extent does not grow: if it touches no other object, distance(obj) of
    the SaP manager does not return. *)
Theorem sap_distance_flat_refuted : forall srt ops box0 s box o adist M, psorts srt -> p_legal_history ops box0 ->
  p_run srt ops (p_init box0, box0) = Some (s, box) -> let x := p_spec ops box0 in
  ps_regs x <> [] -> bmin (box o) = bmax (box o) ->
  (forall a, In a (ps_regs x) -> a <> o -> forall i, (i < 3)%nat ->
     coord i (bmax (box o)) < coord i (bmin (ps_known x a)) \/ coord i (bmax (ps_known x a)) < coord i (bmin (box o))) ->
  forall St (cb : dcallback St) st fuel, p_dist_obj box adist M fuel s o St cb st M = None.
Proof.
  intros srt ops box0 s box o adist M HS HL HR x HA HF HB St cb st fuel. destruct (p_reach' _ _ _ _ _ HS HL HR) as (_ & I).
  fold x in I. destruct I as (A1 & A2 & _ & _ & A5 & A6 & _ & A8). unfold p_dist_obj, p_size. rewrite A1.
  destruct (ps_regs x) as [|y r] eqn:Er; [congruence|]. cbn [length Nat.eqb]. rewrite <- Er in *.
  apply xquery_flat; auto. intros l a [= <-] Ha. apply (p_candidates_spec s _ (box o) A6 A2 A8) in Ha as (Ha & H1 & H2).
  destruct (Nat.eq_dec a o) as [|N]; auto. exfalso. rewrite A5 in H1, H2. destruct (HB a Ha N _ A8); lia.
Qed.
Print Assumptions sap_distance_flat_refuted.

Definition measure (box : obj -> aabb) : dcallback (list (obj * obj)) := fun st m a b => (st ++ [(a, b)], Z.min m (xgap (box a) (box b)), false).
Example measure_honest box : honest (fun a b => xgap (box a) (box b)) 0 (measure box).
Proof. intros st m a b. cbn. split; [reflexivity|discriminate]. Qed.
Example xgap_gaps : gaps xgap.
Proof. intros a b. unfold xgap, axgap. split; [lia|]. intros i Hi. destruct i as [|[|[|i]]]; lia. Qed.

(** C64, spatial hashing: the flat object 1 lies in a plane of the grid and is never found; the
    answer is 48, the distance to object 3, though object 1 is at distance 5. *)
Theorem h_distance_flat_refuted :
  sp sparse_idx [HMove 1%nat (Box (V 10 1 1) (V 10 5 5)); HReg 1%nat; HMove 2%nat (Box (V 15 1 1) (V 17 5 5)); HReg 2%nat;
                 HMove 3%nat (Box (V 65 1 1) (V 67 5 5)); HReg 3%nat] (fun m box =>
    xgap (box 2%nat) (box 1%nat) = 5 /\ xgap (box 2%nat) (box 3%nat) = 48 /\
    h_dist_obj box xgap 1000 ten sparse_idx 50 m 2%nat _ (measure box) [] 1000 = Some ([(2, 3)]%nat, 48, false)).
Proof. vm_compute. auto. Qed.
Print Assumptions h_distance_flat_refuted.

(** ** Cases *)
Definition h_far : list hop :=
  [HMove 1%nat (P_SpatialHash.cube 2 6); HReg 1%nat; HMove 2%nat (P_SpatialHash.cube 31 37); HReg 2%nat;
   HMove 3%nat (P_SpatialHash.cube 120 126); HReg 3%nat; HMove 4%nat (P_SpatialHash.cube 50 54); HReg 4%nat].
Example h_distance_case : (forall a, In a [1; 2; 3; 4]%nat -> well_placed ten (hs_box (h_spec h_far (fun _ => P_SpatialHash.cube 0 0)) a)) /\
  sp sparse_idx h_far (fun m box =>
    h_dist_obj box xgap 1000 ten sparse_idx 50 m 3%nat _ (measure box) [] 1000 = Some ([(3, 2); (3, 4)]%nat, 66, false) /\
    h_dist_self box xgap 1000 ten sparse_idx 50 m _ (measure box) [] 1000 = Some ([(1, 3); (1, 2); (2, 4)]%nat, 13, false)).
Proof.
  split; [|vm_compute; auto]. intros a Ha. cbn [In] in Ha.
  repeat destruct Ha as [<-|Ha]; try destruct Ha; (split; [intros [|[|[|i]]] Hi; [| | |lia]; cbn; lia|vm_compute; auto]).
Qed.
Example im_distance_case :
  match m_run 100000 (eisort false) good_ops (im_empty, rowm) with
  | Some (m, box) =>
      m_dist_obj box xgap 1000 100000 50 m 5%nat _ (measure box) [] 1000 = Some ([(1, 5)]%nat, 8, false) /\
      m_dist_self box xgap 1000 100000 50 m _ (measure box) [] 1000 = Some ([(1, 0)]%nat, 0, false)
  | None => False
  end.
Proof. vm_compute. auto. Qed.
Example sap_distance_case :
  let box0 := fun o : obj => cubes (100 - 20 * Z.of_nat o) (115 - 20 * Z.of_nat o) in
  match p_run sort_pt [PReg 1%nat; PReg 2%nat; PReg 4%nat] (p_init box0, box0) with
  | Some (s, box) =>
      p_dist_obj box xgap 1000 50 s 4%nat _ (measure box) [] 1000 = Some ([(2, 4)]%nat, 25, false) /\
      p_dist_self box xgap 1000 50 s _ (measure box) [] 1000 = Some ([(2, 1)]%nat, 5, false)
  | None => False
  end.
Proof. vm_compute. auto. Qed.
