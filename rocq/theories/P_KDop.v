(** C40: the operations of KDOP<16>, KDOP<18> and KDOP<24> keep the points they should. *)
From Coq Require Import Reals Lra Psatz List Lia Arith.
From Verif Require Import VecR KDop.
Import ListNotations.
Open Scope R_scope.

Lemma dp_lin : forall k i p q, dp k (vadd p q) i = dp k p i + dp k q i.
Proof. intros k i p q. unfold dp. destruct p, q, (dir k i). unfold dot, vadd. cbn. ring. Qed.

(** [inside] decides membership of the set between the documented planes. *)
Theorem kdop_inside_exact : forall k d p, kinside k d p = true <-> contains k d p.
Proof. exact kinside_iff. Qed.
Print Assumptions kdop_inside_exact.

(** The default constructor contains no point; the point constructor exactly that point. *)
Theorem kdop_empty : forall big k p, 0 < big -> ~ contains k (kempty big k) p.
Proof.
  intros big k p Hb H. destruct (kempty_get big k) as [_ G]. destruct (G 0%nat (half_pos k)) as [A B].
  specialize (H 0%nat (half_pos k)). rewrite A, B in H. lra.
Qed.
Print Assumptions kdop_empty.

Theorem kdop_point_exact : forall k v p, contains k (kpoint k v) p <-> p = v.
Proof.
  intros k v p. destruct (kpoint_get k v) as [_ G]. split.
  - intros H. assert (X : forall i, (i < 3)%nat -> dp k p i = dp k v i).
    { intros i Hi. pose proof (half3 k). specialize (H i ltac:(lia)). destruct (G i ltac:(lia)) as [A B]. rewrite A, B in H. unfold dp in *. lra. }
    pose proof (X 0%nat ltac:(lia)) as X0. pose proof (X 1%nat ltac:(lia)) as X1. pose proof (X 2%nat ltac:(lia)) as X2.
    unfold dp in X0, X1, X2. pose proof (half3 k).
    rewrite !dir_split in X0, X1, X2 by lia. cbn in X0, X1, X2. destruct p, v. cbn in *. congruence.
  - intros -> i Hi. destruct (G i Hi) as [A B]. rewrite A, B. unfold dp. lra.
Qed.
Print Assumptions kdop_point_exact.

(** The kDOP of two points contains both, and lies in every kDOP that contains both. *)
Theorem kdop_two : forall k a b,
  contains k (ktwo k a b) a /\ contains k (ktwo k a b) b /\
  forall d p, contains k d a -> contains k d b -> contains k (ktwo k a b) p -> contains k d p.
Proof.
  intros k a b. destruct (ktwo_get k a b) as [_ G].
  split; [|split].
  - intros i Hi. destruct (G i Hi) as [A B]. rewrite A, B. unfold dp. split; [apply Rmin_l|apply Rmax_l].
  - intros i Hi. destruct (G i Hi) as [A B]. rewrite A, B. unfold dp. split; [apply Rmin_r|apply Rmax_r].
  - intros d p Ha Hb H i Hi. specialize (H i Hi). specialize (Ha i Hi). specialize (Hb i Hi).
    destruct (G i Hi) as [A B]. rewrite A, B in H. unfold dp in H.
    revert H. apply Rmin_case; apply Rmax_case; lra.
Qed.
Print Assumptions kdop_two.

(** += of a point: the point and every earlier point are contained. *)
Theorem kdop_add_point : forall k d v, kok k d ->
  kok k (kadd k d v) /\ contains k (kadd k d v) v /\
  (forall p, contains k d p -> contains k (kadd k d v) p).
Proof.
  intros k d v Hd. destruct (kadd_get k d v Hd) as [L G].
  split; [exact L|split].
  - intros i Hi. destruct (G i Hi) as [A B]. rewrite A, B. unfold dp. split; [apply Rmin_r|apply Rmax_r].
  - intros p Hp i Hi. destruct (G i Hi) as [A B]. rewrite A, B. specialize (Hp i Hi).
    split; [eapply Rle_trans; [apply Rmin_l|]|eapply Rle_trans; [|apply Rmax_l]]; lra.
Qed.
Print Assumptions kdop_add_point.

(** Fitting: the kDOP built from any list of points (coordinates and sums of them within the
    range of the scalar) contains every one of them, and it is the smallest such kDOP: its
    points lie in every kDOP containing the list. *)
Lemma fit_planes : forall k ps d, kok k d ->
  kok k (fold_left (kadd k) ps d) /\
  (forall p, In p ps -> contains k (fold_left (kadd k) ps d) p) /\
  (forall j, (j < half k)%nat -> get (fold_left (kadd k) ps d) j <= get d j /\ get d (j + half k)%nat <= get (fold_left (kadd k) ps d) (j + half k)%nat) /\
  (forall j, (j < half k)%nat ->
     (get (fold_left (kadd k) ps d) j = get d j \/ exists p, In p ps /\ get (fold_left (kadd k) ps d) j = dp k p j) /\
     (get (fold_left (kadd k) ps d) (j + half k) = get d (j + half k)%nat \/ exists p, In p ps /\ get (fold_left (kadd k) ps d) (j + half k) = dp k p j)).
Proof.
  intros k. induction ps as [|v ps IH]; intros d Hd; cbn [fold_left].
  - split; [exact Hd|split; [intros p []|split]]; intros; [lra|auto].
  - destruct (kadd_get k d v Hd) as [L G]. destruct (IH (kadd k d v) L) as (L' & I & M & T).
    split; [exact L'|split; [|split]].
    + intros p [->|Hp]; [|apply I; exact Hp]. intros i Hi. destruct (M i Hi) as [M1 M2]. destruct (G i Hi) as [G1 G2].
      rewrite G1 in M1. rewrite G2 in M2. pose proof (Rmin_r (get d i) (dp k p i)). pose proof (Rmax_r (get d (i + half k)) (dp k p i)). unfold dp in *. lra.
    + intros i Hi. destruct (M i Hi) as [M1 M2]. destruct (G i Hi) as [G1 G2].
      rewrite G1 in M1. rewrite G2 in M2. pose proof (Rmin_l (get d i) (dp k v i)). pose proof (Rmax_l (get d (i + half k)) (dp k v i)). lra.
    + intros i Hi. destruct (T i Hi) as [T1 T2]. destruct (G i Hi) as [G1 G2]. split.
      * destruct T1 as [T1|(p & Hp & T1)]; [|right; exists p; split; [right; exact Hp|exact T1]].
        rewrite T1, G1. unfold Rmin. destruct (Rle_dec (get d i) (dp k v i)); [left; reflexivity|right; exists v; split; [left; reflexivity|reflexivity]].
      * destruct T2 as [T2|(p & Hp & T2)]; [|right; exists p; split; [right; exact Hp|exact T2]].
        rewrite T2, G2. unfold Rmax. destruct (Rle_dec (get d (i + half k)) (dp k v i)); [right; exists v; split; [left; reflexivity|reflexivity]|left; reflexivity].
Qed.

Theorem kdop_fit : forall big k ps,
  (forall p, In p ps -> contains k (kfit big k ps) p) /\
  ((forall p i, In p ps -> (i < half k)%nat -> - big <= dot (dir k i) p <= big) ->
   forall d q, ps <> [] -> (forall p, In p ps -> contains k d p) -> contains k (kfit big k ps) q -> contains k d q).
Proof.
  intros big k ps. unfold kfit. destruct (kempty_get big k) as [L G]. destruct (fit_planes k ps _ L) as (_ & I & M & T).
  split; [exact I|].
  intros Hr d q Hne Hd Hq i Hi. specialize (Hq i Hi). destruct (T i Hi) as [T1 T2]. destruct (G i Hi) as [G1 G2].
  destruct ps as [|p0 ps]; [congruence|].
  pose proof (Hd p0 (or_introl eq_refl) i Hi) as H0. pose proof (Hr p0 i (or_introl eq_refl) Hi) as H1.
  pose proof (I p0 (or_introl eq_refl) i Hi) as H2.
  split.
  - destruct T1 as [T1|(p & Hp & T1)].
    + rewrite G1 in T1. lra.
    + pose proof (Hd p Hp i Hi). unfold dp in T1. lra.
  - destruct T2 as [T2|(p & Hp & T2)].
    + rewrite G2 in T2. lra.
    + pose proof (Hd p Hp i Hi). unfold dp in T2. lra.
Qed.
Print Assumptions kdop_fit.

(** A kDOP is convex: fitting the vertices of a primitive contains the whole primitive. *)
Theorem kdop_convex : forall k d p q r a b c, contains k d p -> contains k d q -> contains k d r ->
  0 <= a -> 0 <= b -> 0 <= c -> a + b + c = 1 ->
  contains k d (vadd (vscale a p) (vadd (vscale b q) (vscale c r))).
Proof.
  intros k d p q r a b c Hp Hq Hr Ha Hb Hc Hs i Hi. specialize (Hp i Hi). specialize (Hq i Hi). specialize (Hr i Hi).
  assert (E : dot (dir k i) (vadd (vscale a p) (vadd (vscale b q) (vscale c r))) = a * dot (dir k i) p + b * dot (dir k i) q + c * dot (dir k i) r).
  { generalize (dir k i). intros [u0 u1 u2]. destruct p, q, r. unfold dot, vadd, vscale. cbn. ring. }
  rewrite E. generalize dependent (dot (dir k i) p). generalize dependent (dot (dir k i) q). generalize dependent (dot (dir k i) r).
  generalize (get d i) (get d (i + half k)). intros lo hi x Hx y Hy z Hz _. replace c with (1 - a - b) in * by lra. split; nra.
Qed.
Print Assumptions kdop_convex.

(** Merging: everything in either operand is contained; the result lies in every kDOP whose
    planes enclose both. *)
Theorem kdop_merge : forall k d e, kok k d ->
  kok k (kmerge k d e) /\
  (forall p, contains k d p \/ contains k e p -> contains k (kmerge k d e) p) /\
  (forall d' p, (forall i, (i < half k)%nat -> get d' i <= get d i /\ get d' i <= get e i /\
                           get d (i + half k)%nat <= get d' (i + half k)%nat /\ get e (i + half k)%nat <= get d' (i + half k)%nat) ->
     contains k (kmerge k d e) p -> contains k d' p).
Proof.
  intros k d e Hd. destruct (kmerge_get k d e Hd) as [L G]. split; [exact L|split].
  - intros p Hp i Hi. destruct (G i Hi) as [A B]. rewrite A, B.
    pose proof (Rmin_l (get e i) (get d i)). pose proof (Rmin_r (get e i) (get d i)).
    pose proof (Rmax_l (get e (i + half k)) (get d (i + half k))). pose proof (Rmax_r (get e (i + half k)) (get d (i + half k))).
    destruct Hp as [Hp|Hp]; specialize (Hp i Hi); lra.
  - intros d' p Hs H i Hi. specialize (H i Hi). specialize (Hs i Hi). destruct (G i Hi) as [A B]. rewrite A, B in H.
    revert H. apply Rmin_case; apply Rmax_case; lra.
Qed.
Print Assumptions kdop_merge.

(** No false negative: two kDOPs with a common point overlap, in either order; [overlap] is
    exactly the closed interval test on every direction. *)
Theorem kdop_overlap_sound : forall k d e p, contains k d p -> contains k e p -> koverlap k d e = true /\ koverlap k e d = true.
Proof.
  assert (X : forall k d e p, contains k d p -> contains k e p -> koverlap k d e = true).
  { intros k d e p Hd He. unfold koverlap. apply forallb_forall. intros i Hi. apply in_seq in Hi.
    specialize (Hd i ltac:(lia)). specialize (He i ltac:(lia)).
    destruct (Rlt_dec (get e (i + half k)) (get d i)); [lra|]. destruct (Rlt_dec (get d (i + half k)) (get e i)); [lra|reflexivity]. }
  intros. split; eapply X; eassumption.
Qed.
Print Assumptions kdop_overlap_sound.

Theorem kdop_overlap_planes : forall k d e, koverlap k d e = true <->
  forall i, (i < half k)%nat -> get d i <= get e (i + half k) /\ get e i <= get d (i + half k).
Proof.
  intros k d e. unfold koverlap. rewrite forallb_forall. split.
  - intros H i Hi. specialize (H i ltac:(apply in_seq; lia)).
    destruct (Rlt_dec (get e (i + half k)) (get d i)); [discriminate|]. destruct (Rlt_dec (get d (i + half k)) (get e i)); [discriminate|]. lra.
  - intros H i Hi. apply in_seq in Hi. specialize (H i ltac:(lia)).
    destruct (Rlt_dec (get e (i + half k)) (get d i)); [lra|]. destruct (Rlt_dec (get d (i + half k)) (get e i)); [lra|reflexivity].
Qed.
Print Assumptions kdop_overlap_planes.

(** It is not exact: for each of the three kinds the kDOPs of two segments overlap although
    they have no common point. *)
Theorem kdop_overlap_exact_refuted : forall k,
  let d := ktwo k (mk3 0 0 0) (mk3 1 1 0) in let e := ktwo k (mk3 1 0 1) (mk3 0 1 0) in
  koverlap k d e = true /\ forall p, contains k d p -> contains k e p -> False.
Proof.
  intros k d e. destruct (ktwo_get k (mk3 0 0 0) (mk3 1 1 0)) as [_ G]. destruct (ktwo_get k (mk3 1 0 1) (mk3 0 1 0)) as [_ G'].
  split.
  - apply kdop_overlap_planes. intros i Hi. unfold d, e. destruct (G i Hi) as [A B]. destruct (G' i Hi) as [A' B'].
    rewrite A, B, A', B'. clear - Hi. unfold dp, dir.
    destruct k; cbn in Hi; do 12 (destruct i as [|i]; [cbn; unfold dot; cbn; unfold Rmin, Rmax; repeat destruct Rle_dec; lra|]); lia.
  - intros p Hd He. pose proof (half3 k) as H3.
    assert (Hk : (8 <= half k)%nat) by (destruct k; cbn; lia).
    assert (X : forall i u v w a b, (i < half k)%nat -> dir k i = mk3 u v w -> contains k (ktwo k a b) p ->
       Rmin (dot (mk3 u v w) a) (dot (mk3 u v w) b) <= dot (mk3 u v w) p <= Rmax (dot (mk3 u v w) a) (dot (mk3 u v w) b)).
    { intros i u v w a b Hi Hdir Hc. specialize (Hc i Hi). destruct (ktwo_get k a b) as [_ Gt]. destruct (Gt i Hi) as [A B].
      rewrite A, B in Hc. unfold dp in Hc. rewrite Hdir in Hc. exact Hc. }
    destruct p as [x y z].
    assert (D2 : dir k 2 = mk3 0 0 1) by (destruct k; reflexivity).
    assert (D5 : dir k 5 = mk3 0 1 1) by (destruct k; reflexivity).
    assert (D6 : dir k 6 = mk3 1 (-1) 0) by (destruct k; reflexivity).
    assert (D7 : dir k 7 = mk3 1 0 (-1)) by (destruct k; reflexivity).
    pose proof (X 2%nat _ _ _ _ _ ltac:(lia) D2 Hd) as A2.
    pose proof (X 6%nat _ _ _ _ _ ltac:(lia) D6 Hd) as A6.
    pose proof (X 5%nat _ _ _ _ _ ltac:(lia) D5 He) as B5.
    pose proof (X 7%nat _ _ _ _ _ ltac:(lia) D7 He) as B7.
    clear - A2 A6 B5 B7. unfold dot in *. cbn [c0 c1 c2] in *. unfold Rmin, Rmax in *.
    repeat destruct Rle_dec; lra.
Qed.
Print Assumptions kdop_overlap_exact_refuted.

(** translate moves the set: a point is in the kDOP exactly when its translate is in the
    translated kDOP. *)
Theorem kdop_translate : forall k d t p, kok k d ->
  kok k (ktranslate k d t) /\ (contains k (ktranslate k d t) (vadd p t) <-> contains k d p).
Proof.
  intros k d t p Hd. destruct (ktranslate_get k d t Hd) as [L G]. split; [exact L|].
  split; intros H i Hi; specialize (H i Hi); destruct (G i Hi) as [A B].
  - rewrite A, B in H. pose proof (dp_lin k i p t) as E. unfold dp in *. rewrite E in H. lra.
  - rewrite A, B. pose proof (dp_lin k i p t) as E. unfold dp in *. rewrite E. lra.
Qed.
Print Assumptions kdop_translate.

(** Histories: whatever sequence of +=, merges and translations a kDOP went through, it
    contains every added point, moved by the translations applied after it. *)
Inductive kop := OpAdd (p : v3) | OpMerge (ps : list v3) | OpMove (t : v3).
Definition kstep (big : R) (k : kind) (d : kdop) (o : kop) : kdop :=
  match o with
  | OpAdd p => kadd k d p
  | OpMerge ps => kmerge k d (kfit big k ps)
  | OpMove t => ktranslate k d t
  end.
Definition pstep (ps : list v3) (o : kop) : list v3 :=
  match o with
  | OpAdd p => p :: ps
  | OpMerge qs => qs ++ ps
  | OpMove t => map (fun p => vadd p t) ps
  end.
Theorem kdop_histories : forall big k os p,
  In p (fold_left pstep os []) -> contains k (fold_left (kstep big k) os (kempty big k)) p.
Proof.
  intros big k os.
  assert (X : forall d ps, kok k d -> (forall p, In p ps -> contains k d p) ->
     forall p, In p (fold_left pstep os ps) -> contains k (fold_left (kstep big k) os d) p).
  { induction os as [|o os IH]; intros d ps Hd Hps p Hp; cbn [fold_left] in *; [apply Hps; exact Hp|].
    revert p Hp. apply IH.
    - destruct o as [v|qs|t]; cbn [kstep].
      + exact (proj1 (kdop_add_point k d v Hd)).
      + exact (proj1 (kdop_merge k d (kfit big k qs) Hd)).
      + exact (proj1 (kdop_translate k d t (mk3 0 0 0) Hd)).
    - destruct o as [v|qs|t]; cbn [kstep pstep].
      + destruct (kdop_add_point k d v Hd) as (_ & A & B). intros q [<-|Hq]; auto.
      + intros q Hq. apply in_app_or in Hq. destruct (kdop_merge k d (kfit big k qs) Hd) as (_ & A & _). apply A. destruct Hq as [Hq|Hq]; [right|left; auto].
        destruct (kdop_fit big k qs) as [B _]. auto.
      + intros q Hq. apply in_map_iff in Hq. destruct Hq as (q' & <- & Hq). apply (proj2 (kdop_translate k d t q' Hd)); auto. }
  intros p. apply X; [apply kempty_get|intros q []].
Qed.
Print Assumptions kdop_histories.

(** Concrete: a corner that its bounding box contains is cut off by a diagonal plane. *)
Example kdop_case : contains K16 (ktwo K16 (mk3 0 0 0) (mk3 1 1 0)) (mk3 (1/2) (1/2) 0) /\
  ~ contains K16 (ktwo K16 (mk3 0 0 0) (mk3 1 1 0)) (mk3 1 0 0).
Proof.
  destruct (ktwo_get K16 (mk3 0 0 0) (mk3 1 1 0)) as [_ G]. split.
  - intros i Hi. destruct (G i Hi) as [A B]. rewrite A, B. unfold dp, dir. cbn in Hi.
    do 8 (destruct i as [|i]; [cbn; unfold dot; cbn; unfold Rmin, Rmax; repeat destruct Rle_dec; lra|]). lia.
  - intros H. specialize (H 6%nat ltac:(cbn; lia)). destruct (G 6%nat ltac:(cbn; lia)) as [A B]. rewrite A, B in H.
    revert H. cbn. unfold dp, dot. cbn. unfold Rmin, Rmax. repeat destruct Rle_dec; lra.
Qed.
