(** KDOP (include/fcl/math/bv/kDOP.h, kDOP-inl.h) over the reals. *)
From Coq Require Import Reals Lra Psatz List Lia Arith.
From Verif Require Import VecR.
Import ListNotations.
Open Scope R_scope.

(** N is 16, 18 or 24 (kDOP.h 50). *)
Inductive kind := K16 | K18 | K24.
Definition num (k : kind) : nat := match k with K16 => 16 | K18 => 18 | K24 => 24 end.
Definition half (k : kind) : nat := (num k / 2)%nat.
Definition extra (k : kind) : nat := ((num k - 6) / 2)%nat.

(** GetDistancesImpl (kDOP-inl.h 338-405); d[i] = p . dir as written there *)
Definition get_distances (k : kind) (p : v3) : list R :=
  let x := c0 p in let y := c1 p in let z := c2 p in
  match k with
  | K16 => [x + y; x + z; y + z; x - y; x - z]
  | K18 => [x + y; x + z; y + z; x - y; x - z; y - z]
  | K24 => [x + y; x + z; y + z; x - y; x - z; y - z; x + y - z; x + z - y; y + z - x]
  end.

(** dist_[N]; reads and writes by index, a write outside leaves the array unchanged (the
    loops stay inside it). *)
Definition kdop := list R.
Definition get (d : list R) (i : nat) : R := nth i d 0.
Fixpoint put (d : list R) (i : nat) (x : R) : list R :=
  match d, i with
  | [], _ => []
  | _ :: d, O => x :: d
  | y :: d, S i => y :: put d i x
  end.
Definition loop (n : nat) (f : kdop -> nat -> kdop) (d : kdop) : kdop := fold_left f (seq 0 n) d.

(** minmax of two values, and of a value and an interval (312-335) *)
Definition minmax2 (a b : R) : R * R := if Rlt_dec b a then (b, a) else (a, b).
Definition minmax1 (p mn mx : R) : R * R :=
  let mx := if Rlt_dec mx p then p else mx in
  let mn := if Rlt_dec p mn then p else mn in (mn, mx).

(** Storage not yet written. *)
Definition raw (k : kind) : kdop := repeat 0 (num k).

(** KDOP() (82-94); [big] is numeric_limits::max() *)
Definition kempty (big : R) (k : kind) : kdop :=
  loop (half k) (fun d i => put (put d i big) (i + half k) (- big)) (raw k).
(** KDOP(v) (97-112) *)
Definition kpoint (k : kind) (v : v3) : kdop :=
  let d := loop 3 (fun d i => put (put d (half k + i) (comp i v)) i (comp i v)) (raw k) in
  let e := get_distances k v in
  loop (extra k) (fun d i => put (put d (3 + i + half k) (get e i)) (3 + i) (get e i)) d.
(** KDOP(a, b) (115-131) *)
Definition ktwo (k : kind) (a b : v3) : kdop :=
  let put2 d i m := put (put d i (fst m)) (i + half k) (snd m) in
  let d := loop 3 (fun d i => put2 d i (minmax2 (comp i a) (comp i b))) (raw k) in
  let ad := get_distances k a in
  let bd := get_distances k b in
  loop (extra k) (fun d i => put2 d (3 + i)%nat (minmax2 (get ad i) (get bd i))) d.
(** overlap (134-145) *)
Definition koverlap (k : kind) (d e : kdop) : bool :=
  forallb (fun i => if Rlt_dec (get e (i + half k)) (get d i) then false
                    else if Rlt_dec (get d (i + half k)) (get e i) then false else true) (seq 0 (half k)).
(** inside (148-167) *)
Definition kinside (k : kind) (d : kdop) (p : v3) : bool :=
  forallb (fun i => if Rlt_dec (comp i p) (get d i) then false
                    else if Rlt_dec (get d (i + half k)) (comp i p) then false else true) (seq 0 3) &&
  let e := get_distances k p in
  forallb (fun i => if Rlt_dec (get e i) (get d (3 + i)) then false
                    else if Rlt_dec (get d (i + 3 + half k)) (get e i) then false else true) (seq 0 (extra k)).
(** operator += of a point (170-187) *)
Definition kadd (k : kind) (d : kdop) (p : v3) : kdop :=
  let upd d i x := let m := minmax1 x (get d i) (get d (i + half k)) in put (put d i (fst m)) (i + half k) (snd m) in
  let d := loop 3 (fun d i => upd d i (comp i p)) d in
  let e := get_distances k p in
  loop (extra k) (fun d i => upd d (3 + i)%nat (get e i)) d.
(** operator += and + of a kDOP (190-209) *)
Definition kmerge (k : kind) (d e : kdop) : kdop :=
  loop (half k) (fun d i => put (put d i (Rmin (get e i) (get d i))) (i + half k) (Rmax (get e (i + half k)) (get d (i + half k)))) d.
(** translate (288-309) *)
Definition ktranslate (k : kind) (d : kdop) (t : v3) : kdop :=
  let d := loop 3 (fun d i => let d := put d i (get d i + comp i t) in put d (half k + i) (get d (half k + i) + comp i t)) d in
  let e := get_distances k t in
  loop (extra k) (fun d i => let d := put d (3 + i)%nat (get d (3 + i)%nat + get e i) in
                             put d (3 + i + half k)%nat (get d (3 + i + half k)%nat + get e i)) d.
(** fit of points into a fresh kDOP (include/fcl/math/bv/utility-inl.h 537-548, the default
    Fitter, which kDOP uses): the empty kDOP, one += per point *)
Definition kfit (big : R) (k : kind) (ps : list v3) : kdop := fold_left (kadd k) ps (kempty big k).

(** ** What a kDOP is: the set between the planes of the documented directions
    (kDOP.h 53-82), plane i below and plane i + N/2 above. *)
Definition dirs (k : kind) : list v3 :=
  [mk3 1 0 0; mk3 0 1 0; mk3 0 0 1; mk3 1 1 0; mk3 1 0 1; mk3 0 1 1; mk3 1 (-1) 0; mk3 1 0 (-1)] ++
  match k with
  | K16 => []
  | K18 => [mk3 0 1 (-1)]
  | K24 => [mk3 0 1 (-1); mk3 1 1 (-1); mk3 1 (-1) 1; mk3 (-1) 1 1]
  end.
Definition dir (k : kind) (i : nat) : v3 := nth i (dirs k) vzero.
Definition contains (k : kind) (d : kdop) (p : v3) : Prop :=
  forall i, (i < half k)%nat -> get d i <= dot (dir k i) p <= get d (i + half k).
(** wellformed storage *)
Definition kok (k : kind) (d : kdop) : Prop := length d = num k.

(** ** Lemmas *)
Lemma get_put : forall d i j x, get (put d i x) j = if Nat.eqb i j then if Nat.ltb i (length d) then x else get d j else get d j.
Proof.
  unfold get. induction d as [|y d IH]; intros i j x; cbn.
  - destruct (Nat.eqb i j), j; reflexivity.
  - destruct i as [|i], j as [|j]; cbn; try reflexivity. rewrite IH. destruct (Nat.eqb i j); [|reflexivity].
    change (S i <? S (length d))%nat with (i <? length d)%nat. reflexivity.
Qed.
Lemma put_length : forall d i x, length (put d i x) = length d.
Proof. induction d as [|y d IH]; intros [|i] x; cbn; auto. Qed.

Lemma dir_split : forall k p i, (i < half k)%nat -> dot (dir k i) p = if Nat.ltb i 3 then comp i p else get (get_distances k p) (i - 3).
Proof.
  intros k [x y z] i H. destruct k; cbn in H; do 12 (destruct i as [|i]; [cbn; unfold dot; cbn; ring|]); lia.
Qed.

Lemma get_loop1 : forall n (f : kdop -> nat -> kdop) d, loop (S n) f d = f (loop n f d) n.
Proof. intros. unfold loop. rewrite seq_S, fold_left_app. reflexivity. Qed.

(** Every loop writes each lower and upper plane once, from the old values at that index. *)
Section Two.
Variables (h off : nat) (lo hi : R -> nat -> R).
Definition step2 (d : kdop) (i : nat) : kdop :=
  put (put d (off + i) (lo (get d (off + i)%nat) i)) (off + i + h) (hi (get d (off + i + h)%nat) i).
Lemma loop2 : forall n d, (off + n <= h)%nat -> length d = (2 * h)%nat ->
  length (loop n step2 d) = (2 * h)%nat /\
  forall j, (j < h)%nat ->
    get (loop n step2 d) j = (if (Nat.leb off j && Nat.ltb j (off + n))%bool then lo (get d j) (j - off) else get d j) /\
    get (loop n step2 d) (j + h) = (if (Nat.leb off j && Nat.ltb j (off + n))%bool then hi (get d (j + h)%nat) (j - off) else get d (j + h)%nat).
Proof.
  induction n as [|n IH]; intros d Hn Hl.
  - split; [exact Hl|]. intros j Hj. change (loop 0 step2 d) with d.
    destruct (Nat.leb_spec off j), (Nat.ltb_spec j (off + 0)); cbn; auto; lia.
  - destruct (IH d ltac:(lia) Hl) as [L G]. rewrite get_loop1. unfold step2 at 1 3 5.
    split; [rewrite !put_length; exact L|].
    intros j Hj. pose proof (G j Hj) as [Ga Gb].
    rewrite !get_put, !put_length, L.
    destruct (G (off + n)%nat ltac:(lia)) as [Gc Gd].
    destruct (Nat.eqb_spec (off + n + h) j); [lia|].
    destruct (Nat.eqb_spec (off + n) (j + h)); [lia|].
    destruct (Nat.ltb_spec (off + n) (2 * h)); [|lia].
    destruct (Nat.ltb_spec (off + n + h) (2 * h)); [|lia].
    destruct (Nat.eqb_spec (off + n) j) as [<-|Hne].
    + destruct (Nat.eqb_spec (off + n + h) (off + n + h)); [|lia].
      destruct (Nat.eqb_spec (off + n) (off + n)); [|lia].
      rewrite Gc, Gd.
      destruct (Nat.leb_spec off (off + n)); [|lia].
      destruct (Nat.ltb_spec (off + n) (off + n)); [lia|].
      destruct (Nat.ltb_spec (off + n) (off + S n)); [|lia]. cbn.
      replace (off + n - off)%nat with n by lia. auto.
    + destruct (Nat.eqb_spec (off + n + h) (j + h)); [lia|].
      rewrite Ga, Gb.
      destruct (Nat.leb_spec off j); cbn [andb]; [|auto].
      destruct (Nat.ltb_spec j (off + n)), (Nat.ltb_spec j (off + S n)); auto; lia.
Qed.
End Two.

Lemma loop_ext : forall n f g d, (forall d i, f d i = g d i) -> loop n f d = loop n g d.
Proof.
  intros n f g d H. unfold loop. revert d. induction (seq 0 n) as [|i l IH]; intros d; cbn; [reflexivity|]. rewrite H. apply IH.
Qed.

Lemma half2 : forall k, num k = (2 * half k)%nat. Proof. destruct k; reflexivity. Qed.
Lemma half3 : forall k, half k = (3 + extra k)%nat. Proof. destruct k; reflexivity. Qed.

(** Two loops, over the three axes and over the remaining directions. *)
Lemma loops : forall k lo hi lo' hi' d, kok k d ->
  let d1 := loop 3 (step2 (half k) 0 lo hi) d in
  let d2 := loop (extra k) (step2 (half k) 3 lo' hi') d1 in
  kok k d2 /\ forall j, (j < half k)%nat ->
    get d2 j = (if Nat.ltb j 3 then lo (get d j) j else lo' (get d j) (j - 3)%nat) /\
    get d2 (j + half k) = (if Nat.ltb j 3 then hi (get d (j + half k)%nat) j else hi' (get d (j + half k)%nat) (j - 3)%nat).
Proof.
  intros k lo hi lo' hi' d Hd d1 d2. unfold kok in *. rewrite half2 in *.
  destruct (loop2 (half k) 0 lo hi 3 d) as [L1 G1]; [rewrite half3; lia|exact Hd|].
  destruct (loop2 (half k) 3 lo' hi' (extra k) d1) as [L2 G2]; [rewrite half3; lia|exact L1|].
  split; [exact L2|]. intros j Hj. destruct (G1 j Hj) as [A1 B1]. destruct (G2 j Hj) as [A2 B2].
  unfold d2. rewrite A2, B2. unfold d1. rewrite A1, B1.
  rewrite <- (half3 k). replace (j - 0)%nat with j by lia.
  destruct (Nat.leb_spec 3 j), (Nat.ltb_spec j 3), (Nat.ltb_spec j (half k)), (Nat.leb_spec 0 j), (Nat.ltb_spec j (0 + 3)); cbn; try lia; auto.
Qed.

Lemma raw_ok : forall k, kok k (raw k). Proof. intros. unfold kok, raw. apply repeat_length. Qed.

Definition dp (k : kind) (p : v3) (i : nat) := dot (dir k i) p.

Lemma kadd_get : forall k d p, kok k d -> kok k (kadd k d p) /\ forall j, (j < half k)%nat ->
  get (kadd k d p) j = Rmin (get d j) (dp k p j) /\ get (kadd k d p) (j + half k) = Rmax (get d (j + half k)%nat) (dp k p j).
Proof.
  intros k d p Hd.
  pose proof (loops k (fun x i => Rmin x (comp i p)) (fun x i => Rmax x (comp i p))
                    (fun x i => Rmin x (get (get_distances k p) i)) (fun x i => Rmax x (get (get_distances k p) i)) d Hd) as [L G].
  assert (M : forall x mn mx, minmax1 x mn mx = (Rmin mn x, Rmax mx x)).
  { intros. unfold minmax1, Rmin, Rmax. destruct (Rlt_dec x mn), (Rlt_dec mx x), (Rle_dec mn x), (Rle_dec mx x); f_equal; lra. }
  assert (E : kadd k d p = loop (extra k) (step2 (half k) 3 (fun x i => Rmin x (get (get_distances k p) i)) (fun x i => Rmax x (get (get_distances k p) i)))
     (loop 3 (step2 (half k) 0 (fun x i => Rmin x (comp i p)) (fun x i => Rmax x (comp i p))) d)).
  { unfold kadd. cbv zeta.
    rewrite (loop_ext 3 _ (step2 (half k) 0 (fun x i => Rmin x (comp i p)) (fun x i => Rmax x (comp i p)))).
    - apply loop_ext. intros e i. unfold step2. rewrite M. cbn [fst snd]. reflexivity.
    - intros e i. unfold step2. rewrite M. cbn [fst snd plus]. reflexivity. }
  rewrite E. split; [exact L|]. intros j Hj. destruct (G j Hj) as [A B]. rewrite A, B. unfold dp. rewrite dir_split by exact Hj.
  destruct (Nat.ltb j 3); auto.
Qed.

Lemma kmerge_get : forall k d e, kok k d -> kok k (kmerge k d e) /\ forall j, (j < half k)%nat ->
  get (kmerge k d e) j = Rmin (get e j) (get d j) /\ get (kmerge k d e) (j + half k) = Rmax (get e (j + half k)%nat) (get d (j + half k)%nat).
Proof.
  intros k d e Hd.
  destruct (loop2 (half k) 0 (fun x i => Rmin (get e i) x) (fun x i => Rmax (get e (i + half k)%nat) x) (half k) d) as [L G].
  { lia. } { unfold kok in Hd. rewrite half2 in Hd. exact Hd. }
  assert (E : kmerge k d e = loop (half k) (step2 (half k) 0 (fun x i => Rmin (get e i) x) (fun x i => Rmax (get e (i + half k)%nat) x)) d).
  { reflexivity. }
  rewrite E. split. { unfold kok. rewrite half2. exact L. }
  intros j Hj. destruct (G j Hj) as [A B]. rewrite A, B. replace (j - 0)%nat with j by lia.
  destruct (Nat.leb_spec 0 j), (Nat.ltb_spec j (0 + half k)); cbn; try lia; auto.
Qed.

Lemma kempty_get : forall big k, kok k (kempty big k) /\ forall j, (j < half k)%nat ->
  get (kempty big k) j = big /\ get (kempty big k) (j + half k) = - big.
Proof.
  intros big k.
  destruct (loop2 (half k) 0 (fun _ _ => big) (fun _ _ => - big) (half k) (raw k)) as [L G].
  { lia. } { rewrite <- half2. apply raw_ok. }
  assert (E : kempty big k = loop (half k) (step2 (half k) 0 (fun _ _ => big) (fun _ _ => - big)) (raw k)) by reflexivity.
  rewrite E. split. { unfold kok. rewrite half2. exact L. }
  intros j Hj. destruct (G j Hj) as [A B]. rewrite A, B.
  destruct (Nat.leb_spec 0 j), (Nat.ltb_spec j (0 + half k)); cbn; try lia; auto.
Qed.

Lemma put_comm : forall d i j x y, i <> j -> put (put d i x) j y = put (put d j y) i x.
Proof.
  induction d as [|a d IH]; intros [|i] [|j] x y H; cbn; auto; [congruence|]. f_equal. apply IH. congruence.
Qed.

Lemma half_pos : forall k, (0 < half k)%nat. Proof. destruct k; cbn; lia. Qed.

Lemma kpoint_get : forall k v, kok k (kpoint k v) /\ forall j, (j < half k)%nat ->
  get (kpoint k v) j = dp k v j /\ get (kpoint k v) (j + half k) = dp k v j.
Proof.
  intros k v. pose proof (half_pos k) as Hp.
  pose proof (loops k (fun _ i => comp i v) (fun _ i => comp i v) (fun _ i => get (get_distances k v) i) (fun _ i => get (get_distances k v) i) (raw k) (raw_ok k)) as [L G].
  match type of L with kok k ?t => assert (E : kpoint k v = t) end.
  { unfold kpoint. cbv zeta.
    rewrite (loop_ext 3 _ (step2 (half k) 0 (fun _ i => comp i v) (fun _ i => comp i v))).
    - apply loop_ext. intros e i. unfold step2. apply put_comm. lia.
    - intros e i. unfold step2. cbn [plus]. rewrite put_comm by lia. f_equal; lia. }
  rewrite E. split; [exact L|]. intros j Hj. destruct (G j Hj) as [A B]. rewrite A, B. unfold dp. rewrite dir_split by exact Hj.
  destruct (Nat.ltb j 3); auto.
Qed.

Lemma ktwo_get : forall k a b, kok k (ktwo k a b) /\ forall j, (j < half k)%nat ->
  get (ktwo k a b) j = Rmin (dp k a j) (dp k b j) /\ get (ktwo k a b) (j + half k) = Rmax (dp k a j) (dp k b j).
Proof.
  intros k a b.
  assert (M : forall x y, minmax2 x y = (Rmin x y, Rmax x y)).
  { intros. unfold minmax2, Rmin, Rmax. destruct (Rlt_dec y x), (Rle_dec x y); f_equal; lra. }
  pose proof (loops k (fun _ i => Rmin (comp i a) (comp i b)) (fun _ i => Rmax (comp i a) (comp i b))
    (fun _ i => Rmin (get (get_distances k a) i) (get (get_distances k b) i)) (fun _ i => Rmax (get (get_distances k a) i) (get (get_distances k b) i)) (raw k) (raw_ok k)) as [L G].
  match type of L with kok k ?t => assert (E : ktwo k a b = t) end.
  { unfold ktwo. cbv zeta.
    rewrite (loop_ext 3 _ (step2 (half k) 0 (fun _ i => Rmin (comp i a) (comp i b)) (fun _ i => Rmax (comp i a) (comp i b)))).
    - apply loop_ext. intros e i. unfold step2. rewrite M. reflexivity.
    - intros e i. unfold step2. rewrite M. reflexivity. }
  rewrite E. split; [exact L|]. intros j Hj. destruct (G j Hj) as [A B]. rewrite A, B. unfold dp. rewrite !dir_split by exact Hj.
  destruct (Nat.ltb j 3); auto.
Qed.

Lemma ktranslate_get : forall k d t, kok k d -> kok k (ktranslate k d t) /\ forall j, (j < half k)%nat ->
  get (ktranslate k d t) j = get d j + dp k t j /\ get (ktranslate k d t) (j + half k) = get d (j + half k)%nat + dp k t j.
Proof.
  intros k d t Hd. pose proof (half_pos k) as Hp.
  pose proof (loops k (fun x i => x + comp i t) (fun x i => x + comp i t)
    (fun x i => x + get (get_distances k t) i) (fun x i => x + get (get_distances k t) i) d Hd) as [L G].
  match type of L with kok k ?t' => assert (E : ktranslate k d t = t') end.
  { unfold ktranslate. cbv zeta.
    rewrite (loop_ext 3 _ (step2 (half k) 0 (fun x i => x + comp i t) (fun x i => x + comp i t))).
    - apply loop_ext. intros e i. unfold step2. f_equal. rewrite get_put.
      destruct (Nat.eqb_spec (3 + i) (3 + i + half k)); [lia|reflexivity].
    - intros e i. unfold step2. cbn [plus]. rewrite (Nat.add_comm (half k) i). f_equal. rewrite get_put.
      destruct (Nat.eqb_spec i (i + half k)); [lia|reflexivity]. }
  rewrite E. split; [exact L|]. intros j Hj. destruct (G j Hj) as [A B]. rewrite A, B. unfold dp. rewrite dir_split by exact Hj.
  destruct (Nat.ltb j 3); auto.
Qed.

Lemma kinside_iff : forall k d p, kinside k d p = true <-> contains k d p.
Proof.
  intros k d p. unfold kinside, contains. rewrite Bool.andb_true_iff, !forallb_forall. cbv zeta. split.
  - intros [A B] i Hi. rewrite dir_split by exact Hi. destruct (Nat.ltb_spec i 3) as [H3|H3].
    + specialize (A i ltac:(apply in_seq; lia)). destruct (Rlt_dec (comp i p) (get d i)); [discriminate|].
      destruct (Rlt_dec (get d (i + half k)) (comp i p)); [discriminate|]. lra.
    + specialize (B (i - 3)%nat ltac:(apply in_seq; rewrite half3 in Hi; lia)).
      replace (3 + (i - 3))%nat with i in B by lia. replace (i - 3 + 3 + half k)%nat with (i + half k)%nat in B by lia.
      destruct (Rlt_dec (get (get_distances k p) (i - 3)) (get d i)); [discriminate|].
      destruct (Rlt_dec (get d (i + half k)) (get (get_distances k p) (i - 3))); [discriminate|]. lra.
  - intros H. split; intros i Hi; apply in_seq in Hi.
    + pose proof (half3 k). specialize (H i ltac:(lia)). rewrite dir_split in H by lia. destruct (Nat.ltb_spec i 3); [|lia].
      destruct (Rlt_dec (comp i p) (get d i)); [lra|]. destruct (Rlt_dec (get d (i + half k)) (comp i p)); [lra|reflexivity].
    + pose proof (half3 k). specialize (H (3 + i)%nat ltac:(lia)). rewrite dir_split in H by lia. destruct (Nat.ltb_spec (3 + i) 3); [lia|].
      replace (3 + i - 3)%nat with i in H by lia. replace (i + 3 + half k)%nat with (3 + i + half k)%nat by lia.
      destruct (Rlt_dec (get (get_distances k p) i) (get d (3 + i))); [lra|].
      destruct (Rlt_dec (get d (3 + i + half k)) (get (get_distances k p) i)); [lra|reflexivity].
Qed.
