(** * Interval arithmetic

    include/fcl/math/motion/taylor_model/interval.h, interval-inl.h,
    interval_vector-inl.h, interval_matrix-inl.h.

    Scalars are exact reals: rounding is not modelled (the code rounds to
    nearest, so the enclosures below hold up to rounding only). *)

From Coq Require Import Reals Lra List.
Open Scope R_scope.

(** struct Interval (interval.h 44-60): the array i_[2]. *)
Record ivl := Iv { lo : R; hi : R }.

(** The values an interval stands for. *)
Definition inside (x : R) (i : ivl) : Prop := lo i <= x <= hi i.

(** Interval(v), setValue(v) (interval-inl.h 66-69, 87-90) *)
Definition ipoint (v : R) : ivl := Iv v v.

(** operator + and += (116-119, 130-135) *)
Definition iadd (a b : ivl) : ivl := Iv (lo a + lo b) (hi a + hi b).

(** operator - and -= (123-126, 139-144), on distinct objects *)
Definition isub (a b : ivl) : ivl := Iv (lo a - hi b) (hi a - lo b).

(** a -= a (139-144): the second statement reads the i_[0] just written. *)
Definition isub_self (a : ivl) : ivl :=
  let l := lo a - hi a in Iv l (hi a - l).

(** operator * (148-179) *)
Definition imul (a b : ivl) : ivl :=
  if Rle_dec 0 (lo b) then
    if Rle_dec 0 (lo a) then Iv (lo a * lo b) (hi a * hi b)
    else if Rle_dec (hi a) 0 then Iv (lo a * hi b) (hi a * lo b)
    else Iv (lo a * hi b) (hi a * hi b)
  else if Rle_dec (hi b) 0 then
    if Rle_dec 0 (lo a) then Iv (hi a * lo b) (lo a * hi b)
    else if Rle_dec (hi a) 0 then Iv (hi a * hi b) (lo a * lo b)
    else Iv (hi a * lo b) (lo a * lo b)
  else if Rle_dec 0 (lo a) then Iv (hi a * lo b) (hi a * hi b)
  else if Rle_dec (hi a) 0 then Iv (lo a * hi b) (lo a * lo b)
  else
    let v00 := lo a * lo b in
    let v11 := hi a * hi b in
    let v01 := lo a * hi b in
    let v10 := hi a * lo b in
    if Rle_dec v00 v11 then
      if Rlt_dec v01 v10 then Iv v01 v11 else Iv v10 v11
    else
      if Rlt_dec v01 v10 then Iv v01 v00 else Iv v10 v00.

(** operator *= (183-268), on an argument [b] that is a distinct object, as a
    sequence of assignments. *)
Definition imul_assign (a b : ivl) : ivl :=
  if Rle_dec 0 (lo b) then
    if Rle_dec 0 (lo a) then let a1 := Iv (lo a * lo b) (hi a) in Iv (lo a1) (hi a1 * hi b)
    else if Rle_dec (hi a) 0 then let a1 := Iv (lo a * hi b) (hi a) in Iv (lo a1) (hi a1 * lo b)
    else let a1 := Iv (lo a * hi b) (hi a) in Iv (lo a1) (hi a1 * hi b)
  else if Rle_dec (hi b) 0 then
    if Rle_dec 0 (lo a) then let tmp := lo a in let a1 := Iv (hi a * lo b) (hi a) in Iv (lo a1) (tmp * hi b)
    else if Rle_dec (hi a) 0 then let tmp := lo a in let a1 := Iv (hi a * hi b) (hi a) in Iv (lo a1) (tmp * lo b)
    else let tmp := lo a in let a1 := Iv (hi a * lo b) (hi a) in Iv (lo a1) (tmp * lo b)
  else if Rle_dec 0 (lo a) then let a1 := Iv (hi a * lo b) (hi a) in Iv (lo a1) (hi a1 * hi b)
  else if Rle_dec (hi a) 0 then let a1 := Iv (lo a) (lo a * lo b) in Iv (lo a1 * hi b) (hi a1)
  else
    let v00 := lo a * lo b in
    let v11 := hi a * hi b in
    let v01 := lo a * hi b in
    let v10 := hi a * lo b in
    if Rle_dec v00 v11 then
      if Rlt_dec v01 v10 then Iv v01 v11 else Iv v10 v11
    else
      if Rlt_dec v01 v10 then Iv v01 v00 else Iv v10 v00.

(** a *= a: [other] is the object being assigned to, so every read of it after
    the first assignment sees the new value. *)
Definition imul_self (a : ivl) : ivl :=
  if Rle_dec 0 (lo a) then let a1 := Iv (lo a * lo a) (hi a) in Iv (lo a1) (hi a1 * hi a1)
  else if Rle_dec (hi a) 0 then let tmp := lo a in let a1 := Iv (hi a * hi a) (hi a) in Iv (lo a1) (tmp * lo a1)
  else
    let v00 := lo a * lo a in
    let v11 := hi a * hi a in
    let v01 := lo a * hi a in
    let v10 := hi a * lo a in
    if Rle_dec v00 v11 then
      if Rlt_dec v01 v10 then Iv v01 v11 else Iv v10 v11
    else
      if Rlt_dec v01 v10 then Iv v01 v00 else Iv v10 v00.

(** operator * and *= with a scalar (272-296) *)
Definition iscale (a : ivl) (d : R) : ivl :=
  if Rle_dec 0 d then Iv (lo a * d) (hi a * d) else Iv (hi a * d) (lo a * d).

(** operator / and /= (300-312); "other must not contain 0" (interval.h 94).
    Division by an endpoint 0 gives an infinity in the code; the theorems exclude
    it. *)
Definition idiv (a b : ivl) : ivl := imul a (Iv (1 / hi b) (1 / lo b)).

(** overlap (316-321) *)
Definition ioverlap (a b : ivl) : bool :=
  if Rlt_dec (hi a) (lo b) then false else if Rlt_dec (hi b) (lo a) then false else true.

(** intersect (325-332): result and the interval afterwards *)
Definition iintersect (a b : ivl) : bool * ivl :=
  if Rlt_dec (hi a) (lo b) then (false, a)
  else if Rlt_dec (hi b) (lo a) then (false, a)
  else (true, Iv (if Rlt_dec (lo a) (lo b) then lo b else lo a) (if Rlt_dec (hi b) (hi a) then hi b else hi a)).

(** unary - (336-339) *)
Definition iopp (a : ivl) : ivl := Iv (- hi a) (- lo a).

(** getAbsLower (343-348), getAbsUpper (352-356) *)
Definition abs_lower (a : ivl) : R := if Rle_dec 0 (lo a) then lo a else if Rle_dec 0 (hi a) then 0 else - hi a.
Definition abs_upper (a : ivl) : R := if Rle_dec 0 (lo a + hi a) then hi a else lo a.

(** contains (360-365) *)
Definition icontains (a : ivl) (v : R) : bool :=
  if Rlt_dec v (lo a) then false else if Rlt_dec (hi a) v then false else true.

(** bound (369-383, 417-433) *)
Definition ibound_pt (a : ivl) (v : R) : ivl :=
  Iv (if Rlt_dec v (lo a) then v else lo a) (if Rlt_dec (hi a) v then v else hi a).
Definition ibound (a b : ivl) : ivl :=
  Iv (if Rlt_dec (lo b) (lo a) then lo b else lo a) (if Rlt_dec (hi a) (hi b) then hi b else hi a).

(** center, diameter (402-413) *)
Definition icenter (a : ivl) : R := / 2 * (lo a + hi a).
Definition idiameter (a : ivl) : R := hi a - lo a.

(** ** Lemmas *)

Ltac dec_all := repeat (match goal with
  | |- context [Rle_dec ?a ?b] => destruct (Rle_dec a b)
  | |- context [Rlt_dec ?a ?b] => destruct (Rlt_dec a b)
  | |- context [Req_EM_T ?a ?b] => destruct (Req_EM_T a b)
  end; cbn [lo hi] in *).

Lemma iadd_in : forall a b x y, inside x a -> inside y b -> inside (x + y) (iadd a b).
Proof. intros [a0 a1] [b0 b1] x y. unfold inside, iadd. cbn. lra. Qed.

Lemma isub_in : forall a b x y, inside x a -> inside y b -> inside (x - y) (isub a b).
Proof. intros [a0 a1] [b0 b1] x y. unfold inside, isub. cbn. lra. Qed.

Lemma iopp_in : forall a x, inside x a -> inside (- x) (iopp a).
Proof. intros [a0 a1] x. unfold inside, iopp. cbn. lra. Qed.

Lemma ipoint_in : forall x, inside x (ipoint x).
Proof. intros x. unfold inside, ipoint. cbn. lra. Qed.

Lemma iscale_in : forall a x d, inside x a -> inside (x * d) (iscale a d).
Proof.
  intros [a0 a1] x d [H1 H2]. unfold inside, iscale. cbn in *. dec_all; split; nra.
Qed.

Lemma mul_le_pos : forall a b c, 0 <= c -> a <= b -> a * c <= b * c.
Proof. intros. nra. Qed.
Lemma mul_le_neg : forall a b c, c <= 0 -> a <= b -> b * c <= a * c.
Proof. intros. nra. Qed.

(** A product over a box is between the corner values: on every edge it is
    monotone. *)
Lemma mul_between : forall a0 a1 b0 b1 x y m M, a0 <= x <= a1 -> b0 <= y <= b1 ->
  m <= a0 * b0 <= M -> m <= a0 * b1 <= M -> m <= a1 * b0 <= M -> m <= a1 * b1 <= M ->
  m <= x * y <= M.
Proof.
  intros a0 a1 b0 b1 x y m M Hx Hy H00 H01 H10 H11.
  assert (Ha : forall z, b0 <= z <= b1 -> m <= a0 * z <= M).
  { intros z Hz. destruct (Rle_dec 0 a0); split; nra. }
  assert (Hb : forall z, b0 <= z <= b1 -> m <= a1 * z <= M).
  { intros z Hz. destruct (Rle_dec 0 a1); split; nra. }
  specialize (Ha y Hy). specialize (Hb y Hy). destruct (Rle_dec 0 y); split; nra.
Qed.

(** The ends of the product are the least and the greatest corner value. *)
Lemma imul_corners : forall a b, lo a <= hi a -> lo b <= hi b ->
  let c := lo a * lo b :: lo a * hi b :: hi a * lo b :: hi a * hi b :: nil in
  In (lo (imul a b)) c /\ In (hi (imul a b)) c /\
  forall v, In v c -> lo (imul a b) <= v <= hi (imul a b).
Proof.
  intros [a0 a1] [b0 b1] Ha Hb. cbn in Ha, Hb. unfold imul. cbn [lo hi].
  dec_all; (split; [cbn; tauto|split; [cbn; tauto|]]);
    intros v [<-|[<-|[<-|[<-|[]]]]]; split; nra.
Qed.

Lemma imul_in : forall a b x y, inside x a -> inside y b -> inside (x * y) (imul a b).
Proof.
  intros a b x y Hx Hy. unfold inside in *.
  destruct (imul_corners a b) as (_ & _ & H); try lra.
  apply (mul_between (lo a) (hi a) (lo b) (hi b)); auto; apply H; cbn; tauto.
Qed.

Lemma imul_assign_eq : forall a b, imul_assign a b = imul a b.
Proof. intros [a0 a1] [b0 b1]. unfold imul_assign, imul. cbn [lo hi]. dec_all; reflexivity. Qed.

Lemma inv_le_neg : forall x y, y < 0 -> x <= y -> / y <= / x.
Proof. intros x y Hy H. apply Ropp_le_cancel. rewrite <- (Rinv_opp x), <- (Rinv_opp y). apply Rinv_le_contravar; lra. Qed.

Lemma idiv_in : forall a b x y, inside x a -> inside y b -> 0 < lo b \/ hi b < 0 -> inside (x / y) (idiv a b).
Proof.
  intros a b x y Hx Hy H0. unfold Rdiv, idiv. apply imul_in; [exact Hx|]. unfold inside in *. cbn.
  unfold Rdiv. rewrite !Rmult_1_l. destruct H0 as [H0|H0].
  - split; apply Rinv_le_contravar; lra.
  - split; apply inv_le_neg; lra.
Qed.

(** ** Vectors and matrices *)

(** IVector3, IMatrix3 and the Eigen types Vector3, Matrix3 as triples of
    entries and of rows. *)
Record tri (A : Type) := T3 { e0 : A; e1 : A; e2 : A }.
Arguments T3 {A}. Arguments e0 {A}. Arguments e1 {A}. Arguments e2 {A}.

Definition tmap {A B} (f : A -> B) (u : tri A) : tri B := T3 (f (e0 u)) (f (e1 u)) (f (e2 u)).
Definition tmap2 {A B C} (f : A -> B -> C) (u : tri A) (v : tri B) : tri C :=
  T3 (f (e0 u) (e0 v)) (f (e1 u) (e1 v)) (f (e2 u) (e2 v)).
Definition tall2 {A B} (P : A -> B -> Prop) (u : tri A) (v : tri B) : Prop :=
  P (e0 u) (e0 v) /\ P (e1 u) (e1 v) /\ P (e2 u) (e2 v).
(** column access (interval_matrix-inl.h getColumn; Eigen col) *)
Definition tcols {A} (m : tri (tri A)) : tri (tri A) :=
  T3 (tmap e0 m) (tmap e1 m) (tmap e2 m).

(** real vector operations the interval ones are meant to enclose *)
Definition rdot (u v : tri R) : R := e0 u * e0 v + e1 u * e1 v + e2 u * e2 v.
Definition rcross (u v : tri R) : tri R :=
  T3 (e1 u * e2 v - e2 u * e1 v) (e2 u * e0 v - e0 u * e2 v) (e0 u * e1 v - e1 u * e0 v).
Definition rmv (m : tri (tri R)) (v : tri R) : tri R := tmap (fun r => rdot r v) m.
Definition rmm (m n : tri (tri R)) : tri (tri R) := tmap (fun r => tmap (rdot r) (tcols n)) m.

(** IVector3: dot, cross with an interval and with a real vector
    (interval_vector-inl.h 206-256) *)
Definition ivdot (u v : tri ivl) : ivl := iadd (iadd (imul (e0 u) (e0 v)) (imul (e1 u) (e1 v))) (imul (e2 u) (e2 v)).
Definition ivdot_r (u : tri ivl) (v : tri R) : ivl :=
  iadd (iadd (iscale (e0 u) (e0 v)) (iscale (e1 u) (e1 v))) (iscale (e2 u) (e2 v)).
Definition ivcross (u v : tri ivl) : tri ivl :=
  T3 (isub (imul (e1 u) (e2 v)) (imul (e2 u) (e1 v)))
     (isub (imul (e2 u) (e0 v)) (imul (e0 u) (e2 v)))
     (isub (imul (e0 u) (e1 v)) (imul (e1 u) (e0 v))).
Definition ivcross_r (u : tri ivl) (v : tri R) : tri ivl :=
  T3 (isub (iscale (e1 u) (e2 v)) (iscale (e2 u) (e1 v)))
     (isub (iscale (e2 u) (e0 v)) (iscale (e0 u) (e2 v)))
     (isub (iscale (e0 u) (e1 v)) (iscale (e1 u) (e0 v))).

(** IVector3::bound, overlap, contain (283-394) *)
Definition ivbound (u v : tri ivl) : tri ivl := tmap2 ibound u v.
Definition ivbound_pt (u : tri ivl) (v : tri R) : tri ivl := tmap2 ibound_pt u v.
Definition ivoverlap (u v : tri ivl) : bool :=
  if Rlt_dec (hi (e0 v)) (lo (e0 u)) then false else
  if Rlt_dec (hi (e1 v)) (lo (e1 u)) then false else
  if Rlt_dec (hi (e2 v)) (lo (e2 u)) then false else
  if Rlt_dec (hi (e0 u)) (lo (e0 v)) then false else
  if Rlt_dec (hi (e1 u)) (lo (e1 v)) then false else
  if Rlt_dec (hi (e2 u)) (lo (e2 v)) then false else true.
Definition ivcontain (u v : tri ivl) : bool :=
  if Rlt_dec (lo (e0 v)) (lo (e0 u)) then false else
  if Rlt_dec (lo (e1 v)) (lo (e1 u)) then false else
  if Rlt_dec (lo (e2 v)) (lo (e2 u)) then false else
  if Rlt_dec (hi (e0 u)) (hi (e0 v)) then false else
  if Rlt_dec (hi (e1 u)) (hi (e1 v)) then false else
  if Rlt_dec (hi (e2 u)) (hi (e2 v)) then false else true.

(** IMatrix3: products (interval_matrix-inl.h 189-251), sum and difference
    (255-284) *)
Definition imv_r (m : tri (tri ivl)) (v : tri R) : tri ivl := tmap (fun r => ivdot_r r v) m.
Definition imv (m : tri (tri ivl)) (v : tri ivl) : tri ivl := tmap (fun r => ivdot r v) m.
Definition imm_r (m : tri (tri ivl)) (n : tri (tri R)) : tri (tri ivl) := tmap (fun r => tmap (ivdot_r r) (tcols n)) m.
Definition imm (m n : tri (tri ivl)) : tri (tri ivl) := tmap (fun r => tmap (ivdot r) (tcols n)) m.
Definition imadd (m n : tri (tri ivl)) : tri (tri ivl) := tmap2 (tmap2 iadd) m n.
Definition imsub (m n : tri (tri ivl)) : tri (tri ivl) := tmap2 (tmap2 isub) m n.

(** getLow, getHigh (151-170): both read index 1 *)
Definition imlow (m : tri (tri ivl)) : tri (tri R) := tmap (tmap hi) m.
Definition imhigh (m : tri (tri ivl)) : tri (tri R) := tmap (tmap hi) m.

(** rotationConstrain, the member (288-304) and the free function (317-335);
    the free one starts from a matrix of default intervals [0,0] and assigns
    only the entries that have to be clamped. *)
Definition clamp (x : R) : R := if Rlt_dec x (-1) then -1 else if Rlt_dec 1 x then 1 else x.
Definition clamp0 (x : R) : R := if Rlt_dec x (-1) then -1 else if Rlt_dec 1 x then 1 else 0.
Definition imconstrain (m : tri (tri ivl)) : tri (tri ivl) := tmap (tmap (fun i => Iv (clamp (lo i)) (clamp (hi i)))) m.
Definition imconstrain_free (m : tri (tri ivl)) : tri (tri ivl) := tmap (tmap (fun i => Iv (clamp0 (lo i)) (clamp0 (hi i)))) m.

Definition insidev : tri R -> tri ivl -> Prop := tall2 inside.
Definition insidem : tri (tri R) -> tri (tri ivl) -> Prop := tall2 insidev.

Lemma ivdot_in : forall u v x y, insidev x u -> insidev y v -> inside (rdot x y) (ivdot u v).
Proof. intros u v x y (? & ? & ?) (? & ? & ?). unfold rdot, ivdot. auto using iadd_in, imul_in. Qed.

Lemma ivdot_r_in : forall u v x, insidev x u -> inside (rdot x v) (ivdot_r u v).
Proof. intros u v x (? & ? & ?). unfold rdot, ivdot_r. auto using iadd_in, iscale_in. Qed.

Lemma tall2_tmap : forall A B C D (P : A -> B -> Prop) (Q : C -> D -> Prop) f g u v,
  (forall a b, P a b -> Q (f a) (g b)) -> tall2 P u v -> tall2 Q (tmap f u) (tmap g v).
Proof. intros A B C D P Q f g u v H (? & ? & ?). unfold tall2, tmap. cbn. auto. Qed.

Lemma tall2_tmap2 : forall A B C A' B' C' (P : A -> A' -> Prop) (Q : B -> B' -> Prop) (W : C -> C' -> Prop) f g u v u' v',
  (forall a b a' b', P a a' -> Q b b' -> W (f a b) (g a' b')) -> tall2 P u u' -> tall2 Q v v' ->
  tall2 W (tmap2 f u v) (tmap2 g u' v').
Proof. intros until v'. intros H (? & ? & ?) (? & ? & ?). unfold tall2, tmap2. cbn. auto. Qed.

Lemma tall2_cols : forall A B (P : A -> B -> Prop) m n, tall2 (tall2 P) m n -> tall2 (tall2 P) (tcols m) (tcols n).
Proof. intros A B P m n ((?&?&?) & (?&?&?) & (?&?&?)). unfold tall2, tcols, tmap. cbn. tauto. Qed.
