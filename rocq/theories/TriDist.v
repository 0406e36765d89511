(** Triangle-triangle distance: include/fcl/narrowphase/detail/primitive_shape_algorithm/triangle_distance-inl.h.
    Scalars are reals; a division by zero is kept apart (NaN or infinite), as the code tests for NaN. *)
From Coq Require Import Reals Lra Psatz List Bool.
From Verif Require Import VecR Motion.
Import ListNotations.
Open Scope R_scope.

(** A quotient of two scalars: 0/0 is NaN, x/0 infinite with the sign of x (all divisors of the
    code are sums of squares or Gram determinants, so a zero divisor is +0). *)
Inductive quo := Fin (x : R) | Nan | Inf (plus : bool).
Definition qdiv (a b : R) : quo :=
  if Req_EM_T b 0 then if Req_EM_T a 0 then Nan else Inf (if Rlt_dec 0 a then true else false) else Fin (a / b).
(** (q < 0) || isnan(q),  (q <= 0) || isnan(q),  q > 1,  q >= 1 *)
Definition below0 (q : quo) : bool := match q with Fin x => if Rlt_dec x 0 then true else false | Nan => true | Inf s => negb s end.
Definition upto0 (q : quo) : bool := match q with Fin x => if Rle_dec x 0 then true else false | Nan => true | Inf s => negb s end.
Definition above1 (q : quo) : bool := match q with Fin x => if Rlt_dec 1 x then true else false | Nan => false | Inf s => s end.
Definition from1 (q : quo) : bool := match q with Fin x => if Rle_dec 1 x then true else false | Nan => false | Inf s => s end.
(** only reached for finite quotients *)
Definition qval (q : quo) : R := match q with Fin x => x | _ => 0 end.

(** segPoints (54-166): the segments are P + t A and Q + u B, t, u in [0,1]; result (VEC, X, Y). *)
Definition seg_points (P A Q B : v3) : v3 * v3 * v3 :=
  let T := vsub Q P in
  let aa := dot A A in let bb := dot B B in let ab := dot A B in let at_ := dot A T in let bt := dot B T in
  let t0 := qdiv (at_ * bb - bt * ab) (aa * bb - ab * ab) in
  let t := if below0 t0 then 0 else if above1 t0 then 1 else qval t0 in
  let u := qdiv (t * ab - bt) bb in
  if upto0 u then
    let t1 := qdiv at_ aa in
    if upto0 t1 then (vsub Q P, P, Q)
    else if from1 t1 then (vsub Q (vadd P A), vadd P A, Q)
    else (cross A (cross T A), vadd P (vscale (qval t1) A), Q)
  else if from1 u then
    let Y := vadd Q B in
    let t1 := qdiv (ab + at_) aa in
    if upto0 t1 then (vsub Y P, P, Y)
    else if from1 t1 then (vsub Y (vadd P A), vadd P A, Y)
    else (cross A (cross (vsub Y P) A), vadd P (vscale (qval t1) A), Y)
  else
    let Y := vadd Q (vscale (qval u) B) in
    if Rle_dec t 0 then (cross B (cross T B), P, Y)
    else if Rle_dec 1 t then (cross B (cross (vsub Q (vadd P A)) B), vadd P A, Y)
    else let VEC := cross A B in
         ((if Rlt_dec (dot VEC T) 0 then vscale (-1) VEC else VEC), vadd P (vscale t A), Y).

(** A triangle: Vector3<S> T[3]; indices modulo 3. *)
Definition triangle := nat -> v3.
Definition nx (i : nat) : nat := match i with 0%nat => 1%nat | 1%nat => 2%nat | _ => 0%nat end.
Definition side (T : triangle) (i : nat) : v3 := vsub (T (nx i)) (T i).

(** The variables of triDistance that live across the nine edge pairs (182-234). *)
Record st := St { sP : v3; sQ : v3; minP : v3; minQ : v3; mindd : R; shown : bool }.
Definition pairs : list (nat * nat) := list_prod [0; 1; 2]%nat [0; 1; 2]%nat.
Fixpoint scan (T1 T2 : triangle) (l : list (nat * nat)) (s : st) : (R * v3 * v3) + st :=
  match l with
  | [] => inr s
  | (i, j) :: l' =>
      let '(VEC, P, Q) := seg_points (T1 i) (side T1 i) (T2 j) (side T2 j) in
      let V := vsub Q P in
      let dd := dot V V in
      if Rle_dec dd (mindd s) then
        let a := dot (vsub (T1 (nx (nx i))) P) VEC in
        let b := dot (vsub (T2 (nx (nx j))) Q) VEC in
        if (if Rle_dec a 0 then if Rle_dec 0 b then true else false else false) then inl (sqrt dd, P, Q)
        else
          let a' := if Rlt_dec a 0 then 0 else a in
          let b' := if Rlt_dec 0 b then 0 else b in
          scan T1 T2 l' (St P Q P Q dd (if Rlt_dec 0 (dot V VEC - a' + b') then true else shown s))
      else scan T1 T2 l' (St P Q (minP s) (minQ s) (mindd s) (shown s))
  end.

(** 267-281, 329-341: the vertex of smallest projection if all projections have one strict sign. *)
Definition pos3 (f : nat -> R) : bool :=
  if Rlt_dec 0 (f 0%nat) then if Rlt_dec 0 (f 1%nat) then if Rlt_dec 0 (f 2%nat) then true else false else false else false.
Definition pick (f : nat -> R) : option nat :=
  if pos3 f then
    let p := if Rlt_dec (f 0%nat) (f 1%nat) then 0%nat else 1%nat in
    Some (if Rlt_dec (f 2%nat) (f p) then 2%nat else p)
  else if pos3 (fun k => - f k) then
    let p := if Rlt_dec (f 1%nat) (f 0%nat) then 0%nat else 1%nat in
    Some (if Rlt_dec (f p) (f 2%nat) then 2%nat else p)
  else None.
Definition normal (T : triangle) : v3 := cross (side T 0) (side T 1).
(** 290-298, 347-355: (x - T[i]) . (n x side i), positive for all i if x projects strictly inside. *)
Definition edge_fun (T : triangle) (i : nat) (x : v3) : R := dot (vsub x (T i)) (cross (normal T) (side T i)).
(** 251-308 (T = T1) and 312-366 (T = T2): does it show the triangles disjoint, and the pair
    (point of the face of T, vertex of O) if the vertex projects into the face. *)
Definition face (T O : triangle) : bool * option (v3 * v3) :=
  let n := normal T in
  let l := dot n n in
  if Rlt_dec (1 / 10 ^ 15) l then
    let f k := dot (vsub (T 0%nat) (O k)) n in
    match pick f with
    | Some k => (true, if pos3 (fun i => edge_fun T i (O k)) then Some (vadd (O k) (vscale (f k / l) n), O k) else None)
    | None => (false, None)
    end
  else (false, None).

(** triDistance (170-380); result (distance, P, Q). *)
Definition tri_distance (T1 T2 : triangle) : R * v3 * v3 :=
  let d0 := vsub (T1 0%nat) (T2 0%nat) in
  match scan T1 T2 pairs (St vzero vzero vzero vzero (dot d0 d0 + 1) false) with
  | inl r => r
  | inr s =>
      let '(sh1, r1) := face T1 T2 in
      match r1 with
      | Some (p, q) => (norm (vsub p q), p, q)
      | None =>
          let '(sh2, r2) := face T2 T1 in
          match r2 with
          | Some (q, p) => (norm (vsub p q), p, q)
          | None => if shown s || sh1 || sh2 then (sqrt (mindd s), minP s, minQ s) else (0, sP s, sQ s)
          end
      end
  end.
(** The overloads with a transform or a rotation and translation of the second triangle (400-461):
    P and Q come back in the frame of the first triangle. *)
Definition tri_distance_tf (T1 T2 : triangle) (X : tf) : R * v3 * v3 := tri_distance T1 (fun i => tf_apply X (T2 i)).

(** * Closest points of two segments *)
Section Core.
Variables aa bb ab at_ bt : R.
Hypothesis Ha : 0 < aa.
Hypothesis Hb : 0 < bb.
Hypothesis Hd : 0 < aa * bb - ab * ab.
Let t0 := (at_ * bb - bt * ab) / (aa * bb - ab * ab).
Let t := if Rlt_dec t0 0 then 0 else if Rlt_dec 1 t0 then 1 else t0.
Let ts := at_ / aa.
Let t' := if Rle_dec ts 0 then 0 else if Rle_dec 1 ts then 1 else ts.
Lemma core_u0 : 0 <= bt - t * ab -> 0 <= bt - t' * ab.
Proof.
  intros H.
  assert (E : (bt - ts * ab) * (aa * bb) = (aa * bb - ab * ab) * (bt - t0 * ab)).
  { unfold ts, t0. field. split; lra. }
  destruct (Rle_dec 0 (bt - t' * ab)) as [|N]; auto. exfalso. apply Rnot_le_lt in N.
  assert (Hm : 0 < aa * bb) by nra.
  assert (K : (0 <= bt - t0 * ab /\ bt - ts * ab < 0) \/ (bt - t0 * ab <= 0 /\ 0 < bt - ts * ab) -> False).
  { intros [[K1 K2]|[K1 K2]]; nra. }
  clearbody t0 ts. unfold t, t' in *. clear t t'.
  apply K. left.
  destruct (Rlt_dec t0 0), (Rlt_dec 1 t0), (Rle_dec ts 0), (Rle_dec 1 ts); try lra;
    (destruct (Rle_dec ab 0); split; nra).
Qed.
End Core.

Lemma cross3 : forall a b c, cross a (cross b c) = vsub (vscale (dot a c) b) (vscale (dot a b) c).
Proof. vring. Qed.
Lemma dot_pos : forall a, 0 <= dot a a. Proof. exact norm2_nonneg. Qed.
Lemma dot_zero : forall a, dot a a = 0 -> a = vzero. Proof. exact norm2_zero. Qed.
Lemma dot_vzero_l : forall a, dot vzero a = 0. Proof. vring. Qed.
Lemma dot_vzero_r : forall a, dot a vzero = 0. Proof. vring. Qed.

Definition clamp_t (num den : R) : R :=
  let t0 := qdiv num den in if below0 t0 then 0 else if above1 t0 then 1 else qval t0.
Definition clamp_1 (num den : R) : R :=
  let t1 := qdiv num den in if upto0 t1 then 0 else if from1 t1 then 1 else qval t1.

Lemma gram_nonneg : forall A B, 0 <= dot A A * dot B B - dot A B * dot A B.
Proof. intros A B. pose proof (lagrange A B) as L. pose proof (norm2_nonneg (cross A B)). unfold norm2 in *. lra. Qed.
Lemma gram_zero : forall A B T, dot A A * dot B B - dot A B * dot A B = 0 -> dot A T * dot B B - dot B T * dot A B = 0.
Proof.
  intros A B T H. pose proof (lagrange A B) as L. unfold norm2 in L.
  assert (N : dot (cross A B) (cross A B) = 0) by lra. apply dot_zero in N.
  replace (dot A T * dot B B - dot B T * dot A B) with (dot T (cross B (cross A B))).
  - rewrite N. replace (cross B vzero) with vzero by vring. apply dot_vzero_r.
  - rewrite cross3. rewrite dot_sub_r, !dot_scale_r, (dot_comm T A), (dot_comm T B), (dot_comm B A). ring.
Qed.
Lemma clamp_t_range : forall n d, 0 <= clamp_t n d <= 1.
Proof.
  intros n d. unfold clamp_t, qdiv. destruct (Req_EM_T d 0); [destruct (Req_EM_T n 0)|]; cbn; try lra.
  - destruct (Rlt_dec 0 n); cbn; lra.
  - destruct (Rlt_dec (n / d) 0); [lra|]. destruct (Rlt_dec 1 (n / d)); lra.
Qed.
Lemma clamp_1_range : forall n d, 0 <= clamp_1 n d <= 1.
Proof.
  intros n d. unfold clamp_1, qdiv. destruct (Req_EM_T d 0); [destruct (Req_EM_T n 0)|]; cbn; try lra.
  - destruct (Rlt_dec 0 n); cbn; lra.
  - destruct (Rle_dec (n / d) 0); [lra|]. destruct (Rle_dec 1 (n / d)); lra.
Qed.
Lemma core_gen : forall A B T,
  let t := clamp_t (dot A T * dot B B - dot B T * dot A B) (dot A A * dot B B - dot A B * dot A B) in
  let t' := clamp_1 (dot A T) (dot A A) in
  0 <= dot B T - t * dot A B -> 0 <= dot B T - t' * dot A B.
Proof.
  intros A B T t t' H.
  destruct (Req_EM_T (dot A A) 0) as [Ea|Ea].
  { apply dot_zero in Ea. subst A. rewrite dot_vzero_l in *. lra. }
  destruct (Req_EM_T (dot B B) 0) as [Eb|Eb].
  { apply dot_zero in Eb. subst B. rewrite dot_vzero_r, dot_vzero_l in *. lra. }
  pose proof (dot_pos A) as Pa. pose proof (dot_pos B) as Pb. pose proof (gram_nonneg A B) as Pg.
  destruct (Req_EM_T (dot A A * dot B B - dot A B * dot A B) 0) as [Eg|Eg].
  - pose proof (gram_zero A B T Eg) as Z.
    assert (Et : t = 0). { unfold t, clamp_t, qdiv. destruct (Req_EM_T _ 0); [|contradiction]. destruct (Req_EM_T _ 0); [|contradiction]. reflexivity. }
    rewrite Et in H. unfold t', clamp_1, qdiv. destruct (Req_EM_T (dot A A) 0); [contradiction|]. cbn.
    destruct (Rle_dec (dot A T / dot A A) 0) as [L|L]; [lra|]. apply Rnot_le_lt in L.
    assert (Hat : 0 < dot A T).
    { replace (dot A T) with (dot A T / dot A A * dot A A) by (field; lra). apply Rmult_lt_0_compat; lra. }
    assert (Hs : dot B T - dot A T / dot A A * dot A B = 0).
    { apply Rmult_eq_reg_r with (dot A A * dot B B); [|apply Rmult_integral_contrapositive; auto].
      replace ((dot B T - dot A T / dot A A * dot A B) * (dot A A * dot B B))
        with (dot B T * (dot A A * dot B B) - (dot A T * dot B B) * dot A B) by (field; lra).
      replace (dot A T * dot B B) with (dot B T * dot A B) by lra.
      replace (dot A A * dot B B) with (dot A B * dot A B) by lra. ring. }
    assert (Hab : 0 <= dot A B).
    { assert (0 < dot A T * dot B B) by (apply Rmult_lt_0_compat; lra). nra. }
    destruct (Rle_dec 1 (dot A T / dot A A)) as [L1|L1]; nra.
  - assert (Et : t = (let t0 := (dot A T * dot B B - dot B T * dot A B) / (dot A A * dot B B - dot A B * dot A B) in
      if Rlt_dec t0 0 then 0 else if Rlt_dec 1 t0 then 1 else t0)).
    { unfold t, clamp_t, qdiv. destruct (Req_EM_T _ 0); [contradiction|]. cbn.
      destruct (Rlt_dec _ 0); auto. destruct (Rlt_dec 1 _); auto. }
    assert (Et' : t' = (let ts := dot A T / dot A A in if Rle_dec ts 0 then 0 else if Rle_dec 1 ts then 1 else ts)).
    { unfold t', clamp_1, qdiv. destruct (Req_EM_T (dot A A) 0); [contradiction|]. cbn.
      destruct (Rle_dec _ 0); auto. destruct (Rle_dec 1 _); auto. }
    rewrite Et'. rewrite Et in H. apply (core_u0 (dot A A) (dot B B)); auto; lra.
Qed.

(** what segPoints guarantees: the points lie on the segments, VEC is a direction along which
    they are the extreme points of their segments, and the vector between them is a multiple of it *)
Definition seg_ok (P A Q B : v3) (r : v3 * v3 * v3) : Prop :=
  let '(VEC, X, Y) := r in
  exists t u k, 0 <= t <= 1 /\ 0 <= u <= 1 /\ X = vadd P (vscale t A) /\ Y = vadd Q (vscale u B) /\
    0 <= k /\ vsub Y X = vscale k VEC /\
    (forall s, 0 <= s <= 1 -> (s - t) * dot A VEC <= 0) /\ (forall s, 0 <= s <= 1 -> 0 <= (s - u) * dot B VEC).

(** first and second branch: the second segment's point is its end Y, at parameter u *)
Lemma seg_end : forall P A Q B u Y num, let T := vsub Y P in
  (u = 0 \/ u = 1) -> Y = vadd Q (vscale u B) -> num = dot A T ->
  (forall s, 0 <= s <= 1 -> 0 <= (s - u) * (dot B T - clamp_1 num (dot A A) * dot A B)) ->
  seg_ok P A Q B
    (let t1 := qdiv num (dot A A) in
     if upto0 t1 then (vsub Y P, P, Y)
     else if from1 t1 then (vsub Y (vadd P A), vadd P A, Y)
     else (cross A (cross (vsub Y P) A), vadd P (vscale (qval t1) A), Y)).
Proof.
  intros P A Q B u Y num T Hu HY -> HB. fold T. pose proof (dot_pos A) as Pa.
  assert (Hu' : 0 <= u <= 1) by (destruct Hu; lra).
  unfold clamp_1 in HB. cbv zeta in *. unfold qdiv in *. destruct (Req_EM_T (dot A A) 0) as [Ea|Ea].
  { assert (A = vzero) by (apply dot_zero; auto). subst A. rewrite dot_vzero_l in *. destruct (Req_EM_T 0 0); [|lra]. cbn in *.
    exists 0, u, 1. repeat split; try lra; auto.
    - vring.
    - unfold T. vring.
    - intros. rewrite dot_vzero_l. lra.
    - intros s Hs. specialize (HB s Hs). fold T. lra. }
  cbn in *. destruct (Rle_dec (dot A T / dot A A) 0) as [L|L]; cbn.
  { assert (Hat : dot A T <= 0). { replace (dot A T) with (dot A T / dot A A * dot A A) by (field; lra). nra. }
    exists 0, u, 1. repeat split; try lra; auto.
    - vring.
    - unfold T. vring.
    - intros. nra.
    - intros s Hs. specialize (HB s Hs). lra. }
  apply Rnot_le_lt in L. destruct (Rle_dec 1 (dot A T / dot A A)) as [L1|L1]; cbn.
  { assert (Hat : dot A A <= dot A T). { replace (dot A T) with (dot A T / dot A A * dot A A) by (field; lra). nra. }
    assert (EV : forall C, dot C (vsub Y (vadd P A)) = dot C T - dot C A). { intros. unfold T. vring. }
    exists 1, u, 1. repeat split; try lra; auto.
    - vring.
    - vring.
    - intros. rewrite EV. nra.
    - intros s Hs. specialize (HB s Hs). rewrite EV, (dot_comm B A). lra. }
  apply Rnot_le_lt in L1.
  assert (EV : forall C, dot C (cross A (cross T A)) = dot A A * dot C T - dot A T * dot C A).
  { intros. rewrite cross3, dot_sub_r, !dot_scale_r. ring. }
  exists (dot A T / dot A A), u, (/ dot A A). repeat split; try lra; auto.
  - left. apply Rinv_0_lt_compat. lra.
  - rewrite cross3. apply v3_ext; unfold T; unfold vsub, vadd, vscale; cbn [c0 c1 c2]; field; lra.
  - intros. rewrite EV. nra.
  - intros s Hs. specialize (HB s Hs). rewrite EV, (dot_comm B A).
    replace (dot A A * dot B T - dot A T * dot A B) with (dot A A * (dot B T - dot A T / dot A A * dot A B)) by (field; lra).
    replace ((s - u) * (dot A A * (dot B T - dot A T / dot A A * dot A B)))
      with (dot A A * ((s - u) * (dot B T - dot A T / dot A A * dot A B))) by ring.
    apply Rmult_le_pos; lra.
Qed.

Lemma perp_multiple : forall V N A B, N = cross A B -> dot N N <> 0 -> dot A V = 0 -> dot B V = 0 ->
  V = vscale (dot V N / dot N N) N.
Proof.
  intros V N A B -> HN HA HB.
  assert (E : cross V (cross A B) = vzero).
  { rewrite cross3, (dot_comm V B), (dot_comm V A), HA, HB. vring. }
  assert (E2 : cross (cross A B) (cross V (cross A B)) = vsub (vscale (dot (cross A B) (cross A B)) V) (vscale (dot (cross A B) V) (cross A B))) by apply cross3.
  rewrite E in E2. replace (cross (cross A B) vzero) with vzero in E2 by vring.
  set (N := cross A B) in *. clearbody N. rewrite (dot_comm N V) in E2.
  assert (EE : vscale (dot N N) V = vscale (dot V N) N).
  { apply v3_ext; [pose proof (f_equal c0 E2) as F|pose proof (f_equal c1 E2) as F|pose proof (f_equal c2 E2) as F];
    unfold vsub, vscale, vzero in F |- *; cbn [c0 c1 c2] in F |- *; lra. }
  apply v3_ext; [pose proof (f_equal c0 EE) as F|pose proof (f_equal c1 EE) as F|pose proof (f_equal c2 EE) as F];
    unfold vscale in F |- *; cbn [c0 c1 c2] in F |- *;
    (apply Rmult_eq_reg_l with (dot N N); auto; rewrite F; field; auto).
Qed.

Lemma seg_points_ok : forall P A Q B, seg_ok P A Q B (seg_points P A Q B).
Proof.
  intros P A Q B. unfold seg_points. set (T := vsub Q P). cbv zeta.
  pose proof (core_gen A B T) as C1. pose proof (core_gen A (vneg B) (vadd T B)) as C2. cbv zeta in C1, C2.
  set (t := if below0 _ then 0 else _).
  replace (clamp_t _ _) with t in C1 by reflexivity.
  assert (E2 : clamp_t (dot A (vadd T B) * dot (vneg B) (vneg B) - dot (vneg B) (vadd T B) * dot A (vneg B))
     (dot A A * dot (vneg B) (vneg B) - dot A (vneg B) * dot A (vneg B)) = t).
  { unfold t, clamp_t. cbv zeta.
    replace (dot A A * dot (vneg B) (vneg B) - dot A (vneg B) * dot A (vneg B)) with (dot A A * dot B B - dot A B * dot A B)
      by (rewrite !dot_neg_l, !dot_neg_r; ring).
    replace (dot A (vadd T B) * dot (vneg B) (vneg B) - dot (vneg B) (vadd T B) * dot A (vneg B)) with (dot A T * dot B B - dot B T * dot A B)
      by (rewrite !dot_neg_l, !dot_neg_r, !dot_add_r; ring). reflexivity. }
  rewrite E2 in C2. clear E2.
  assert (Rt : 0 <= t <= 1) by apply clamp_t_range.
  assert (Ht : (t <= 0 -> dot B B <> 0 -> dot A T * dot B B - dot B T * dot A B <= 0) /\
    (1 <= t -> 0 <= dot A T * dot B B - dot B T * dot A B - (dot A A * dot B B - dot A B * dot A B)) /\
    (0 < t < 1 -> dot A A * dot B B - dot A B * dot A B <> 0 /\ t = (dot A T * dot B B - dot B T * dot A B) / (dot A A * dot B B - dot A B * dot A B))).
  { pose proof (gram_zero A B T) as GZ. pose proof (gram_nonneg A B) as GN.
    unfold t, qdiv. destruct (Req_EM_T _ 0) as [Eg|Eg].
    - rewrite GZ by auto. destruct (Req_EM_T 0 0); [|lra]. cbn. repeat split; intros; lra.
    - cbn. set (den := dot A A * dot B B - dot A B * dot A B) in *. set (num := dot A T * dot B B - dot B T * dot A B) in *.
      assert (En : num = num / den * den) by (field; auto).
      destruct (Rlt_dec (num / den) 0) as [L|L]; [|destruct (Rlt_dec 1 (num / den)) as [L1|L1]]; repeat split; intros; try lra; auto; try (rewrite En; nra). }
  clearbody t. destruct Ht as (Ht0 & Ht1 & Hti).
  destruct (upto0 (qdiv (t * dot A B - dot B T) (dot B B))) eqn:Eu.
  { assert (H0 : 0 <= dot B T - t * dot A B).
    { unfold qdiv in Eu. pose proof (dot_pos B). destruct (Req_EM_T (dot B B) 0) as [Eb|Eb].
      - apply dot_zero in Eb. subst B. rewrite dot_vzero_l, dot_vzero_r. lra.
      - cbn in Eu. destruct (Rle_dec _ 0) as [L|]; [|discriminate].
        assert (t * dot A B - dot B T <= 0); [|lra]. replace (t * dot A B - dot B T) with ((t * dot A B - dot B T) / dot B B * dot B B) by (field; auto). nra. }
    specialize (C1 H0).
    apply (seg_end P A Q B 0 Q (dot A T)); [left; auto|vring|reflexivity|]. intros s Hs. fold T. nra. }
  destruct (from1 (qdiv (t * dot A B - dot B T) (dot B B))) eqn:Ef.
  { assert (H0 : dot B B <= t * dot A B - dot B T).
    { unfold qdiv in *. pose proof (dot_pos B). destruct (Req_EM_T (dot B B) 0) as [Eb|Eb].
      - apply dot_zero in Eb. subst B. rewrite ?dot_vzero_l, ?dot_vzero_r in Eu. exfalso. destruct (Req_EM_T (t * 0 - 0) 0); [discriminate|lra].
      - cbn in Ef. destruct (Rle_dec 1 _) as [L|]; [|discriminate].
        replace (t * dot A B - dot B T) with ((t * dot A B - dot B T) / dot B B * dot B B) by (field; auto). nra. }
    rewrite !dot_neg_l, !dot_neg_r, !dot_add_r in C2.
    assert (C2' := C2 ltac:(lra)). clear C2.
    assert (ET : vsub (vadd Q B) P = vadd T B) by (unfold T; vring).
    apply (seg_end P A Q B 1 (vadd Q B) (dot A B + dot A T)); [right; auto|vring| |].
    - rewrite ET, dot_add_r. ring.
    - intros s Hs. rewrite ET, dot_add_r. rewrite (Rplus_comm (dot A T)) in C2'. nra. }
  assert (Eb : dot B B <> 0).
  { intros Eb. unfold qdiv in Eu. destruct (Req_EM_T (dot B B) 0); [|contradiction].
    apply dot_zero in Eb. subst B. rewrite ?dot_vzero_l, ?dot_vzero_r in Eu. destruct (Req_EM_T (t * 0 - 0) 0); [discriminate|lra]. }
  unfold qdiv in *. destruct (Req_EM_T (dot B B) 0); [contradiction|]. cbn in *.
  set (u := (t * dot A B - dot B T) / dot B B) in *.
  destruct (Rle_dec u 0); [discriminate|]. destruct (Rle_dec 1 u); [discriminate|].
  assert (Hu : u * dot B B = t * dot A B - dot B T) by (unfold u; field; auto). pose proof (dot_pos B) as Pb.
  assert (EV : forall C X, dot C (cross B (cross X B)) = dot B B * dot C X - dot B X * dot C B).
  { intros. rewrite cross3, dot_sub_r, !dot_scale_r. ring. }
  destruct (Rle_dec t 0) as [L|L].
  { assert (t = 0) by lra. exists 0, u, (/ dot B B). repeat split; try lra; auto.
    - vring.
    - left. apply Rinv_0_lt_compat. lra.
    - rewrite cross3. replace u with (- dot B T / dot B B) by (unfold u; rewrite H; field; auto).
      apply v3_ext; unfold T; unfold vsub, vadd, vscale; cbn [c0 c1 c2]; field; auto.
    - intros. rewrite EV. specialize (Ht0 L Eb). nra.
    - intros. rewrite EV. nra. }
  destruct (Rle_dec 1 t) as [L1|L1].
  { assert (t = 1) by lra. specialize (Ht1 L1).
    assert (ET : vsub Q (vadd P A) = vsub T A) by (unfold T; vring). rewrite ET.
    exists 1, u, (/ dot B B). repeat split; try lra; auto.
    - vring.
    - left. apply Rinv_0_lt_compat. lra.
    - rewrite cross3. replace u with (- dot B (vsub T A) / dot B B) by (unfold u; rewrite H, dot_sub_r, (dot_comm B A); field; auto).
      apply v3_ext; unfold T; unfold vsub, vadd, vscale; cbn [c0 c1 c2]; field; auto.
    - intros. rewrite EV, !dot_sub_r, (dot_comm B A). nra.
    - intros. rewrite EV, !dot_sub_r, (dot_comm B A). nra. }
  destruct (Hti ltac:(lra)) as [Eg Et].
  assert (EN : dot (cross A B) (cross A B) <> 0).
  { pose proof (lagrange A B) as LL. unfold norm2 in LL. lra. }
  set (V := vsub (vadd Q (vscale u B)) (vadd P (vscale t A))).
  assert (VA : dot A V = 0).
  { replace V with (vsub (vadd T (vscale u B)) (vscale t A)) by (unfold V, T; vring).
    rewrite dot_sub_r, dot_add_r, !dot_scale_r. unfold u. apply Rmult_eq_reg_r with (dot B B); auto.
    replace ((dot A T + (t * dot A B - dot B T) / dot B B * dot A B - t * dot A A) * dot B B)
      with ((dot A T * dot B B - dot B T * dot A B) - t * (dot A A * dot B B - dot A B * dot A B)) by (field; auto).
    rewrite Et. field. auto. }
  assert (VB : dot B V = 0).
  { replace V with (vsub (vadd T (vscale u B)) (vscale t A)) by (unfold V, T; vring).
    rewrite dot_sub_r, dot_add_r, !dot_scale_r, (dot_comm B A). lra. }
  pose proof (perp_multiple V (cross A B) A B eq_refl EN VA VB) as EVN.
  assert (VT : dot V (cross A B) = dot (cross A B) T).
  { unfold V, T. vring. }
  assert (PN := dot_pos (cross A B)).
  assert (ZA : dot A (cross A B) = 0) by vring. assert (ZB : dot B (cross A B) = 0) by vring.
  destruct (Rlt_dec (dot (cross A B) T) 0) as [S|S].
  - exists t, u, (- (dot V (cross A B) / dot (cross A B) (cross A B))). repeat split; try lra; auto.
    + rewrite VT. unfold Rdiv. rewrite Ropp_mult_distr_l. apply Rmult_le_pos; [lra|]. left. apply Rinv_0_lt_compat. lra.
    + fold V. rewrite EVN at 1. vring.
    + intros. rewrite dot_scale_r, ZA. lra.
    + intros. rewrite dot_scale_r, ZB. lra.
  - exists t, u, (dot V (cross A B) / dot (cross A B) (cross A B)). repeat split; try lra; auto.
    + rewrite VT. unfold Rdiv. apply Rmult_le_pos; [lra|]. left. apply Rinv_0_lt_compat. lra.
    + intros. rewrite ZA. lra.
    + intros. rewrite ZB. lra.
Qed.
