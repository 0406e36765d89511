(** Jacobi eigenvector iteration, covariance and axis selection
    (include/fcl/math/geometry-inl.h) over the reals. *)
From Coq Require Import Nsatz Reals Lra Psatz Lia Arith List.
From Verif Require Import VecR.
Import ListNotations.
Open Scope R_scope.

(** State of eigen_old (476-562): upper entries of R, d, b, z and v; column k of [jv] is
    (v[0][k], v[1][k], v[2][k]). *)
Record jac := mkj { r01 : R; r02 : R; r12 : R; jd : v3; jb : v3; jz : v3; jv : mat3 }.

Section Jacobi.
(** [absorbed x g]: the floating point test abs(x) + g == abs(x). *)
Variable absorbed : R -> R -> bool.

(** t of the rotation that annihilates r = R(ip,iq), with h = d[iq] - d[ip] (526-533) *)
Definition jt (r h : R) : R :=
  if absorbed h (100 * Rabs r) then r / h
  else let theta := h / 2 / r in
       let t := 1 / (Rabs theta + sqrt (1 + theta * theta)) in
       if Rlt_dec theta 0 then - t else t.
(** the paired updates g - s * (h + g * tau), h + s * (g - h * tau) (543-546) *)
Definition lo (s tau g h : R) : R := g - s * (h + g * tau).
Definition hi (s tau g h : R) : R := h + s * (g - h * tau).
Definition vlo (s tau : R) (g h : v3) : v3 := mk3 (lo s tau (c0 g) (c0 h)) (lo s tau (c1 g) (c1 h)) (lo s tau (c2 g) (c2 h)).
Definition vhi (s tau : R) (g h : v3) : v3 := mk3 (hi s tau (c0 g) (c0 h)) (hi s tau (c1 g) (c1 h)) (hi s tau (c2 g) (c2 h)).
Definition jc (t : R) : R := 1 / sqrt (1 + t * t).

(** one rotation (526-547) for each index pair *)
Definition rot01 (j : jac) : jac :=
  let t := jt (r01 j) (c1 (jd j) - c0 (jd j)) in
  let c := jc t in let s := t * c in let tau := s / (1 + c) in
  let h := t * r01 j in
  mkj 0 (lo s tau (r02 j) (r12 j)) (hi s tau (r02 j) (r12 j))
      (mk3 (c0 (jd j) - h) (c1 (jd j) + h) (c2 (jd j))) (jb j)
      (mk3 (c0 (jz j) - h) (c1 (jz j) + h) (c2 (jz j)))
      (mkm (vlo s tau (m0 (jv j)) (m1 (jv j))) (vhi s tau (m0 (jv j)) (m1 (jv j))) (m2 (jv j))).
Definition rot02 (j : jac) : jac :=
  let t := jt (r02 j) (c2 (jd j) - c0 (jd j)) in
  let c := jc t in let s := t * c in let tau := s / (1 + c) in
  let h := t * r02 j in
  mkj (lo s tau (r01 j) (r12 j)) 0 (hi s tau (r01 j) (r12 j))
      (mk3 (c0 (jd j) - h) (c1 (jd j)) (c2 (jd j) + h)) (jb j)
      (mk3 (c0 (jz j) - h) (c1 (jz j)) (c2 (jz j) + h))
      (mkm (vlo s tau (m0 (jv j)) (m2 (jv j))) (m1 (jv j)) (vhi s tau (m0 (jv j)) (m2 (jv j)))).
Definition rot12 (j : jac) : jac :=
  let t := jt (r12 j) (c2 (jd j) - c1 (jd j)) in
  let c := jc t in let s := t * c in let tau := s / (1 + c) in
  let h := t * r12 j in
  mkj (lo s tau (r01 j) (r02 j)) (hi s tau (r01 j) (r02 j)) 0
      (mk3 (c0 (jd j)) (c1 (jd j) - h) (c2 (jd j) + h)) (jb j)
      (mk3 (c0 (jz j)) (c1 (jz j) - h) (c2 (jz j) + h))
      (mkm (m0 (jv j)) (vlo s tau (m1 (jv j)) (m2 (jv j))) (vhi s tau (m1 (jv j)) (m2 (jv j)))).
Definition set01 (j : jac) := mkj 0 (r02 j) (r12 j) (jd j) (jb j) (jz j) (jv j).
Definition set02 (j : jac) := mkj (r01 j) 0 (r12 j) (jd j) (jb j) (jz j) (jv j).
Definition set12 (j : jac) := mkj (r01 j) (r02 j) 0 (jd j) (jb j) (jz j) (jv j).

(** one entry of a sweep (519-548) *)
Definition visit (i : nat) (tresh r dp dq : R) (zero rot : jac -> jac) (j : jac) : jac :=
  let g := 100 * Rabs r in
  if (Nat.ltb 3 i && absorbed dp g && absorbed dq g)%bool then zero j
  else if Rlt_dec tresh (Rabs r) then rot j else j.
(** one sweep (512-556) *)
Definition sweep (i : nat) (sm : R) (j : jac) : jac :=
  let tresh := if Nat.ltb i 3 then sm / 5 / 9 else 0 in
  let j := visit i tresh (r01 j) (c0 (jd j)) (c1 (jd j)) set01 rot01 j in
  let j := visit i tresh (r02 j) (c0 (jd j)) (c2 (jd j)) set02 rot02 j in
  let j := visit i tresh (r12 j) (c1 (jd j)) (c2 (jd j)) set12 rot12 j in
  let b := vadd (jb j) (jz j) in
  mkj (r01 j) (r02 j) (r12 j) b b vzero (jv j).
Fixpoint sweeps (fuel i : nat) (j : jac) : option (v3 * mat3) :=
  match fuel with
  | O => None
  | S fuel =>
      let sm := 0 + Rabs (r01 j) + Rabs (r02 j) + Rabs (r12 j) in
      if Req_EM_T sm 0 then Some (jd j, jv j) else sweeps fuel (S i) (sweep i sm j)
  end.
(** eigen_old(m): the eigenvalues dout and the eigenvectors; vout is the transpose of v, so
    the k-th vector, column k of the matrix here, is vout.row(k). [None]: "too many
    iterations", dout and vout are not written. *)
Definition eigen_old (m : mat3) : option (v3 * mat3) :=
  let d := mk3 (c0 (m0 m)) (c1 (m1 m)) (c2 (m2 m)) in
  sweeps 50 0 (mkj (c0 (m1 m)) (c0 (m2 m)) (c1 (m2 m)) d d vzero mid).
End Jacobi.

(** Index selection (569-597, and OBB-inl.h 284-307) *)
Definition select (s : v3) : nat * nat * nat :=
  let '(mn, mx) := if Rlt_dec (c1 s) (c0 s) then (1, 0)%nat else (0, 1)%nat in
  if Rlt_dec (c2 s) (comp mn s) then (2%nat, mn, mx)
  else if Rlt_dec (comp mx s) (c2 s) then (mn, mx, 2%nat)
  else (mn, 2%nat, mx).
(** axisFromEigen (566-602) *)
Definition axis_from_eigen (s : v3) (V : mat3) : mat3 :=
  let '(_, md, mx) := select s in
  let a0 := col mx V in let a1 := col md V in
  mkm a0 a1 (cross a0 a1).

(** getCovariance (1337-1424) of the visited points, in the order visited *)
Definition sumf (f : v3 -> R) (ps : list v3) : R := fold_left (fun a p => a + f p) ps 0.
Definition covariance (ps : list v3) : mat3 :=
  let n := INR (length ps) in
  let m f g := sumf (fun p => f p * g p) ps - sumf f ps * sumf g ps / n in
  mkm (mk3 (m c0 c0) (m c0 c1) (m c0 c2)) (mk3 (m c0 c1) (m c1 c1) (m c1 c2)) (mk3 (m c0 c2) (m c1 c2) (m c2 c2)).

(** ** Lemmas *)
Definition sym (m : mat3) : Prop := c1 (m0 m) = c0 (m1 m) /\ c2 (m0 m) = c0 (m2 m) /\ c2 (m1 m) = c1 (m2 m).
Definition bil (m : mat3) (x y : v3) : R := dot (mapply m x) y.

(** The rotation coefficients. *)
Lemma jc_spec : forall t, let c := jc t in let s := t * c in let tau := s / (1 + c) in
  c * c + s * s = 1 /\ 0 < c /\ (forall g h, lo s tau g h = c * g - s * h) /\ (forall g h, hi s tau g h = s * g + c * h).
Proof.
  intros t c s tau.
  assert (P : 0 < 1 + t * t) by nra.
  assert (Q : 0 < sqrt (1 + t * t)) by (apply sqrt_lt_R0; exact P).
  assert (S : sqrt (1 + t * t) * sqrt (1 + t * t) = 1 + t * t) by (apply sqrt_sqrt; lra).
  assert (Hc : 0 < c) by (unfold c, jc; apply Rdiv_lt_0_compat; lra).
  assert (Hcs : c * sqrt (1 + t * t) = 1) by (unfold c, jc; field; lra).
  assert (N : c * c + s * s = 1).
  { unfold s. replace (c * c + t * c * (t * c)) with (c * c * (1 + t * t)) by ring. rewrite <- S.
    replace (c * c * (sqrt (1 + t * t) * sqrt (1 + t * t))) with ((c * sqrt (1 + t * t)) * (c * sqrt (1 + t * t))) by ring. rewrite Hcs. ring. }
  split; [exact N|split; [exact Hc|]].
  assert (T : s * tau = 1 - c). { unfold tau. apply Rmult_eq_reg_r with (1 + c); [|lra]. field_simplify; [|lra]. nra. }
  split; intros g h.
  - unfold lo. replace (g - s * (h + g * tau)) with (g - s * h - g * (s * tau)) by ring. rewrite T. ring.
  - unfold hi. replace (h + s * (g - h * tau)) with (h + s * g - h * (s * tau)) by ring. rewrite T. ring.
Qed.

Section Inv.
Variable absorbed : R -> R -> bool.

Definition vcomb (a : R) (x : v3) (b : R) (y : v3) : v3 := vadd (vscale a x) (vscale b y).

Lemma vlo_spec : forall t g h, vlo (t * jc t) (t * jc t / (1 + jc t)) g h = vcomb (jc t) g (- (t * jc t)) h.
Proof.
  intros t g h. destruct (jc_spec t) as (_ & _ & L & _). unfold vlo, vcomb, vadd, vscale. cbn. rewrite !L. f_equal; ring.
Qed.
Lemma vhi_spec : forall t g h, vhi (t * jc t) (t * jc t / (1 + jc t)) g h = vcomb (t * jc t) g (jc t) h.
Proof.
  intros t g h. destruct (jc_spec t) as (_ & _ & _ & L). unfold vhi, vcomb, vadd, vscale. cbn. rewrite !L. f_equal; ring.
Qed.

Lemma dot_comb_l : forall a x b y z, dot (vcomb a x b y) z = a * dot x z + b * dot y z.
Proof. intros. unfold vcomb. rewrite dot_add_l, !dot_scale_l. reflexivity. Qed.
Lemma dot_comb_r : forall a x b y z, dot z (vcomb a x b y) = a * dot z x + b * dot z y.
Proof. intros. unfold vcomb. rewrite dot_add_r, !dot_scale_r. reflexivity. Qed.

Ltac orth := unfold ortho; cbn [m0 m1 m2]; rewrite ?vlo_spec, ?vhi_spec, ?dot_comb_l, ?dot_comb_r.
Lemma ortho_rot : forall c s x y, c * c + s * s = 1 -> dot x x = 1 -> dot y y = 1 -> dot x y = 0 ->
  dot (vcomb c x (- s) y) (vcomb c x (- s) y) = 1 /\ dot (vcomb s x c y) (vcomb s x c y) = 1 /\ dot (vcomb c x (- s) y) (vcomb s x c y) = 0.
Proof.
  intros c s x y N X Y XY. rewrite !dot_comb_l, !dot_comb_r, (dot_comm y x), X, Y, XY. split; [|split]; nra.
Qed.

Lemma rot_ortho : forall j, ortho (jv j) -> ortho (jv (rot01 absorbed j)) /\ ortho (jv (rot02 absorbed j)) /\ ortho (jv (rot12 absorbed j)).
Proof.
  intros j (O0 & O1 & O2 & O01 & O02 & O12).
  unfold rot01, rot02, rot12. cbv zeta. cbn [jv].
  split; [|split]; unfold ortho; cbn [m0 m1 m2]; rewrite ?vlo_spec, ?vhi_spec;
  match goal with |- context [jc ?t] => destruct (jc_spec t) as (N & _ & _ & _); generalize dependent (t * jc t); generalize (jc t); intros c s N end.
  - destruct (ortho_rot c s _ _ N O0 O1 O01) as (A & B & C). rewrite A, B, C, !dot_comb_l, O02, O12. repeat (split; [first [reflexivity|exact O2|ring]|]). ring.
  - destruct (ortho_rot c s _ _ N O0 O2 O02) as (A & B & C). rewrite A, B, C, !dot_comb_l, !dot_comb_r, (dot_comm (m1 (jv j)) (m0 (jv j))), O01, O12.
    repeat (split; [first [reflexivity|exact O1|ring|rewrite (dot_comm (m2 (jv j))), O12; ring]|]). ring.
  - destruct (ortho_rot c s _ _ N O1 O2 O12) as (A & B & C). rewrite A, B, C, !dot_comb_r, O01, O02. repeat (split; [first [reflexivity|exact O0|ring]|]). reflexivity.
Qed.

Lemma visit_ind : forall (P : jac -> Prop) i tresh r dp dq zero rot j,
  P j -> P (zero j) -> P (rot j) -> P (visit absorbed i tresh r dp dq zero rot j).
Proof. intros. unfold visit. destruct (_ && _)%bool; [assumption|]. destruct (Rlt_dec _ _); assumption. Qed.

Lemma sweep_ortho : forall i sm j, ortho (jv j) -> ortho (jv (sweep absorbed i sm j)).
Proof.
  intros i sm j H. unfold sweep. cbv zeta. cbn [jv].
  repeat (apply (visit_ind (fun j => ortho (jv j))); try (apply rot_ortho); cbn [jv set01 set02 set12]); assumption.
Qed.

Lemma sweeps_ortho : forall fuel i j d V, ortho (jv j) -> sweeps absorbed fuel i j = Some (d, V) -> ortho V.
Proof.
  induction fuel as [|fuel IH]; intros i j d V H E; cbn [sweeps] in E; [discriminate|].
  destruct (Req_EM_T _ 0); [injection E as _ <-; exact H|]. eapply IH; [|exact E]. apply sweep_ortho. exact H.
Qed.
End Inv.

(** ** Exact arithmetic: the matrix stays the same in the rotated basis *)
Definition exact_absorb (absorbed : R -> R -> bool) : Prop := forall x g, absorbed x g = true <-> Rabs x + g = Rabs x.

Section Exact.
Variable absorbed : R -> R -> bool.
Hypothesis Hab : exact_absorb absorbed.

(** t solves r t^2 + h t - r = 0 *)
Lemma jt_root : forall r h, r <> 0 -> r * (jt absorbed r h * jt absorbed r h) + h * jt absorbed r h - r = 0.
Proof.
  intros r h Hr. unfold jt.
  destruct (absorbed h (100 * Rabs r)) eqn:E.
  { apply Hab in E. pose proof (Rabs_pos_lt r Hr). lra. }
  cbv zeta. set (th := h / 2 / r). assert (Eh : h = 2 * th * r) by (unfold th; field; exact Hr).
  set (w := sqrt (1 + th * th)).
  assert (W : w * w = 1 + th * th) by (apply sqrt_sqrt; nra).
  assert (Wp : 0 < w) by (apply sqrt_lt_R0; nra).
  rewrite Eh. clearbody th w. clear Eh E.
  assert (K : forall t, t * t + 2 * th * t - 1 = 0 -> r * (t * t) + 2 * th * r * t - r = 0) by (intros t Ht; nra).
  apply K.
  destruct (Rlt_dec th 0) as [L|L].
  - rewrite Rabs_left by exact L. assert (D : 0 < - th + w) by lra.
    set (t := 1 / (- th + w)). assert (Et : t * (- th + w) = 1) by (unfold t; field; lra). clearbody t.
    apply Rmult_eq_reg_r with ((- th + w) * (- th + w)); [|nra].
    replace ((- t * - t + 2 * th * - t - 1) * ((- th + w) * (- th + w))) with ((t * (- th + w)) * (t * (- th + w)) - 2 * th * (t * (- th + w)) * (- th + w) - (- th + w) * (- th + w)) by ring.
    rewrite Et. nra.
  - rewrite Rabs_pos_eq by lra. assert (D : 0 < th + w) by lra.
    set (t := 1 / (th + w)). assert (Et : t * (th + w) = 1) by (unfold t; field; lra). clearbody t.
    apply Rmult_eq_reg_r with ((th + w) * (th + w)); [|nra].
    replace ((t * t + 2 * th * t - 1) * ((th + w) * (th + w))) with ((t * (th + w)) * (t * (th + w)) + 2 * th * (t * (th + w)) * (th + w) - (th + w) * (th + w)) by ring.
    rewrite Et. nra.
Qed.

Lemma bil_comb_l : forall m a x b y z, bil m (vcomb a x b y) z = a * bil m x z + b * bil m y z.
Proof. intros. unfold bil, vcomb. rewrite mapply_add, !mapply_scale, dot_add_l, !dot_scale_l. reflexivity. Qed.
Lemma bil_comb_r : forall m a x b y z, bil m z (vcomb a x b y) = a * bil m z x + b * bil m z y.
Proof. intros. unfold bil, vcomb. rewrite dot_add_r, !dot_scale_r. reflexivity. Qed.
Lemma bil_sym : forall m x y, sym m -> bil m x y = bil m y x.
Proof.
  intros [[a b c] [a' b' c'] [a'' b'' c'']] [] [] (S0 & S1 & S2). cbn in *. subst. unfold bil, mapply, vadd, vscale, dot. cbn. ring.
Qed.

Lemma bil_rot : forall m x y t, sym m -> let c := jc t in let s := t * c in
  bil m x y * (t * t) + (bil m y y - bil m x x) * t - bil m x y = 0 ->
  bil m (vcomb c x (- s) y) (vcomb c x (- s) y) = bil m x x - t * bil m x y /\
  bil m (vcomb s x c y) (vcomb s x c y) = bil m y y + t * bil m x y /\
  bil m (vcomb c x (- s) y) (vcomb s x c y) = 0.
Proof.
  intros m x y t Hs c s Ht. destruct (jc_spec t) as (N & Hc & _ & _). fold c in N, Hc. fold s in N.
  rewrite !bil_comb_l, !bil_comb_r, (bil_sym m y x Hs).
  set (X := bil m x x) in *. set (Y := bil m y y) in *. set (r := bil m x y) in *. clearbody X Y r.
  unfold s in *. clearbody c. clear s.
  assert (N' : c * c * (1 + t * t) = 1) by nra.
  split; [|split].
  - replace (X - t * r) with (X * (c * c * (1 + t * t)) - t * r * (c * c * (1 + t * t))) by (rewrite N'; ring).
    apply Rminus_diag_uniq. replace (c * (c * X + - (t * c) * r) + - (t * c) * (c * r + - (t * c) * Y) - (X * (c * c * (1 + t * t)) - t * r * (c * c * (1 + t * t)))) with (c * c * t * (r * (t * t) + (Y - X) * t - r)) by ring. rewrite Ht. ring.
  - replace (Y + t * r) with (Y * (c * c * (1 + t * t)) + t * r * (c * c * (1 + t * t))) by (rewrite N'; ring).
    apply Rminus_diag_uniq. replace (t * c * (t * c * X + c * r) + c * (t * c * r + c * Y) - (Y * (c * c * (1 + t * t)) + t * r * (c * c * (1 + t * t)))) with (- (c * c * t * (r * (t * t) + (Y - X) * t - r))) by ring. rewrite Ht. ring.
  - replace (c * (t * c * X + c * r) + - (t * c) * (t * c * r + c * Y)) with (- (c * c * (r * (t * t) + (Y - X) * t - r))) by ring. rewrite Ht. ring.
Qed.

Definition jinv (m : mat3) (j : jac) : Prop :=
  bil m (m0 (jv j)) (m0 (jv j)) = c0 (jd j) /\ bil m (m1 (jv j)) (m1 (jv j)) = c1 (jd j) /\ bil m (m2 (jv j)) (m2 (jv j)) = c2 (jd j) /\
  bil m (m0 (jv j)) (m1 (jv j)) = r01 j /\ bil m (m0 (jv j)) (m2 (jv j)) = r02 j /\ bil m (m1 (jv j)) (m2 (jv j)) = r12 j /\
  vadd (jb j) (jz j) = jd j.

Lemma v3_eta : forall v, v = mk3 (c0 v) (c1 v) (c2 v). Proof. intros []. reflexivity. Qed.

Lemma rot01_inv : forall m j, sym m -> r01 j <> 0 -> jinv m j -> jinv m (rot01 absorbed j).
Proof.
  intros m j Hm Hr (D0 & D1 & D2 & R01 & R02 & R12 & B).
  pose proof (jt_root (r01 j) (c1 (jd j) - c0 (jd j)) Hr) as Ht. unfold rot01. cbv zeta. set (t := jt absorbed _ _) in *. clearbody t.
  destruct (jc_spec t) as (_ & _ & L & H).
  destruct (bil_rot m (m0 (jv j)) (m1 (jv j)) t Hm) as (X & Y & Z). { rewrite R01, D0, D1. exact Ht. }
  unfold jinv. cbn [jv jd jb jz r01 r02 r12 m0 m1 m2 c0 c1 c2]. rewrite vlo_spec, vhi_spec, X, Y, Z, L, H, !bil_comb_l, D0, D1, D2, R01, R02, R12.
  split; [reflexivity|split; [reflexivity|split; [reflexivity|split; [reflexivity|split; [ring|split; [ring|]]]]]].
  rewrite <- B. unfold vadd. cbn. f_equal; ring.
Qed.
Lemma rot02_inv : forall m j, sym m -> r02 j <> 0 -> jinv m j -> jinv m (rot02 absorbed j).
Proof.
  intros m j Hm Hr (D0 & D1 & D2 & R01 & R02 & R12 & B).
  pose proof (jt_root (r02 j) (c2 (jd j) - c0 (jd j)) Hr) as Ht. unfold rot02. cbv zeta. set (t := jt absorbed _ _) in *. clearbody t.
  destruct (jc_spec t) as (_ & _ & L & H).
  destruct (bil_rot m (m0 (jv j)) (m2 (jv j)) t Hm) as (X & Y & Z). { rewrite R02, D0, D2. exact Ht. }
  unfold jinv. cbn [jv jd jb jz r01 r02 r12 m0 m1 m2 c0 c1 c2]. rewrite vlo_spec, vhi_spec, X, Y, Z, L, H, !bil_comb_l, !bil_comb_r, (bil_sym m (m2 (jv j)) (m1 (jv j)) Hm), (bil_sym m (m1 (jv j)) (m0 (jv j)) Hm), D0, D1, D2, R01, R02, R12.
  split; [reflexivity|split; [reflexivity|split; [reflexivity|split; [ring|split; [reflexivity|split; [ring|]]]]]].
  rewrite <- B. unfold vadd. cbn. f_equal; ring.
Qed.
Lemma rot12_inv : forall m j, sym m -> r12 j <> 0 -> jinv m j -> jinv m (rot12 absorbed j).
Proof.
  intros m j Hm Hr (D0 & D1 & D2 & R01 & R02 & R12 & B).
  pose proof (jt_root (r12 j) (c2 (jd j) - c1 (jd j)) Hr) as Ht. unfold rot12. cbv zeta. set (t := jt absorbed _ _) in *. clearbody t.
  destruct (jc_spec t) as (_ & _ & L & H).
  destruct (bil_rot m (m1 (jv j)) (m2 (jv j)) t Hm) as (X & Y & Z). { rewrite R12, D1, D2. exact Ht. }
  unfold jinv. cbn [jv jd jb jz r01 r02 r12 m0 m1 m2 c0 c1 c2]. rewrite vlo_spec, vhi_spec, X, Y, Z, L, H, !bil_comb_r, D0, D1, D2, R01, R02, R12.
  split; [reflexivity|split; [reflexivity|split; [reflexivity|split; [ring|split; [ring|split; [reflexivity|]]]]]].
  rewrite <- B. unfold vadd. cbn. f_equal; ring.
Qed.

Lemma visit_inv : forall m i tresh r dp dq zero rot j, 0 <= tresh -> jinv m j ->
  (r = 0 -> zero j = j) -> (r <> 0 -> jinv m (rot j)) -> jinv m (visit absorbed i tresh r dp dq zero rot j).
Proof.
  intros m i tresh r dp dq zero rot j Ht Hj Hz Hr. unfold visit. cbv zeta.
  destruct (Nat.ltb 3 i && absorbed dp (100 * Rabs r) && absorbed dq (100 * Rabs r))%bool eqn:E.
  - apply Bool.andb_true_iff in E. destruct E as [E _]. apply Bool.andb_true_iff in E. destruct E as [_ E]. apply Hab in E.
    rewrite Hz; [exact Hj|]. destruct (Req_EM_T r 0); [assumption|]. pose proof (Rabs_pos_lt r n). lra.
  - destruct (Rlt_dec tresh (Rabs r)) as [L|L]; [|exact Hj]. apply Hr. intros ->. rewrite Rabs_R0 in L. lra.
Qed.

Lemma sweep_inv : forall m i sm j, sym m -> 0 <= sm -> jinv m j -> jinv m (sweep absorbed i sm j).
Proof.
  intros m i sm j Hm Hsm Hj. unfold sweep. cbv zeta. set (tresh := if Nat.ltb i 3 then _ else _).
  assert (Ht : 0 <= tresh) by (unfold tresh; destruct (Nat.ltb i 3); lra). clearbody tresh.
  set (j1 := visit absorbed i tresh (r01 j) _ _ _ _ j).
  assert (H1 : jinv m j1). { apply visit_inv; [exact Ht|exact Hj| |intros; apply rot01_inv; assumption]. intros E. destruct j. cbn in *. subst. reflexivity. }
  clearbody j1. set (j2 := visit absorbed i tresh (r02 j1) _ _ _ _ j1).
  assert (H2 : jinv m j2). { apply visit_inv; [exact Ht|exact H1| |intros; apply rot02_inv; assumption]. intros E. destruct j1. cbn in *. subst. reflexivity. }
  clearbody j2. set (j3 := visit absorbed i tresh (r12 j2) _ _ _ _ j2).
  assert (H3 : jinv m j3). { apply visit_inv; [exact Ht|exact H2| |intros; apply rot12_inv; assumption]. intros E. destruct j2. cbn in *. subst. reflexivity. }
  clearbody j3. clear - H3. destruct H3 as (D0 & D1 & D2 & R01 & R02 & R12 & B). unfold jinv. cbn [jv jd jb jz r01 r02 r12].
  rewrite B. split; [exact D0|split; [exact D1|split; [exact D2|split; [exact R01|split; [exact R02|split; [exact R12|]]]]]].
  destruct (jd j3). unfold vadd, vzero. cbn. f_equal; ring.
Qed.

Lemma sweeps_inv : forall m fuel i j d V, sym m -> jinv m j -> ortho (jv j) -> sweeps absorbed fuel i j = Some (d, V) ->
  forall k, (k < 3)%nat -> mapply m (col k V) = vscale (comp k d) (col k V).
Proof.
  intros m. induction fuel as [|fuel IH]; intros i j d V Hm Hj Ho E; cbn [sweeps] in E; [discriminate|].
  set (sm := 0 + Rabs (r01 j) + Rabs (r02 j) + Rabs (r12 j)) in E.
  assert (Hsm : 0 <= sm) by (pose proof (Rabs_pos (r01 j)); pose proof (Rabs_pos (r02 j)); pose proof (Rabs_pos (r12 j)); unfold sm; lra).
  destruct (Req_EM_T sm 0) as [Z|Z].
  - injection E as <- <-. destruct Hj as (D0 & D1 & D2 & R01 & R02 & R12 & _).
    assert (Z3 : r01 j = 0 /\ r02 j = 0 /\ r12 j = 0).
    { pose proof (Rabs_pos (r01 j)); pose proof (Rabs_pos (r02 j)); pose proof (Rabs_pos (r12 j)). unfold sm in Z.
      assert (A : forall x, Rabs x = 0 -> x = 0) by (intros x Hx; destruct (Req_EM_T x 0); [assumption|pose proof (Rabs_pos_lt x n); lra]).
      split; [|split]; apply A; lra. }
    destruct Z3 as (Z0 & Z1 & Z2). rewrite Z0 in R01. rewrite Z1 in R02. rewrite Z2 in R12.
    intros k Hk. rewrite <- (mapply_mt (jv j) (mapply m (col k (jv j))) Ho).
    pose proof (bil_sym m (m0 (jv j)) (m1 (jv j)) Hm) as S01. pose proof (bil_sym m (m0 (jv j)) (m2 (jv j)) Hm) as S02. pose proof (bil_sym m (m1 (jv j)) (m2 (jv j)) Hm) as S12.
    rewrite R01 in S01. rewrite R02 in S02. rewrite R12 in S12.
    unfold mtapply. rewrite !(fun a => dot_comm a (mapply m (col k (jv j)))).
    destruct k as [|[|[|k]]]; [| | |lia]; cbn [col comp]; fold (bil m (m0 (jv j)) (m0 (jv j))) (bil m (m0 (jv j)) (m1 (jv j))) (bil m (m0 (jv j)) (m2 (jv j)))
      (bil m (m1 (jv j)) (m0 (jv j))) (bil m (m1 (jv j)) (m1 (jv j))) (bil m (m1 (jv j)) (m2 (jv j)))
      (bil m (m2 (jv j)) (m0 (jv j))) (bil m (m2 (jv j)) (m1 (jv j))) (bil m (m2 (jv j)) (m2 (jv j))).
    + rewrite D0, R01, R02. unfold mapply, vadd, vscale. cbn. f_equal; ring.
    + rewrite D1, <- S01, R12. unfold mapply, vadd, vscale. cbn. f_equal; ring.
    + rewrite D2, <- S02, <- S12. unfold mapply, vadd, vscale. cbn. f_equal; ring.
  - eapply IH; [exact Hm| | |exact E].
    + apply sweep_inv; assumption.
    + apply sweep_ortho; exact Ho.
Qed.
End Exact.

Lemma start_inv : forall m, sym m -> jinv m (mkj (c0 (m1 m)) (c0 (m2 m)) (c1 (m2 m)) (mk3 (c0 (m0 m)) (c1 (m1 m)) (c2 (m2 m))) (mk3 (c0 (m0 m)) (c1 (m1 m)) (c2 (m2 m))) vzero mid).
Proof.
  intros [[a b c] [a' b' c'] [a'' b'' c'']] (S0 & S1 & S2). cbn in *. subst. unfold jinv, bil, mapply, vadd, vscale, dot, mid, vzero. cbn.
  split; [ring|split; [ring|split; [ring|split; [ring|split; [ring|split; [ring|]]]]]]. f_equal; ring.
Qed.

Lemma cov_sym : forall ps, sym (covariance ps).
Proof. intros. unfold sym, covariance. cbn. auto. Qed.

Lemma axis_ortho : forall s V, ortho V -> ortho (axis_from_eigen s V).
Proof.
  intros s V HV. unfold axis_from_eigen. destruct (select s) as [[mn md] mx] eqn:E.
  assert (X : forall a b, dot a a = 1 -> dot b b = 1 -> dot a b = 0 -> ortho (mkm a b (cross a b))).
  { intros a b A B AB. unfold ortho. cbn [m0 m1 m2].
    assert (L : dot (cross a b) (cross a b) = 1).
    { pose proof (lagrange a b) as L. unfold norm2 in L. rewrite A, B, AB in L. lra. }
    assert (Z : dot a (cross a b) = 0 /\ dot b (cross a b) = 0) by (destruct a, b; unfold dot, cross; cbn; split; ring).
    destruct Z as [Z1 Z2]. auto 10. }
  destruct HV as (O0 & O1 & O2 & O01 & O02 & O12).
  assert (K : (mx = 0 /\ md = 1 \/ mx = 0 /\ md = 2 \/ mx = 1 /\ md = 0 \/ mx = 1 /\ md = 2 \/ mx = 2 /\ md = 0 \/ mx = 2 /\ md = 1)%nat).
  { unfold select in E. destruct (Rlt_dec (c1 s) (c0 s)); destruct (Rlt_dec (c2 s) _); try destruct (Rlt_dec _ (c2 s)); injection E as <- <- <-; tauto. }
  decompose [or and] K; subst; apply X; cbn [col]; try assumption; rewrite dot_comm; assumption.
Qed.
