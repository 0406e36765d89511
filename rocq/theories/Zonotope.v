(** Separating axes of two boxes: sums of segments (zonotopes), and the fifteen axes. *)
From Coq Require Import Reals Lra Lia List Psatz.
From Verif Require Import VecR Obb.
Import ListNotations.
Open Scope R_scope.

Ltac sc := unfold norm2, dot, cross, vadd, vsub, vneg, vscale, vzero; cbn [c0 c1 c2]; ring.
Ltac ve := apply v3_ext; unfold norm2, dot, cross, vadd, vsub, vneg, vscale, vzero; cbn [c0 c1 c2]; ring.
(** ** A point below all supporting planes of a sum of segments is in the sum *)
Fixpoint zsup (gs : list v3) (n : v3) : R := match gs with [] => 0 | g :: gs' => Rabs (dot g n) + zsup gs' n end.
Inductive zono : list v3 -> v3 -> Prop :=
| zono_nil : zono [] vzero
| zono_cons : forall g gs t x, Rabs t <= 1 -> zono gs x -> zono (g :: gs) (vadd (vscale t g) x).
Lemma zsup_sub : forall gs n1 n2, zsup gs (vadd n1 n2) <= zsup gs n1 + zsup gs n2.
Proof. induction gs as [|g gs IH]; intros n1 n2; cbn [zsup]; [lra|]. rewrite dot_add_r. pose proof (Rabs_triang (dot g n1) (dot g n2)). specialize (IH n1 n2). lra. Qed.
Lemma zsup_scale : forall gs k n, 0 <= k -> zsup gs (vscale k n) = k * zsup gs n.
Proof. induction gs as [|g gs IH]; intros k n H; cbn [zsup]; [ring|]. rewrite dot_scale_r, Rabs_mult, IH, (Rabs_right k) by lra. ring. Qed.
Lemma zono_of_sup : forall gs c, (forall n, dot c n <= zsup gs n) -> zono gs c.
Proof.
  induction gs as [|g gs IH]; intros c H.
  - replace c with vzero; [constructor|]. symmetry. apply norm2_zero. pose proof (H c) as A. cbn [zsup] in A. pose proof (norm2_nonneg c). unfold norm2 in *. lra.
  - set (L := fun x => x = -1 \/ exists n, dot g n = 1 /\ x = dot c n - zsup gs n).
    set (U := fun x => x = 1 \/ exists n, dot g n = -1 /\ x = zsup gs n - dot c n).
    assert (LU : forall x y, L x -> U y -> x <= y).
    { intros x y [ -> |(n & Gn & -> )] [ -> |(m & Gm & -> )].
      - lra.
      - pose proof (H m) as A. cbn [zsup] in A. rewrite Gm, Rabs_left in A; lra.
      - pose proof (H n) as A. cbn [zsup] in A. rewrite Gn, Rabs_right in A; lra.
      - pose proof (H (vadd n m)) as A. cbn [zsup] in A. rewrite !dot_add_r, Gn, Gm in A. replace (1 + -1) with 0 in A by ring. rewrite Rabs_R0 in A. pose proof (zsup_sub gs n m). lra. }
    destruct (completeness L) as (t & T1 & T2).
    { exists 1. intros x Lx. apply LU; [exact Lx|left; reflexivity]. }
    { exists (-1). left. reflexivity. }
    assert (Tu : forall y, U y -> t <= y) by (intros y Uy; apply T2; intros x Lx; apply LU; auto).
    assert (Tl : forall x, L x -> x <= t) by (intros x Lx; apply T1; exact Lx).
    replace c with (vadd (vscale t g) (vsub c (vscale t g))) by (ve).
    constructor.
    + apply Rabs_le. split; [apply Tl; left; reflexivity|apply Tu; left; reflexivity].
    + apply IH. intros n. rewrite dot_sub_l, dot_scale_l. destruct (Rtotal_order (dot g n) 0) as [N|[Z|P]].
      * assert (K : 0 < / - dot g n) by (apply Rinv_0_lt_compat; lra). set (k := / - dot g n) in *. assert (Kg : k * dot g n = -1) by (unfold k; field; lra).
        pose proof (Tu (zsup gs (vscale k n) - dot c (vscale k n))) as A. rewrite zsup_scale, dot_scale_r in A by lra.
        assert (B : t <= k * zsup gs n - k * dot c n). { apply A. right. exists (vscale k n). rewrite dot_scale_r. split; [exact Kg|]. rewrite zsup_scale, dot_scale_r by lra. reflexivity. }
        apply Rmult_le_reg_l with k; [exact K|]. replace (k * (dot c n - t * dot g n)) with (k * dot c n - t * (k * dot g n)) by ring. rewrite Kg. lra.
      * rewrite Z. pose proof (H n) as A. cbn [zsup] in A. rewrite Z, Rabs_R0 in A. lra.
      * assert (K : 0 < / dot g n) by (apply Rinv_0_lt_compat; lra). set (k := / dot g n) in *. assert (Kg : k * dot g n = 1) by (unfold k; field; lra).
        assert (B : k * dot c n - k * zsup gs n <= t). { apply Tl. right. exists (vscale k n). rewrite dot_scale_r. split; [exact Kg|]. rewrite zsup_scale, dot_scale_r by lra. reflexivity. }
        apply Rmult_le_reg_l with k; [exact K|]. replace (k * (dot c n - t * dot g n)) with (k * dot c n - t * (k * dot g n)) by ring. rewrite Kg. lra.
Qed.

(** ** From any separating direction to one perpendicular to two of the edges *)
Definition wd := (R * v3)%type.
Fixpoint wsup (l : list wd) (n : v3) : R := match l with [] => 0 | (w, d) :: l' => w * Rabs (dot d n) + wsup l' n end.
Definition sg (x : R) : R := if Rlt_dec x 0 then -1 else 1.
Lemma sg_abs : forall x, sg x * x = Rabs x.
Proof. intros x. unfold sg. destruct (Rlt_dec x 0); [rewrite Rabs_left|rewrite Rabs_right]; lra. Qed.
Lemma sg_one : forall x, sg x = 1 \/ sg x = -1.
Proof. intros x. unfold sg. destruct (Rlt_dec x 0); auto. Qed.
(** Same side, weakly *)
Lemma sg_same : forall x y, 0 <= x * y -> (x = 0 -> y = 0) -> sg x * y = Rabs y.
Proof. intros x y H Z. unfold sg. destruct (Rlt_dec x 0) as [N|N]; [rewrite Rabs_left1; nra|]. destruct (Rle_lt_or_eq_dec 0 x) as [P|E]; [lra|rewrite Rabs_right; nra|]. rewrite (Z (eq_sym E)), Rabs_R0. ring. Qed.
Fixpoint slope (l : list wd) (n d : v3) : R := match l with [] => 0 | (w, e) :: l' => w * (sg (dot e n) * dot e d) + slope l' n d end.
Lemma wsup_slope : forall l n d t, (forall w e, In (w, e) l -> 0 <= dot e n * dot e (vadd n (vscale t d)) /\ (dot e n = 0 -> dot e (vadd n (vscale t d)) = 0)) ->
  wsup l (vadd n (vscale t d)) = wsup l n + t * slope l n d.
Proof.
  induction l as [|(w, e) l IH]; intros n d t H; cbn [wsup slope]; [ring|]. rewrite IH by (intros; apply (H w0); right; assumption).
  destruct (H w e (or_introl eq_refl)) as (H1 & H2). rewrite <- (sg_same _ _ H1 H2), dot_add_r, dot_scale_r, <- (sg_abs (dot e n)). ring.
Qed.
(** A least element *)
Lemma least : forall (A : Type) (l : list A) (P : A -> Prop) (f : A -> R), (forall x, {P x} + {~ P x}) -> (exists x, In x l /\ P x) ->
  exists x, In x l /\ P x /\ forall y, In y l -> P y -> f x <= f y.
Proof.
  intros A l P f Pd. induction l as [|a l IH]; intros (x & I & Px); [destruct I|].
  destruct (Exists_dec P l Pd) as [E|E].
  - apply Exists_exists in E. destruct (IH E) as (m & Im & Pm & Lm). destruct (Pd a) as [Pa|Na].
    + destruct (Rle_lt_dec (f a) (f m)) as [La|La].
      * exists a. split; [left; reflexivity|]. split; [exact Pa|]. intros y [ <- |Iy] Py; [lra|]. specialize (Lm y Iy Py). lra.
      * exists m. split; [right; exact Im|]. split; [exact Pm|]. intros y [ <- |Iy] Py; [lra|auto].
    + exists m. split; [right; exact Im|]. split; [exact Pm|]. intros y [ <- |Iy] Py; [contradiction|auto].
  - exists a. split; [left; reflexivity|]. assert (Nl : forall y, In y l -> ~ P y) by (intros y Iy Py; apply E, Exists_exists; exists y; auto).
    split; [destruct I as [ <- |I]; [exact Px|exfalso; exact (Nl x I Px)]|]. intros y [ <- |Iy] Py; [lra|exfalso; exact (Nl y Iy Py)].
Qed.
Section Slide.
Variable c : v3.
Variable l : list wd.
Definition over (n : v3) : R := dot c n - wsup l n.
Lemma slide_dir : forall n d, 0 < over n -> (forall w e, In (w, e) l -> dot e n = 0 -> dot e d = 0) -> (exists w e, In (w, e) l /\ dot e n * dot e d < 0) ->
  0 <= dot c d - slope l n d ->
  exists n', 0 < over n' /\ (forall w e, In (w, e) l -> dot e n = 0 -> dot e n' = 0) /\ exists w e, In (w, e) l /\ dot e n' = 0 /\ dot e d <> 0.
Proof.
  intros n d O Z (w0 & e0 & I0 & N0) S. destruct (least wd l (fun x => dot (snd x) n * dot (snd x) d < 0) (fun x => - (dot (snd x) n / dot (snd x) d))) as ((w & e) & I & N & M).
  { intros x. apply Rlt_dec. } { exists (w0, e0). auto. } cbn [snd] in N, M. assert (Ed : dot e d <> 0) by nra. set (t := - (dot e n / dot e d)) in *.
  assert (Ht : 0 < t). { unfold t. apply Rmult_lt_reg_r with (dot e d * dot e d); [nra|]. replace (- (dot e n / dot e d) * (dot e d * dot e d)) with (- (dot e n * dot e d)) by (field; exact Ed). nra. }
  exists (vadd n (vscale t d)). assert (Zn : forall w e, In (w, e) l -> dot e n = 0 -> dot e (vadd n (vscale t d)) = 0) by (intros w1 e1 I1 Z1; rewrite dot_add_r, dot_scale_r, Z1, (Z w1 e1 I1 Z1); ring).
  split; [|split; [exact Zn|]].
  - unfold over. rewrite wsup_slope, dot_add_r, dot_scale_r; [unfold over in O; nra|]. intros w1 e1 I1. split; [|apply (Zn w1 e1 I1)]. rewrite dot_add_r, dot_scale_r.
    destruct (Rlt_dec (dot e1 n * dot e1 d) 0) as [N1|N1]; [|nra]. pose proof (M (w1, e1) I1 N1) as T. cbn [snd] in T. fold t in T. assert (D1 : dot e1 d <> 0) by nra.
    assert (T2 : t * - (dot e1 n * dot e1 d) <= - (dot e1 n / dot e1 d) * - (dot e1 n * dot e1 d)) by (apply Rmult_le_compat_r; lra).
    replace (- (dot e1 n / dot e1 d) * - (dot e1 n * dot e1 d)) with (dot e1 n * dot e1 n) in T2 by (field; exact D1). nra.
  - exists w, e. split; [exact I|]. split; [|exact Ed]. rewrite dot_add_r, dot_scale_r. unfold t. field. exact Ed.
Qed.
Lemma slope_neg : forall k n d, slope k n (vneg d) = - slope k n d.
Proof. induction k as [|(w, e) k IH]; intros n d; cbn [slope]; [ring|]. rewrite IH, dot_neg_r. ring. Qed.
Lemma slide : forall n d, 0 < over n -> (forall w e, In (w, e) l -> dot e n = 0 -> dot e d = 0) ->
  (exists w e, In (w, e) l /\ dot e n * dot e d < 0) -> (exists w e, In (w, e) l /\ 0 < dot e n * dot e d) ->
  exists n', 0 < over n' /\ (forall w e, In (w, e) l -> dot e n = 0 -> dot e n' = 0) /\ exists w e, In (w, e) l /\ dot e n' = 0 /\ dot e d <> 0.
Proof.
  intros n d O Z N P. destruct (Rle_lt_dec 0 (dot c d - slope l n d)) as [S|S]; [apply slide_dir; auto|].
  destruct (slide_dir n (vneg d) O) as (n' & O' & Z' & w & e & I & E & D).
  - intros w e I E. rewrite dot_neg_r, (Z w e I E). ring.
  - destruct P as (w & e & I & P). exists w, e. split; [exact I|]. rewrite dot_neg_r. nra.
  - rewrite dot_neg_r, slope_neg. lra.
  - exists n'. split; [exact O'|]. split; [exact Z'|]. exists w, e. split; [exact I|]. split; [exact E|]. rewrite dot_neg_r in D. intros Q. apply D. rewrite Q. ring.
Qed.

Lemma parallel : forall a b, a <> vzero -> cross a b = vzero -> b = vscale (dot a b / norm2 a) a.
Proof.
  intros a b Na Cz. assert (Pa : norm2 a <> 0) by (intros E; apply Na, norm2_zero, E). assert (E : vscale (norm2 a) b = vscale (dot a b) a).
  { assert (K : vsub (vscale (norm2 a) b) (vscale (dot a b) a) = cross (cross a b) a) by (ve). rewrite Cz in K. replace (cross vzero a) with vzero in K by (ve).
    destruct a as [a0 a1 a2], b as [b0 b1 b2]. injection K. intros K2 K1 K0. vunf. f_equal; lra. }
  replace (vscale (dot a b / norm2 a) a) with (vscale (/ norm2 a) (vscale (dot a b) a)).
  2: { destruct a as [a0 a1 a2], b as [b0 b1 b2]. unfold vscale. cbn [c0 c1 c2]. f_equal; unfold Rdiv; ring. }
  rewrite <- E. destruct b as [b0 b1 b2]. unfold vscale. cbn [c0 c1 c2]. f_equal; field; exact Pa.
Qed.
Lemma wsup_scale : forall k t n, wsup k (vscale t n) = Rabs t * wsup k n.
Proof. induction k as [|(w, e) k IH]; intros t n; cbn [wsup]; [ring|]. rewrite IH, dot_scale_r, Rabs_mult. ring. Qed.
Lemma finish : forall n a b, 0 < over n -> dot a n = 0 -> dot b n = 0 -> cross a b <> vzero -> wsup l (cross a b) < Rabs (dot c (cross a b)).
Proof.
  intros n a b O A B N. set (x := cross a b) in *. assert (P : cross x n = vzero). { assert (E : cross x n = vsub (vscale (dot a n) b) (vscale (dot b n) a)) by (unfold x; ve). rewrite E, A, B. ve. }
  apply parallel in P; [|exact N]. set (t := dot x n / norm2 x) in *. unfold over in O. rewrite P, wsup_scale, dot_scale_r in O.
  assert (T : t * dot c x <= Rabs t * Rabs (dot c x)) by (rewrite <- Rabs_mult; apply Rle_abs). assert (T0 : 0 < Rabs t). { apply Rabs_pos_lt. intros Z. rewrite Z, Rabs_R0 in O. lra. }
  apply Rmult_lt_reg_l with (Rabs t); [exact T0|]. lra.
Qed.
(** Three independent directions among the edges *)
Variables a b e : v3.
Variables wa wb we : R.
Hypothesis Ia : In (wa, a) l. Hypothesis Ib : In (wb, b) l. Hypothesis Ie : In (we, e) l.
Hypothesis V : dot a (cross b e) <> 0.
Hypothesis NZ : forall w d, In (w, d) l -> d <> vzero.
Definition mix (n : v3) : v3 := vadd (vscale (sg (dot a n)) a) (vadd (vscale (sg (dot b n)) b) (vscale (sg (dot e n)) e)).
Lemma mix_dot : forall n d, dot (mix n) d = sg (dot a n) * dot a d + sg (dot b n) * dot b d + sg (dot e n) * dot e d.
Proof. intros. unfold mix. rewrite !dot_add_l, !dot_scale_l. ring. Qed.
Lemma all_zero : forall d, dot a d = 0 -> dot b d = 0 -> dot e d = 0 -> d = vzero.
Proof.
  intros d A B E. assert (K : vscale (dot a (cross b e)) d = vadd (vscale (dot a d) (cross b e)) (vadd (vscale (dot b d) (cross e a)) (vscale (dot e d) (cross a b)))) by (ve).
  rewrite A, B, E in K. replace (vadd _ _) with vzero in K by (ve). destruct d as [x y z]. set (v := dot a (cross b e)) in *. clearbody v. unfold vscale, vzero in K. cbn [c0 c1 c2] in K. injection K. intros K2 K1 K0.
  unfold vzero. f_equal; apply Rmult_eq_reg_l with v; auto; lra.
Qed.
(** A direction inside the section has edges on both sides *)
Lemma both_ways : forall n d, d <> vzero -> dot (mix n) d = 0 -> (forall w k, In (w, k) l -> dot k n = 0 -> dot k d = 0) ->
  (exists w k, In (w, k) l /\ dot k n * dot k d < 0) /\ (exists w k, In (w, k) l /\ 0 < dot k n * dot k d).
Proof.
  intros n d Nd M Z. rewrite mix_dot in M.
  assert (G : forall k, dot k n <> 0 -> forall y, (sg (dot k n) * y < 0 -> dot k n * y < 0) /\ (0 < sg (dot k n) * y -> 0 < dot k n * y)).
  { intros k Nk y. unfold sg. destruct (Rlt_dec (dot k n) 0); split; intros; nra. }
  assert (Q : forall w k, In (w, k) l -> sg (dot k n) * dot k d = 0 \/ (sg (dot k n) * dot k d < 0 /\ dot k n * dot k d < 0) \/ (0 < sg (dot k n) * dot k d /\ 0 < dot k n * dot k d)).
  { intros w k I. destruct (Req_dec (dot k n) 0) as [E|E]; [left; rewrite (Z w k I E); ring|]. destruct (G k E (dot k d)) as (G1 & G2). destruct (Rtotal_order (sg (dot k n) * dot k d) 0) as [L|[L|L]]; auto. }
  assert (NN : ~ (sg (dot a n) * dot a d = 0 /\ sg (dot b n) * dot b d = 0 /\ sg (dot e n) * dot e d = 0)).
  { intros (A & B & E). apply Nd. apply all_zero.
    - destruct (sg_one (dot a n)) as [S|S]; rewrite S in A; lra.
    - destruct (sg_one (dot b n)) as [S|S]; rewrite S in B; lra.
    - destruct (sg_one (dot e n)) as [S|S]; rewrite S in E; lra. }
  destruct (Q wa a Ia) as [A|[(A & A')|(A & A')]]; destruct (Q wb b Ib) as [B|[(B & B')|(B & B')]]; destruct (Q we e Ie) as [E|[(E & E')|(E & E')]];
    try (exfalso; lra); try (exfalso; apply NN; repeat split; assumption); split; eauto.
Qed.
Lemma mix_pos : forall n, n <> vzero -> 0 < dot (mix n) n.
Proof.
  intros n N. rewrite mix_dot, !sg_abs. pose proof (Rabs_pos (dot a n)). pose proof (Rabs_pos (dot b n)). pose proof (Rabs_pos (dot e n)).
  destruct (Rle_lt_or_eq_dec 0 (Rabs (dot a n) + Rabs (dot b n) + Rabs (dot e n))) as [L|L]; [lra|exact L|]. exfalso. apply N.
  assert (Z : forall x, Rabs x = 0 -> x = 0) by (intros x Hx; destruct (Req_dec x 0) as [|Nx]; auto; apply Rabs_no_R0 in Nx; contradiction). apply all_zero; apply Z; lra.
Qed.
Lemma over_zero : over vzero = 0.
Proof. unfold over. assert (E : wsup l vzero = 0). { clear. induction l as [|(w, d) k IH]; cbn [wsup]; [reflexivity|]. rewrite IH. replace (dot d vzero) with 0 by (sc). rewrite Rabs_R0. ring. } rewrite E. sc. Qed.
Lemma second_slide : forall n w d, 0 < over n -> In (w, d) l -> dot d n = 0 ->
  exists w1 d1 w2 d2, In (w1, d1) l /\ In (w2, d2) l /\ cross d1 d2 <> vzero /\ wsup l (cross d1 d2) < Rabs (dot c (cross d1 d2)).
Proof.
  intros n w d O I E. assert (Nn : n <> vzero) by (intros Z; rewrite Z, over_zero in O; lra).
  destruct (Exists_dec (fun x => dot (snd x) n = 0 /\ cross d (snd x) <> vzero) l) as [X|X].
  { intros x. destruct (Req_EM_T (dot (snd x) n) 0) as [Z|Z]; [|right; tauto]. destruct (Req_EM_T (norm2 (cross d (snd x))) 0) as [Y|Y].
    - right. intros (_ & N). apply N, norm2_zero, Y.
    - left. split; [exact Z|]. intros K. apply Y. rewrite K. sc. }
  - apply Exists_exists in X. destruct X as ((w2 & d2) & I2 & Z2 & N2). cbn [snd] in Z2, N2. exists w, d, w2, d2. repeat split; auto. apply finish with n; auto.
  - pose proof (NZ w d I) as Nd. assert (Par : forall w2 d2, In (w2, d2) l -> dot d2 n = 0 -> cross d d2 = vzero).
    { intros w2 d2 I2 Z2. apply norm2_zero. destruct (Req_dec (norm2 (cross d d2)) 0) as [Y|Y]; [exact Y|]. exfalso. apply X, Exists_exists. exists (w2, d2). split; [exact I2|]. cbn [snd]. split; [exact Z2|]. intros K. apply Y. rewrite K. sc. }
    set (dir := cross d (mix n)). pose proof (mix_pos n Nn) as Mp.
    assert (Zd : forall w2 d2, In (w2, d2) l -> dot d2 n = 0 -> dot d2 dir = 0). { intros w2 d2 I2 Z2. pose proof (parallel d d2 Nd (Par w2 d2 I2 Z2)) as Q. rewrite Q, dot_scale_l. unfold dir. replace (dot d (cross d (mix n))) with 0 by (sc). ring. }
    assert (Dn : dir <> vzero). { intros Z. apply parallel in Z; [|exact Nd]. rewrite Z, dot_scale_l, E in Mp. lra. }
    assert (Md : dot (mix n) dir = 0) by (unfold dir; sc).
    destruct (both_ways n dir Dn Md Zd) as (B1 & B2). destruct (slide n dir O Zd B1 B2) as (n' & O' & Z' & w2 & d2 & I2 & E2 & D2).
    exists w, d, w2, d2. assert (N2 : cross d d2 <> vzero). { intros K. apply D2. rewrite (parallel d d2 Nd K), dot_scale_l. unfold dir. replace (dot d (cross d (mix n))) with 0 by (sc). ring. }
    repeat split; auto. apply finish with n'; auto. apply (Z' w d I E).
Qed.
Theorem edge_axis : forall n, 0 < over n ->
  exists w1 d1 w2 d2, In (w1, d1) l /\ In (w2, d2) l /\ cross d1 d2 <> vzero /\ wsup l (cross d1 d2) < Rabs (dot c (cross d1 d2)).
Proof.
  intros n O. destruct (Exists_dec (fun x => dot (snd x) n = 0) l) as [X|X]; [intros x; apply Req_EM_T| |].
  { apply Exists_exists in X. destruct X as ((w & d) & I & E). cbn [snd] in E. apply second_slide with n w d; auto. }
  assert (NZn : forall w k, In (w, k) l -> dot k n <> 0) by (intros w k I E; apply X, Exists_exists; exists (w, k); auto).
  assert (Nn : n <> vzero) by (intros Z; rewrite Z, over_zero in O; lra). pose proof (mix_pos n Nn) as Mp. set (m := mix n) in *. assert (Nm : m <> vzero). { intros Z. rewrite Z in Mp. replace (dot vzero n) with 0 in Mp by (sc). lra. }
  assert (D : exists d, d <> vzero /\ dot m d = 0).
  { destruct (Req_EM_T (norm2 (cross m a)) 0) as [Ya|Ya]; [|exists (cross m a); split; [intros K; apply Ya; rewrite K; sc|sc]].
    destruct (Req_EM_T (norm2 (cross m b)) 0) as [Yb|Yb]; [|exists (cross m b); split; [intros K; apply Yb; rewrite K; sc|sc]].
    exfalso. apply norm2_zero in Ya. apply norm2_zero in Yb. apply parallel in Ya; [|exact Nm]. apply parallel in Yb; [|exact Nm]. apply V. rewrite Ya, Yb. sc. }
  destruct D as (d & Nd & Md). assert (Zd : forall w k, In (w, k) l -> dot k n = 0 -> dot k d = 0) by (intros w k I Z; exfalso; exact (NZn w k I Z)).
  destruct (both_ways n d Nd Md Zd) as (B1 & B2). destruct (slide n d O Zd B1 B2) as (n' & O' & _ & w2 & d2 & I2 & E2 & _). apply second_slide with n' w2 d2; auto.
Qed.
End Slide.

(** ** Two boxes *)
(** A linear combination of the columns with coefficients within bounds *)
Definition within (A a : v3) : Prop := - c0 A <= c0 a <= c0 A /\ - c1 A <= c1 a <= c1 A /\ - c2 A <= c2 a <= c2 A.
Definition positive (A : v3) : Prop := 0 <= c0 A /\ 0 <= c1 A /\ 0 <= c2 A.
(** Half the extent of a box in direction n, times the length of n *)
Definition reach (U : mat3) (A n : v3) : R := c0 A * Rabs (dot (m0 U) n) + c1 A * Rabs (dot (m1 U) n) + c2 A * Rabs (dot (m2 U) n).
Lemma reach_bound : forall U A a n, within A a -> Rabs (dot (mapply U a) n) <= reach U A n.
Proof.
  intros U A a n (H0 & H1 & H2). assert (E : dot (mapply U a) n = c0 a * dot (m0 U) n + (c1 a * dot (m1 U) n + c2 a * dot (m2 U) n)) by (unfold mapply; rewrite !dot_add_l, !dot_scale_l; reflexivity). rewrite E. unfold reach.
  assert (Q : forall x X y, - X <= x <= X -> Rabs (x * y) <= X * Rabs y) by (intros x X y Hx; rewrite Rabs_mult; apply Rmult_le_compat_r; [apply Rabs_pos|apply Rabs_le; lra]).
  eapply Rle_trans; [apply Rabs_triang|]. rewrite Rplus_assoc. apply Rplus_le_compat; [apply Q, H0|]. eapply Rle_trans; [apply Rabs_triang|]. apply Rplus_le_compat; apply Q; assumption.
Qed.
(** The distance of the centres in direction n is more than the boxes reach *)
Definition split_by (U V : mat3) (A B c n : v3) : Prop := reach U A n + reach V B n < Rabs (dot c n).
Lemma reach_scale : forall U A k n, reach U A (vscale k n) = Rabs k * reach U A n.
Proof. intros. unfold reach. rewrite !dot_scale_r, !Rabs_mult. ring. Qed.
Lemma split_scale : forall U V A B c k n, Rabs k = 1 -> split_by U V A B c (vscale k n) -> split_by U V A B c n.
Proof. intros U V A B c k n K. unfold split_by. rewrite !reach_scale, dot_scale_r, Rabs_mult, K. lra. Qed.
Definition edges (U V : mat3) (A B : v3) : list wd := [(c0 A, m0 U); (c1 A, m1 U); (c2 A, m2 U); (c0 B, m0 V); (c1 B, m1 V); (c2 B, m2 V)].
Lemma wsup_edges : forall U V A B n, wsup (edges U V A B) n = reach U A n + reach V B n.
Proof. intros. unfold edges, reach. cbn [wsup]. ring. Qed.
Lemma split_two : forall U V A B c (d1 d2 : v3), wsup (edges U V A B) (cross d1 d2) < Rabs (dot c (cross d1 d2)) -> split_by U V A B c (cross d1 d2).
Proof. intros U V A B c d1 d2 H. rewrite wsup_edges in H. exact H. Qed.
Lemma cols_split : forall U, ortho U -> forall i j, cross (col i U) (col j U) <> vzero -> exists k m, Rabs k = 1 /\ cross (col i U) (col j U) = vscale k (col m U).
Proof.
  intros U O. destruct (cross_cols U O) as (C0 & C1 & C2). pose proof (det_sq U O) as D. assert (K : Rabs (det U) = 1) by (pose proof (abs_det U 1 O) as E; rewrite Rmult_1_r, Rabs_R1 in E; exact E).
  assert (S : forall a, cross a a = vzero) by (intros; ve). assert (N : forall a b, cross a b = vneg (cross b a)) by (intros; ve). assert (M : forall x, vneg (vscale (det U) x) = vscale (- det U) x) by (intros; ve).
  assert (K' : Rabs (- det U) = 1) by (rewrite Rabs_Ropp; exact K).
  intros [|[|i]] [|[|j]] H; cbn [col] in *; try (exfalso; apply H, S).
  - exists (det U), 2%nat. auto.
  - exists (- det U), 1%nat. rewrite (N (m0 U)), C2, M. auto.
  - exists (- det U), 2%nat. rewrite (N (m1 U)), C0, M. auto.
  - exists (det U), 0%nat. auto.
  - exists (det U), 1%nat. auto.
  - exists (- det U), 0%nat. rewrite (N (m2 U)), C1, M. auto.
Qed.
Lemma ortho_nz : forall U, ortho U -> forall i, col i U <> vzero.
Proof. intros U (O0 & O1 & O2 & _) i E. assert (Z : dot (col i U) (col i U) = 0) by (rewrite E; sc). destruct i as [|[|i]]; cbn [col] in Z; lra. Qed.
(** If none of the fifteen axes separates two boxes, they have a point in common. *)
Theorem fifteen : forall U V A B c, ortho U -> ortho V -> positive A -> positive B ->
  (forall i, ~ split_by U V A B c (col i U)) -> (forall i, ~ split_by U V A B c (col i V)) -> (forall i j, ~ split_by U V A B c (cross (col i U) (col j V))) ->
  exists a b, within A a /\ within B b /\ c = vsub (mapply U a) (mapply V b).
Proof.
  intros U V A B c OU OV (A0 & A1 & A2) (B0 & B1 & B2) HU HV HX. set (l := edges U V A B).
  assert (Le : forall w d, In (w, d) l -> exists i, d = col i U \/ d = col i V).
  { unfold l, edges. intros w d I. repeat (destruct I as [I|I]; [injection I as _ <-|]); [exists 0%nat|exists 1%nat|exists 2%nat|exists 0%nat|exists 1%nat|exists 2%nat|destruct I]; cbn [col]; auto. }
  assert (S : forall n, dot c n <= zsup [vscale (c0 A) (m0 U); vscale (c1 A) (m1 U); vscale (c2 A) (m2 U); vscale (c0 B) (m0 V); vscale (c1 B) (m1 V); vscale (c2 B) (m2 V)] n).
  { intros n. cbn [zsup]. rewrite !dot_scale_l, !Rabs_mult, (Rabs_right (c0 A)), (Rabs_right (c1 A)), (Rabs_right (c2 A)), (Rabs_right (c0 B)), (Rabs_right (c1 B)), (Rabs_right (c2 B)) by lra.
    destruct (Rle_lt_dec (dot c n) (wsup l n)) as [L|L]; [unfold l in L; rewrite (wsup_edges U V A B n) in L; unfold reach in L; lra|]. exfalso.
    destruct (edge_axis c l (m0 U) (m1 U) (m2 U) (c0 A) (c1 A) (c2 A)) with (n := n) as (w1 & d1 & w2 & d2 & I1 & I2 & N & W).
    - left; reflexivity.
    - right; left; reflexivity.
    - right; right; left; reflexivity.
    - change (det U <> 0). pose proof (det_sq U OU). intros E. rewrite E in *. lra.
    - intros w d I. destruct (Le w d I) as (i & [ -> | -> ]); apply ortho_nz; assumption.
    - unfold over. lra.
    - apply split_two in W. destruct (Le _ _ I1) as (i & [E1|E1]), (Le _ _ I2) as (j & [E2|E2]); subst d1 d2.
      + destruct (cols_split U OU i j N) as (k & m & K & Ek). rewrite Ek in W. apply split_scale in W; [|exact K]. exact (HU m W).
      + exact (HX i j W).
      + replace (cross (col i V) (col j U)) with (vscale (-1) (cross (col j U) (col i V))) in W by ve. apply split_scale in W; [exact (HX j i W)|]. rewrite Rabs_left; lra.
      + destruct (cols_split V OV i j N) as (k & m & K & Ek). rewrite Ek in W. apply split_scale in W; [|exact K]. exact (HV m W). }
  apply zono_of_sup in S. assert (Inv : forall g gs x, zono (g :: gs) x -> exists t y, Rabs t <= 1 /\ zono gs y /\ x = vadd (vscale t g) y) by (intros g gs x H; inversion H; subst; eauto).
  apply Inv in S. destruct S as (t0 & y0 & T0 & S & -> ). apply Inv in S. destruct S as (t1 & y1 & T1 & S & -> ). apply Inv in S. destruct S as (t2 & y2 & T2 & S & -> ).
  apply Inv in S. destruct S as (t3 & y3 & T3 & S & -> ). apply Inv in S. destruct S as (t4 & y4 & T4 & S & -> ). apply Inv in S. destruct S as (t5 & y5 & T5 & S & -> ). inversion S; subst.
  assert (Q : forall t w, 0 <= w -> Rabs t <= 1 -> - w <= t * w <= w) by (intros t w Hw Ht; pose proof (Rle_abs t); pose proof (Rle_abs (- t)) as Ha; rewrite Rabs_Ropp in Ha; nra).
  exists (mk3 (t0 * c0 A) (t1 * c1 A) (t2 * c2 A)), (mk3 (- t3 * c0 B) (- t4 * c1 B) (- t5 * c2 B)). unfold within. cbn [c0 c1 c2].
  assert (Q' : forall t w, 0 <= w -> Rabs t <= 1 -> - w <= - t * w <= w) by (intros t w Hw Ht; apply Q; [exact Hw|rewrite Rabs_Ropp; exact Ht]).
  split; [auto|]. split; [auto|]. unfold mapply. apply v3_ext; unfold vadd, vsub, vscale, vzero; cbn [c0 c1 c2]; ring.
Qed.
(** The converse: a common point and a separating axis exclude each other. *)
Lemma split_sound : forall U V A B c n a b, split_by U V A B c n -> within A a -> within B b -> c <> vsub (mapply U a) (mapply V b).
Proof.
  intros U V A B c n a b S Wa Wb E. unfold split_by in S. rewrite E, dot_sub_l in S. pose proof (reach_bound U A a n Wa) as Ra. pose proof (reach_bound V B b n Wb) as Rb.
  unfold Rminus in S. pose proof (Rabs_triang (dot (mapply U a) n) (- dot (mapply V b) n)) as T. rewrite Rabs_Ropp in T. lra.
Qed.
