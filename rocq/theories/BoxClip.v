(** Clipping a convex polygon with the rectangle (intersectRectQuad2 of box_box-inl.h) *)
From Coq Require Import Reals Lra Lia List Bool Arith Psatz.
From Verif Require Import VecR Prim Obb Zonotope BoxBox.
Import ListNotations.
Open Scope R_scope.

(** ** Clipping *)
Lemma ltb_true : forall x y, ltb x y = true <-> x < y.
Proof. intros x y. unfold ltb. destruct (Rlt_dec x y); split; auto; discriminate. Qed.
Lemma ltb_false : forall x y, ltb x y = false <-> y <= x.
Proof. intros x y. unfold ltb. destruct (Rlt_dec x y); split; auto; try discriminate; intros; lra. Qed.
Lemma ratio : forall n d, 0 <= n <= d /\ 0 < d \/ d <= n <= 0 /\ d < 0 -> d <> 0 /\ 0 <= n / d <= 1.
Proof.
  assert (P : forall n d, 0 <= n <= d -> 0 < d -> d <> 0 /\ 0 <= n / d <= 1).
  { intros n d N D. split; [lra|]. split; [apply Rmult_le_pos; [lra|left; apply Rinv_0_lt_compat, D]|]. apply Rmult_le_reg_r with d; [exact D|]. unfold Rdiv. rewrite Rmult_assoc, Rinv_l by lra. lra. }
  intros n d [(N & D)|(N & D)]; [apply P; assumption|]. destruct (P (- n) (- d)) as (_ & Q); [lra|lra|]. split; [lra|]. replace (n / d) with (- n / - d); [exact Q|]. field. lra.
Qed.
(** An affine function of the plane *)
Definition aff (a b : R) (z : p2) : R := a * fst z + b * snd z.
(** The number of times a test changes its result along the closed polygon *)
Definition flip (t : p2 -> bool) (x y : p2) : nat := if xorb (t x) (t y) then 1 else 0.
Definition next (first : p2) (q : list p2) : p2 := match q with [] => first | b :: _ => b end.
Fixpoint flips (t : p2 -> bool) (first : p2) (q : list p2) : nat :=
  match q with [] => 0 | a :: q' => flip t a (next first q') + flips t first q' end.
Definition turns (t : p2 -> bool) (q : list p2) : nat := flips t (hd (0, 0) q) q.
(** No straight line crosses the polygon more than twice *)
Definition convex (q : list p2) : Prop := forall a b c, (turns (fun z => ltb (aff a b z) c) q <= 2)%nat.
Section Chop.
Variables (dir : bool) (sign h : R).
Hypothesis Hs : sign = 1 \/ sign = -1.
Let inside (z : p2) : bool := ltb (sign * at2 dir z) h.
(** The points written without the limit of eight *)
Fixpoint emit (first : p2) (q : list p2) : list p2 :=
  match q with
  | [] => []
  | a :: q' => (if inside a then [a] else []) ++ (if xorb (inside a) (inside (next first q')) then [crossing dir sign h a (next first q')] else []) ++ emit first q'
  end.
Lemma chop_short : forall q first r, (length r + length (emit first q) < 8)%nat -> chop dir sign h first q r = (r ++ emit first q, false).
Proof.
  induction q as [|a q IH]; intros first r L; cbn [chop emit]; [rewrite app_nil_r; reflexivity|]. cbn [emit] in L. fold (inside a). fold (next first q). fold (inside (next first q)). rewrite !app_length in L.
  destruct (inside a), (xorb _ (inside (next first q))) eqn:X; cbn [length andb app] in *; rewrite ?app_length; cbn [length];
  repeat match goal with |- context [Nat.eqb ?n 8] => replace (Nat.eqb n 8) with false by (symmetry; apply Nat.eqb_neq; lia) end; cbn [andb]; (rewrite IH by (rewrite ?app_length; cbn [length]; lia)); rewrite <- ?app_assoc; reflexivity.
Qed.
Lemma chop_in : forall q first r z, In z (fst (chop dir sign h first q r)) -> In z r \/ In z (emit first q).
Proof.
  induction q as [|a q IH]; intros first r z; cbn [chop emit]; [auto|]. fold (inside a). fold (next first q). fold (inside (next first q)).
  destruct (inside a), (xorb _ (inside (next first q))) eqn:X; cbn [andb app]; repeat (destruct (Nat.eqb _ 8); cbn [andb]); intros I;
  first [apply IH in I | cbn [fst] in I]; rewrite ?in_app_iff in *; cbn [In] in *; tauto.
Qed.
Lemma chop_eight : forall q first r, (length r + length (emit first q) <= 8)%nat -> fst (chop dir sign h first q r) = r ++ emit first q.
Proof.
  induction q as [|a q IH]; intros first r L; cbn [chop emit]; [rewrite app_nil_r; reflexivity|]. cbn [emit] in L. fold (inside a). fold (next first q). fold (inside (next first q)). rewrite !app_length in L.
  destruct (inside a), (xorb _ (inside (next first q))) eqn:X; cbn [length andb app] in *; rewrite ?app_length; cbn [length];
  repeat match goal with |- context [Nat.eqb ?n 8] => destruct (Nat.eqb n 8) eqn:?; cbn [andb fst]; rewrite ?Nat.eqb_eq in * end; try (exfalso; lia);
  try (rewrite IH by (rewrite ?app_length; cbn [length]; lia)); rewrite <- ?app_assoc; try reflexivity;
  match goal with |- context [emit first q] => replace (emit first q) with (@nil p2) by (symmetry; apply length_zero_iff_nil; lia) end; reflexivity.
Qed.
(** The crossing is a point of the edge on the line *)
Lemma crossing_on : forall a b, xorb (inside a) (inside b) = true -> at2 dir (crossing dir sign h a b) = sign * h /\
  exists k, 0 <= k <= 1 /\ forall u v, aff u v (crossing dir sign h a b) = (1 - k) * aff u v a + k * aff u v b.
Proof.
  intros a b X. split; [unfold crossing; destruct dir; reflexivity|]. set (k := (sign * h - at2 dir a) / (at2 dir b - at2 dir a)). exists k.
  assert (D : at2 dir b - at2 dir a <> 0 /\ 0 <= k <= 1).
  { unfold inside in X. destruct (ltb (sign * at2 dir a) h) eqn:Ea, (ltb (sign * at2 dir b) h) eqn:Eb; try discriminate X.
    all: try apply ltb_true in Ea; try apply ltb_false in Ea; try apply ltb_true in Eb; try apply ltb_false in Eb.
    all: unfold k; apply ratio; destruct Hs as [Es|Es]; rewrite Es in Ea, Eb |- *; first [left; lra|right; lra]. }
  destruct D as (D & Kb). split; [exact Kb|]. assert (Kd : k * (at2 dir b - at2 dir a) = sign * h - at2 dir a) by (unfold k; field; exact D).
  assert (Ko : at2 (negb dir) (crossing dir sign h a b) = at2 (negb dir) a + k * (at2 (negb dir) b - at2 (negb dir) a)). { unfold crossing, k. destruct dir; cbn [at2 negb fst snd]; field; exact D. }
  assert (Kx : at2 dir (crossing dir sign h a b) = at2 dir a + k * (at2 dir b - at2 dir a)) by (rewrite Kd; unfold crossing; destruct dir; cbn [at2 fst snd]; ring).
  intros u v. unfold aff. destruct dir; cbn [at2 negb] in Ko, Kx; rewrite Ko, Kx; ring.
Qed.
Lemma next_in : forall first q, In (next first q) (first :: q).
Proof. intros first [|b q]; cbn; auto. Qed.
Lemma emit_in : forall q first z, In z (emit first q) -> (In z q /\ inside z = true) \/ exists a b, In a q /\ In b (first :: q) /\ xorb (inside a) (inside b) = true /\ z = crossing dir sign h a b.
Proof.
  induction q as [|a q IH]; intros first z; cbn [emit]; [contradiction|]. rewrite !in_app_iff. intros [I|[I|I]].
  - destruct (inside a) eqn:E; [|contradiction]. destruct I as [ <- |[]]. left. split; [left; reflexivity|exact E].
  - destruct (xorb _ _) eqn:X; [|contradiction]. destruct I as [ <- |[]]. right. exists a, (next first q). split; [left; reflexivity|]. split; [destruct q; cbn; auto|]. auto.
  - apply IH in I. destruct I as [(I & E)|(x & y & Ix & Iy & X & ->)]; [left; split; [right; exact I|exact E]|right; exists x, y]. split; [right; exact Ix|]. split; [destruct Iy; cbn; auto|]. auto.
Qed.
(** Written points satisfy the inequality of the line and every inequality that the points had. *)
Lemma emit_bounds : forall q first, In first q -> forall z, In z (emit first q) -> sign * at2 dir z <= h /\ forall u v w, (forall x, In x q -> aff u v x <= w) -> aff u v z <= w.
Proof.
  intros q first F z I. apply emit_in in I. destruct I as [(I & E)|(a & b & Ia & Ib & X & -> )].
  - unfold inside in E. apply ltb_true in E. split; [lra|]. intros u v w H. apply H, I.
  - destruct (crossing_on a b X) as (C & k & Hk & Ck). split; [rewrite C; destruct Hs as [ -> | -> ]; lra|]. intros u v w H. rewrite Ck. pose proof (H a Ia). assert (Hb : aff u v b <= w) by (destruct Ib as [ <- |Ib]; apply H; assumption). nra.
Qed.
Lemma emit_keeps : forall q first z, In z q -> inside z = true -> In z (emit first q).
Proof. induction q as [|a q IH]; intros first z; cbn [emit]; [contradiction|]. intros [ <- |I] E; rewrite !in_app_iff; [left; rewrite E; left; reflexivity|right; right; apply IH; assumption]. Qed.
(** Convexity is kept *)
Section Test.
Variables (u v w : R).
Let t (z : p2) : bool := ltb (aff u v z) w.
Lemma flip_tri : forall x y z, (flip t x z <= flip t x y + flip t y z)%nat.
Proof. intros x y z. unfold flip. destruct (t x), (t y), (t z); cbn; lia. Qed.
Lemma flip_self : forall x, flip t x x = 0%nat.
Proof. intros x. unfold flip. rewrite xorb_nilpotent. reflexivity. Qed.
Lemma flip_between : forall a b, xorb (inside a) (inside b) = true -> (flip t a (crossing dir sign h a b) + flip t (crossing dir sign h a b) b = flip t a b)%nat.
Proof.
  intros a b X. destruct (crossing_on a b X) as (_ & k & Hk & C). specialize (C u v). set (c := crossing dir sign h a b) in *. unfold flip, t.
  destruct (ltb (aff u v a) w) eqn:Ea, (ltb (aff u v b) w) eqn:Eb, (ltb (aff u v c) w) eqn:Ec; cbn; try reflexivity; exfalso; try apply ltb_true in Ea; try apply ltb_false in Ea; try apply ltb_true in Eb; try apply ltb_false in Eb; try apply ltb_true in Ec; try apply ltb_false in Ec; destruct (Rle_lt_dec k (1/2)); nra.
Qed.
Fixpoint path (x : p2) (l : list p2) : nat := match l with [] => 0 | y :: l' => flip t x y + path y l' end.
Lemma emit_path : forall q first z y, (path z (emit first q ++ [y]) <= flip t z (next first q) + flips t first q + flip t first y)%nat.
Proof.
  induction q as [|a q IH]; intros first z y; cbn [emit flips next app path]; [pose proof (flip_tri z first y); lia|].
  destruct (inside a) eqn:Ia; destruct (xorb _ (inside (next first q))) eqn:X; cbn [app path].
  - pose proof (flip_between a (next first q) ltac:(rewrite Ia; exact X)). pose proof (IH first (crossing dir sign h a (next first q)) y). lia.
  - pose proof (IH first a y). lia.
  - pose proof (flip_between a (next first q) ltac:(rewrite Ia; exact X)). pose proof (IH first (crossing dir sign h a (next first q)) y). pose proof (flip_tri z a (crossing dir sign h a (next first q))). lia.
  - pose proof (IH first z y). pose proof (flip_tri z a (next first q)). lia.
Qed.
Lemma path_flips : forall q x first, path x (q ++ [first]) = flips t first (x :: q).
Proof. induction q as [|a q IH]; intros x first; cbn [app path flips next]; [reflexivity|]. rewrite IH. reflexivity. Qed.
Lemma emit_turns : forall a q, (turns t (emit a (a :: q)) <= turns t (a :: q))%nat.
Proof.
  intros a q. unfold turns at 2. cbn [hd]. destruct (emit a (a :: q)) as [|o l] eqn:E; [cbn; lia|]. unfold turns. cbn [hd]. rewrite <- path_flips.
  pose proof (emit_path (a :: q) a a o) as P. rewrite E in P. cbn [next app path] in P. rewrite flip_self in P. pose proof (flip_tri a o a). assert (S : flip t o a = flip t a o) by (unfold flip; rewrite xorb_comm; reflexivity). lia.
Qed.
End Test.
Lemma emit_convex : forall a q, convex (a :: q) -> convex (emit a (a :: q)).
Proof. intros a q C u v w. pose proof (emit_turns u v w a q). specialize (C u v w). lia. Qed.
Fixpoint count (q : list p2) : nat := match q with [] => 0 | a :: q' => (if inside a then 1 else 0) + count q' end.
Lemma emit_length : forall q first, length (emit first q) = (count q + flips inside first q)%nat.
Proof. induction q as [|a q IH]; intros first; cbn [emit count flips]; [reflexivity|]. rewrite !app_length, IH. unfold flip. destruct (inside a), (xorb _ (inside (next first q))); cbn [length]; lia. Qed.
Lemma all_inside : forall q, (forall z, In z q -> inside z = true) \/ (count q < length q)%nat.
Proof.
  induction q as [|a q IH]; [left; intros z []|]. assert (C : (count q <= length q)%nat) by (clear; induction q as [|b q IH]; cbn [count length]; [lia|]; destruct (inside b); lia).
  cbn [count length]. destruct (inside a) eqn:E; [|right; lia]. destruct IH as [IH|IH]; [left; intros z [ <- |I]; auto|right; lia].
Qed.
Lemma flips_all : forall q first, inside first = true -> (forall z, In z q -> inside z = true) -> flips inside first q = 0%nat.
Proof.
  induction q as [|a q IH]; intros first F A; cbn [flips]; [reflexivity|]. rewrite IH; auto; [|intros z I; apply A; right; exact I]. unfold flip. rewrite (A a (or_introl eq_refl)).
  assert (N : inside (next first q) = true) by (destruct q as [|b q]; cbn [next]; [exact F|apply A; right; left; reflexivity]). rewrite N. reflexivity.
Qed.
Lemma count_le : forall q, (count q <= length q)%nat.
Proof. induction q as [|b q IH]; cbn [count length]; [lia|]. destruct (inside b); lia. Qed.
Lemma inside_aff : forall z, inside z = ltb (aff (if dir then 0 else sign) (if dir then sign else 0) z) h.
Proof. intros z. unfold inside, aff. destruct dir; cbn [at2]; f_equal; ring. Qed.
Lemma flips_ext : forall t1 t2, (forall z, t1 z = t2 z) -> forall q first, flips t1 first q = flips t2 first q.
Proof. intros t1 t2 E. induction q as [|a q IH]; intros first; cbn [flips]; [reflexivity|]. rewrite IH. unfold flip. rewrite !E. reflexivity. Qed.
Lemma emit_grows : forall a q, convex (a :: q) -> (length (emit a (a :: q)) <= S (length (a :: q)))%nat.
Proof.
  intros a q C. rewrite emit_length. destruct (all_inside (a :: q)) as [A|L].
  - rewrite flips_all; [pose proof (count_le (a :: q)); lia|apply A; left; reflexivity|exact A].
  - specialize (C (if dir then 0 else sign) (if dir then sign else 0) h). unfold turns in C. cbn [hd] in C. rewrite <- (flips_ext _ _ inside_aff) in C. lia.
Qed.
End Chop.

(** ** The clipped polygon is the intersection *)
Definition em (dir : bool) (sign h : R) (q : list p2) : list p2 := emit dir sign h (hd (0, 0) q) q.
Lemma em_convex : forall dir sign h q, sign = 1 \/ sign = -1 -> convex q -> convex (em dir sign h q).
Proof. intros dir sign h [|a q] S C; [exact C|]. apply emit_convex; assumption. Qed.
Lemma em_length : forall dir sign h q, convex q -> (length (em dir sign h q) <= S (length q))%nat.
Proof. intros dir sign h [|a q] C; [cbn; lia|]. apply emit_grows, C. Qed.
Lemma em_step : forall dir sign h q, convex q -> (length q <= 6)%nat -> chop_step dir sign h (q, false) = (em dir sign h q, false).
Proof. intros dir sign h q C L. cbn [chop_step]. rewrite chop_short; [reflexivity|]. pose proof (em_length dir sign h q C). unfold em in H. cbn [length]. lia. Qed.
Lemma rect_quad_em : forall h0 h1 q, convex q -> (length q <= 4)%nat ->
  rect_quad h0 h1 q = em true 1 h1 (em true (-1) h1 (em false 1 h0 (em false (-1) h0 q))) /\ (length (rect_quad h0 h1 q) <= 8)%nat.
Proof.
  intros h0 h1 q C L. assert (M : -1 = 1 \/ -1 = -1) by (right; reflexivity). assert (P : 1 = 1 \/ 1 = -1) by (left; reflexivity). unfold rect_quad. rewrite em_step by (auto; lia).
  pose proof (em_length false (-1) h0 q C) as L1. pose proof (em_convex false (-1) h0 q M C) as C1. set (q1 := em false (-1) h0 q) in *. rewrite em_step by (auto; lia).
  pose proof (em_length false 1 h0 q1 C1) as L2. pose proof (em_convex false 1 h0 q1 P C1) as C2. set (q2 := em false 1 h0 q1) in *. rewrite em_step by (auto; lia).
  pose proof (em_length true (-1) h1 q2 C2) as L3. pose proof (em_convex true (-1) h1 q2 M C2) as C3. set (q3 := em true (-1) h1 q2) in *. cbn [chop_step].
  pose proof (em_length true 1 h1 q3 C3) as L4. assert (E : fst (chop true 1 h1 (hd (0, 0) q3) q3 []) = em true 1 h1 q3) by (rewrite chop_eight; [reflexivity|unfold em in L4; cbn [length]; lia]).
  rewrite E. split; [reflexivity|lia].
Qed.
Lemma em_bounds : forall dir sign h q, sign = 1 \/ sign = -1 -> forall z, In z (em dir sign h q) -> sign * at2 dir z <= h /\ forall u v w, (forall x, In x q -> aff u v x <= w) -> aff u v z <= w.
Proof. intros dir sign h [|a q] S z I; [destruct I|]. apply (emit_bounds dir sign h S (a :: q) a (or_introl eq_refl) z I). Qed.
Lemma em_keeps : forall dir sign h q z, In z q -> sign * at2 dir z < h -> In z (em dir sign h q).
Proof. intros dir sign h q z I L. apply emit_keeps; [exact I|apply ltb_true, L]. Qed.
(** A quadrangle with equal sums of opposite corners *)
Lemma parallelogram : forall a b c d : p2, fst a + fst c = fst b + fst d -> snd a + snd c = snd b + snd d -> convex [a; b; c; d].
Proof.
  intros a b c d E1 E2 u v w. unfold turns. cbn [hd flips next]. assert (S : aff u v a + aff u v c = aff u v b + aff u v d) by (unfold aff; nra).
  unfold flip. destruct (ltb (aff u v a) w) eqn:Ea, (ltb (aff u v b) w) eqn:Eb, (ltb (aff u v c) w) eqn:Ec, (ltb (aff u v d) w) eqn:Ed; cbn; try lia; exfalso;
  try apply ltb_true in Ea; try apply ltb_false in Ea; try apply ltb_true in Eb; try apply ltb_false in Eb; try apply ltb_true in Ec; try apply ltb_false in Ec; try apply ltb_true in Ed; try apply ltb_false in Ed; lra.
Qed.
(** The points kept are in the rectangle and in the quadrangle. *)
Lemma rect_quad_sound : forall h0 h1 q, convex q -> (length q <= 4)%nat -> forall z, In z (rect_quad h0 h1 q) ->
  - h0 <= fst z <= h0 /\ - h1 <= snd z <= h1 /\ forall u v w, (forall x, In x q -> aff u v x <= w) -> aff u v z <= w.
Proof.
  intros h0 h1 q C L z. rewrite (proj1 (rect_quad_em h0 h1 q C L)). assert (M : -1 = 1 \/ -1 = -1) by (right; reflexivity). assert (P : 1 = 1 \/ 1 = -1) by (left; reflexivity).
  set (q1 := em false (-1) h0 q). set (q2 := em false 1 h0 q1). set (q3 := em true (-1) h1 q2). intros I.
  assert (B1 : forall x, In x q1 -> - h0 <= fst x /\ forall u v w, (forall x, In x q -> aff u v x <= w) -> aff u v x <= w). { intros x Ix. destruct (em_bounds false (-1) h0 q M x Ix) as (S & A). cbn [at2] in S. split; [lra|exact A]. }
  assert (B2 : forall x, In x q2 -> - h0 <= fst x <= h0 /\ forall u v w, (forall x, In x q -> aff u v x <= w) -> aff u v x <= w).
  { intros x Ix. destruct (em_bounds false 1 h0 q1 P x Ix) as (S & A). cbn [at2] in S. split; [|intros u v w H; apply A; intros y Iy; apply B1; assumption]. split; [|lra]. specialize (A (-1) 0 h0). unfold aff in A. enough (-1 * fst x + 0 * snd x <= h0) by lra. apply A. intros y Iy. destruct (B1 y Iy). lra. }
  assert (B3 : forall x, In x q3 -> (- h0 <= fst x <= h0 /\ - h1 <= snd x) /\ forall u v w, (forall x, In x q -> aff u v x <= w) -> aff u v x <= w).
  { intros x Ix. destruct (em_bounds true (-1) h1 q2 M x Ix) as (S & A). cbn [at2] in S. split; [|intros u v w H; apply A; intros y Iy; apply B2; assumption]. split; [|lra]. pose proof (A (-1) 0 h0) as A1. pose proof (A 1 0 h0) as A2. unfold aff in A1, A2.
    assert (-1 * fst x + 0 * snd x <= h0) by (apply A1; intros y Iy; destruct (B2 y Iy); lra). assert (1 * fst x + 0 * snd x <= h0) by (apply A2; intros y Iy; destruct (B2 y Iy); lra). lra. }
  destruct (em_bounds true 1 h1 q3 P z I) as (S & A). cbn [at2] in S. pose proof (A (-1) 0 h0) as A1. pose proof (A 1 0 h0) as A2. pose proof (A 0 (-1) h1) as A3. unfold aff in A1, A2, A3.
  assert (-1 * fst z + 0 * snd z <= h0) by (apply A1; intros y Iy; destruct (B3 y Iy); lra). assert (1 * fst z + 0 * snd z <= h0) by (apply A2; intros y Iy; destruct (B3 y Iy); lra). assert (0 * fst z + -1 * snd z <= h1) by (apply A3; intros y Iy; destruct (B3 y Iy); lra).
  split; [lra|]. split; [lra|]. intros u v w H9. apply A. intros y Iy. apply B3; assumption.
Qed.
(** Between the bounds *)
Lemma between : forall lo hi : list R, (forall x y, In x lo -> In y hi -> x <= y) -> exists m, (forall x, In x lo -> x <= m) /\ forall y, In y hi -> m <= y.
Proof.
  intros lo hi. induction lo as [|x lo IH]; intros H.
  - clear H. induction hi as [|y hi IH]; [exists 0; split; intros ? []|]. destruct IH as (m & _ & M). exists (Rmin m y). split; [intros ? []|]. intros z [ <- |I]; [apply Rmin_r|]. apply Rle_trans with m; [apply Rmin_l|apply M, I].
  - destruct IH as (m & L & M); [intros; apply H; [right|]; assumption|]. exists (Rmax x m). split.
    + intros z [ <- |I]; [apply Rmax_l|]. apply Rle_trans with m; [apply L, I|apply Rmax_r].
    + intros y I. apply Rmax_lub; [apply H; [left; reflexivity|exact I]|apply M, I].
Qed.
Section Exact.
Variables (dir : bool) (sign h : R).
Hypothesis Hs : sign = 1 \/ sign = -1.
Let g (z : p2) : R := sign * at2 dir z.
Let inside (z : p2) : bool := ltb (g z) h.
Definition gu : R := if dir then 0 else sign.
Definition gv : R := if dir then sign else 0.
Lemma g_aff : forall z, g z = aff gu gv z.
Proof. intros z. unfold g, aff, gu, gv. destruct dir; cbn [at2]; ring. Qed.
(** All crossings of the polygon in the test t, and the walk along it *)
Section Walk.
Variable t : p2 -> bool.
Hypothesis Hb : forall a b, xorb (inside a) (inside b) = true -> t (crossing dir sign h a b) = true -> t a = false -> t b = false -> False.
Fixpoint walk (x : p2) (l : list p2) : nat := match l with [] => 0 | y :: l' => flip t x y + walk y l' end.
Lemma walk_app : forall l x y m, walk x (l ++ y :: m) = (walk x (l ++ [y]) + walk y m)%nat.
Proof. induction l as [|a l IH]; intros x y m; cbn [app walk]; [lia|]. rewrite IH. lia. Qed.
Lemma walk_flips : forall q x first, walk x (q ++ [first]) = flips t first (x :: q).
Proof. induction q as [|a q IH]; intros x first; cbn [app walk flips next]; [reflexivity|]. rewrite IH. reflexivity. Qed.
(** neighbours along the walk *)
Fixpoint steps (x : p2) (l : list p2) : list (p2 * p2) := match l with [] => [] | y :: l' => (x, y) :: steps y l' end.
Lemma steps_app : forall l x y m, steps x (l ++ y :: m) = steps x (l ++ [y]) ++ steps y m.
Proof. induction l as [|a l IH]; intros x y m; cbn [app steps]; [reflexivity|]. rewrite IH. reflexivity. Qed.
Lemma walk_one : forall l x y, t x <> t y -> (1 <= walk x (l ++ [y]))%nat.
Proof.
  induction l as [|a l IH]; intros x y N; cbn [app walk].
  - unfold flip. destruct (t x), (t y); cbn; try lia; exfalso; apply N; reflexivity.
  - unfold flip. destruct (xorb (t x) (t a)) eqn:E; [lia|]. apply xorb_eq in E. rewrite E in N. specialize (IH a y N). lia.
Qed.
Lemma walk_two : forall l x y, t x = false -> t y = false -> xorb (inside x) (inside y) = true -> (forall a b, In (a, b) (steps x (l ++ [y])) -> xorb (inside a) (inside b) = true -> t (crossing dir sign h a b) = true) -> (2 <= walk x (l ++ [y]))%nat.
Proof.
  induction l as [|a l IH]; intros x y Tx Ty X C; cbn [app walk steps] in *.
  - exfalso. apply (Hb x y X); auto. apply C; [left; reflexivity|exact X].
  - destruct (t a) eqn:Ta.
    + unfold flip. rewrite Tx, Ta. cbn. pose proof (walk_one l a y) as W. rewrite Ta, Ty in W. specialize (W ltac:(discriminate)). lia.
    + destruct (xorb (inside x) (inside a)) eqn:Xa; [exfalso; apply (Hb x a Xa); auto; apply C; [left; reflexivity|exact Xa]|]. apply xorb_eq in Xa. unfold flip. rewrite Tx, Ta. cbn. apply IH; auto; [rewrite <- Xa; exact X|]. intros c d I. apply C. right. exact I.
Qed.
End Walk.
Lemma steps_emit : forall l x first a b, In (a, b) (steps x (l ++ [first])) -> xorb (inside a) (inside b) = true -> In (crossing dir sign h a b) (emit dir sign h first (x :: l)).
Proof.
  induction l as [|y l IH]; intros x first a b I X; cbn [app steps] in I; destruct I as [E|I]; try contradiction.
  - injection E as -> ->. cbn [emit next]. fold (g a) (g b) (inside a) (inside b). rewrite !in_app_iff, X. right. left. left. reflexivity.
  - injection E as -> ->. cbn [emit next]. fold (g a) (g b) (inside a) (inside b). rewrite !in_app_iff, X. right. left. left. reflexivity.
  - pose proof (IH y first a b I X) as H. clear - H. remember (y :: l) as l0. clear Heql0. cbn [emit]. rewrite !in_app_iff. right. right. exact H.
Qed.
Lemma order : forall (x y : p2) q, In x q -> In y q -> x <> y -> exists l1 l2 l3, q = l1 ++ x :: l2 ++ y :: l3 \/ q = l1 ++ y :: l2 ++ x :: l3.
Proof.
  intros x y q Ix Iy N. apply in_split in Ix. destruct Ix as (l & m & -> ). apply in_app_iff in Iy. destruct Iy as [Iy|[Iy|Iy]]; [|contradiction|].
  - apply in_split in Iy. destruct Iy as (l1 & l2 & -> ). exists l1, l2, m. right. rewrite <- app_assoc. reflexivity.
  - apply in_split in Iy. destruct Iy as (l2 & l3 & -> ). exists l, l2, l3. left. reflexivity.
Qed.
Section Four.
Variable t : p2 -> bool.
Hypothesis Hb : forall a b, xorb (inside a) (inside b) = true -> t (crossing dir sign h a b) = true -> t a = false -> t b = false -> False.
Lemma four_turns : forall a q, (forall z, In z (emit dir sign h a (a :: q)) -> (exists x y, xorb (inside x) (inside y) = true /\ z = crossing dir sign h x y) -> t z = true) ->
  forall x y l1 l2 l3, a :: q = l1 ++ x :: l2 ++ y :: l3 -> t x = false -> t y = false -> xorb (inside x) (inside y) = true -> (4 <= turns t (a :: q))%nat.
Proof.
  intros a q C x y l1 l2 l3 E Tx Ty X. unfold turns. cbn [hd]. rewrite <- walk_flips.
  assert (S : forall c d, In (c, d) (steps a (q ++ [a])) -> xorb (inside c) (inside d) = true -> t (crossing dir sign h c d) = true) by (intros c d I Xc; apply C; [apply steps_emit; assumption|eauto]). clear C.
  assert (Y : xorb (inside y) (inside x) = true) by (rewrite xorb_comm; exact X).
  destruct l1 as [|b l1]; cbn [app] in E; injection E as -> ->.
  - rewrite <- app_assoc in *. cbn [app] in *. rewrite walk_app. rewrite steps_app in S. pose proof (walk_two t Hb l2 x y Tx Ty X) as W1. pose proof (walk_two t Hb l3 y x Ty Tx Y) as W2.
    specialize (W1 ltac:(intros; apply S; [apply in_app_iff; auto|assumption])). specialize (W2 ltac:(intros; apply S; [apply in_app_iff; auto|assumption])). lia.
  - rewrite <- !app_assoc in *. cbn [app] in *. rewrite <- !app_assoc in *. cbn [app] in *. rewrite walk_app, (walk_app t l2). rewrite steps_app, (steps_app l2) in S. pose proof (walk_two t Hb l2 x y Tx Ty X) as W1. pose proof (walk_two t Hb (l3 ++ b :: l1) y x Ty Tx Y) as W2.
    rewrite <- app_assoc in W2. cbn [app] in W2. rewrite walk_app, steps_app in W2.
    specialize (W1 ltac:(intros; apply S; [rewrite !in_app_iff; auto|assumption])). specialize (W2 ltac:(intros c d I Xc; apply S; [rewrite !in_app_iff in *; tauto|assumption])). lia.
Qed.
End Four.
Lemma pair_crossing : forall a q, convex (a :: q) -> forall u v w, (forall z, In z (emit dir sign h a (a :: q)) -> aff u v z <= w) ->
  forall i o, In i (a :: q) -> In o (a :: q) -> g i < h -> h <= g o -> (g o - h) * aff u v i + (h - g i) * aff u v o <= w * (g o - g i).
Proof.
  intros a q C u v w B i o Ii Io Li Lo. destruct (Rle_lt_dec ((g o - h) * aff u v i + (h - g i) * aff u v o) (w * (g o - g i))) as [L|L]; [exact L|exfalso].
  set (D := g o - g i) in *. assert (Dp : 0 < D) by (unfold D; lra). set (m := (aff u v i - aff u v o) / D). set (v0 := aff u v i - m * (h - g i)).
  assert (Mo : aff u v o + m * (g o - h) = v0). { unfold v0. assert (m * D = aff u v i - aff u v o) by (unfold m; field; lra). unfold D in H. lra. }
  assert (W : w < v0). { apply Rmult_lt_reg_r with D; [exact Dp|]. replace (v0 * D) with ((g o - h) * aff u v i + (h - g i) * aff u v o); [exact L|]. unfold v0. replace ((aff u v i - m * (h - g i)) * D) with (aff u v i * D - (m * D) * (h - g i)) by ring. replace (m * D) with (aff u v i - aff u v o) by (unfold m; field; lra). unfold D. ring. }
  set (t := fun z => ltb (aff (u + m * gu) (v + m * gv) z) (v0 + m * h)).
  assert (Fz : forall z, aff (u + m * gu) (v + m * gv) z = aff u v z + m * g z) by (intros z; rewrite g_aff; unfold aff; ring).
  assert (Tc : forall x y, xorb (inside x) (inside y) = true -> g (crossing dir sign h x y) = h). { intros x y X. unfold g. rewrite (proj1 (crossing_on dir sign h Hs x y X)). destruct Hs as [E|E]; rewrite E; ring. }
  assert (Hb : forall x y, xorb (inside x) (inside y) = true -> t (crossing dir sign h x y) = true -> t x = false -> t y = false -> False).
  { intros x y X T1 T2 T3. unfold t in *. apply ltb_true in T1. apply ltb_false in T2. apply ltb_false in T3. destruct (crossing_on dir sign h Hs x y X) as (_ & k & Hk & Ck). rewrite Ck in T1. nra. }
  assert (Ti : t i = false) by (unfold t; apply ltb_false; rewrite Fz; unfold v0; lra). assert (To : t o = false) by (unfold t; apply ltb_false; rewrite Fz; lra).
  assert (Ei : inside i = true) by (unfold inside; apply ltb_true; exact Li). assert (Eo : inside o = false) by (unfold inside; apply ltb_false; exact Lo).
  assert (Cr : forall z, In z (emit dir sign h a (a :: q)) -> (exists x y, xorb (inside x) (inside y) = true /\ z = crossing dir sign h x y) -> t z = true).
  { intros z Iz (x & y & X & -> ). unfold t. apply ltb_true. rewrite Fz, (Tc x y X). specialize (B _ Iz). lra. }
  specialize (C (u + m * gu) (v + m * gv) (v0 + m * h)). fold t in C.
  destruct (order i o (a :: q) Ii Io) as (l1 & l2 & l3 & [E|E]); [intros E; subst; congruence| |].
  - pose proof (four_turns t Hb a q Cr i o l1 l2 l3 E Ti To) as F. rewrite Ei, Eo in F. specialize (F eq_refl). lia.
  - pose proof (four_turns t Hb a q Cr o i l1 l2 l3 E To Ti) as F. rewrite Ei, Eo in F. specialize (F eq_refl). lia.
Qed.
Lemma em_exact : forall q, convex q -> forall p, (forall u v w, (forall z, In z q -> aff u v z <= w) -> aff u v p <= w) -> g p < h ->
  forall u v w, (forall z, In z (em dir sign h q) -> aff u v z <= w) -> aff u v p <= w.
Proof.
  intros [|a q] C p Hp Lp u v w B; [apply Hp; intros z []|]. unfold em in B. cbn [hd] in B. set (Q := a :: q) in *.
  destruct (existsb inside Q) eqn:Ex.
  2:{ exfalso. specialize (Hp (- gu) (- gv) (- h)). assert (aff (- gu) (- gv) p <= - h). { apply Hp. intros z Iz. assert (inside z = false). { destruct (inside z) eqn:Ez; [|reflexivity]. rewrite <- Ex. symmetry. apply existsb_exists. eauto. }
      unfold inside in H. apply ltb_false in H. rewrite g_aff in H. unfold aff in *. lra. } rewrite g_aff in Lp. unfold aff in *. lra. }
  apply existsb_exists in Ex. destruct Ex as (i0 & I0 & E0). unfold inside in E0. apply ltb_true in E0.
  pose proof (pair_crossing a q C u v w B) as P. fold Q in P.
  destruct (between (0 :: map (fun o => (aff u v o - w) / (g o - h)) (filter (fun z => ltb h (g z)) Q)) (map (fun i => (w - aff u v i) / (h - g i)) (filter inside Q))) as (m & ML & MH).
  { intros x y Ix Iy. apply in_map_iff in Iy. destruct Iy as (i & <- & Ii). apply filter_In in Ii. destruct Ii as (Ii & Ei). assert (Li : g i < h) by (unfold inside in Ei; apply ltb_true in Ei; exact Ei).
    assert (Fi : aff u v i <= w) by (apply B, emit_keeps; [exact Ii|exact Ei]). destruct Ix as [ <- |Ix]; [apply Rmult_le_pos; [lra|left; apply Rinv_0_lt_compat; lra]|].
    apply in_map_iff in Ix. destruct Ix as (o & <- & Io). apply filter_In in Io. destruct Io as (Io & Eo). apply ltb_true in Eo. pose proof (P i o Ii Io Li ltac:(lra)) as Q1.
    apply Rmult_le_reg_r with ((g o - h) * (h - g i)); [nra|]. replace ((aff u v o - w) / (g o - h) * ((g o - h) * (h - g i))) with ((aff u v o - w) * (h - g i)) by (field; lra). replace ((w - aff u v i) / (h - g i) * ((g o - h) * (h - g i))) with ((w - aff u v i) * (g o - h)) by (field; lra). nra. }
  assert (M0 : 0 <= m) by (apply ML; left; reflexivity).
  assert (Al : forall z, In z Q -> aff (u - m * gu) (v - m * gv) z <= w - m * h).
  { intros z Iz. replace (aff (u - m * gu) (v - m * gv) z) with (aff u v z - m * g z) by (rewrite g_aff; unfold aff; ring). destruct (Rlt_le_dec (g z) h) as [L|[L|L]].
    - assert (Mz : m <= (w - aff u v z) / (h - g z)). { apply MH, in_map_iff. exists z. split; [reflexivity|]. apply filter_In. split; [exact Iz|]. unfold inside. apply ltb_true, L. }
      apply (Rmult_le_compat_r (h - g z)) in Mz; [|lra]. unfold Rdiv in Mz. rewrite Rmult_assoc, Rinv_l in Mz by lra. lra.
    - assert (Mz : (aff u v z - w) / (g z - h) <= m). { apply ML. right. apply in_map_iff. exists z. split; [reflexivity|]. apply filter_In. split; [exact Iz|]. apply ltb_true. lra. }
      apply (Rmult_le_compat_r (g z - h)) in Mz; [|lra]. unfold Rdiv in Mz. rewrite Rmult_assoc, Rinv_l in Mz by lra. lra.
    - pose proof (P i0 z I0 Iz E0 ltac:(lra)) as Q1. rewrite <- L in *. assert ((h - g i0) * aff u v z <= (h - g i0) * w) by lra. assert (aff u v z <= w) by (apply Rmult_le_reg_l with (h - g i0); [lra|assumption]). lra. }
  specialize (Hp _ _ _ Al). replace (aff (u - m * gu) (v - m * gv) p) with (aff u v p - m * g p) in Hp by (rewrite g_aff; unfold aff; ring). nra.
Qed.
End Exact.
(** A point of the quadrangle strictly inside the rectangle is in every half-plane that contains the points kept: they span the intersection. *)
Lemma rect_quad_exact : forall h0 h1 q, convex q -> (length q <= 4)%nat -> forall p, - h0 < fst p < h0 -> - h1 < snd p < h1 ->
  (forall u v w, (forall z, In z q -> aff u v z <= w) -> aff u v p <= w) -> forall u v w, (forall z, In z (rect_quad h0 h1 q) -> aff u v z <= w) -> aff u v p <= w.
Proof.
  intros h0 h1 q C L p X Y Hp. rewrite (proj1 (rect_quad_em h0 h1 q C L)). assert (M : -1 = 1 \/ -1 = -1) by (right; reflexivity). assert (P : 1 = 1 \/ 1 = -1) by (left; reflexivity).
  apply em_exact; auto; [auto using em_convex| |cbn [at2]; lra]. apply em_exact; auto; [auto using em_convex| |cbn [at2]; lra]. apply em_exact; auto; [auto using em_convex| |cbn [at2]; lra]. apply em_exact; auto. cbn [at2]. lra.
Qed.
