(** The intersection test of two triangles, the leaf test of mesh collision
    (include/fcl/narrowphase/detail/traversal/collision/intersect-inl.h), over the reals. *)
From Coq Require Import Reals Lra Lia Psatz List Bool.
From Verif Require Import VecR Motion TriDist TriGeom.
Import ListNotations.
Open Scope R_scope.

(** project6 (1084-1106) *)
Definition project6 (ax p1 p2 p3 q1 q2 q3 : v3) : bool :=
  let P1 := dot ax p1 in let P2 := dot ax p2 in let P3 := dot ax p3 in
  let Q1 := dot ax q1 in let Q2 := dot ax q2 in let Q3 := dot ax q3 in
  let mn1 := Rmin P1 (Rmin P2 P3) in
  let mx2 := Rmax Q1 (Rmax Q2 Q3) in
  if Rlt_dec mx2 mn1 then false
  else let mx1 := Rmax P1 (Rmax P2 P3) in
    let mn2 := Rmin Q1 (Rmin Q2 Q3) in
    if Rlt_dec mx1 mn2 then false else true.

(** the axes of intersect_Triangle in the order of the tests (742-800) *)
Definition axes (p1 p2 p3 q1 q2 q3 : v3) : list v3 :=
  let e1 := vsub p2 p1 in let e2 := vsub p3 p2 in let n1 := cross e1 e2 in
  let f1 := vsub q2 q1 in let f2 := vsub q3 q2 in let m1 := cross f1 f2 in
  let f3 := vsub q1 q3 in let e3 := vsub p1 p3 in
  [n1; m1; cross e1 f1; cross e1 f2; cross e1 f3; cross e2 f1; cross e2 f2; cross e2 f3; cross e3 f1; cross e3 f2; cross e3 f3;
   cross e1 n1; cross e2 n1; cross e3 n1; cross f1 m1; cross f2 m1; cross f3 m1].

(** intersect_Triangle (726-802), the answer; "if (!project6(..)) return false" for one axis after
    the other is [forallb] *)
Definition tri_test (P1 P2 P3 Q1 Q2 Q3 : v3) : bool :=
  let p1 := vsub P1 P1 in let p2 := vsub P2 P1 in let p3 := vsub P3 P1 in
  let q1 := vsub Q1 P1 in let q2 := vsub Q2 P1 in let q3 := vsub Q3 P1 in
  forallb (fun ax => project6 ax p1 p2 p3 q1 q2 q3) (axes p1 p2 p3 q1 q2 q3).

(** intersect_Triangle with a rotation and a translation, or a transform, of the second triangle
    (596-641) *)
Definition tri_test_tf (P1 P2 P3 Q1 Q2 Q3 : v3) (X : tf) : bool :=
  tri_test P1 P2 P3 (tf_apply X Q1) (tf_apply X Q2) (tf_apply X Q3).

(** distanceToPlane (1031-1035) *)
Definition plane_dist (n : v3) (t : R) (v : v3) : R := dot n v - t.
(** buildTrianglePlane (1038-1052); None if the normal cannot be normalised: the output is then
    left as it is *)
Definition tri_plane (v1 v2 v3 : v3) : option (VecR.v3 * R) :=
  let n := cross (vsub v2 v1) (vsub v3 v1) in
  if Rlt_dec 0 (norm2 n) then let u := vscale (/ sqrt (norm2 n)) n in Some (u, dot u v1) else None.

(** computeDeepestPoints (847-884): max_depth, the deepest points and the three counters; [far]
    stands for numeric_limits<S>::max() *)
Definition ieps : R := 1 / 100000.
Record deep := Deep { dmax : R; dpts : list v3; dneg : nat; dpos : nat; dzero : nat }.
Definition deep_step (n : v3) (t : R) (s : deep) (x : v3) : deep :=
  let d := - plane_dist n t x in
  let '(ng, ps, z) := if Rlt_dec ieps d then (dneg s, S (dpos s), dzero s)
    else if Rlt_dec d (- ieps) then (S (dneg s), dpos s, dzero s) else (dneg s, dpos s, S (dzero s)) in
  if Rlt_dec (dmax s) d then Deep d [x] ng ps z
  else if Rle_dec (dmax s) (d + 1 / 1000000) then Deep (dmax s) (dpts s ++ [x]) ng ps z
  else Deep (dmax s) (dpts s) ng ps z.
Definition deepest_points (far : R) (l : list v3) (n : v3) (t : R) : R * list v3 :=
  let s := fold_left (deep_step n t) l (Deep (- far) [] 0 0 0) in
  let pts := if Rlt_dec (dmax s) (- ieps) then [] else dpts s in
  let pts := if (Nat.eqb (dzero s) 0 && (Nat.eqb (dneg s) 0 || Nat.eqb (dpos s) 0))%bool then [] else pts in
  (dmax s, pts).

(** the contacts of intersect_Triangle (804-843): contact points, normal and depth of triangles for
    which [tri_test] holds; None if a plane is used that has not been set *)
Definition tri_contact (far : R) (P1 P2 P3 Q1 Q2 Q3 : v3) : option (list v3 * v3 * R) :=
  match tri_plane P1 P2 P3, tri_plane Q1 Q2 Q3 with
  | Some (n1, t1), Some (n2, t2) =>
      let (depth2, pts2) := deepest_points far [Q1; Q2; Q3] n1 t1 in
      let (depth1, pts1) := deepest_points far [P1; P2; P3] n2 t2 in
      if Rlt_dec depth2 depth1 then Some (firstn 2 pts2, n1, depth2) else Some (firstn 2 pts1, vneg n2, depth1)
  | _, _ => None
  end.

(** ** Leaving a polyhedron of directions *)
Lemma some_neg : forall (C : list v3) d, (exists c, In c C /\ dot c d < 0) \/ (forall c, In c C -> 0 <= dot c d).
Proof.
  induction C as [|x C IH]; intros d; [right; intros c []|].
  destruct (Rlt_dec (dot x d) 0) as [L|L]; [left; exists x; split; [left; reflexivity|exact L]|].
  destruct (IH d) as [(c & I & Hc)|A]; [left; exists c; split; [right; exact I|exact Hc]|right]. intros c [<-|I]; [lra|auto].
Qed.

Lemma hit : forall (C : list v3) n d, (forall c, In c C -> 1 <= dot c n) -> (exists c, In c C /\ dot c d < 0) ->
  exists t, 0 <= t /\ (forall c, In c C -> 1 <= dot c (vadd n (vscale t d))) /\ exists c, In c C /\ dot c d < 0 /\ dot c (vadd n (vscale t d)) = 1.
Proof.
  intros C n d. assert (E : forall c t, dot c (vadd n (vscale t d)) = dot c n + t * dot c d) by (intros; rewrite dot_add_r, dot_scale_r; reflexivity).
  assert (Cr : forall c, 1 <= dot c n -> dot c d < 0 -> exists t, 0 <= t /\ dot c n + t * dot c d = 1).
  { intros c A B. exists ((dot c n - 1) / - dot c d). split; [apply Rmult_le_pos; [lra|left; apply Rinv_0_lt_compat; lra]|field; lra]. }
  induction C as [|x C IH]; intros HC (c & I & Hc); [destruct I|].
  destruct (some_neg C d) as [Hn|Hp].
  - destruct IH as (t & T0 & A & c' & I' & N' & E'); [intros; apply HC; right; assumption|exact Hn|].
    destruct (Rle_lt_dec 1 (dot x (vadd n (vscale t d)))) as [L|L].
    + exists t. split; [exact T0|]. split; [intros y [<-|J]; auto|]. exists c'. split; [right; exact I'|auto].
    + rewrite E in L. assert (Hx : 1 <= dot x n) by (apply HC; left; reflexivity).
      assert (Nx : dot x d < 0) by nra. destruct (Cr x Hx Nx) as (s & S0 & Es).
      assert (Hst : s <= t) by nra.
      exists s. split; [exact S0|]. split.
      * intros y [<-|J]; rewrite E; [lra|]. specialize (A y J). rewrite E in A. assert (Hy : 1 <= dot y n) by (apply HC; right; exact J).
        destruct (Rle_lt_dec 0 (dot y d)); [assert (0 <= s * dot y d) by (apply Rmult_le_pos; lra); lra|]. assert (t * dot y d <= s * dot y d) by nra. lra.
      * exists x. split; [left; reflexivity|]. split; [exact Nx|]. rewrite E. exact Es.
  - assert (c = x) by (destruct I as [<-|I]; [reflexivity|specialize (Hp c I); lra]). subst c.
    destruct (Cr x (HC x (or_introl eq_refl)) Hc) as (s & S0 & Es). exists s. split; [exact S0|]. split.
    + intros y [<-|J]; rewrite E; [lra|]. specialize (Hp y J). assert (Hy : 1 <= dot y n) by (apply HC; right; exact J).
      assert (0 <= s * dot y d) by (apply Rmult_le_pos; assumption). lra.
    + exists x. split; [left; reflexivity|]. split; [exact Hc|]. rewrite E. exact Es.
Qed.

(** a step in a direction in which not all of C is constant *)
Lemma step : forall (C : list v3) n d, (forall c, In c C -> 1 <= dot c n) -> (exists c, In c C /\ dot c d <> 0) ->
  exists t, (forall c, In c C -> 1 <= dot c (vadd n (vscale t d))) /\ exists c, In c C /\ dot c d <> 0 /\ dot c (vadd n (vscale t d)) = 1.
Proof.
  intros C n d HC (c & I & Hc). destruct (Rlt_dec (dot c d) 0) as [L|L].
  - destruct (hit C n d HC) as (t & _ & A & c' & I' & N' & E'); [eauto|]. exists t. split; [exact A|]. exists c'. repeat split; auto. lra.
  - destruct (hit C n (vneg d) HC) as (t & _ & A & c' & I' & N' & E').
    { exists c. split; [exact I|]. rewrite dot_neg_r. lra. }
    assert (Ev : vadd n (vscale t (vneg d)) = vadd n (vscale (- t) d)) by vring. rewrite Ev in A, E'.
    exists (- t). split; [exact A|]. exists c'. rewrite dot_neg_r in N'. repeat split; auto. lra.
Qed.

Lemma perp2 : forall n u w, dot n u = 0 -> dot n w = 0 -> cross u w <> vzero -> exists k, n = vscale k (cross u w).
Proof.
  intros n u w A B H. set (N := cross u w) in *. assert (P : 0 < norm2 N).
  { destruct (Rle_lt_or_eq_dec 0 _ (norm2_nonneg N)) as [|E]; [assumption|]. exfalso. apply H, norm2_zero. symmetry. exact E. }
  exists (dot n N / norm2 N).
  assert (E : vscale (norm2 N) n = vscale (dot n N) N).
  { assert (Z : cross n N = vzero). { unfold N. replace (cross n (cross u w)) with (vsub (vscale (dot n w) u) (vscale (dot n u) w)) by (clear; vring). rewrite A, B. clear. vring. }
    replace (vscale (norm2 N) n) with (vadd (vscale (dot n N) N) (cross N (cross n N))) by (clear; generalize N; vring).
    rewrite Z. clear. generalize (dot n N). vring. }
  transitivity (vscale (/ norm2 N) (vscale (norm2 N) n)).
  - clear -P. set (k := norm2 N) in *. clearbody k. destruct n. unfold vscale. cbn. f_equal; field; lra.
  - rewrite E. generalize (dot n N) (norm2 N). clear. intros x y. destruct N. unfold vscale, Rdiv. cbn. f_equal; ring.
Qed.

Lemma perp_exists : forall c, c <> vzero -> exists d, d <> vzero /\ dot d c = 0.
Proof.
  intros [x y z] H. destruct (Req_EM_T x 0) as [ -> |Nx].
  - exists (mk3 1 0 0). split; [intros E; injection E; lra|]. unfold dot. cbn. ring.
  - exists (mk3 (- y) x 0). split; [intros E; injection E; lra|]. unfold dot. cbn. ring.
Qed.

(** a corner of the polyhedron: three independent constraints hold with equality *)
Lemma corner3 : forall (C : list v3) n, C <> [] -> (forall c, In c C -> 1 <= dot c n) -> (forall d, d <> vzero -> exists c, In c C /\ dot c d <> 0) ->
  exists m x y z, (forall c, In c C -> 1 <= dot c m) /\ In x C /\ In y C /\ In z C /\ dot x m = 1 /\ dot y m = 1 /\ dot z m = 1 /\ dot z (cross x y) <> 0.
Proof.
  intros C n Ne HC Sp.
  assert (Nz : forall c m, 1 <= dot c m -> c <> vzero) by (intros c m L ->; rewrite dot_vzero_l in L; lra).
  destruct (step C n n HC) as (t1 & A1 & x & Ix & _ & Ex).
  { destruct C as [|c C]; [congruence|]. exists c. split; [left; reflexivity|]. specialize (HC c (or_introl eq_refl)). lra. }
  set (n1 := vadd n (vscale t1 n)) in *. assert (Xz : x <> vzero) by (apply (Nz x n1); lra).
  destruct (perp_exists x Xz) as (d & Dz & Dx). destruct (step C n1 d A1 (Sp d Dz)) as (t2 & A2 & y & Iy & Hy & Ey).
  set (n2 := vadd n1 (vscale t2 d)) in *.
  assert (Ex2 : dot x n2 = 1) by (unfold n2; rewrite dot_add_r, dot_scale_r, (dot_comm x d), Dx; lra).
  assert (Cz : cross x y <> vzero).
  { intros Z. apply Hy. assert (E : vscale (norm2 x) y = vscale (dot x y) x).
    { replace (vscale (norm2 x) y) with (vadd (vscale (dot x y) x) (cross (cross x y) x)) by (clear; vring). rewrite Z. clear. generalize (dot x y). vring. }
    assert (E2 : norm2 x * dot y d = 0) by (rewrite <- dot_scale_l, E, dot_scale_l, (dot_comm x d), Dx; ring).
    apply Rmult_integral in E2. destruct E2 as [E2|E2]; [exfalso; apply Xz, norm2_zero; exact E2|exact E2]. }
  destruct (step C n2 (cross x y) A2 (Sp _ Cz)) as (t3 & A3 & z & Iz & Hz & Ez).
  exists (vadd n2 (vscale t3 (cross x y))), x, y, z. split; [exact A3|]. split; [exact Ix|]. split; [exact Iy|]. split; [exact Iz|].
  assert (O1 : dot x (cross x y) = 0) by (clear; vring). assert (O2 : dot y (cross x y) = 0) by (clear; vring).
  split; [rewrite dot_add_r, dot_scale_r, O1; lra|]. split; [rewrite dot_add_r, dot_scale_r, O2; lra|]. split; [exact Ez|exact Hz].
Qed.

(** the same in a plane with normal N *)
Lemma corner2 : forall (C : list v3) N n, C <> [] -> N <> vzero -> (forall c, In c C -> dot c N = 0) -> (forall c, In c C -> 1 <= dot c n) ->
  (forall d, d <> vzero -> dot d N = 0 -> exists c, In c C /\ dot c d <> 0) ->
  exists m x y, dot m N = 0 /\ (forall c, In c C -> 1 <= dot c m) /\ In x C /\ In y C /\ dot x m = 1 /\ dot y m = 1 /\ x <> y.
Proof.
  intros C N n Ne Nn Fl HC Sp.
  assert (Np : norm2 N <> 0) by (intros Z; apply Nn, norm2_zero, Z).
  set (n0 := vsub n (vscale (dot n N / norm2 N) N)).
  assert (N0 : dot n0 N = 0) by (unfold n0; rewrite dot_sub_l, dot_scale_l; fold (norm2 N); field; exact Np).
  assert (H0 : forall c, In c C -> 1 <= dot c n0) by (intros c I; unfold n0; rewrite dot_sub_r, dot_scale_r, (Fl c I); specialize (HC c I); lra).
  assert (Nz : forall c m, 1 <= dot c m -> c <> vzero) by (intros c m L ->; rewrite dot_vzero_l in L; lra).
  destruct (step C n0 n0 H0) as (t1 & A1 & x & Ix & _ & Ex).
  { destruct C as [|c C]; [congruence|]. exists c. split; [left; reflexivity|]. specialize (H0 c (or_introl eq_refl)). lra. }
  set (n1 := vadd n0 (vscale t1 n0)) in *. assert (N1 : dot n1 N = 0) by (unfold n1; rewrite dot_add_l, dot_scale_l, N0; ring).
  assert (Xz : x <> vzero) by (apply (Nz x n1); lra).
  assert (Dz : cross N x <> vzero).
  { intros Z. pose proof (lagrange N x) as L. rewrite Z, (dot_comm N x), (Fl x Ix) in L. replace (norm2 vzero) with 0 in L by (unfold norm2, dot, vzero; cbn; ring).
    assert (L' : norm2 N * norm2 x = 0) by lra. apply Rmult_integral in L'. destruct L' as [L'|L']; [contradiction|]. apply Xz, norm2_zero, L'. }
  destruct (step C n1 (cross N x) A1 (Sp _ Dz ltac:(clear; vring))) as (t2 & A2 & y & Iy & Hy & Ey).
  exists (vadd n1 (vscale t2 (cross N x))), x, y.
  assert (O1 : dot x (cross N x) = 0) by (clear; vring). assert (O2 : dot (cross N x) N = 0) by (clear; vring).
  split; [rewrite dot_add_l, dot_scale_l, N1, O2; ring|]. split; [exact A2|]. split; [exact Ix|]. split; [exact Iy|].
  split; [rewrite dot_add_r, dot_scale_r, O1; lra|]. split; [exact Ey|]. intros <-. apply Hy, O1.
Qed.

(** ** The axes are enough *)
Lemma project6_false : forall ax p1 p2 p3 q1 q2 q3, project6 ax p1 p2 p3 q1 q2 q3 = false <->
  (forall p q, In p [p1; p2; p3] -> In q [q1; q2; q3] -> dot ax q < dot ax p) \/
  (forall p q, In p [p1; p2; p3] -> In q [q1; q2; q3] -> dot ax p < dot ax q).
Proof.
  intros. unfold project6. cbv zeta. set (P1 := dot ax p1). set (P2 := dot ax p2). set (P3 := dot ax p3).
  set (Q1 := dot ax q1). set (Q2 := dot ax q2). set (Q3 := dot ax q3). split.
  - intros H. destruct (Rlt_dec _ _) as [L|L] in H; [left|destruct (Rlt_dec _ _) as [L'|L'] in H; [right|discriminate]].
    + intros p q Ip Iq. assert (dot ax q <= Rmax Q1 (Rmax Q2 Q3)).
      { pose proof (Rmax_l Q1 (Rmax Q2 Q3)). pose proof (Rmax_r Q1 (Rmax Q2 Q3)). pose proof (Rmax_l Q2 Q3). pose proof (Rmax_r Q2 Q3). destruct Iq as [<-|[<-|[<-|[]]]]; fold Q1 Q2 Q3; lra. }
      assert (Rmin P1 (Rmin P2 P3) <= dot ax p).
      { pose proof (Rmin_l P1 (Rmin P2 P3)). pose proof (Rmin_r P1 (Rmin P2 P3)). pose proof (Rmin_l P2 P3). pose proof (Rmin_r P2 P3). destruct Ip as [<-|[<-|[<-|[]]]]; fold P1 P2 P3; lra. }
      lra.
    + intros p q Ip Iq. assert (Rmin Q1 (Rmin Q2 Q3) <= dot ax q).
      { pose proof (Rmin_l Q1 (Rmin Q2 Q3)). pose proof (Rmin_r Q1 (Rmin Q2 Q3)). pose proof (Rmin_l Q2 Q3). pose proof (Rmin_r Q2 Q3). destruct Iq as [<-|[<-|[<-|[]]]]; fold Q1 Q2 Q3; lra. }
      assert (dot ax p <= Rmax P1 (Rmax P2 P3)).
      { pose proof (Rmax_l P1 (Rmax P2 P3)). pose proof (Rmax_r P1 (Rmax P2 P3)). pose proof (Rmax_l P2 P3). pose proof (Rmax_r P2 P3). destruct Ip as [<-|[<-|[<-|[]]]]; fold P1 P2 P3; lra. }
      lra.
  - assert (Mn : forall a b c m, m < a -> m < b -> m < c -> m < Rmin a (Rmin b c)) by (intros; repeat apply Rmin_glb_lt; assumption).
    assert (Mx : forall a b c m, a < m -> b < m -> c < m -> Rmax a (Rmax b c) < m) by (intros; repeat apply Rmax_lub_lt; assumption).
    intros [H|H].
    + destruct (Rlt_dec _ _) as [L|L]; [reflexivity|]. exfalso. apply L. apply Mx; apply Mn; apply H; cbn; tauto.
    + destruct (Rlt_dec _ _) as [L|L]; [reflexivity|]. destruct (Rlt_dec _ _) as [L'|L']; [reflexivity|]. exfalso. apply L'. apply Mx; apply Mn; apply H; cbn; tauto.
Qed.

(** an edge of a triangle to which n is orthogonal *)
Definition lt3 (i : nat) : Prop := i = 0%nat \/ i = 1%nat \/ i = 2%nat.
Definition edge (a : nat -> v3) (k : nat) : v3 := match k with 0%nat => vsub (a 1%nat) (a 0%nat) | 1%nat => vsub (a 2%nat) (a 1%nat) | _ => vsub (a 0%nat) (a 2%nat) end.

Lemma pair_edge : forall a i j, lt3 i -> lt3 j -> i <> j -> exists k s, lt3 k /\ (s = 1 \/ s = -1) /\ vsub (a i) (a j) = vscale s (edge a k).
Proof.
  intros a i j Hi Hj H.
  destruct Hi as [ -> | [ -> | -> ] ], Hj as [ -> | [ -> | -> ] ]; try congruence; unfold lt3;
  [exists 0%nat, (-1)|exists 2%nat, 1|exists 0%nat, 1|exists 1%nat, (-1)|exists 2%nat, (-1)|exists 1%nat, 1]; (split; [tauto|]); (split; [tauto|]); cbn [edge]; vring.
Qed.

Lemma one_edge : forall (a : nat -> v3) n, (dot n (edge a 0) = 0 /\ dot n (edge a 1) = 0) \/
  exists k, lt3 k /\ forall i j, lt3 i -> lt3 j -> dot n (a i) = dot n (a j) -> exists x, vsub (a i) (a j) = vscale x (edge a k) /\ (x = 0 \/ dot n (edge a k) = 0).
Proof.
  intros a n.
  assert (S : dot n (edge a 0) + dot n (edge a 1) + dot n (edge a 2) = 0) by (cbn [edge]; clear; vring).
  assert (Z : forall i, exists x, vsub (a i) (a i) = vscale x (edge a 0) /\ (x = 0 \/ dot n (edge a 0) = 0)) by (intros; exists 0; split; [vring|left; reflexivity]).
  assert (G : forall k, lt3 k -> (forall l, lt3 l -> l <> k -> dot n (edge a l) <> 0) -> exists k, lt3 k /\ forall i j, lt3 i -> lt3 j -> dot n (a i) = dot n (a j) -> exists x, vsub (a i) (a j) = vscale x (edge a k) /\ (x = 0 \/ dot n (edge a k) = 0)).
  { intros k Hk Ho. exists k. split; [exact Hk|]. intros i j Hi Hj E. destruct (Nat.eq_dec i j) as [<-|Ne]; [exists 0; split; [vring|left; reflexivity]|].
    destruct (pair_edge a i j Hi Hj Ne) as (l & s & Hl & Hs & Ev). assert (Zl : dot n (edge a l) = 0).
    { assert (D : dot n (vsub (a i) (a j)) = 0) by (rewrite dot_sub_r; lra). rewrite Ev, dot_scale_r in D. destruct Hs as [ -> | -> ]; lra. }
    destruct (Nat.eq_dec l k) as [ -> |Nk]; [exists s; split; [exact Ev|right; exact Zl]|]. exfalso. exact (Ho l Hl Nk Zl). }
  destruct (Req_EM_T (dot n (edge a 0)) 0) as [Z0|Z0], (Req_EM_T (dot n (edge a 1)) 0) as [Z1|Z1]; [left; tauto| | |]; right.
  - apply (G 0%nat); [unfold lt3; tauto|]. intros l [ -> | [ -> | -> ] ] Hl; [congruence|exact Z1|]. intros Z2. apply Z1. lra.
  - apply (G 1%nat); [unfold lt3; tauto|]. intros l [ -> | [ -> | -> ] ] Hl; [exact Z0|congruence|]. intros Z2. apply Z0. lra.
  - apply (G 2%nat); [unfold lt3; tauto|]. intros l [ -> | [ -> | -> ] ] Hl; [exact Z0|exact Z1|congruence].
Qed.

Definition verts (a : nat -> v3) : list v3 := [a 0%nat; a 1%nat; a 2%nat].
Definition diffs (a b : nat -> v3) : list v3 := flat_map (fun p => map (fun q => vsub q p) (verts b)) (verts a).

Lemma in_verts : forall a x, In x (verts a) <-> exists i, lt3 i /\ x = a i.
Proof. intros a x. unfold verts, lt3. cbn. split; [intros [<-|[<-|[<-|[]]]]; eauto 6|intros (i & [ -> | [ -> | -> ] ] & ->); tauto]. Qed.
Lemma in_diffs : forall a b c, In c (diffs a b) <-> exists i j, lt3 i /\ lt3 j /\ c = vsub (b j) (a i).
Proof.
  intros a b c. unfold diffs. rewrite in_flat_map. split.
  - intros (p & Ip & I). apply in_map_iff in I. destruct I as (q & <- & Iq). apply in_verts in Ip. apply in_verts in Iq. destruct Ip as (i & Hi & ->), Iq as (j & Hj & ->). eauto 6.
  - intros (i & j & Hi & Hj & ->). exists (a i). split; [apply in_verts; eauto|]. apply in_map_iff. exists (b j). split; [reflexivity|]. apply in_verts; eauto.
Qed.
Lemma diffs_ne : forall a b, diffs a b <> []. Proof. intros a b H. assert (I : In (vsub (b 0%nat) (a 0%nat)) (diffs a b)) by (apply in_diffs; exists 0%nat, 0%nat; unfold lt3; tauto). rewrite H in I. exact I. Qed.

(** the directions in which the code projects *)
Definition axis (a b : nat -> v3) (x : v3) : Prop :=
  let n1 := cross (edge a 0) (edge a 1) in let m1 := cross (edge b 0) (edge b 1) in
  x = n1 \/ x = m1 \/ (exists k l, lt3 k /\ lt3 l /\ x = cross (edge a k) (edge b l)) \/
  (exists k, lt3 k /\ x = cross (edge a k) n1) \/ (exists k, lt3 k /\ x = cross (edge b k) m1).

Lemma cross_par : forall u w x y, cross (vscale x u) (vscale y w) = vscale (x * y) (cross u w).
Proof. vring. Qed.
Lemma triple_diff : forall x y z, dot z (cross x y) = dot x (cross (vsub y x) (vsub z x)).
Proof. vring. Qed.

Lemma par_scale : forall u w, cross u w = vzero -> u <> vzero -> exists k, w = vscale k u.
Proof.
  intros u w Z Hu. assert (P : norm2 u <> 0) by (intros E; apply Hu, norm2_zero, E). exists (dot u w / norm2 u).
  assert (E : vscale (norm2 u) w = vscale (dot u w) u).
  { replace (vscale (norm2 u) w) with (vadd (vscale (dot u w) u) (cross (cross u w) u)) by (clear; vring). rewrite Z. generalize (dot u w). clear. vring. }
  transitivity (vscale (/ norm2 u) (vscale (norm2 u) w)).
  - clear -P. set (k := norm2 u) in *. clearbody k. destruct w. unfold vscale. cbn. f_equal; field; exact P.
  - rewrite E. generalize (dot u w) (norm2 u). clear. intros x y. destruct u. unfold vscale, Rdiv. cbn. f_equal; ring.
Qed.
Lemma scale0 : forall u, vscale 0 u = vzero. Proof. vring. Qed.

Section Enough.
Variables a b : nat -> v3.
Let n1 := cross (edge a 0) (edge a 1).
Let m1 := cross (edge b 0) (edge b 1).
Hypothesis Na : n1 <> vzero.
Hypothesis Nb : m1 <> vzero.
Variable n : v3.
Hypothesis Hn : forall c, In c (diffs a b) -> 1 <= dot c n.

Lemma edge_in : forall d, (forall c, In c (diffs a b) -> dot c d = 0) -> forall k, lt3 k -> dot d (edge a k) = 0 /\ dot d (edge b k) = 0.
Proof.
  intros d Z k Hk.
  assert (A : forall i j, lt3 i -> lt3 j -> dot (b j) d = dot (a i) d).
  { intros i j Hi Hj. assert (E : dot (vsub (b j) (a i)) d = 0) by (apply Z, in_diffs; eauto). rewrite dot_sub_l in E. lra. }
  assert (L0 : lt3 0) by (unfold lt3; tauto). assert (L1 : lt3 1) by (unfold lt3; tauto). assert (L2 : lt3 2) by (unfold lt3; tauto).
  pose proof (A 0%nat 0%nat L0 L0). pose proof (A 1%nat 0%nat L1 L0). pose proof (A 2%nat 0%nat L2 L0). pose proof (A 0%nat 1%nat L0 L1). pose proof (A 0%nat 2%nat L0 L2).
  destruct Hk as [ -> | [ -> | -> ] ]; cbn [edge]; rewrite !dot_sub_r, !(dot_comm d); lra.
Qed.

Lemma tight : forall m i j, lt3 i -> lt3 j -> (forall c, In c (diffs a b) -> 1 <= dot c m) -> dot (vsub (b j) (a i)) m = 1 ->
  forall i' j', lt3 i' -> lt3 j' -> dot (vsub (b j') (a i')) m = 1 -> dot m (a i) = dot m (a i') /\ dot m (b j) = dot m (b j').
Proof.
  intros m i j Hi Hj A E i' j' Hi' Hj' E'.
  assert (B1 : 1 <= dot (vsub (b j') (a i)) m) by (apply A, in_diffs; eauto). assert (B2 : 1 <= dot (vsub (b j) (a i')) m) by (apply A, in_diffs; eauto).
  rewrite dot_sub_l in *. rewrite !(dot_comm m). lra.
Qed.

(** m is a multiple of an axis *)
Lemma par_axis : forall m u w, axis a b (cross u w) -> dot m u = 0 -> dot m w = 0 -> cross u w <> vzero -> (forall c, In c (diffs a b) -> 1 <= dot c m) ->
  exists x, axis a b x /\ ((forall c, In c (diffs a b) -> 0 < dot c x) \/ (forall c, In c (diffs a b) -> dot c x < 0)).
Proof.
  intros m u w Ax Pu Pw Nz A. destruct (perp2 m u w Pu Pw Nz) as (k & ->). exists (cross u w). split; [exact Ax|].
  assert (E : forall c, In c (diffs a b) -> 1 <= k * dot c (cross u w)) by (intros c I; rewrite <- dot_scale_r; auto).
  destruct (Rlt_dec 0 k) as [L|L]; [left|right]; intros c I; specialize (E c I); nra.
Qed.

Lemma enough : exists x, axis a b x /\ ((forall c, In c (diffs a b) -> 0 < dot c x) \/ (forall c, In c (diffs a b) -> dot c x < 0)).
Proof.
  assert (L0 : lt3 0) by (unfold lt3; tauto). assert (L1 : lt3 1) by (unfold lt3; tauto).
  assert (Dec : forall v : v3, v = vzero \/ v <> vzero).
  { intros v. destruct (Req_EM_T (norm2 v) 0) as [E|E]; [left; apply norm2_zero, E|right; intros ->; apply E; unfold norm2, dot, vzero; cbn; ring]. }
  destruct (Dec (cross n1 m1)) as [Par|Npar].
  - (* parallel planes *)
    assert (Hm : exists k, m1 = vscale k n1) by (apply par_scale; assumption).
    destruct Hm as (k & Hk). assert (Kz : k <> 0) by (intros ->; apply Nb; rewrite Hk; apply scale0).
    assert (Oa : forall i, lt3 i -> dot n1 (edge a i) = 0) by (intros i [ -> | [ -> | -> ] ]; unfold n1; cbn [edge]; clear; vring).
    assert (Ob : forall i, lt3 i -> dot n1 (edge b i) = 0).
    { intros i Hi. assert (E : dot m1 (edge b i) = 0) by (destruct Hi as [ -> | [ -> | -> ] ]; unfold m1; cbn [edge]; clear; vring).
      rewrite Hk, dot_scale_l in E. apply Rmult_integral in E. tauto. }
    assert (Cst : forall c, In c (diffs a b) -> dot c n1 = dot (vsub (b 0%nat) (a 0%nat)) n1).
    { intros c I. apply in_diffs in I. destruct I as (i & j & Hi & Hj & ->).
      assert (Ea : dot n1 (a i) = dot n1 (a 0%nat)).
      { pose proof (Oa 0%nat L0) as A0. pose proof (Oa 1%nat L1) as A1. cbn [edge] in A0, A1. rewrite dot_sub_r in A0, A1. destruct Hi as [ -> | [ -> | -> ] ]; lra. }
      assert (Eb : dot n1 (b j) = dot n1 (b 0%nat)).
      { pose proof (Ob 0%nat L0) as A0. pose proof (Ob 1%nat L1) as A1. cbn [edge] in A0, A1. rewrite dot_sub_r in A0, A1. destruct Hj as [ -> | [ -> | -> ] ]; lra. }
      rewrite !dot_sub_l, !(dot_comm _ n1). lra. }
    destruct (Req_EM_T (dot (vsub (b 0%nat) (a 0%nat)) n1) 0) as [Fl|Nf].
    + destruct (corner2 (diffs a b) n1 n (diffs_ne a b) Na) as (m & x & y & Om & A & Ix & Iy & Ex & Ey & Nxy); [intros c I; rewrite (Cst c I); exact Fl|exact Hn| |].
      { intros d Dz Dn. destruct (some_neg (diffs a b) d) as [(c & I & Hc)|P]; [exists c; split; [exact I|lra]|].
        destruct (some_neg (diffs a b) (vneg d)) as [(c & I & Hc)|P']; [exists c; split; [exact I|rewrite dot_neg_r in Hc; lra]|].
        exfalso. assert (Z : forall c, In c (diffs a b) -> dot c d = 0) by (intros c I; specialize (P c I); specialize (P' c I); rewrite dot_neg_r in P'; lra).
        destruct (edge_in d Z 0%nat L0) as (Z0 & _). destruct (edge_in d Z 1%nat L1) as (Z1 & _).
        destruct (perp2 d _ _ Z0 Z1 Na) as (t & ->). fold n1 in Dz, Dn. rewrite dot_scale_l in Dn. fold (norm2 n1) in Dn. apply Rmult_integral in Dn.
        destruct Dn as [ -> |Dn]; [apply Dz, scale0|apply Na, norm2_zero, Dn]. }
      apply in_diffs in Ix. destruct Ix as (i & j & Hi & Hj & ->). apply in_diffs in Iy. destruct Iy as (i' & j' & Hi' & Hj' & ->).
      destruct (tight m i j Hi Hj A Ex i' j' Hi' Hj' Ey) as (Ta & Tb).
      assert (Orth : forall e N, dot N e = 0 -> e <> vzero -> N <> vzero -> cross e N <> vzero).
      { intros e N O Ez Nz Z. pose proof (lagrange e N) as L. rewrite Z, (dot_comm e N), O in L. replace (norm2 vzero) with 0 in L by (unfold norm2, dot, vzero; cbn; ring).
        assert (L' : norm2 e * norm2 N = 0) by lra. apply Rmult_integral in L'. destruct L' as [L'|L']; apply norm2_zero in L'; contradiction. }
      destruct (Nat.eq_dec i i') as [<-|Ni].
      * destruct (Nat.eq_dec j j') as [<-|Nj]; [congruence|].
        destruct (pair_edge b j j' Hj Hj' Nj) as (l & s & Hl & Hs & Ev).
        assert (Ml : dot m (edge b l) = 0) by (assert (D : dot m (vsub (b j) (b j')) = 0) by (rewrite dot_sub_r; lra); rewrite Ev, dot_scale_r in D; destruct Hs as [ -> | -> ]; lra).
        apply (par_axis m (edge b l) m1); [unfold axis; fold n1 m1; eauto 10|exact Ml|rewrite Hk, dot_scale_r, Om; ring| |exact A].
        apply Orth; [rewrite Hk, dot_scale_l, (Ob l Hl); ring| |exact Nb]. intros Z. apply Nxy. rewrite Z in Ev.
        assert (Eb : b j = b j'). { assert (Ed : vadd (vsub (b j) (b j')) (b j') = b j) by (generalize (b j) (b j'); clear; vring). rewrite Ev in Ed. rewrite <- Ed. generalize (b j'). clear. vring. }
        rewrite Eb. reflexivity.
      * destruct (pair_edge a i i' Hi Hi' Ni) as (l & s & Hl & Hs & Ev).
        assert (Ml : dot m (edge a l) = 0) by (assert (D : dot m (vsub (a i) (a i')) = 0) by (rewrite dot_sub_r; lra); rewrite Ev, dot_scale_r in D; destruct Hs as [ -> | -> ]; lra).
        apply (par_axis m (edge a l) n1); [unfold axis; fold n1 m1; eauto 10|exact Ml|exact Om| |exact A].
        apply Orth; [apply (Oa l Hl)| |exact Na]. intros Z. apply Na. unfold n1. destruct Hl as [ -> | [ -> | -> ] ]; [rewrite Z; generalize (edge a 1); clear; vring|rewrite Z; generalize (edge a 0); clear; vring|].
        assert (E1 : edge a 1 = vneg (edge a 0)). { assert (Es : vadd (vadd (edge a 0) (edge a 1)) (edge a 2) = vzero) by (cbn [edge]; clear; vring). rewrite Z in Es. assert (Ee : edge a 1 = vsub (vadd (vadd (edge a 0) (edge a 1)) vzero) (edge a 0)) by (generalize (edge a 0) (edge a 1); clear; vring). rewrite Es in Ee. rewrite Ee. generalize (edge a 0). clear. vring. }
        rewrite E1. generalize (edge a 0). clear. vring.
    + exists n1. split; [left; reflexivity|]. destruct (Rlt_dec 0 (dot (vsub (b 0%nat) (a 0%nat)) n1)); [left|right]; intros c I; rewrite (Cst c I); lra.
  - destruct (corner3 (diffs a b) n (diffs_ne a b) Hn) as (m & x & y & z & A & Ix & Iy & Iz & Ex & Ey & Ez & T).
    { intros d Dz. destruct (some_neg (diffs a b) d) as [(c & I & Hc)|P]; [exists c; split; [exact I|lra]|].
      destruct (some_neg (diffs a b) (vneg d)) as [(c & I & Hc)|P']; [exists c; split; [exact I|rewrite dot_neg_r in Hc; lra]|].
      exfalso. assert (Z : forall c, In c (diffs a b) -> dot c d = 0) by (intros c I; specialize (P c I); specialize (P' c I); rewrite dot_neg_r in P'; lra).
      destruct (edge_in d Z 0%nat L0) as (Z0 & Y0). destruct (edge_in d Z 1%nat L1) as (Z1 & Y1).
      destruct (perp2 d _ _ Z0 Z1 Na) as (t & Et). destruct (perp2 d _ _ Y0 Y1 Nb) as (s & Es). fold n1 in Et. fold m1 in Es.
      apply Npar. assert (Tz : t <> 0) by (intros ->; apply Dz; rewrite Et; apply scale0). assert (Sz : s <> 0) by (intros ->; apply Dz; rewrite Es; apply scale0).
      assert (Z2 : vscale (t * s) (cross n1 m1) = vzero) by (rewrite <- cross_par, <- Et, <- Es; clear; vring).
      apply norm2_zero. assert (Z3 : norm2 (vscale (t * s) (cross n1 m1)) = 0) by (rewrite Z2; unfold norm2, dot, vzero; cbn; ring).
      unfold norm2 in Z3. rewrite dot_scale_l, dot_scale_r in Z3. fold (norm2 (cross n1 m1)) in Z3. apply Rmult_integral in Z3. destruct Z3 as [Z3|Z3]; [exfalso; apply Rmult_integral in Z3; tauto|].
      apply Rmult_integral in Z3. destruct Z3 as [Z3|Z3]; [exfalso; apply Rmult_integral in Z3; tauto|exact Z3]. }
    apply in_diffs in Ix. destruct Ix as (i & j & Hi & Hj & ->). apply in_diffs in Iy. destruct Iy as (i' & j' & Hi' & Hj' & ->). apply in_diffs in Iz. destruct Iz as (i2 & j2 & Hi2 & Hj2 & ->).
    destruct (tight m i' j' Hi' Hj' A Ey i j Hi Hj Ex) as (Ta & Tb). destruct (tight m i2 j2 Hi2 Hj2 A Ez i j Hi Hj Ex) as (Sa & Sb).
    destruct (one_edge a m) as [(Z0 & Z1)|(k & Hk & Fa)]; [apply (par_axis m (edge a 0) (edge a 1)); [unfold axis; tauto|exact Z0|exact Z1|exact Na|exact A]|].
    destruct (one_edge b m) as [(Z0 & Z1)|(l & Hl & Fb)]; [apply (par_axis m (edge b 0) (edge b 1)); [unfold axis; tauto|exact Z0|exact Z1|exact Nb|exact A]|].
    destruct (Fa i' i Hi' Hi Ta) as (x1 & E1 & O1). destruct (Fa i2 i Hi2 Hi Sa) as (x2 & E2 & O2).
    destruct (Fb j' j Hj' Hj Tb) as (y1 & F1 & U1). destruct (Fb j2 j Hj2 Hj Sb) as (y2 & F2 & U2).
    rewrite triple_diff in T.
    assert (D1 : vsub (vsub (b j') (a i')) (vsub (b j) (a i)) = vsub (vscale y1 (edge b l)) (vscale x1 (edge a k))) by (rewrite <- E1, <- F1; clear; vring).
    assert (D2 : vsub (vsub (b j2) (a i2)) (vsub (b j) (a i)) = vsub (vscale y2 (edge b l)) (vscale x2 (edge a k))) by (rewrite <- E2, <- F2; clear; vring).
    rewrite D1, D2 in T.
    assert (Ec : cross (vsub (vscale y1 (edge b l)) (vscale x1 (edge a k))) (vsub (vscale y2 (edge b l)) (vscale x2 (edge a k))) = vscale (y1 * x2 - x1 * y2) (cross (edge a k) (edge b l))) by (generalize (edge b l) (edge a k); clear; vring).
    rewrite Ec, dot_scale_r in T.
    assert (Tz : y1 * x2 - x1 * y2 <> 0) by (intros Z; apply T; rewrite Z; ring).
    assert (Cz : cross (edge a k) (edge b l) <> vzero) by (intros Z; apply T; rewrite Z, dot_vzero_r; ring).
    apply (par_axis m (edge a k) (edge b l)); [unfold axis; eauto 10| | |exact Cz|exact A].
    + destruct O1 as [ -> | ]; [|assumption]. destruct O2 as [ -> | ]; [|assumption]. exfalso. apply Tz. ring.
    + destruct U1 as [ -> | ]; [|assumption]. destruct U2 as [ -> | ]; [|assumption]. exfalso. apply Tz. ring.
Qed.
End Enough.

Lemma axis_in : forall a b x, axis a b x -> In x (axes (a 0%nat) (a 1%nat) (a 2%nat) (b 0%nat) (b 1%nat) (b 2%nat)).
Proof.
  intros a b x H. unfold axes. cbv zeta. cbn [In].
  destruct H as [ -> |[ -> |[(k & l & Hk & Hl & ->)|[(k & Hk & ->)|(k & Hk & ->)]]]]; cbn [edge]; [tauto|tauto| | |].
  - destruct Hk as [ -> | [ -> | -> ] ], Hl as [ -> | [ -> | -> ] ]; cbn [edge]; tauto.
  - destruct Hk as [ -> | [ -> | -> ] ]; cbn [edge]; tauto.
  - destruct Hk as [ -> | [ -> | -> ] ]; cbn [edge]; tauto.
Qed.

(** ** The deepest points *)
Definition depth_of (n : v3) (t : R) (x : v3) : R := t - dot n x.
Definition dinv (n : v3) (t far : R) (l : list v3) (s : deep) : Prop :=
  (forall x, In x l -> depth_of n t x <= dmax s) /\
  (forall x, In x (dpts s) -> In x l /\ dmax s - 1 / 1000000 <= depth_of n t x) /\
  (dmax s = - far \/ exists x r, dpts s = x :: r /\ In x l /\ depth_of n t x = dmax s) /\
  (dzero s = 0%nat -> forall x, In x l -> depth_of n t x < - ieps \/ ieps < depth_of n t x) /\
  (dneg s = 0%nat -> forall x, In x l -> - ieps <= depth_of n t x) /\
  (dpos s = 0%nat -> forall x, In x l -> depth_of n t x <= ieps).
Lemma deep_step_inv : forall n t far l s x, dinv n t far l s -> dinv n t far (l ++ [x]) (deep_step n t s x).
Proof.
  intros n t far l s x (A & B & C & D & E & F). unfold deep_step. cbv zeta. unfold plane_dist.
  replace (- (dot n x - t)) with (depth_of n t x) by (unfold depth_of; ring). set (d := depth_of n t x) in *.
  assert (Ip : 0 < ieps) by (unfold ieps; lra).
  assert (J : forall (y : v3) (k : list v3), In y (k ++ [x]) -> In y k \/ y = x) by (intros y k I; apply in_app_or in I; destruct I as [I|[<-|[]]]; auto).
  destruct (if Rlt_dec ieps d then _ else _) as ((ng, ps), z) eqn:Ec.
  assert (Cn : (z = 0%nat -> forall y, In y (l ++ [x]) -> depth_of n t y < - ieps \/ ieps < depth_of n t y) /\ (ng = 0%nat -> forall y, In y (l ++ [x]) -> - ieps <= depth_of n t y) /\ (ps = 0%nat -> forall y, In y (l ++ [x]) -> depth_of n t y <= ieps)).
  { destruct (Rlt_dec ieps d) as [L1|L1]; [|destruct (Rlt_dec d (- ieps)) as [L2|L2]]; injection Ec as <- <- <-; (split; [|split]); intros Z y I; try discriminate;
      (destruct (J y l I) as [I'|E']; [try (apply D; assumption); try (apply E; assumption); try (apply F; assumption)|subst y; fold d; lra]). }
  destruct Cn as (C1 & C2 & C3).
  destruct (Rlt_dec (dmax s) d) as [L|L]; [|destruct (Rle_dec (dmax s) (d + 1 / 1000000)) as [L'|L']]; unfold dinv; cbn [dmax dpts dneg dpos dzero].
  - split; [intros y I; destruct (J y l I) as [I'| -> ]; [specialize (A y I'); lra|fold d; lra]|]. split; [intros y [<-|[]]; fold d; split; [apply in_or_app; right; left; reflexivity|lra]|].
    split; [right; exists x, []; split; [reflexivity|split; [apply in_or_app; right; left; reflexivity|reflexivity]]|]. tauto.
  - split; [intros y I; destruct (J y l I) as [I'| -> ]; [apply A; exact I'|fold d; lra]|].
    split; [intros y I; destruct (J y _ I) as [I'| -> ]; [destruct (B y I'); split; [apply in_or_app; left; assumption|assumption]|fold d; split; [apply in_or_app; right; left; reflexivity|lra]]|].
    split; [destruct C as [C|(y & r & Er & Iy & Ey)]; [left; exact C|right; exists y, (r ++ [x]); rewrite Er; split; [reflexivity|split; [apply in_or_app; left; exact Iy|exact Ey]]]|]. tauto.
  - split; [intros y I; destruct (J y l I) as [I'| -> ]; [apply A; exact I'|fold d; lra]|].
    split; [intros y I; destruct (B y I); split; [apply in_or_app; left; assumption|assumption]|].
    split; [destruct C as [C|(y & r & Er & Iy & Ey)]; [left; exact C|right; exists y, r; split; [exact Er|split; [apply in_or_app; left; exact Iy|exact Ey]]]|]. tauto.
Qed.
Lemma deep_inv : forall n t far l k s, dinv n t far k s -> dinv n t far (k ++ l) (fold_left (deep_step n t) l s).
Proof.
  induction l as [|x l IH]; intros k s H; [rewrite app_nil_r; exact H|]. cbn [fold_left]. replace (k ++ x :: l) with ((k ++ [x]) ++ l) by (rewrite <- app_assoc; reflexivity).
  apply IH, deep_step_inv, H.
Qed.
(** a point of the plane between the vertices *)
Lemma deepest_spec : forall far l n t m pts, 0 < far -> (exists x, In x l /\ 0 <= depth_of n t x) -> (exists x, In x l /\ depth_of n t x <= 0) -> deepest_points far l n t = (m, pts) ->
  0 <= m /\ (forall x, In x l -> depth_of n t x <= m) /\ (exists x r, pts = x :: r /\ In x l /\ depth_of n t x = m) /\ (forall x, In x pts -> In x l /\ m - 1 / 1000000 <= depth_of n t x).
Proof.
  intros far l n t m pts Hf (u & Iu & Hu) (w & Iw & Hw). unfold deepest_points.
  assert (I0 : dinv n t far [] (Deep (- far) [] 0 0 0)) by (unfold dinv; cbn; repeat split; intros; try contradiction; left; reflexivity).
  pose proof (deep_inv n t far l [] _ I0) as (A & B & C & D & E & F). set (s := fold_left (deep_step n t) l (Deep (- far) [] 0 0 0)) in *. cbn [app] in *. cbv zeta.
  assert (Ip : 0 < ieps) by (unfold ieps; lra). pose proof (A u Iu) as Au. pose proof (A w Iw) as Aw.
  destruct (Rlt_dec (dmax s) (- ieps)) as [L|L]; [lra|].
  destruct (Nat.eqb (dzero s) 0) eqn:Ez; cbn [andb].
  - apply Nat.eqb_eq in Ez. specialize (D Ez). destruct (D u Iu) as [D1|D1]; [lra|]. destruct (D w Iw) as [D2|D2]; [|lra].
    destruct (Nat.eqb (dneg s) 0) eqn:En; [apply Nat.eqb_eq in En; specialize (E En w Iw); lra|].
    destruct (Nat.eqb (dpos s) 0) eqn:Ep; [apply Nat.eqb_eq in Ep; specialize (F Ep u Iu); lra|]. cbn [orb]. intros Q. injection Q as <- <-.
    split; [lra|]. split; [exact A|]. split; [destruct C as [C|C]; [lra|exact C]|exact B].
  - intros Q. injection Q as <- <-. split; [lra|]. split; [exact A|]. split; [destruct C as [C|C]; [lra|exact C]|exact B].
Qed.
