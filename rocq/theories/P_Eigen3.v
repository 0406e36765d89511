(** C59: the Jacobi eigensolver eigen_old used to orient fitted boxes. *)
From Coq Require Import Reals Lra Psatz Lia Arith List.
From Verif Require Import VecR Eigen3.
Import ListNotations.
Open Scope R_scope.

Lemma sweeps_S : forall absorbed fuel i j, sweeps absorbed (S fuel) i j =
  (let sm := 0 + Rabs (r01 j) + Rabs (r02 j) + Rabs (r12 j) in
   if Req_EM_T sm 0 then Some (jd j, jv j) else sweeps absorbed fuel (S i) (sweep absorbed i sm j)).
Proof. reflexivity. Qed.
Lemma eigen_fuel : forall absorbed m, exists fuel, fuel = 48%nat /\ eigen_old absorbed m =
  sweeps absorbed (S (S fuel)) 0 (mkj (c0 (m1 m)) (c0 (m2 m)) (c1 (m2 m)) (mk3 (c0 (m0 m)) (c1 (m1 m)) (c2 (m2 m))) (mk3 (c0 (m0 m)) (c1 (m1 m)) (c2 (m2 m))) vzero mid).
Proof. intros. exists 48%nat. split; [reflexivity|]. unfold eigen_old. cbv zeta. reflexivity. Qed.

(** Whatever the rounding-dependent shortcuts decide, the vectors returned are orthonormal, and so
    are the axes axisFromEigen makes of them. *)
Theorem eigen_old_orthonormal : forall absorbed m d V, eigen_old absorbed m = Some (d, V) ->
  ortho V /\ ortho (axis_from_eigen d V).
Proof.
  intros absorbed m d V E. assert (O : ortho V) by (destruct (eigen_fuel absorbed m) as (f & _ & F); rewrite F in E; eapply sweeps_ortho; [|exact E]; apply ortho_mid).
  split; [exact O|apply axis_ortho; exact O].
Qed.
Print Assumptions eigen_old_orthonormal.

(** With exact arithmetic the result for a symmetric matrix is an exact eigendecomposition. *)
Theorem eigen_old_exact : forall absorbed m d V, exact_absorb absorbed ->
  c1 (m0 m) = c0 (m1 m) -> c2 (m0 m) = c0 (m2 m) -> c2 (m1 m) = c1 (m2 m) ->
  eigen_old absorbed m = Some (d, V) ->
  forall k, (k < 3)%nat -> mapply m (col k V) = vscale (comp k d) (col k V).
Proof.
  intros absorbed m d V Ha H1 H2 H3 E. assert (S : sym m) by (split; [exact H1|split; assumption]).
  destruct (eigen_fuel absorbed m) as (f & _ & F). rewrite F in E.
  refine (sweeps_inv absorbed Ha m _ _ _ d V S _ _ E); [apply start_inv; exact S|apply ortho_mid].
Qed.
Print Assumptions eigen_old_exact.

(** The three indices chosen by axisFromEigen and the box merge order the eigenvalues. *)
Theorem select_sorts : forall s, let '(mn, md, mx) := select s in
  comp mn s <= comp md s <= comp mx s /\ mn <> md /\ md <> mx /\ mn <> mx /\ (mn < 3)%nat /\ (md < 3)%nat /\ (mx < 3)%nat.
Proof.
  intros [a b c]. unfold select. cbn. destruct (Rlt_dec b a); cbn; destruct (Rlt_dec c _); cbn; try destruct (Rlt_dec _ c); cbn; (split; [lra|]); repeat split; lia.
Qed.
Print Assumptions select_sorts.

(** A diagonal matrix is returned at once: eigenvalues are the diagonal, vectors the axes. *)
Theorem eigen_old_diagonal : forall absorbed a b c,
  eigen_old absorbed (mkm (mk3 a 0 0) (mk3 0 b 0) (mk3 0 0 c)) = Some (mk3 a b c, mid).
Proof.
  intros. match goal with |- eigen_old _ ?m = _ => destruct (eigen_fuel absorbed m) as (f & _ & F); rewrite F end.
  rewrite sweeps_S. cbn -[sweeps]. rewrite Rabs_R0. destruct (Req_EM_T (0 + 0 + 0 + 0) 0) as [_|n]; [reflexivity|exfalso; apply n; lra].
Qed.
Print Assumptions eigen_old_diagonal.

(** One rotation: [[0,1,0],[1,0,0],[0,0,5]]. The solver stops after one sweep and the vectors
    it returns are the two diagonals of the square. *)
Example eigen_old_case : exists absorbed d V, exact_absorb absorbed /\
  eigen_old absorbed (mkm (mk3 0 1 0) (mk3 1 0 0) (mk3 0 0 5)) = Some (d, V) /\ d = mk3 (-1) 1 5.
Proof.
  exists (fun x g => if Req_EM_T (Rabs x + g) (Rabs x) then true else false).
  assert (Ha : exact_absorb (fun x g => if Req_EM_T (Rabs x + g) (Rabs x) then true else false)).
  { intros x g. destruct (Req_EM_T (Rabs x + g) (Rabs x)); split; intros; congruence. }
  set (ab := fun x g => if Req_EM_T (Rabs x + g) (Rabs x) then true else false) in *.
  match goal with |- context [eigen_old _ ?m] => destruct (eigen_fuel ab m) as (f & _ & F); rewrite F end.
  rewrite sweeps_S. cbn [VecR.m0 VecR.m1 VecR.m2 c0 c1 c2 r01 r02 r12]. cbv zeta. rewrite Rabs_R0, Rabs_R1.
  destruct (Req_EM_T (0 + 1 + 0 + 0) 0) as [n|_]; [lra|].
  assert (Es : exists v, sweep ab 0 (0 + 1 + 0 + 0) (mkj 1 0 0 (mk3 0 0 5) (mk3 0 0 5) vzero mid) = mkj 0 0 0 (mk3 (-1) 1 5) (mk3 (-1) 1 5) vzero v).
  { unfold sweep. cbn [Nat.ltb Nat.leb r01 r02 r12 jd c0 c1 c2].
    assert (Et : jt ab 1 (0 - 0) = 1).
    { unfold jt. assert (A : ab (0 - 0) (100 * Rabs 1) = false).
      { unfold ab. rewrite Rabs_R1. replace (0 - 0) with 0 by lra. rewrite Rabs_R0. destruct (Req_EM_T (0 + 100 * 1) 0); [lra|reflexivity]. }
      rewrite A. cbv zeta. replace ((0 - 0) / 2 / 1) with 0 by lra. rewrite Rabs_R0. replace (1 + 0 * 0) with 1 by lra. rewrite sqrt_1.
      destruct (Rlt_dec 0 0); lra. }
    assert (E1 : exists v, visit ab 0 ((0 + 1 + 0 + 0) / 5 / 9) 1 0 0 set01 (rot01 ab) (mkj 1 0 0 (mk3 0 0 5) (mk3 0 0 5) vzero mid)
      = mkj 0 0 0 (mk3 (-1) 1 5) (mk3 0 0 5) (mk3 (-1) 1 0) v).
    { unfold visit. cbn [Nat.ltb Nat.leb andb]. rewrite Rabs_R1. destruct (Rlt_dec ((0+1+0+0)/5/9) 1) as [_|n]; [|lra].
      unfold rot01. cbn [r01 r02 r12 jd jb jz jv c0 c1 c2]. rewrite Et. cbv zeta. eexists. f_equal; try (f_equal; unfold vzero; cbn; lra); unfold lo, hi; ring. }
    destruct E1 as [v E1]. rewrite E1. exists v. cbn [r01 r02 r12 jd c0 c1 c2].
    assert (E2 : forall dp dq z r j, visit ab 0 ((0 + 1 + 0 + 0) / 5 / 9) 0 dp dq z r j = j).
    { intros. unfold visit. cbn [Nat.ltb Nat.leb andb]. rewrite Rabs_R0. destruct (Rlt_dec ((0+1+0+0)/5/9) 0); [lra|reflexivity]. }
    rewrite E2. cbn [r01 r02 r12 jd c0 c1 c2]. rewrite E2. cbn [r01 r02 r12 jd jb jz jv].
    replace (vadd (mk3 0 0 5) (mk3 (-1) 1 0)) with (mk3 (-1) 1 5) by (unfold vadd; cbn; f_equal; lra). reflexivity. }
  destruct Es as [v Es]. rewrite Es, sweeps_S. cbn -[sweeps]. rewrite Rabs_R0. destruct (Req_EM_T (0 + 0 + 0 + 0) 0) as [_|n]; [|exfalso; apply n; lra].
  eexists. eexists. split; [exact Ha|split; reflexivity].
Qed.
