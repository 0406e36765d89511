(** C11: the dynamic bounding volume tree keeps its hierarchy over every history. *)
From Coq Require Import ZArith List Bool Lia Permutation Arith.
From Verif Require Import AabbZ Broadphase HTree HTreeRun.
Import ListNotations.
Local Open Scope Z_scope.

(** C11: after any history that runs, for every choice of the library routines, the tree holds
    exactly the live leaves with the boxes last given to them, no leaf occurs twice, the leaf
    count is right, and the box of every node of the tree contains every box (inner or leaf)
    below it. *)
Theorem hierarchy_invariant : forall e ops s, env_ok e ->
  hrun e ops hempty = Some s ->
  Permutation (oleaves (h_root s)) (fst (live_run ops)) /\
  NoDup (oids (h_root s)) /\
  h_n s = length (fst (live_run ops)) /\
  (forall t, h_root s = Some t -> encloses t).
Proof.
  intros e ops s He H. destruct (hrun_inv e ops hempty _ s He hempty_inv H) as (W & P & N & X & ND & _).
  change (fold_left live_step ops ([], 0%nat)) with (live_run ops) in *.
  repeat split; auto.
  - eapply Permutation_NoDup; [|exact ND]. symmetry. apply Permutation_map; auto.
  - intros t E. rewrite E in W. apply wf_encloses; auto.
Qed.
Print Assumptions hierarchy_invariant.

(** C11: a history that only touches leaves that exist, only builds from non-empty ranges of
    boxes of finite size and, for topdown level 1, boxes with pairwise different centres,
    always runs: every loop ends and no dangling pointer is followed. *)
Theorem hierarchy_progress : forall e B ops, env_ok e ->
  valid_ops e B ops ([], 0%nat) -> exists s, hrun e ops hempty = Some s.
Proof. intros e B ops He V. eapply hrun_some; eauto using hempty_inv. Qed.
Print Assumptions hierarchy_progress.

(** C11 fails for topdown level 1 on boxes with a common centre: once there are more of them
    than bu_threshold, balanceTopdown never returns, for any amount of fuel. *)
Theorem topdown1_same_centre_refuted : forall e l x,
  (1 < length l)%nat -> e_bu e < Z.of_nat (length l) ->
  (forall t a, In t l -> cen2 a t = coord a x) ->
  forall fuel, topdown1 e fuel l = None.
Proof. intros e l x H1 H2 H3 fuel. eapply topdown1_diverges; eauto. Qed.
Print Assumptions topdown1_same_centre_refuted.

(** A concrete environment: exact equality, stable library routines, the managers' settings. *)
Definition ex_env : env := {|
  e_equal := fun a b => contain a b && contain b a;
  e_nth := fun _ _ l => l; e_code := fun _ _ => 0%N; e_sort := fun _ l => l;
  e_max := 1000000; e_bu := 2; e_level := 0; e_look := -1 |}.
Lemma ex_env_ok : env_ok ex_env.
Proof. split; intros; apply Permutation_refl. Qed.
Definition cube (x : Z) : aabb := Box (V x 0 0) (V (x + 2) 2 2).

Definition ex_ops : list hop :=
  [HInsert (cube 0) 10%nat; HInsert (cube 5) 11%nat; HInsert (cube 9) 12%nat; HInsert (cube 20) 13%nat;
   HRemove 1; HUpdate 2 (cube 30); HBalInc (-1); HBalTop; HInsert (cube 4) 14%nat; HBalBot;
   HWrite [(0%nat, cube 50)]; HUpdateLook 3 1; HRefit].
Example hierarchy_case :
  exists s, hrun ex_env ex_ops hempty = Some s /\
    h_root s <> None /\ h_n s = 4%nat /\
    fst (live_run ex_ops) =
      [(4, cube 4, 14); (3, cube 20, 13); (2, cube 30, 12); (0, cube 50, 10)]%nat.
Proof. eexists. split; [vm_compute; reflexivity|]. repeat split. discriminate. Qed.
Example hierarchy_valid_case : valid_ops ex_env (Box (V 0 0 0) (V 100 10 10)) ex_ops ([], 0%nat).
Proof.
  repeat split; try (cbn; tauto); try discriminate.
  all: try (cbn in *; intuition (subst; cbn; tauto)).
  all: cbn in H; intuition (subst; cbn; apply nonempty_ineq; cbn; lia).
Qed.
Example topdown1_case :
  let l := map (fun r => Leaf 0 (Box (V (- r) (- r) (- r)) (V r r r)) 0%nat) [1; 2; 3] in
  (1 < length l)%nat /\ e_bu ex_env < Z.of_nat (length l) /\
  (forall t a, In t l -> cen2 a t = coord a (V 0 0 0)).
Proof. repeat split; cbn; try lia. intros t a [<-|[<-|[<-|[]]]]; destruct a as [|[|a]]; reflexivity. Qed.
