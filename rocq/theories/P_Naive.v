(** C04, C05, C06 for the brute force manager. *)
From Coq Require Import ZArith List Bool Lia Permutation.
From Verif Require Import AabbZ Broadphase Naive.
Import ListNotations.

(** C04: the self query calls back each unordered pair of distinct registered objects with
    overlapping boxes exactly once and nothing else, whatever the callback does. *)
Theorem naive_self_exact : forall box m, NoDup m ->
  let Q := naive_collide_self box m in
  replays Q /\
  pairs_once (calls Q) (fun a b => In a m /\ In b m /\ a <> b /\ overlap (box a) (box b) = true).
Proof.
  intros box m Hm Q.
  destruct (replays_of_list Q (self_pairs box m)) as [E R]; [apply naive_self_run|].
  split; auto. rewrite E. apply self_pairs_once; auto.
Qed.
Print Assumptions naive_self_exact.

(** C04: collide(obj) calls back every registered object, once each, in registration order,
    without any box test. *)
Theorem naive_obj_exact : forall m o,
  let Q := naive_collide_obj m o in
  replays Q /\ calls Q = map (pair o) m.
Proof.
  intros m o Q. destruct (replays_of_list Q (map (pair o) m)) as [E R]; [apply naive_obj_run|]; auto.
Qed.
Print Assumptions naive_obj_exact.

(** C04: collide(other) calls back each pair (mine, other's) with overlapping boxes once. *)
Theorem naive_other_exact : forall box m other, NoDup m -> NoDup other ->
  let Q := naive_collide_other box m other in
  replays Q /\
  ordered_once (calls Q) (fun a b => In a m /\ In b other /\ overlap (box a) (box b) = true).
Proof.
  intros box m other Hm Ho Q.
  destruct (replays_of_list Q (flat_map (fun o1 => inner_pairs box o1 other) m)) as [E R];
    [apply naive_other_run|].
  split; auto. rewrite E. split.
  - clear E R Q. induction Hm as [|x m Hx Hm IH]; cbn; [constructor|].
    apply NoDup_app_intro; auto using inner_pairs_nodup.
    intros [a b] H1 H2. apply in_inner_pairs in H1 as (-> & _).
    apply in_flat_map in H2 as (y & Hy & H2). apply in_inner_pairs in H2 as (-> & _). auto.
  - intros a b. rewrite in_flat_map. split.
    + intros (x & Hx & H). apply in_inner_pairs in H as (-> & ? & ?). auto.
    + intros (? & ? & ?). exists a. split; auto. apply in_inner_pairs; auto.
Qed.
Print Assumptions naive_other_exact.

(** C05 (any query that "replays"): after the callback answered true there is no further
    call, and the query reports a stop iff some call answered true. *)
Theorem stop_is_final : forall (Q : query) St (cb : ccallback St) st,
  replays Q ->
  let r := Q _ (logging cb) (st, []) in
  (forall l1 x l2, snd (fst r) = l1 ++ x :: l2 -> snd x = true -> l2 = []) /\
  (snd r = true <-> exists x, In x (snd (fst r)) /\ snd x = true).
Proof.
  intros Q St cb st HR r. unfold r. rewrite HR.
  destruct (run_logging cb (calls Q) st []) as (t & -> & H1 & H2). cbn in *. split; auto.
Qed.
Print Assumptions stop_is_final.

(** C04: distance(obj) ends with the minimum distance over the registered objects. *)
Theorem naive_distance_obj_min : forall box adist m o M D,
  (forall o2, In o2 m -> (adist (box o) (box o2) <= D o o2)%Z) ->
  finds_min (naive_dist_obj box adist m o) M (fun a b => a = o /\ In b m) D /\
  dsound (naive_dist_obj box adist m o) (fun a b => a = o /\ In b m).
Proof. intros; split; [apply naive_dist_obj_min; auto|apply naive_dist_obj_sound]. Qed.
Print Assumptions naive_distance_obj_min.

(** C04: distance() ends with the minimum distance over all pairs of registered objects. *)
Theorem naive_distance_self_min : forall box adist m M D, NoDup m ->
  (forall a b, D a b = D b a) ->
  (forall a b, In a m -> In b m -> (adist (box a) (box b) <= D a b)%Z) ->
  finds_min (naive_dist_self box adist m) M (fun a b => In a m /\ In b m /\ a <> b) D /\
  dsound (naive_dist_self box adist m) (fun a b => In a m /\ In b m /\ a <> b).
Proof. intros; split; [apply naive_dist_self_min; auto|apply naive_dist_self_sound; auto]. Qed.
Print Assumptions naive_distance_self_min.

(** C04: distance(other) ends with the minimum distance over all cross pairs. *)
Theorem naive_distance_other_min : forall box adist m other M D,
  (forall a b, In a m -> In b other -> (adist (box a) (box b) <= D a b)%Z) ->
  finds_min (naive_dist_other box adist m other) M (fun a b => In a m /\ In b other) D /\
  dsound (naive_dist_other box adist m other) (fun a b => In a m /\ In b other).
Proof. intros; split; [apply naive_dist_other_min; auto|apply naive_dist_other_sound; auto]. Qed.
Print Assumptions naive_distance_other_min.

(** C05: the distance queries make no call after one answered true. *)
Theorem naive_distance_stop_is_final : forall box adist m other o,
  dstops (naive_dist_obj box adist m o) /\ dstops (naive_dist_self box adist m) /\
  dstops (naive_dist_other box adist m other).
Proof. exact naive_distance_stops_all. Qed.
Print Assumptions naive_distance_stop_is_final.

(** C06: after any history the manager holds exactly the objects registered and not since
    removed; size and empty agree. *)
Theorem naive_faithful_container : forall ops,
  let m := naive_run ops in
  Permutation (naive_get m) (spec_objs ops []) /\
  naive_size m = length (spec_objs ops []) /\
  (naive_empty m = true <-> spec_objs ops [] = []).
Proof.
  intros ops m. assert (H : Permutation m (spec_objs ops [])) by (apply naive_container; auto).
  repeat split; auto.
  - apply Permutation_length; auto.
  - destruct m; [intros _; apply Permutation_nil; auto|discriminate].
  - intros E; rewrite E in H. apply Permutation_sym, Permutation_nil in H. rewrite H. reflexivity.
Qed.
Print Assumptions naive_faithful_container.

(** A concrete scene: three boxes in a row, the first two touching. *)
Definition ex_box (o : obj) : aabb :=
  match o with
  | 0%nat => Box (V 0 0 0) (V 2 2 2) | 1%nat => Box (V 2 0 0) (V 4 2 2)
  | _ => Box (V 9 0 0) (V 10 2 2)
  end.
Example naive_self_case : calls (naive_collide_self ex_box [0; 1; 2]%nat) = [(0, 1)]%nat.
Proof. reflexivity. Qed.
Example naive_container_case :
  naive_run [NReg 0; NRegs [1; 2]; NUnreg 1; NSetup; NReg 5]%nat = [0; 2; 5]%nat.
Proof. reflexivity. Qed.
Example naive_distance_case :
  let D a b := Z.abs (Z.of_nat a - Z.of_nat b) in
  snd (fst (naive_dist_self ex_box (fun _ _ => 0%Z) [0; 3; 5]%nat _
     (fun st m a b => (st, Z.min m (D a b), false)) tt 100%Z)) = 2%Z.
Proof. reflexivity. Qed.
