(** * Query results and default callbacks

    CollisionResult::addCostSource (collision_result-inl.h 64-70) with
    CostSource::operator< (cost_source-inl.h 86-105); DistanceResult::update and
    clear (distance_result-inl.h 54-125); the default broadphase callbacks
    (default_broadphase_callbacks.h 86-220); the signed-distance part of
    distance() (distance-inl.h 91-192).  Scalars are integers (order and exact
    products only). *)

From Coq Require Import List Arith Lia ZArith Bool Sorted.
From Verif Require Import Broadphase.
Import ListNotations.

(** ** Cost sources *)

Record cost := Cost { c_min : Z * Z * Z; c_max : Z * Z * Z; c_density : Z; c_total : Z }.

(** The constructors (cost_source-inl.h 53-77). *)
Definition mk_cost (mn mx : Z * Z * Z) (d : Z) : cost :=
  let '(x0, y0, z0) := mn in let '(x1, y1, z1) := mx in
  Cost mn mx d (d * (x1 - x0) * (y1 - y0) * (z1 - z0))%Z.

(** operator< (86-105) *)
Definition cost_lt (a b : cost) : bool :=
  if (c_total a <? c_total b)%Z then false
  else if (c_total b <? c_total a)%Z then true
  else if (c_density a <? c_density b)%Z then false
  else if (c_density b <? c_density a)%Z then true
  else
    let '(x0, y0, z0) := c_min a in let '(x1, y1, z1) := c_min b in
    if negb (x0 =? x1)%Z then (x0 <? x1)%Z
    else if negb (y0 =? y1)%Z then (y0 <? y1)%Z
    else if negb (z0 =? z1)%Z then (z0 <? z1)%Z
    else false.

(** std::set::insert on the sorted sequence of its elements: nothing happens if
    an equivalent element is present. *)
Fixpoint set_insert (c : cost) (s : list cost) : list cost :=
  match s with
  | [] => [c]
  | x :: r => if cost_lt c x then c :: s else if cost_lt x c then x :: set_insert c r else s
  end.

(** addCostSource: the loop erases from the end while the set is too large. *)
Definition add_cost (k : nat) (c : cost) (s : list cost) : list cost := firstn k (set_insert c s).

Definition add_costs (k : nat) (cs : list cost) (s : list cost) : list cost :=
  fold_left (fun s c => add_cost k c s) cs s.

(** *** operator< is a strict weak order *)

Definition equiv (a b : cost) : Prop := cost_lt a b = false /\ cost_lt b a = false.

Ltac zb :=
  repeat match goal with
  | |- context [Z.ltb ?a ?b] => destruct (Z.ltb_spec a b)
  | |- context [Z.eqb ?a ?b] => destruct (Z.eqb_spec a b)
  | H : context [Z.ltb ?a ?b] |- _ => destruct (Z.ltb_spec a b)
  | H : context [Z.eqb ?a ?b] |- _ => destruct (Z.eqb_spec a b)
  end; cbn [negb] in *; try discriminate; try lia; try reflexivity.

Definition lexi (a b : cost) : Prop :=
  let '(x0, y0, z0) := c_min a in let '(x1, y1, z1) := c_min b in
  (c_total b < c_total a \/ c_total a = c_total b /\
   (c_density b < c_density a \/ c_density a = c_density b /\
    (x0 < x1 \/ x0 = x1 /\ (y0 < y1 \/ y0 = y1 /\ z0 < z1))))%Z.

Lemma cost_lt_lexi : forall a b, cost_lt a b = true <-> lexi a b.
Proof.
  intros [[[x0 y0] z0] ? d0 t0] [[[x1 y1] z1] ? d1 t1]. unfold cost_lt, lexi. cbn [c_min c_total c_density].
  split.
  - intros H. zb.
  - intros H. zb.
Qed.

Lemma cost_lt_irrefl : forall a, cost_lt a a = false.
Proof.
  intros a. destruct (cost_lt a a) eqn:E; [|reflexivity]. apply cost_lt_lexi in E. unfold lexi in E.
  destruct a as [[[x y] z] ? ? ?]. cbn in E. lia.
Qed.

Lemma cost_lt_trans : forall a b c, cost_lt a b = true -> cost_lt b c = true -> cost_lt a c = true.
Proof.
  intros [[[x0 y0] z0] ? d0 t0] [[[x1 y1] z1] ? d1 t1] [[[x2 y2] z2] ? d2 t2].
  rewrite !cost_lt_lexi. unfold lexi. cbn. lia.
Qed.

Lemma cost_lt_neg : forall a b c, cost_lt a b = false -> cost_lt b c = false -> cost_lt a c = false.
Proof.
  intros a b c H1 H2. destruct (cost_lt a c) eqn:E; [|reflexivity]. exfalso.
  assert (N1 : ~ lexi a b) by (rewrite <- cost_lt_lexi; congruence).
  assert (N2 : ~ lexi b c) by (rewrite <- cost_lt_lexi; congruence).
  apply cost_lt_lexi in E. clear H1 H2.
  destruct a as [[[x0 y0] z0] ? d0 t0], b as [[[x1 y1] z1] ? d1 t1], c as [[[x2 y2] z2] ? d2 t2].
  unfold lexi in *. cbn in *. lia.
Qed.

Notation lt_cost := (fun a b => cost_lt a b = true).

Lemma equiv_lt : forall a b c, equiv a b -> cost_lt a c = true -> cost_lt b c = true.
Proof.
  intros a b c [H1 H2] H. destruct (cost_lt b c) eqn:E; [reflexivity|].
  rewrite (cost_lt_neg a b c H1 E) in H. discriminate.
Qed.

(** *** The invariant: the kept list beats everything offered and not kept *)

(** [kept k cs s]: [s] is sorted, has at most [k] elements, all offered; each
    offered source is equivalent to one in [s], or [s] is full and all its
    elements come before it. *)
Definition kept (k : nat) (cs s : list cost) : Prop :=
  StronglySorted lt_cost s /\ length s <= k /\ incl s cs /\
  forall c, In c cs -> (exists r, In r s /\ equiv r c) \/ (length s = k /\ forall r, In r s -> cost_lt r c = true).

Lemma insert_spec : forall c s, StronglySorted lt_cost s ->
  StronglySorted lt_cost (set_insert c s) /\
  (forall x, In x (set_insert c s) -> x = c \/ In x s) /\
  (forall x, In x s -> In x (set_insert c s)) /\
  (exists r, In r (set_insert c s) /\ equiv r c) /\
  length s <= length (set_insert c s) <= Datatypes.S (length s).
Proof.
  intros c s Hs. induction Hs as [|x s Hs IH Hx]; cbn [set_insert].
  - split; [repeat constructor|]. split; [intros y [<-|[]]; auto|]. split; [intros y []|].
    split; [exists c; split; [left; reflexivity|split; apply cost_lt_irrefl]|cbn; lia].
  - destruct (cost_lt c x) eqn:E1.
    + split. { constructor; [constructor; assumption|]. constructor; [exact E1|].
        eapply Forall_impl; [|exact Hx]. intros y Hy. eapply cost_lt_trans; eassumption. }
      split; [intros y [<-|Hy]; auto|]. split; [intros y Hy; right; exact Hy|].
      split; [exists c; split; [left; reflexivity|split; apply cost_lt_irrefl]|cbn; lia].
    + destruct (cost_lt x c) eqn:E2.
      * destruct IH as (I1 & I2 & I3 & (r & I4 & I5) & I6). split.
        { constructor; [exact I1|]. apply Forall_forall. intros y Hy. apply I2 in Hy. destruct Hy as [->|Hy]; [exact E2|].
          rewrite Forall_forall in Hx. auto. }
        split. { intros y [<-|Hy]; [right; left; reflexivity|]. apply I2 in Hy. destruct Hy; [auto|right; right; assumption]. }
        split. { intros y [<-|Hy]; [left; reflexivity|right; auto]. }
        split; [exists r; split; [right; exact I4|exact I5]|cbn; lia].
      * split; [constructor; assumption|]. split; [auto|]. split; [auto|].
        split; [exists x; split; [left; reflexivity|split; assumption]|cbn; lia].
Qed.

Lemma firstn_In : forall A k (l : list A) x, In x (firstn k l) -> In x l.
Proof. intros A k l x H. rewrite <- (firstn_skipn k l). apply in_or_app. auto. Qed.

Lemma sorted_firstn : forall k s, StronglySorted lt_cost s -> StronglySorted lt_cost (firstn k s) /\
  (forall r x, In r (firstn k s) -> In x (skipn k s) -> cost_lt r x = true).
Proof.
  intros k s Hs. revert k. induction Hs as [|x s Hs IH Hx]; intros k.
  - rewrite firstn_nil, skipn_nil. split; [constructor|intros r y []].
  - destruct k as [|k]; [split; [constructor|intros r y []]|]. cbn [firstn skipn].
    destruct (IH k) as [I1 I2]. split.
    + constructor; [exact I1|]. rewrite Forall_forall in *. intros y Hy. apply Hx. eapply firstn_In; exact Hy.
    + intros r y [<-|Hr] Hy; [|auto]. rewrite Forall_forall in Hx. apply Hx.
      rewrite <- (firstn_skipn k s). apply in_or_app. auto.
Qed.

Lemma firstn_in_or : forall A k (l : list A) x, In x l -> In x (firstn k l) \/ In x (skipn k l).
Proof. intros A k l x H. rewrite <- (firstn_skipn k l) in H. apply in_app_or in H. exact H. Qed.

Lemma kept_step : forall k cs s c, kept k cs s -> kept k (cs ++ [c]) (add_cost k c s).
Proof.
  intros k cs s c (H1 & H2 & H3 & H4). unfold add_cost.
  destruct (insert_spec c s H1) as (I1 & I2 & I3 & (r & I4 & I5) & I6).
  destruct (sorted_firstn k _ I1) as [S1 S2].
  split; [exact S1|]. split; [rewrite firstn_length; lia|]. split.
  { intros x Hx. apply firstn_In in Hx. apply I2 in Hx. apply in_or_app. destruct Hx as [->|Hx]; [right; left; reflexivity|left; auto]. }
  (* an element of the set that falls out is beaten *)
  assert (Hout : forall x y, In x (set_insert c s) -> equiv x y ->
    (exists r, In r (firstn k (set_insert c s)) /\ equiv r y) \/
    (length (firstn k (set_insert c s)) = k /\ forall r, In r (firstn k (set_insert c s)) -> cost_lt r y = true)).
  { intros x y Hx Hxy. destruct (firstn_in_or _ k _ _ Hx) as [Hf|Hf]; [left; eauto|right].
    split.
    - rewrite firstn_length. pose proof (skipn_length k (set_insert c s)) as Hl.
      destruct (skipn k (set_insert c s)); [contradiction|cbn in Hl; lia].
    - intros r0 Hr. pose proof (S2 _ _ Hr Hf) as Hlt. destruct (cost_lt r0 y) eqn:E; [reflexivity|].
      destruct Hxy as [Ha Hb]. rewrite (cost_lt_neg r0 y x E Hb) in Hlt. discriminate. }
  intros x Hx. apply in_app_or in Hx. destruct Hx as [Hx|[<-|[]]].
  - destruct (H4 x Hx) as [(y & Hy & Hye)|[Hfull Hall]].
    + apply (Hout y); [auto|exact Hye].
    + right. split; [rewrite firstn_length; lia|].
      (* the k-th element can only have become smaller *)
      intros y Hy.
      destruct (Nat.eq_dec k 0) as [->|Hk]; [contradiction|].
      assert (Hlast : forall s, StronglySorted lt_cost s -> forall k, length s = k -> (forall r, In r s -> cost_lt r x = true) ->
         forall y, In y (firstn k (set_insert c s)) -> cost_lt y x = true).
      { clear - k. induction s as [|z s IH]; intros Hs n Hn Ha y Hy.
        - cbn in Hn. subst n. contradiction.
        - destruct n as [|n]; [discriminate|]. injection Hn as Hn. inversion Hs as [|? ? Hs' Hz]; subst.
          cbn [set_insert] in Hy. destruct (cost_lt c z) eqn:E1.
          + cbn [firstn] in Hy. destruct Hy as [<-|Hy]; [eapply cost_lt_trans; [exact E1|apply Ha; left; reflexivity]|].
            apply firstn_In in Hy. apply Ha. exact Hy.
          + destruct (cost_lt z c) eqn:E2.
            * cbn [firstn] in Hy. destruct Hy as [<-|Hy]; [apply Ha; left; reflexivity|].
              eapply IH; [exact Hs'|reflexivity|intros r Hr; apply Ha; right; exact Hr|exact Hy].
            * cbn [firstn] in Hy. destruct Hy as [<-|Hy]; [apply Ha; left; reflexivity|].
              apply firstn_In in Hy. apply Ha. right. exact Hy. }
      apply (Hlast s H1 k Hfull Hall y Hy).
  - apply (Hout r); assumption.
Qed.

Lemma kept_run : forall k cs, kept k cs (add_costs k cs []).
Proof.
  intros k cs. unfold add_costs.
  assert (Hg : forall cs done s, kept k done s -> kept k (done ++ cs) (fold_left (fun s c => add_cost k c s) cs s)).
  { induction cs0 as [|c cs0 IH]; intros done s H; [rewrite app_nil_r; exact H|]. cbn [fold_left].
    specialize (IH (done ++ [c]) _ (kept_step k done s c H)). rewrite <- app_assoc in IH. exact IH. }
  apply (Hg cs [] []). split; [constructor|]. split; [cbn; lia|]. split; [intros x []|intros c []].
Qed.

(** ** Distance results *)

Section DistanceResult.
Variables O P : Type.        (* geometry pointers and points *)

Record dres := DRes { d_min : Z; d_o1 : option O; d_o2 : option O; d_b1 : Z; d_b2 : Z; d_near : option (P * P) }.

(** An offer to update(): the variant without points leaves nearest_points alone
    (distance_result-inl.h 63-79, 82-102). *)
Record offer := Offer { f_dist : Z; f_o1 : O; f_o2 : O; f_b1 : Z; f_b2 : Z; f_near : option (P * P) }.

Definition d_update (f : offer) (r : dres) : dres :=
  if (f_dist f <? d_min r)%Z then
    DRes (f_dist f) (Some (f_o1 f)) (Some (f_o2 f)) (f_b1 f) (f_b2 f)
      (match f_near f with Some pq => Some pq | None => d_near r end)
  else r.

(** update(other_result) (105-119) *)
Definition d_merge (o r : dres) : dres :=
  if (d_min o <? d_min r)%Z then DRes (d_min o) (d_o1 o) (d_o2 o) (d_b1 o) (d_b2 o) (d_near o) else r.

(** clear() (122-131): nearest_points is not reset.  [big] =
    numeric_limits::max(), [none] = NONE. *)
Definition d_clear (big none : Z) (r : dres) : dres := DRes big None None none none (d_near r).

Definition d_updates (fs : list offer) (r : dres) : dres := fold_left (fun r f => d_update f r) fs r.

Definition holds_offer (f : offer) (r : dres) : Prop :=
  d_min r = f_dist f /\ d_o1 r = Some (f_o1 f) /\ d_o2 r = Some (f_o2 f) /\ d_b1 r = f_b1 f /\ d_b2 r = f_b2 f /\
  (f_near f <> None -> d_near r = f_near f).

Lemma d_updates_spec : forall fs r,
  (d_updates fs r = r /\ forall f, In f fs -> (d_min r <= f_dist f)%Z) \/
  (exists l f l', fs = l ++ f :: l' /\ holds_offer f (d_updates fs r) /\ (f_dist f < d_min r)%Z /\
     (forall g, In g l -> (f_dist f < f_dist g)%Z) /\ (forall g, In g l' -> (f_dist f <= f_dist g)%Z)).
Proof using Type.
  induction fs as [|f fs IH]; intros r; [left; split; [reflexivity|intros f []]|].
  change (d_updates (f :: fs) r) with (d_updates fs (d_update f r)).
  destruct (IH (d_update f r)) as [[E H]|(l & g & l' & E & Hh & Hlt & H1 & H2)].
  - rewrite E. unfold d_update in *. destruct (Z.ltb_spec (f_dist f) (d_min r)) as [Hf|Hf].
    + right. exists [], f, fs. split; [reflexivity|]. split.
      { repeat split. cbn. destruct (f_near f); congruence. }
      split; [exact Hf|]. split; [intros g []|exact H].
    + left. split; [reflexivity|]. intros g [<-|Hg]; [lia|auto].
  - right. exists (f :: l), g, l'. rewrite E at 1. split; [reflexivity|]. split; [exact Hh|].
    unfold d_update in Hlt. destruct (Z.ltb_spec (f_dist f) (d_min r)) as [Hf|Hf]; cbn [d_min] in Hlt.
    + split; [lia|]. split; [|exact H2]. intros h [<-|Hh']; [exact Hlt|auto].
    + split; [lia|]. split; [|exact H2]. intros h [<-|Hh']; [lia|auto].
Qed.

End DistanceResult.

(** ** Default callbacks *)

Section Callbacks.
Variable C : Type.
Variable max : nat.
Variable enable_cost : bool.
(** The contacts of a pair of objects; collide() appends at most as many as the
    limit leaves room for (collision-inl.h 94-150, Traversal: contact_limit). *)
Variable gen : obj -> obj -> list C.

Record cdata := CData { contacts : list C; done : bool; queries : nat }.

(** DefaultCollisionFunction (86-106).  [queries] counts calls of collide(). *)
Definition default_collision (d : cdata) (a b : obj) : cdata * bool :=
  if done d then (d, true)
  else
    let cs := contacts d ++ firstn (max - length (contacts d)) (gen a b) in
    let dn := negb enable_cost && negb (length cs =? 0) && (max <=? length cs) in
    (CData cs dn (queries d + 1), dn).

(** DefaultContinuousCollisionFunction (145-160): collide() on every pair. *)
Variable R : Type.
Variable ccollide : obj -> obj -> R -> R.
Record ccdata := CCData { cc_result : R; cc_done : bool }.
Definition default_continuous (d : ccdata) (a b : obj) : ccdata * bool :=
  if cc_done d then (d, true) else (CCData (ccollide a b (cc_result d)) (cc_done d), cc_done d).

(** DefaultDistanceFunction (196-220); the result is represented by its minimal
    distance, and [D a b] is what distance() offers to update(). *)
Variable D : obj -> obj -> Z.
Record ddata := DData { d_result : Z; d_done : bool; d_queries : nat }.
Definition default_distance (d : ddata) (dist : Z) (a b : obj) : ddata * Z * bool :=
  if d_done d then (d, d_result d, true)
  else
    let m := Z.min (d_result d) (D a b) in
    (DData m (d_done d) (d_queries d + 1), m, (m <=? 0)%Z || d_done d).
End Callbacks.

(** Calling a distance callback on a list of pairs until it returns true. *)
Fixpoint drun {St} (cb : dcallback St) (st : St) (m : Z) (ps : list (obj * obj)) : St * Z * bool :=
  match ps with
  | [] => (st, m, false)
  | (a, b) :: r =>
      let '(st', m', stop) := cb st m a b in
      if stop then (st', m', true) else drun cb st' m' r
  end.

(** ** Signed distance *)

Section Signed.
Variable P : Type.
(** What collide() yields for the pair: penetration depth and position. *)
Notation contact := (Z * P)%type.

(** numeric_limits<S>::min(), the least positive value *)
Variable tiny : Z.

(** Lines 160-172: the deepest of the contacts found; [None] is index -1. *)
Definition deepest (cs : list contact) : Z * option nat :=
  fst (fold_left (fun acc c =>
    let '(best, i) := acc in
    ((if (fst best <? fst c)%Z then (fst c, Some i) else best), (i + 1))) cs ((tiny, None), 0)).

(** getContact(i) (collision_result-inl.h 95-101): out of range returns back();
    [None]: back() of an empty vector. *)
Definition get_contact (cs : list contact) (i : option nat) : option contact :=
  match i with
  | Some i => match nth_error cs i with Some c => Some c | None => nth_error cs (length cs - 1) end
  | None => nth_error cs (length cs - 1)
  end.

(** distance() after the distance function returned [res] and left
    [result.min_distance = m] and nearest points [near] (143-185).  [geom]: both
    are primitive shapes and the solver is libccd.  [avail]: all contacts the
    pair has; the collision request is the default one, so one contact is asked
    for.  Asserts are not evaluated (release build).  Returns the value returned,
    min_distance and the nearest points; [None] is undefined behaviour. *)
Definition signed_part (signed want_near geom : bool) (res m : Z) (near : option (P * P)) (avail : list contact)
  : option (Z * Z * option (P * P)) :=
  if negb (res =? 0)%Z && (m <? 0)%Z && signed then
    if geom then Some (res, m, near)
    else
      let cs := firstn 1 avail in
      let '(depth, i) := deepest cs in
      if want_near then
        match get_contact cs i with
        | Some (_, p) => Some (res, (- depth)%Z, Some (p, p))
        | None => None
        end
      else Some (res, (- depth)%Z, near)
  else Some (res, m, near).
End Signed.
