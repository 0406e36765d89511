(** The GJK iteration and the distance query of GJKSolver_indep built on it. *)
From Coq Require Import Reals Lra Lia List Bool.
From Verif Require Import VecR HalfQuery Project Support.
Import ListNotations.
Open Scope R_scope.

(** Eigen's normalized(): a zero vector stays as it is. *)
Definition normalized (v : v3) : v3 := if Rlt_dec 0 (norm2 v) then vscale (/ norm v) v else v.
(** GJK::SimplexV, gjk.h 55-61: direction and support point *)
Record vtx := Vtx { vd : v3; vw : v3 }.
(** store_v, the free slots free_v[nfree-1], ..., free_v[0], and the current simplex: the slot and the
    weight of each vertex (gjk.h 63-73, 113-119).  [simplices] has two elements only so that the next
    simplex can be filled while the current one is read; the one not current is always filled anew
    (gjk-inl.h 166) and is left out. *)
Record mem := Mem { store : nat -> vtx; free : list nat; simp : list (nat * R) }.
Definition put (m : nat -> vtx) (i : nat) (v : vtx) : nat -> vtx := fun k => if Nat.eqb k i then v else m k.
Definition verts (m : mem) : list vtx := map (fun s => store m (fst s)) (simp m).
Definition points_of (m : mem) : list v3 := map vw (verts m).

Section Gjk.
(** shape.support *)
Variable sup : v3 -> v3.

(** appendVertex and getSupport, gjk-inl.h 203-208, 226-232; [None]: no free slot, the code reads
    free_v[-1] *)
Definition append (v : v3) (m : mem) : option mem :=
  match free m with
  | [] => None
  | f :: fr => let d := normalized v in Some (Mem (put (store m) f (Vtx d (sup d))) fr (simp m ++ [(f, 0)]))
  end.
(** removeVertex, gjk-inl.h 218-223; [None]: the simplex is empty *)
Definition remove (m : mem) : option mem :=
  match rev (simp m) with
  | [] => None
  | s :: l => Some (Mem (store m) (fst s :: free m) (rev l))
  end.

(** the switch of gjk-inl.h 153-162; other ranks leave the default result *)
Definition project (ws : list v3) : pres :=
  match ws with
  | [a; b] => project_line_origin a b
  | [a; b; c] => project_triangle_origin a b c
  | [a; b; c; d] => project_tetra_origin a b c d
  | _ => pzero
  end.
(** gjk-inl.h 164-180: the slots kept with their weights, those given back, the new ray *)
Fixpoint kept (r : pres) (i : nat) (s : list (nat * R)) : list (nat * R) :=
  match s with
  | [] => []
  | (k, _) :: s' => if enc r i then (k, par r i) :: kept r (S i) s' else kept r (S i) s'
  end.
Fixpoint freed (r : pres) (i : nat) (s : list (nat * R)) (fr : list nat) : list nat :=
  match s with
  | [] => fr
  | (k, _) :: s' => if enc r i then freed r (S i) s' fr else freed r (S i) s' (k :: fr)
  end.
Definition combine_w (m : mem) (s : list (nat * R)) : v3 :=
  fold_left (fun a e => vadd a (vscale (snd e) (vw (store m (fst e))))) s vzero.
Definition rebuild (r : pres) (m : mem) : mem := Mem (store m) (freed r 0 (simp m) (free m)) (kept r 0 (simp m)).
Definition encode15 (r : pres) : bool := (enc r 0 && enc r 1 && enc r 2 && enc r 3)%bool.

Inductive status := Valid | Inside | Failed.
(** The state of the loop: memory, ray, lastw, clastw, alpha. *)
Record gst := Gst { gm : mem; ray : v3; lastw : list v3; clastw : nat; alpha : R }.
Fixpoint set_nth {A} (i : nat) (x : A) (l : list A) : list A :=
  match l, i with [], _ => [] | _ :: l', O => x :: l' | y :: l', S i' => y :: set_nth i' x l' end.
Definition near_last (tol : R) (w : v3) (l : list v3) : bool :=
  existsb (fun x => if Rlt_dec (norm2 (vsub w x)) tol then true else false) l.
(** the ends of the loop that drop the new vertex, gjk-inl.h 134-138, 147-151, 182-186 *)
Definition give_up (m : mem) (g : gst) : option (status * gst) :=
  match remove m with Some m' => Some (Valid, Gst m' (ray g) (lastw g) (clastw g) (alpha g)) | None => None end.
(** the loop, gjk-inl.h 107-190; [left] is max_iterations - 1 - iterations, so the iteration that finds it 0
    sets Failed whatever the status was (line 188) *)
Fixpoint loop (tol : R) (left : nat) (g : gst) : option (status * gst) :=
  let rl := norm (ray g) in
  if Rlt_dec rl tol then Some (Inside, g)
  else match append (vneg (ray g)) (gm g) with
  | None => None
  | Some m1 =>
      let w := vw (last (verts m1) (Vtx vzero vzero)) in
      if near_last tol w (lastw g) then give_up m1 g
      else
        let cl := ((clastw g + 1) mod 4)%nat in
        let al := Rmax (alpha g) (dot (ray g) w / rl) in
        let g1 := Gst m1 (ray g) (set_nth cl w (lastw g)) cl al in
        if Rle_dec ((rl - al) - tol * rl) 0 then give_up m1 g1
        else
          let r := project (points_of m1) in
          if Rle_dec 0 (sd r) then
            let m2 := rebuild r m1 in
            let g2 := Gst m2 (combine_w m2 (simp m2)) (lastw g1) cl al in
            match left with
            | O => Some (Failed, g2)
            | S left' => if encode15 r then Some (Inside, g2) else loop tol left' g2
            end
          else give_up m1 g1
  end.
(** evaluate, gjk-inl.h 82-105 *)
Definition start_dir (guess : v3) : v3 := if Rlt_dec 0 (norm2 guess) then vneg guess else mk3 1 0 0.
Definition init (guess : v3) : option gst :=
  match append (start_dir guess) (Mem (fun _ => Vtx vzero vzero) [3; 2; 1; 0]%nat []) with
  | None => None
  | Some m =>
      let m' := Mem (store m) (free m) (map (fun e => (fst e, 1)) (simp m)) in
      let w := vw (last (verts m') (Vtx vzero vzero)) in
      Some (Gst m' w [w; w; w; w] 0 0)
  end.
Definition evaluate (tol : R) (max_iterations : nat) (guess : v3) : option (status * gst) :=
  match init guess with None => None | Some g => loop tol (pred max_iterations) g end.
(** the member distance, gjk-inl.h 193-198 *)
Definition distance (st : status) (g : gst) : R := match st with Valid => norm (ray g) | _ => 0 end.

(** encloseOrigin, 236-295: [try] is the pattern append, recurse, remove.  The axes of the loops are
    tried in order, each with both signs. *)
Fixpoint try (next : mem -> option (bool * mem)) (dirs : list v3) (m : mem) : option (bool * mem) :=
  match dirs with
  | [] => Some (false, m)
  | d :: ds =>
      match append d m with
      | None => None
      | Some m1 =>
          match next m1 with
          | None => None
          | Some (true, m2) => Some (true, m2)
          | Some (false, m2) => match remove m2 with None => None | Some m3 => try next ds m3 end
          end
      end
  end.
Definition axes : list v3 := [mk3 1 0 0; mk3 0 1 0; mk3 0 0 1].
Definition both (d : v3) : list v3 := [d; vneg d].
Definition nz (v : v3) : bool := if Rlt_dec 0 (norm2 v) then true else false.
Definition enclose4 (m : mem) : option (bool * mem) :=
  match points_of m with
  | [a; b; c; d] => Some (if Rlt_dec 0 (Rabs (triple (vsub a d) (vsub b d) (vsub c d))) then true else false, m)
  | _ => Some (false, m)
  end.
Definition enclose3 (m : mem) : option (bool * mem) :=
  match points_of m with
  | [a; b; c] => let n := cross (vsub b a) (vsub c a) in if nz n then try enclose4 (both n) m else Some (false, m)
  | _ => Some (false, m)
  end.
Definition enclose2 (m : mem) : option (bool * mem) :=
  match points_of m with
  | [a; b] => let d := vsub b a in try enclose3 (flat_map both (filter nz (map (cross d) axes))) m
  | _ => Some (false, m)
  end.
Definition enclose1 (m : mem) : option (bool * mem) := try enclose2 (flat_map both axes) m.
Definition enclose_origin (m : mem) : option (bool * mem) :=
  match length (simp m) with
  | 1%nat => enclose1 m | 2%nat => enclose2 m | 3%nat => enclose3 m | 4%nat => enclose4 m
  | _ => Some (false, m)
  end.
End Gjk.

(** ShapeDistanceIndepImpl::run, gjk_solver_indep-inl.h 596-646, with enable_cached_guess off: true and
    the distance with the two points, or false. *)
Definition weighted (f : v3 -> v3) (m : mem) : v3 :=
  fold_left (fun a e => vadd a (vscale (snd e) (f (vd (store m (fst e)))))) (simp m) vzero.
Definition shape_distance (big tol : R) (max_iterations : nat) (s0 s1 : shape) (X0 X1 : tf) : option (option (R * v3 * v3)) :=
  let m := mdiff_of s0 s1 X0 X1 in
  match evaluate (support big m) tol max_iterations (vneg (mk3 1 0 0)) with
  | None => None
  | Some (Valid, g) =>
      let w0 := weighted (support0 big m) (gm g) in
      let w1 := weighted (fun d => support1 big m (vneg d)) (gm g) in
      Some (Some (norm (vsub w0 w1), tf_apply X0 w0, tf_apply X0 w1))
  | Some (_, _) => Some None
  end.
(** The test at the start of ShapeIntersectIndepImpl::run, gjk_solver_indep-inl.h 120-162: unless GJK
    ends with Inside the answer is false (EPA may turn an Inside into false too). *)
Definition shape_inside (big tol : R) (max_iterations : nat) (s0 s1 : shape) (X0 X1 : tf) : option bool :=
  match evaluate (support big (mdiff_of s0 s1 X0 X1)) tol max_iterations (vneg (mk3 1 0 0)) with
  | None => None
  | Some (Inside, _) => Some true
  | Some (_, _) => Some false
  end.

(** * Lemmas *)
From Coq Require Import Permutation.

(** combinations of a list of points with weights f i, f (i+1), ... *)
Fixpoint combo (f : nat -> R) (i : nat) (l : list v3) : v3 :=
  match l with [] => vzero | x :: l' => vadd (vscale (f i) x) (combo f (S i) l') end.
Fixpoint total (f : nat -> R) (i n : nat) : R := match n with O => 0 | S n' => f i + total f (S i) n' end.
Definition conv (l : list v3) (x : v3) : Prop := exists f, (forall k, 0 <= f k) /\ total f 0 (length l) = 1 /\ x = combo f 0 l.
Definition indep (l : list v3) : Prop :=
  match l with
  | [_] => True
  | [a; b] => a <> b
  | [a; b; c] => cross (vsub a b) (vsub b c) <> vzero
  | [a; b; c; d] => triple (vsub a d) (vsub b d) (vsub c d) <> 0
  | _ => False
  end.
Ltac coords := unfold bary4, triple, norm2; unfold bary3; unfold dot, vsub, vadd, vscale, vneg, cross, vzero; cbn [c0 c1 c2]; try ring.
Ltac vcoords := apply v3_ext; coords.

Lemma nz_pos : forall v, v <> vzero -> 0 < norm2 v.
Proof. intros v H. rewrite <- (vsub_zero_r v). apply line_pos. congruence. Qed.
Lemma norm2_0 : forall v, norm2 v <= 0 -> v = vzero.
Proof. intros v H. unfold norm2, dot in H. destruct (sq0 _ _ _ H) as (A & B & C). apply v3_ext; assumption. Qed.
Lemma sub_eq : forall u v, vsub u v = vzero -> u = v.
Proof. intros u v Z. apply v3_ext; [assert (X := f_equal c0 Z)|assert (X := f_equal c1 Z)|assert (X := f_equal c2 Z)]; unfold vsub, vzero in X; cbn in X; lra. Qed.

Lemma combo_ext : forall l f g i, (forall k, (i <= k < i + length l)%nat -> f k = g k) -> combo f i l = combo g i l.
Proof.
  induction l as [|x l IH]; intros f g i H; [reflexivity|]. cbn [combo]. cbn [length] in H. rewrite (H i) by lia. f_equal. apply IH. intros k Hk. apply H. lia.
Qed.
Lemma total_ext : forall n f g i, (forall k, (i <= k < i + n)%nat -> f k = g k) -> total f i n = total g i n.
Proof. induction n as [|n IH]; intros f g i H; [reflexivity|]. cbn [total]. rewrite (H i) by lia. f_equal. apply IH. intros k Hk. apply H. lia. Qed.
Lemma combo_lin : forall l f g s t i, combo (fun k => s * f k + t * g k) i l = vadd (vscale s (combo f i l)) (vscale t (combo g i l)).
Proof. induction l as [|x l IH]; intros; cbn [combo]; [vcoords|]. rewrite IH. generalize (combo f (S i) l) (combo g (S i) l). intros u v. vcoords. Qed.
Lemma total_lin : forall n f g s t i, total (fun k => s * f k + t * g k) i n = s * total f i n + t * total g i n.
Proof. induction n as [|n IH]; intros; cbn [total]; [ring|]. rewrite IH. ring. Qed.
Lemma conv_seg : forall l x y t, conv l x -> conv l y -> 0 <= t <= 1 -> conv l (vadd x (vscale t (vsub y x))).
Proof.
  intros l x y t (f & Pf & Tf & Ef) (g & Pg & Tg & Eg) Ht. exists (fun k => (1 - t) * f k + t * g k). split; [|split].
  - intros k. apply Rplus_le_le_0_compat; apply Rmult_le_pos; auto; lra.
  - rewrite total_lin, Tf, Tg. ring.
  - rewrite combo_lin, <- Ef, <- Eg. vcoords.
Qed.
Lemma combo_one : forall l i k, combo (fun j => if Nat.eqb j (i + k) then 1 else 0) i l = nth k l vzero.
Proof.
  induction l as [|x l IH]; intros i k; [destruct k; reflexivity|]. cbn [combo]. destruct k as [|k]; cbn [nth].
  - rewrite Nat.add_0_r, Nat.eqb_refl. rewrite (combo_ext l _ (fun _ => 0 * 0 + 0 * 0)).
    + rewrite (combo_lin l (fun _ => 0) (fun _ => 0)). vcoords.
    + intros j Hj. destruct (Nat.eqb_spec j i); [lia|ring].
  - destruct (Nat.eqb_spec i (i + S k)); [lia|]. replace (i + S k)%nat with (S i + k)%nat by lia. rewrite IH. vcoords.
Qed.
Lemma total_one : forall n i k, (k < n)%nat -> total (fun j => if Nat.eqb j (i + k) then 1 else 0) i n = 1.
Proof.
  induction n as [|n IH]; intros i k Hk; [lia|]. cbn [total]. destruct k as [|k].
  - rewrite Nat.add_0_r, Nat.eqb_refl. rewrite (total_ext n _ (fun _ => 0 * 0 + 0 * 0)); [rewrite (total_lin n (fun _ => 0) (fun _ => 0)); ring|]. intros j Hj. destruct (Nat.eqb_spec j i); [lia|ring].
  - destruct (Nat.eqb_spec i (i + S k)); [lia|]. replace (i + S k)%nat with (S i + k)%nat by lia. rewrite IH by lia. ring.
Qed.
Lemma conv_nth : forall l k, (k < length l)%nat -> conv l (nth k l vzero).
Proof.
  intros l k Hk. exists (fun j => if Nat.eqb j (0 + k) then 1 else 0). split; [intros j; destruct (Nat.eqb j (0 + k)); lra|split].
  - apply total_one, Hk.
  - symmetry. apply combo_one.
Qed.
Lemma dot_combo : forall l q f i, dot q (combo f i l) = total (fun k => f k * dot q (nth (k - i) l vzero)) i (length l).
Proof.
  induction l as [|x l IH]; intros q f i; cbn [combo length total]; [coords|]. rewrite dot_add_r, dot_scale_r, IH, Nat.sub_diag. cbn [nth]. f_equal. apply total_ext. intros k Hk.
  replace (k - i)%nat with (S (k - S i)) by lia. reflexivity.
Qed.
Lemma total_zero : forall n f i, (forall k, (i <= k < i + n)%nat -> 0 <= f k) -> total f i n = 0 -> forall k, (i <= k < i + n)%nat -> f k = 0.
Proof.
  induction n as [|n IH]; intros f i P T k Hk; [lia|]. cbn [total] in T. assert (Q : 0 <= total f (S i) n).
  { clear -P. revert i P. induction n as [|n IH]; intros i P; cbn [total]; [lra|]. apply Rplus_le_le_0_compat; [apply P; lia|]. apply IH. intros k Hk. apply P. lia. }
  pose proof (P i ltac:(lia)). destruct (Nat.eq_dec k i) as [->|N]; [lra|]. apply (IH f (S i)); [intros; apply P; lia|lra|lia].
Qed.

(** the point of least norm of a set closed under segments has an obtuse angle with every other point *)
Lemma least_dot : forall (q v : v3), (forall t, 0 <= t <= 1 -> norm2 q <= norm2 (vadd q (vscale t (vsub v q)))) -> norm2 q <= dot q v.
Proof.
  intros q v H. apply Rnot_lt_le. intros L. set (e := norm2 q - dot q v). assert (E : 0 < e) by (unfold e; lra). set (D := norm2 (vsub v q)).
  assert (X : forall t, norm2 (vadd q (vscale t (vsub v q))) = norm2 q - 2 * t * e + t * t * D) by (intros t; unfold e, D; coords).
  pose proof (norm2_nonneg (vsub v q)) as DP. fold D in DP. destruct (Rle_dec D e) as [S|S].
  - specialize (H 1 ltac:(lra)). rewrite X in H. lra.
  - assert (0 < D) by lra. assert (T0 : 0 < e / D) by (apply Rdiv_lt_0_compat; lra). assert (T1 : e / D <= 1) by (apply Rmult_le_reg_r with D; [lra|]; field_simplify; lra).
    specialize (H (e / D) ltac:(lra)). rewrite X in H. replace (norm2 q - 2 * (e / D) * e + e / D * (e / D) * D) with (norm2 q - (e / D) * e) in H by (field; lra). assert (0 < e / D * e) by (apply Rmult_lt_0_compat; lra). lra.
Qed.
Lemma conv_least : forall l q, conv l q -> (forall x, conv l x -> norm2 q <= norm2 x) -> forall k, (k < length l)%nat -> norm2 q <= dot q (nth k l vzero).
Proof. intros l q C M k Hk. apply least_dot. intros t Ht. apply M, conv_seg; auto. apply conv_nth, Hk. Qed.
(** points used with a positive weight lie on the supporting plane *)
Lemma weight_flat : forall l q f, (forall k, 0 <= f k) -> total f 0 (length l) = 1 -> q = combo f 0 l ->
  (forall k, (k < length l)%nat -> norm2 q <= dot q (nth k l vzero)) -> forall k, (k < length l)%nat -> f k <> 0 -> dot q (nth k l vzero) = norm2 q.
Proof.
  intros l q f P T E M k Hk N.
  assert (Z : total (fun k => f k * (dot q (nth (k - 0) l vzero) - norm2 q)) 0 (length l) = 0).
  { rewrite (total_ext _ _ (fun k => 1 * (f k * dot q (nth (k - 0) l vzero)) + (- norm2 q) * f k)) by (intros; ring). rewrite total_lin, T, <- dot_combo, <- E. unfold norm2. ring. }
  assert (Q : f k * (dot q (nth (k - 0) l vzero) - norm2 q) = 0).
  { apply (total_zero (length l) (fun k => f k * (dot q (nth (k - 0) l vzero) - norm2 q)) 0); [|exact Z|lia]. intros j Hj. pose proof (M (j - 0)%nat ltac:(lia)). apply Rmult_le_pos; [apply P|lra]. }
  rewrite Nat.sub_0_r in Q.
  apply Rmult_integral in Q. destruct Q; [contradiction|lra].
Qed.
(** and two points of least norm are equal *)
Lemma least_unique : forall l q q', conv l q -> (forall k, (k < length l)%nat -> norm2 q <= dot q (nth k l vzero)) -> conv l q' -> norm2 q' <= norm2 q -> q' = q.
Proof.
  intros l q q' C M (f & P & T & E) L.
  assert (D : norm2 q <= dot q q').
  { rewrite E, dot_combo. apply Rle_trans with (total (fun k => norm2 q * f k + 0 * 0) 0 (length l)); [rewrite (total_lin _ f (fun _ => 0)), T; lra|]. clear T E.
    assert (G : forall n i, (forall k, (i <= k < i + n)%nat -> norm2 q <= dot q (nth (k - 0) l vzero)) -> total (fun k => norm2 q * f k + 0 * 0) i n <= total (fun k => f k * dot q (nth (k - 0) l vzero)) i n).
    { induction n as [|n IH]; intros i Hi; cbn [total]; [lra|]. apply Rplus_le_compat; [|apply IH; intros; apply Hi; lia]. replace (norm2 q * f i + 0 * 0) with (f i * norm2 q) by ring. apply Rmult_le_compat_l; [apply P|apply Hi; lia]. }
    apply G. intros k Hk. apply M. lia. }
  assert (Z : vsub q' q = vzero) by (apply norm2_0; replace (norm2 (vsub q' q)) with (norm2 q' - 2 * dot q q' + norm2 q) by coords; lra).
  apply sub_eq, Z.
Qed.

(** ** Projections *)
Lemma zero_sub : forall v, vsub v vzero = v. Proof. exact vsub_zero_r. Qed.
Lemma tri_flat : forall a b c, 0 < norm2 (cross (vsub a b) (vsub b c)) -> let r := project_triangle a b c vzero in
  forall k, (k < 3)%nat -> enc r k = true -> dot (pt3 a b c r) (tri a b c k) = norm2 (pt3 a b c r).
Proof.
  intros a b c Hl r k Hk Ek. destruct (tri_spec a b c vzero Hl) as (P0 & P1 & P2 & S & M & _). fold r in P0, P1, P2, S, M.
  set (q := pt3 a b c r) in *. rewrite zero_sub in S.
  assert (Cq : conv [a; b; c] q).
  { exists (par r). split; [exact P0|split; [cbn [length total]; lra|]]. unfold q, pt3. cbn [combo]. vcoords. }
  assert (Mq : forall x, conv [a; b; c] x -> norm2 q <= norm2 x).
  { intros x (f & Pf & Tf & ->). rewrite <- S, <- (zero_sub (combo f 0 [a; b; c])). apply M. exists (f 0%nat), (f 1%nat), (f 2%nat). cbn [length total] in Tf. repeat (split; [auto; lra|]). cbn [combo]. vcoords. }
  pose proof (conv_least _ _ Cq Mq) as Lq. cbn [length] in Lq.
  assert (Fl : par r k <> 0 -> dot q (tri a b c k) = norm2 q).
  { intros N. pose proof (weight_flat [a; b; c] q (par r) P0) as W. cbn [length total] in W. specialize (W ltac:(lra) ltac:(unfold q, pt3; cbn [combo]; vcoords) Lq k Hk N). destruct k as [|[|[|k]]]; try lia; exact W. }
  clear P2. revert Ek Fl. unfold r at 1 2. unfold project_triangle at 1 2. cbv zeta.
  set (n := cross (vsub a b) (vsub b c)) in *. set (l := norm2 n) in *. destruct (Rlt_dec 0 l) as [_|]; [|lra].
  match goal with |- context [best ?u ?v] => destruct (best_spec u v) as [[NoE EB]|(i & Hi & Ci & EB & Mi)] end.
  { intros i Hi _. unfold edge_cand. cbn [sd]. destruct (line_spec (tri a b c i) (tri a b c (nexti i)) vzero (tri_edges a b c Hl i Hi)) as (_ & _ & _ & -> & _). apply norm2_nonneg. }
  - rewrite EB. destruct (Rlt_dec (sd pzero) 0) as [_|N]; [|exfalso; apply N; cbn; lra]. intros _ _.
    set (pp := vscale (dot a n / l) n).
    assert (Sp : norm2 q = norm2 pp).
    { rewrite <- S. unfold r, project_triangle. cbv zeta. fold n. fold l. destruct (Rlt_dec 0 l) as [_|]; [|lra]. rewrite EB. destruct (Rlt_dec (sd pzero) 0) as [_|N]; [|exfalso; apply N; cbn; lra]. cbn [sd]. unfold pp. rewrite zero_sub. reflexivity. }
    assert (Na : dot n b = dot n a) by (unfold n; coords). assert (Nc : dot n c = dot n a) by (unfold n; coords).
    assert (Pa : norm2 pp = dot a n / l * dot n a).
    { unfold pp, norm2. rewrite dot_scale_l, dot_scale_r. change (dot n n) with l. rewrite (dot_comm a n). field. lra. }
    assert (Pk : forall j, (j < 3)%nat -> dot pp (tri a b c j) = norm2 pp).
    { intros j Hj. rewrite Pa. unfold pp. rewrite dot_scale_l. f_equal. destruct j as [|[|[|j]]]; try lia; cbn [tri]; auto. }
    assert (Eq : vsub q pp = vzero).
    { apply norm2_0. replace (norm2 (vsub q pp)) with (norm2 q - 2 * dot pp q + norm2 pp) by coords. enough (dot pp q = norm2 pp) by lra. unfold q, pt3, bary3.
      rewrite !dot_add_r, !dot_scale_r. pose proof (Pk 0%nat ltac:(lia)) as K0. pose proof (Pk 1%nat ltac:(lia)) as K1. pose proof (Pk 2%nat ltac:(lia)) as K2. cbn [tri] in K0, K1, K2. rewrite K0, K1, K2. replace (norm2 pp) with (norm2 pp * 1) at 4 by ring. rewrite <- P1. ring. }
    assert (Qp : q = pp) by (apply sub_eq, Eq).
    rewrite Qp. apply Pk, Hk.
  - rewrite EB. destruct (line_spec (tri a b c i) (tri a b c (nexti i)) vzero (tri_edges a b c Hl i Hi)) as (W & W0 & Wk & Sd & Mn & En & Ekk).
    assert (Hsd : 0 <= sd (edge_cand (tri a b c) vzero i)) by (unfold edge_cand; cbn [sd]; rewrite Sd; apply norm2_nonneg).
    destruct (Rlt_dec (sd (edge_cand (tri a b c) vzero i)) 0); [lra|].
    intros Ek Fl. apply Fl. revert Ek. unfold edge_cand. cbn [par enc]. destruct (Nat.eqb k i); [apply En; lia|]. destruct (Nat.eqb k (nexti i)); [apply En; lia|]. discriminate.
Qed.

Lemma tet_flat : forall a b c d, triple (vsub a d) (vsub b d) (vsub c d) <> 0 -> ~ outside_d a b c d vzero -> let r := project_tetra a b c d vzero in
  (forall k, (k < 4)%nat -> enc r k = true -> dot (pt4 a b c d r) (tet a b c d k) = norm2 (pt4 a b c d r)) /\
  (enc r 0 = true -> enc r 1 = true -> enc r 2 = true -> enc r 3 = true -> pt4 a b c d r = vzero).
Proof.
  intros a b c d Hv No r. destruct (tet_spec a b c d vzero Hv No) as (P0 & P1 & _ & S & _). fold r in P0, P1, S. rewrite zero_sub in S.
  assert (Q : pt4 a b c d r = vzero -> forall k, dot (pt4 a b c d r) (tet a b c d k) = norm2 (pt4 a b c d r)) by (intros -> k; coords).
  revert S Q. unfold r. clear r P0 P1. unfold project_tetra. cbv zeta. unfold outside_d in No.
  match goal with |- context [Rle_dec ?u 0] => destruct (Rle_dec u 0) as [_|]; [|lra] end.
  replace (pos (Rabs (triple (vsub a d) (vsub b d) (vsub c d)))) with true by (symmetry; apply pos_spec, Rabs_pos_lt, Hv). cbn [andb].
  match goal with |- context [best ?u ?v] => destruct (best_spec u v) as [[NoE ->]|(i & Hi & Ci & -> & _)] end.
  { intros i Hi _. unfold face_cand. cbn [sd]. destruct (tri_spec (tet a b c d i) (tet a b c d (nexti i)) d vzero (tet_faces a b c d Hv i Hi)) as (_ & _ & _ & -> & _). apply norm2_nonneg. }
  - destruct (Rlt_dec (sd pzero) 0) as [_|N]; [|exfalso; apply N; cbn; lra]. cbn [sd]. intros S Q.
    match goal with |- context [pt4 a b c d ?r] => assert (Z : pt4 a b c d r = vzero) by (apply norm2_0; lra) end. split; [intros k Hk _; apply Q, Z|intros; exact Z].
  - pose proof (tri_flat (tet a b c d i) (tet a b c d (nexti i)) d (tet_faces a b c d Hv i Hi)) as F. cbv zeta in F.
    destruct (tri_spec (tet a b c d i) (tet a b c d (nexti i)) d vzero (tet_faces a b c d Hv i Hi)) as (_ & _ & _ & Sd & _).
    assert (Hsd : 0 <= sd (face_cand (tet a b c d) d vzero i)) by (unfold face_cand; cbn [sd]; rewrite Sd; apply norm2_nonneg).
    destruct (Rlt_dec (sd (face_cand (tet a b c d) d vzero i)) 0); [lra|]. intros _ _.
    assert (Ep : pt4 a b c d (face_cand (tet a b c d) d vzero i) = pt3 (tet a b c d i) (tet a b c d (nexti i)) d (project_triangle (tet a b c d i) (tet a b c d (nexti i)) d vzero)).
    { unfold pt4, pt3, face_cand. cbn [par]. destruct i as [|[|[|i]]]; try lia; cbn [nexti Nat.eqb tet]; vcoords. }
    rewrite Ep. unfold face_cand. cbn [enc]. destruct i as [|[|[|i]]]; try lia; cbn [nexti tet Nat.eqb] in *.
    + split; [|intros; discriminate]. intros [|[|[|[|k]]]] Hk E; try lia; try discriminate; [apply (F 0%nat)|apply (F 1%nat)|apply (F 2%nat)]; try lia; exact E.
    + split; [|intros; discriminate]. intros [|[|[|[|k]]]] Hk E; try lia; try discriminate; [apply (F 0%nat)|apply (F 1%nat)|apply (F 2%nat)]; try lia; exact E.
    + split; [|intros; discriminate]. intros [|[|[|[|k]]]] Hk E; try lia; try discriminate; [apply (F 1%nat)|apply (F 0%nat)|apply (F 2%nat)]; try lia; exact E.
Qed.

(** The origin is on the side of the fourth point. *)
Definition facing (l : list v3) : Prop := match l with [a; b; c; d] => ~ outside_d a b c d vzero | _ => True end.
Lemma project_near : forall l, (2 <= length l)%nat -> indep l -> facing l -> let r := project l in let q := combo (par r) 0 l in
  (forall k, 0 <= par r k) /\ total (par r) 0 (length l) = 1 /\ sd r = norm2 q /\ (forall x, conv l x -> norm2 q <= norm2 x) /\
  (forall k, enc r k = false -> par r k = 0) /\
  (forall k, (k < length l)%nat -> enc r k = true -> dot q (nth k l vzero) = norm2 q) /\
  (encode15 r = true -> length l = 4%nat /\ q = vzero).
Proof.
  intros l Hn Hi Hf r q.
  assert (NE : forall k, (par r k <> 0 -> enc r k = true) -> enc r k = false -> par r k = 0) by (intros k H E; destruct (Req_dec (par r k) 0) as [|N]; [assumption|rewrite (H N) in E; discriminate]).
  destruct l as [|a [|b [|c [|d [|e l]]]]]; cbn [length] in Hn; try lia; cbn [indep facing] in Hi, Hf.
  - assert (Er : r = project_line a b vzero) by apply line_origin. destruct (line_spec a b vzero (line_pos a b Hi)) as (W & W0 & Wk & S & M & E & Ek). rewrite <- Er in *. clearbody r. clear Er.
    assert (Eq : segp a b (par r 1) = q) by (unfold q, segp; cbn [combo]; rewrite W0; vcoords). rewrite Eq, zero_sub in S.
    assert (Pk : forall k, 0 <= par r k) by (intros [|[|k]]; [lra|lra|rewrite Wk by lia; lra]).
    assert (Mq : forall x, conv [a; b] x -> norm2 q <= norm2 x).
    { intros x (f & Pf & Tf & ->). cbn [length total] in Tf. rewrite <- S. pose proof (Pf 0%nat). pose proof (Pf 1%nat). specialize (M (f 1%nat) ltac:(lra)). rewrite zero_sub in M. replace (combo f 0 [a; b]) with (segp a b (f 1%nat)); [exact M|]. unfold segp. cbn [combo]. replace (f 0%nat) with (1 - f 1%nat) by lra. vcoords. }
    assert (Cq : conv [a; b] q) by (exists (par r); split; [exact Pk|split; [cbn [length total]; lra|reflexivity]]).
    split; [exact Pk|split; [cbn [length total]; lra|split; [exact S|split; [exact Mq|split; [|split]]]]].
    + intros k. apply NE. intros N. destruct k as [|[|k]]; [apply E; auto; lia|apply E; auto; lia|]. exfalso. apply N, Wk. lia.
    + intros k Hk En. apply (weight_flat [a; b] q (par r) Pk); auto; [cbn [length total]; lra|intros j Hj; apply (conv_least [a; b] q Cq Mq j Hj)|]. apply E; auto.
    + unfold encode15. rewrite (Ek 2%nat), (Ek 3%nat) by lia. rewrite andb_false_r. discriminate.
  - pose proof (nz_pos _ Hi) as Hl. assert (Er : r = project_triangle a b c vzero) by apply triangle_origin. destruct (tri_spec a b c vzero Hl) as (P0 & P1 & _ & S & M & E & E3 & _). 
    assert (Eq : pt3 a b c r = q) by (unfold q, pt3; cbn [combo]; vcoords). pose proof (tri_flat a b c Hl) as F. cbv zeta in F. rewrite <- Er in *. clearbody r. clear Er. rewrite Eq in F, S. rewrite zero_sub in S.
    split; [exact P0|split; [cbn [length total]; lra|split; [exact S|split; [|split; [|split]]]]].
    + intros x (f & Pf & Tf & ->). rewrite <- S, <- (zero_sub (combo f 0 [a; b; c])). apply M. exists (f 0%nat), (f 1%nat), (f 2%nat). cbn [length total] in Tf. repeat (split; [auto; lra|]). cbn [combo]. vcoords.
    + intros k. apply NE, E.
    + intros k Hk En. specialize (F k Hk En). destruct k as [|[|[|k]]]; cbn [length] in Hk; try lia; exact F.
    + unfold encode15. rewrite (E3 3%nat) by lia. rewrite andb_false_r. discriminate.
  - assert (Er : r = project_tetra a b c d vzero) by apply tetra_origin. destruct (tet_spec a b c d vzero Hi Hf) as (P0 & P1 & _ & S & M & E & _). destruct (tet_flat a b c d Hi Hf) as (F & F0). cbv zeta in F, F0.
    rewrite <- Er in *. clearbody r. clear Er. assert (Eq : pt4 a b c d r = q) by (unfold q, pt4; cbn [combo]; vcoords). rewrite Eq in F, F0, S. rewrite zero_sub in S.
    split; [exact P0|split; [cbn [length total]; lra|split; [exact S|split; [|split; [|split]]]]].
    + intros x (f & Pf & Tf & ->). rewrite <- S, <- (zero_sub (combo f 0 [a; b; c; d])). apply M. exists (f 0%nat), (f 1%nat), (f 2%nat), (f 3%nat). cbn [length total] in Tf. repeat (split; [auto; lra|]). cbn [combo]. vcoords.
    + intros k. apply NE, E.
    + intros k Hk En. specialize (F k Hk En). destruct k as [|[|[|[|k]]]]; cbn [length] in Hk; try lia; exact F.
    + unfold encode15. rewrite !andb_true_iff. intros [[[E0 E1] E2] E3]. split; [reflexivity|apply F0; assumption].
  - contradiction.
Qed.

(** ** Independence *)
Lemma normal_line : forall q u v x, dot q u = 0 -> dot q v = 0 -> let n := cross u v in dot q x * norm2 n = dot n x * dot q n.
Proof.
  intros q u v x Hu Hv n.
  assert (Z : cross q n = vzero).
  { replace (cross q n) with (vsub (vscale (dot q v) u) (vscale (dot q u) v)) by (unfold n; vcoords). rewrite Hu, Hv. vcoords. }
  assert (E : dot q x * norm2 n - dot n x * dot q n = dot (cross n (cross q n)) x) by coords. rewrite Z in E. replace (dot (cross n vzero) x) with 0 in E by coords. lra.
Qed.
Lemma indep_app : forall l q w, (1 <= length l <= 3)%nat -> indep l -> (forall x, In x l -> dot q x = norm2 q) -> 0 < norm2 q -> dot q w < norm2 q ->
  indep (l ++ [w]) /\ facing (l ++ [w]).
Proof.
  intros l q w Hn Hi Hq Q0 Hw. destruct l as [|a [|b [|c [|d l]]]]; cbn [length] in Hn; try lia; cbn [indep] in Hi; cbn [app indep facing]; pose proof (Hq a (or_introl eq_refl)) as Qa.
  - split; [|exact I]. intros ->. lra.
  - pose proof (Hq b (or_intror (or_introl eq_refl))) as Qb. split; [|exact I]. intros Z. apply Hi. apply sub_eq, norm2_0.
    assert (U : dot q (vsub a b) = 0) by (rewrite dot_sub_r; lra). assert (V : 0 < dot q (vsub b w)) by (rewrite dot_sub_r; lra).
    assert (E : vscale (dot q (vsub b w)) (vsub a b) = vzero).
    { replace (vscale (dot q (vsub b w)) (vsub a b)) with (vadd (cross q (cross (vsub a b) (vsub b w))) (vscale (dot q (vsub a b)) (vsub b w))) by vcoords. rewrite Z, U. vcoords. }
    assert (N : norm2 (vscale (dot q (vsub b w)) (vsub a b)) = 0) by (rewrite E; coords). replace (norm2 (vscale (dot q (vsub b w)) (vsub a b))) with (dot q (vsub b w) * dot q (vsub b w) * norm2 (vsub a b)) in N by (unfold norm2; rewrite dot_scale_l, dot_scale_r; ring).
    apply Rmult_integral in N. destruct N as [N|N]; [apply Rmult_integral in N; lra|lra].
  - pose proof (Hq b (or_intror (or_introl eq_refl))) as Qb. pose proof (Hq c (or_intror (or_intror (or_introl eq_refl)))) as Qc.
    assert (U : dot q (vsub a b) = 0) by (rewrite dot_sub_r; lra). assert (W : dot q (vsub b c) = 0) by (rewrite dot_sub_r; lra). assert (V : 0 < dot q (vsub b w)) by (rewrite dot_sub_r; lra).
    pose proof (normal_line q _ _ (vsub b w) U W) as N1. pose proof (normal_line q _ _ a U W) as N2. cbv zeta in N1, N2. pose proof (nz_pos _ Hi) as Nn.
    assert (T : triple (vsub a w) (vsub b w) (vsub c w) = dot (cross (vsub a b) (vsub b c)) (vsub b w)) by coords.
    assert (O : dot (vsub a vzero) (cross (vsub b c) (vsub a b)) = - dot (cross (vsub a b) (vsub b c)) a) by coords.
    unfold outside_d. rewrite T, O. set (n := cross (vsub a b) (vsub b c)) in *.
    assert (A1 : 0 < dot q (vsub b w) * norm2 n) by (apply Rmult_lt_0_compat; lra). assert (A2 : 0 < dot q a * norm2 n) by (rewrite Qa; apply Rmult_lt_0_compat; lra).
    rewrite N1 in A1. rewrite N2 in A2. split; [intros Z; rewrite Z in A1; lra|].
    intros X. assert (Y : 0 < dot n (vsub b w) * dot q n * (dot n a * dot q n)) by (apply Rmult_lt_0_compat; assumption).
    replace (dot n (vsub b w) * dot q n * (dot n a * dot q n)) with (- ((dot n (vsub b w) * - dot n a) * (dot q n * dot q n))) in Y by ring.
    pose proof (Rle_0_sqr (dot q n)) as Sq. unfold Rsqr in Sq. assert (0 <= dot n (vsub b w) * - dot n a * (dot q n * dot q n)) by (apply Rmult_le_pos; lra). lra.
Qed.
Fixpoint select {A} (e : nat -> bool) (i : nat) (l : list A) : list A :=
  match l with [] => [] | x :: l' => if e i then x :: select e (S i) l' else select e (S i) l' end.
Lemma select_map : forall A B (f : A -> B) e l i, map f (select e i l) = select e i (map f l).
Proof. induction l as [|x l IH]; intros i; cbn; [reflexivity|]. destruct (e i); cbn; rewrite IH; reflexivity. Qed.
Lemma select_In : forall A e (l : list A) i x, In x (select e i l) -> exists k, (k < length l)%nat /\ e (i + k)%nat = true /\ forall y, nth k l y = x.
Proof.
  induction l as [|y l IH]; intros i x H; [contradiction|]. cbn [select] in H. destruct (e i) eqn:E.
  - destruct H as [->|H].
    + exists 0%nat. cbn. rewrite Nat.add_0_r. split; [lia|auto].
    + destruct (IH _ _ H) as (k & Hk & Ek & N). exists (S k). cbn [length nth]. rewrite Nat.add_succ_r. split; [lia|auto].
  - destruct (IH _ _ H) as (k & Hk & Ek & N). exists (S k). cbn [length nth]. rewrite Nat.add_succ_r. split; [lia|auto].
Qed.
Lemma indep_select : forall l e, indep l -> select e 0 l <> [] -> indep (select e 0 l).
Proof.
  intros l e. destruct l as [|a [|b [|c [|d [|x l]]]]]; cbn [indep]; try contradiction; cbn [select].
  - destruct (e 0%nat); cbn; auto.
  - destruct (e 0%nat), (e 1%nat); cbn; auto.
  - intros H N.
    assert (a <> b) by (intros ->; apply H; vcoords). assert (b <> c) by (intros ->; apply H; vcoords). assert (a <> c) by (intros ->; apply H; vcoords).
    destruct (e 0%nat), (e 1%nat), (e 2%nat); cbn in N |- *; auto.
  - intros H N.
    assert (a <> b) by (intros ->; apply H; coords). assert (b <> c) by (intros ->; apply H; coords). assert (a <> c) by (intros ->; apply H; coords).
    assert (a <> d) by (intros ->; apply H; coords). assert (b <> d) by (intros ->; apply H; coords). assert (c <> d) by (intros ->; apply H; coords).
    assert (cross (vsub a b) (vsub b c) <> vzero).
    { intros Z. apply H. replace (triple (vsub a d) (vsub b d) (vsub c d)) with (dot (vsub b d) (cross (vsub a b) (vsub b c))) by coords. rewrite Z. coords. }
    assert (cross (vsub a b) (vsub b d) <> vzero).
    { intros Z. apply H. replace (triple (vsub a d) (vsub b d) (vsub c d)) with (dot (vsub c d) (cross (vsub a b) (vsub b d))) by coords. rewrite Z. coords. }
    assert (cross (vsub a c) (vsub c d) <> vzero).
    { intros Z. apply H. replace (triple (vsub a d) (vsub b d) (vsub c d)) with (- dot (vsub b d) (cross (vsub a c) (vsub c d))) by coords. rewrite Z. coords. }
    assert (cross (vsub b c) (vsub c d) <> vzero).
    { intros Z. apply H. replace (triple (vsub a d) (vsub b d) (vsub c d)) with (dot (vsub a d) (cross (vsub b c) (vsub c d))) by coords. rewrite Z. coords. }
    destruct (e 0%nat), (e 1%nat), (e 2%nat), (e 3%nat); cbn in N |- *; auto.
Qed.

(** ** Memory *)
Definition slots (m : mem) : list nat := map fst (simp m).
Definition wf (m : mem) : Prop := Permutation (slots m ++ free m) [0; 1; 2; 3]%nat.
Lemma wf_len : forall m, wf m -> (length (simp m) + length (free m) = 4)%nat.
Proof. intros m H. apply Permutation_length in H. rewrite app_length in H. unfold slots in H. rewrite map_length in H. exact H. Qed.
Lemma put_other : forall s i v k, k <> i -> put s i v k = s k.
Proof. intros s i v k H. unfold put. destruct (Nat.eqb_spec k i); [contradiction|reflexivity]. Qed.
Lemma append_ok : forall sup v m, wf m -> (length (simp m) <= 3)%nat -> exists f m', append sup v m = Some m' /\ wf m' /\
  simp m' = simp m ++ [(f, 0)] /\ verts m' = verts m ++ [Vtx (normalized v) (sup (normalized v))] /\ (forall k, In k (slots m) -> store m' k = store m k).
Proof.
  intros sup v m W L. pose proof (wf_len m W) as Le. unfold append. destruct (free m) as [|f fr] eqn:Ef; [cbn in Le; lia|].
  assert (Nf : ~ In f (slots m)).
  { assert (N : NoDup (slots m ++ free m)) by (apply (Permutation_NoDup (Permutation_sym W)); repeat constructor; cbn; lia). rewrite Ef in N. apply NoDup_remove_2 in N. intros H. apply N, in_or_app. auto. }
  eexists f, _. split; [reflexivity|]. split; [|split; [reflexivity|split]].
  - unfold wf, slots in *. cbn [simp free]. rewrite map_app, <- app_assoc. cbn. rewrite Ef in W. exact W.
  - unfold verts. cbn [simp store]. rewrite map_app. f_equal; [|cbn; unfold put; rewrite Nat.eqb_refl; reflexivity].
    apply map_ext_in. intros s Hs. apply put_other. intros E. apply Nf. rewrite <- E. apply in_map, Hs.
  - intros k Hk. cbn [store]. apply put_other. intros ->. contradiction.
Qed.
Lemma remove_ok : forall m s l, wf m -> simp m = l ++ [s] -> exists m', remove m = Some m' /\ wf m' /\ simp m' = l /\ store m' = store m /\ verts m = verts m' ++ [store m (fst s)].
Proof.
  intros m s l W E. unfold remove. rewrite E, rev_app_distr. cbn [rev app]. eexists. split; [reflexivity|]. split; [|split; [apply rev_involutive|split; [reflexivity|]]].
  - unfold wf, slots in *. cbn [simp free]. rewrite rev_involutive. rewrite E, map_app, <- app_assoc in W. cbn in W. exact W.
  - unfold verts. cbn [simp store]. rewrite rev_involutive, E, map_app. reflexivity.
Qed.
Lemma kept_freed : forall r s i fr, Permutation (map fst (kept r i s) ++ freed r i s fr) (map fst s ++ fr).
Proof.
  intros r. induction s as [|[k w] s IH]; intros i fr; cbn [kept freed map app]; [reflexivity|]. destruct (enc r i); cbn [map app fst].
  - constructor. apply IH.
  - rewrite IH. symmetry. apply Permutation_middle.
Qed.
Lemma rebuild_wf : forall r m, wf m -> wf (rebuild r m).
Proof. intros r m W. unfold wf, slots, rebuild. cbn [simp free]. rewrite kept_freed. exact W. Qed.
Lemma kept_select : forall r s i, map fst (kept r i s) = select (enc r) i (map fst s).
Proof. intros r. induction s as [|[k w] s IH]; intros i; cbn; [reflexivity|]. destruct (enc r i); cbn; rewrite IH; reflexivity. Qed.
Lemma verts_slots : forall m, verts m = map (store m) (slots m).
Proof. intros. unfold verts, slots. rewrite map_map. reflexivity. Qed.
Lemma rebuild_verts : forall r m, verts (rebuild r m) = select (enc r) 0 (verts m).
Proof. intros r m. rewrite !verts_slots. unfold slots, rebuild. cbn [simp store]. rewrite kept_select, select_map. reflexivity. Qed.
Lemma kept_len : forall r s i, (length (kept r i s) <= length s)%nat.
Proof. intros r. induction s as [|[k w] s IH]; intros i; cbn; [lia|]. destruct (enc r i); cbn; specialize (IH (S i)); lia. Qed.
Lemma kept_three : forall r s, (length s <= 4)%nat -> encode15 r = false -> (length (kept r 0 s) <= 3)%nat.
Proof.
  intros r s L E. destruct s as [|[k0 w0] [|[k1 w1] [|[k2 w2] [|[k3 w3] [|x s]]]]]; cbn [length] in L; try lia; cbn [kept];
  unfold encode15 in E; destruct (enc r 0), (enc r 1), (enc r 2), (enc r 3); cbn in *; try lia; discriminate.
Qed.

(** ** Weights *)
Fixpoint wavg (g : nat -> v3) (s : list (nat * R)) : v3 := match s with [] => vzero | e :: s' => vadd (vscale (snd e) (g (fst e))) (wavg g s') end.
Fixpoint wtot (s : list (nat * R)) : R := match s with [] => 0 | e :: s' => snd e + wtot s' end.
Definition nonneg (s : list (nat * R)) : Prop := Forall (fun e => 0 <= snd e) s.
Lemma fold_wavg : forall g s a, fold_left (fun a e => vadd a (vscale (snd e) (g (fst e)))) s a = vadd a (wavg g s).
Proof. intros g. induction s as [|e s IH]; intros a; cbn [fold_left wavg]; [vcoords|]. rewrite IH. generalize (wavg g s). intros u. vcoords. Qed.
Lemma zero_add : forall v, vadd vzero v = v. Proof. intros v. vcoords. Qed.
Lemma combine_wavg : forall m s, combine_w m s = wavg (fun k => vw (store m k)) s.
Proof. intros. unfold combine_w. rewrite (fold_wavg (fun k => vw (store m k))). apply zero_add. Qed.
Lemma weighted_wavg : forall f m, weighted f m = wavg (fun k => f (vd (store m k))) (simp m).
Proof. intros. unfold weighted. rewrite (fold_wavg (fun k => f (vd (store m k)))). apply zero_add. Qed.
Lemma wavg_ext : forall f g s, (forall k, In k (map fst s) -> f k = g k) -> wavg f s = wavg g s.
Proof. intros f g. induction s as [|e s IH]; intros H; cbn [wavg]; [reflexivity|]. rewrite (H (fst e)) by (cbn; auto). f_equal. apply IH. intros k Hk. apply H. cbn; auto. Qed.
Lemma wavg_sub : forall f g s, wavg (fun k => vsub (f k) (g k)) s = vsub (wavg f s) (wavg g s).
Proof. intros f g. induction s as [|e s IH]; cbn [wavg]; [vcoords|]. rewrite IH. generalize (wavg f s) (wavg g s). intros u v. vcoords. Qed.
Lemma kept_wavg : forall r g, (forall k, enc r k = false -> par r k = 0) -> forall s i, wavg g (kept r i s) = combo (par r) i (map g (map fst s)).
Proof.
  intros r g H. induction s as [|[k w] s IH]; intros i; cbn [kept map combo fst]; [reflexivity|]. destruct (enc r i) eqn:E; cbn [wavg fst snd]; rewrite IH; [reflexivity|]. rewrite (H i E). vcoords.
Qed.
Lemma kept_wtot : forall r, (forall k, enc r k = false -> par r k = 0) -> forall s i, wtot (kept r i s) = total (par r) i (length s).
Proof. intros r H. induction s as [|[k w] s IH]; intros i; cbn [kept length total]; [reflexivity|]. destruct (enc r i) eqn:E; cbn [wtot snd]; rewrite IH; [reflexivity|]. rewrite (H i E). ring. Qed.
Lemma kept_nonneg : forall r, (forall k, 0 <= par r k) -> forall s i, nonneg (kept r i s).
Proof. intros r H. induction s as [|[k w] s IH]; intros i; cbn [kept]; [constructor|]. destruct (enc r i); [constructor; [apply H|apply IH]|apply IH]. Qed.
Lemma wtot_nonneg : forall s, nonneg s -> 0 <= wtot s.
Proof. induction 1; cbn [wtot]; lra. Qed.
Lemma wavg_zero : forall g s, nonneg s -> wtot s = 0 -> wavg g s = vzero.
Proof.
  intros g s H. induction H as [|e s He Hs IH]; intros T; cbn [wavg wtot] in *; [reflexivity|]. pose proof (wtot_nonneg s Hs). rewrite IH by lra. replace (snd e) with 0 by lra. vcoords.
Qed.
(** any projection the loop goes on with is a convex combination of the vertices *)
Lemma project_conv : forall l, 0 <= sd (project l) -> let r := project l in
  (forall k, 0 <= par r k) /\ total (par r) 0 (length l) = 1 /\ (forall k, enc r k = false -> par r k = 0).
Proof.
  intros l H r.
  assert (NE : (forall k, par r k <> 0 -> enc r k = true) -> forall k, enc r k = false -> par r k = 0) by (intros Hk k E; destruct (Req_dec (par r k) 0) as [|N]; [assumption|rewrite (Hk k N) in E; discriminate]).
  assert (Tri : forall a b c, 0 <= sd (project_triangle a b c vzero) -> 0 < norm2 (cross (vsub a b) (vsub b c))).
  { intros a b c. unfold project_triangle. cbv zeta. destruct (Rlt_dec 0 (norm2 (cross (vsub a b) (vsub b c)))); [auto|]. cbn. lra. }
  fold r in H. destruct l as [|a [|b [|c [|d [|e l]]]]]; try (exfalso; revert H; unfold r; cbn; lra).
  - assert (Er : r = project_line a b vzero) by apply line_origin. rewrite Er in *. clear Er r.
    assert (Hl : 0 < norm2 (vsub b a)) by (revert H; unfold project_line; cbv zeta; destruct (Rlt_dec 0 (norm2 (vsub b a))); [auto|cbn; lra]).
    destruct (line_spec a b vzero Hl) as (W & W0 & Wk & _ & _ & E & _). split; [|split].
    + intros [|[|k]]; [lra|lra|rewrite Wk by lia; lra].
    + cbn [length total]. lra.
    + apply NE. intros k N. destruct k as [|[|k]]; [apply E; auto; lia|apply E; auto; lia|]. exfalso. apply N, Wk. lia.
  - assert (Er : r = project_triangle a b c vzero) by apply triangle_origin. rewrite Er in *. clear Er r.
    destruct (tri_spec a b c vzero (Tri a b c H)) as (P0 & P1 & _ & _ & _ & E & _). split; [exact P0|split; [cbn [length total]; lra|apply NE, E]].
  - assert (Er : r = project_tetra a b c d vzero) by apply tetra_origin. rewrite Er in *. clear Er r.
    destruct (Rle_dec (triple (vsub a d) (vsub b d) (vsub c d) * dot (vsub a vzero) (cross (vsub b c) (vsub a b))) 0) as [L|G].
    + assert (Hv : triple (vsub a d) (vsub b d) (vsub c d) <> 0).
      { intros Z. revert H. unfold project_tetra. cbv zeta. rewrite Z, Rabs_R0. destruct (Rle_dec _ 0); [|lra]. unfold pos. destruct (Rlt_dec 0 0); [lra|]. cbn. lra. }
      destruct (tet_spec a b c d vzero Hv) as (P0 & P1 & _ & _ & _ & E & _); [unfold outside_d; lra|]. split; [exact P0|split; [cbn [length total]; lra|apply NE, E]].
    + assert (Er : project_tetra a b c d vzero = project_triangle a b c vzero) by (unfold project_tetra; cbv zeta; destruct (Rle_dec (triple (vsub a d) (vsub b d) (vsub c d) * dot (vsub a vzero) (cross (vsub b c) (vsub a b))) 0); [contradiction|reflexivity]).
      rewrite Er in *. destruct (tri_spec a b c vzero (Tri a b c H)) as (P0 & P1 & P2 & _ & _ & E & _). split; [exact P0|split; [cbn [length total]; rewrite (P2 3%nat) by lia; lra|apply NE, E]].
Qed.
Lemma normalized_norm2 : forall v, v <> vzero -> norm2 (normalized v) = 1.
Proof.
  intros v H. pose proof (nz_pos v H) as P. unfold normalized. destruct (Rlt_dec 0 (norm2 v)); [|lra]. unfold norm2 at 1. rewrite dot_scale_l, dot_scale_r. change (dot v v) with (norm2 v). rewrite <- norm_sq. assert (0 < norm v) by (apply sqrt_lt_R0, P). field. lra.
Qed.
Lemma normalized_scale : forall v, v <> vzero -> exists k, 0 < k /\ normalized v = vscale k v.
Proof.
  intros v H. pose proof (nz_pos v H) as P. unfold normalized. destruct (Rlt_dec 0 (norm2 v)); [|lra]. exists (/ norm v). split; [|reflexivity]. apply Rinv_0_lt_compat, sqrt_lt_R0, P.
Qed.
