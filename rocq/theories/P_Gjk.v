(** C75: GJK ends with a convex combination of support points; what its three answers say. *)
From Coq Require Import Reals Lra Lia List Bool Permutation.
From Verif Require Import VecR Motion Prim P_Prim ShapeBV P_ShapeBV HalfBV P_HalfBV HalfQuery P_HalfQuery P_PlaneQuery Project Support P_Support Gjk.
Import ListNotations.
Open Scope R_scope.

(** ** Meaning *)
(** What every state of the loop is like: the four slots are divided between simplex and free list,
    every vertex is the support point of its unit direction, the weights are those of a convex
    combination and the ray is the point they describe. *)
Record combined (sup : v3 -> v3) (most : nat) (g : gst) : Prop := {
  co_wf : wf (gm g);
  co_rank : (1 <= length (simp (gm g)) <= most)%nat;
  co_ray : ray g = wavg (fun k => vw (store (gm g) k)) (simp (gm g));
  co_nonneg : nonneg (simp (gm g));
  co_one : wtot (simp (gm g)) = 1;
  co_sup : forall v, In v (verts (gm g)) -> norm2 (vd v) = 1 /\ vw v = sup (vd v) }.

Lemma combined_more : forall sup a b g, (a <= b)%nat -> combined sup a g -> combined sup b g.
Proof. intros sup a b g H []. constructor; auto. lia. Qed.
Lemma neg_nz : forall v, v <> vzero -> vneg v <> vzero.
Proof. intros v H E. apply H. apply norm2_zero. rewrite <- norm2_neg, E. coords. Qed.
Lemma ray_nz : forall tol v, 0 < tol -> ~ norm v < tol -> v <> vzero.
Proof. intros tol v T N ->. rewrite norm_vzero in N. lra. Qed.
(** appending the support point of the opposite of the ray *)
Lemma append_step : forall sup g, combined sup 3 g -> ray g <> vzero -> let d := normalized (vneg (ray g)) in
  exists f m1, append sup (vneg (ray g)) (gm g) = Some m1 /\ wf m1 /\ simp m1 = simp (gm g) ++ [(f, 0)] /\
  verts m1 = verts (gm g) ++ [Vtx d (sup d)] /\ points_of m1 = points_of (gm g) ++ [sup d] /\
  vw (last (verts m1) (Vtx vzero vzero)) = sup d /\ norm2 d = 1 /\ (forall k, In k (slots (gm g)) -> store m1 k = store (gm g) k).
Proof.
  intros sup g C N d. destruct (append_ok sup (vneg (ray g)) (gm g) (co_wf _ _ _ C)) as (f & m1 & A & W & S & V & St); [apply C|].
  exists f, m1. split; [exact A|split; [exact W|split; [exact S|split; [exact V|split; [|split; [|split]]]]]].
  - unfold points_of. rewrite V, map_app. reflexivity.
  - rewrite V, last_last. reflexivity.
  - apply normalized_norm2, neg_nz, N.
  - exact St.
Qed.
(** giving it back restores the state *)
Lemma give_up_step : forall sup g l c a f m1, combined sup 3 g -> wf m1 -> simp m1 = simp (gm g) ++ [(f, 0)] ->
  (forall k, In k (slots (gm g)) -> store m1 k = store (gm g) k) -> verts m1 = verts (gm g) ++ [store m1 f] ->
  exists g', give_up m1 (Gst m1 (ray g) l c a) = Some (Valid, g') /\ combined sup 3 g' /\ ray g' = ray g /\ lastw g' = l /\ alpha g' = a /\ simp (gm g') = simp (gm g) /\ verts (gm g') = verts (gm g).
Proof.
  intros sup g l c a f m1 C W S St V. destruct (remove_ok m1 (f, 0) (simp (gm g)) W S) as (m' & Rm & W' & S' & St' & V').
  assert (Vv : verts m' = verts (gm g)) by (rewrite V in V'; cbn [fst] in V'; apply app_inv_tail in V'; auto).
  unfold give_up. rewrite Rm. eexists. split; [reflexivity|]. cbn [gm ray lastw alpha]. split; [|auto 10]. constructor; cbn [gm ray].
  - exact W'.
  - rewrite S'. apply C.
  - rewrite S'. rewrite (co_ray _ _ _ C). apply wavg_ext. intros k Hk. rewrite St', St; auto.
  - rewrite S'. apply C.
  - rewrite S'. apply C.
  - rewrite Vv. apply C.
Qed.
(** the projected simplex *)
Lemma rebuild_step : forall sup m1 l c a, wf m1 -> (length (simp m1) <= 4)%nat -> (forall v, In v (verts m1) -> norm2 (vd v) = 1 /\ vw v = sup (vd v)) ->
  let r := project (points_of m1) in 0 <= sd r ->
  let m2 := rebuild r m1 in let g2 := Gst m2 (combine_w m2 (simp m2)) l c a in
  combined sup 4 g2 /\ (encode15 r = false -> combined sup 3 g2) /\ ray g2 = combo (par r) 0 (points_of m1) /\ points_of m2 = select (enc r) 0 (points_of m1).
Proof.
  intros sup m1 l c a W L HS r Hr m2 g2. destruct (project_conv (points_of m1) Hr) as (P0 & P1 & P2). fold r in P0, P1, P2.
  assert (Lp : length (points_of m1) = length (simp m1)) by (unfold points_of, verts; rewrite !map_length; reflexivity).
  assert (T1 : wtot (simp m2) = 1) by (unfold m2, rebuild; cbn [simp]; rewrite kept_wtot by exact P2; rewrite <- Lp; exact P1).
  assert (G : combined sup 4 g2).
  { constructor; cbn [g2 gm ray].
    - apply rebuild_wf, W.
    - split; [destruct (simp m2); cbn in *; [lra|lia]|]. unfold m2, rebuild. cbn [simp]. pose proof (kept_len r (simp m1) 0). lia.
    - apply combine_wavg.
    - apply kept_nonneg, P0.
    - exact T1.
    - intros v. unfold m2. rewrite rebuild_verts. intros Hv. apply select_In in Hv. destruct Hv as (k & Hk & _ & Ek). apply HS. rewrite <- (Ek v). apply nth_In, Hk. }
  split; [exact G|split; [|split]].
  - intros E. destruct G. constructor; auto. split; [lia|]. cbn [g2 gm]. unfold m2, rebuild. cbn [simp]. apply kept_three; auto.
  - cbn [g2 ray]. rewrite combine_wavg. unfold m2, rebuild. cbn [simp store]. rewrite kept_wavg by exact P2. f_equal. unfold points_of, verts. rewrite !map_map. reflexivity.
  - unfold points_of, m2. rewrite rebuild_verts, select_map. reflexivity.
Qed.

(** ** One iteration *)
Definition turned (tol : R) (g : gst) (w : v3) : list v3 := set_nth ((clastw g + 1) mod 4) w (lastw g).
Definition alpha' (g : gst) (w : v3) : R := Rmax (alpha g) (dot (ray g) w / norm (ray g)).
(** the state without the new vertex *)
Definition back (sup : v3 -> v3) (g g' : gst) (l : list v3) (a : R) : Prop :=
  combined sup 3 g' /\ ray g' = ray g /\ lastw g' = l /\ alpha g' = a /\ simp (gm g') = simp (gm g) /\ verts (gm g') = verts (gm g).
Lemma loop_cases : forall sup tol left g, 0 < tol -> combined sup 3 g -> let w := sup (normalized (vneg (ray g))) in
  (norm (ray g) < tol /\ loop sup tol left g = Some (Inside, g)) \/
  (tol <= norm (ray g) /\ near_last tol w (lastw g) = true /\ exists g', loop sup tol left g = Some (Valid, g') /\ back sup g g' (lastw g) (alpha g)) \/
  (tol <= norm (ray g) /\ near_last tol w (lastw g) = false /\
   (((norm (ray g) - alpha' g w) - tol * norm (ray g) <= 0 \/ sd (project (points_of (gm g) ++ [w])) < 0) /\
    exists g', loop sup tol left g = Some (Valid, g') /\ back sup g g' (turned tol g w) (alpha' g w)) \/
  (tol <= norm (ray g) /\ near_last tol w (lastw g) = false /\ 0 < (norm (ray g) - alpha' g w) - tol * norm (ray g) /\
   let r := project (points_of (gm g) ++ [w]) in 0 <= sd r /\
   exists g2, combined sup 4 g2 /\ (encode15 r = false -> combined sup 3 g2) /\ ray g2 = combo (par r) 0 (points_of (gm g) ++ [w]) /\
     points_of (gm g2) = select (enc r) 0 (points_of (gm g) ++ [w]) /\ lastw g2 = turned tol g w /\ alpha g2 = alpha' g w /\ clastw g2 = ((clastw g + 1) mod 4)%nat /\
     loop sup tol left g = match left with O => Some (Failed, g2) | S left' => if encode15 r then Some (Inside, g2) else loop sup tol left' g2 end)).
Proof.
  intros sup tol left g T C w.
  assert (EL : loop sup tol left g = if Rlt_dec (norm (ray g)) tol then Some (Inside, g) else match append sup (vneg (ray g)) (gm g) with
    | None => None
    | Some m1 => let w := vw (last (verts m1) (Vtx vzero vzero)) in if near_last tol w (lastw g) then give_up m1 g else
        let g1 := Gst m1 (ray g) (turned tol g w) ((clastw g + 1) mod 4) (alpha' g w) in
        if Rle_dec ((norm (ray g) - alpha' g w) - tol * norm (ray g)) 0 then give_up m1 g1 else
        let r := project (points_of m1) in if Rle_dec 0 (sd r) then
          let m2 := rebuild r m1 in let g2 := Gst m2 (combine_w m2 (simp m2)) (turned tol g w) ((clastw g + 1) mod 4) (alpha' g w) in
          match left with O => Some (Failed, g2) | S left' => if encode15 r then Some (Inside, g2) else loop sup tol left' g2 end
        else give_up m1 g1 end) by (destruct left; reflexivity).
  rewrite EL. clear EL. destruct (Rlt_dec (norm (ray g)) tol) as [L|N]; [left; auto|right]. pose proof (ray_nz tol _ T N) as Nz. apply Rnot_lt_le in N.
  destruct (append_step sup g C Nz) as (f & m1 & -> & W & S & V & Pt & -> & U & St). cbv zeta. fold w in V, Pt |- *.
  assert (Vf : verts m1 = verts (gm g) ++ [store m1 f]). { unfold verts. rewrite S, map_app. cbn [map fst]. f_equal. apply map_ext_in. intros s Hs. apply St. apply in_map, Hs. }
  destruct (near_last tol w (lastw g)) eqn:NL; [left|right].
  { split; [exact N|split; [reflexivity|]]. destruct (give_up_step sup g (lastw g) (clastw g) (alpha g) f m1 C W S St Vf) as (g' & G & B). unfold give_up in *. cbn [ray lastw clastw alpha] in *. rewrite G. exists g'. split; [reflexivity|exact B]. }
  destruct (give_up_step sup g (turned tol g w) ((clastw g + 1) mod 4) (alpha' g w) f m1 C W S St Vf) as (g' & -> & B). rewrite Pt.
  destruct (Rle_dec ((norm (ray g) - alpha' g w) - tol * norm (ray g)) 0) as [Lc|Nc].
  { left. split; [exact N|split; [reflexivity|split; [left; exact Lc|exists g'; split; [reflexivity|exact B]]]]. }
  destruct (Rle_dec 0 (sd (project (points_of (gm g) ++ [w])))) as [Ls|Ns].
  2: { left. split; [exact N|split; [reflexivity|split; [right; lra|exists g'; split; [reflexivity|exact B]]]]. }
  right. split; [exact N|split; [reflexivity|split; [lra|split; [exact Ls|]]]].
  destruct (rebuild_step sup m1 (turned tol g w) ((clastw g + 1) mod 4) (alpha' g w) W) as (C4 & C3 & Er & Ep).
  - rewrite S, app_length. destruct C. cbn. lia.
  - intros v Hv. rewrite V in Hv. apply in_app_or in Hv. destruct Hv as [Hv|[<-|[]]]; [apply C, Hv|auto].
  - rewrite Pt. exact Ls.
  - rewrite Pt in *. eexists. split; [exact C4|]. split; [exact C3|split; [exact Er|split; [exact Ep|auto 10]]].
Qed.

(** ** Any support function *)
Lemma loop_combined : forall sup tol left g, 0 < tol -> combined sup 3 g ->
  exists st g', loop sup tol left g = Some (st, g') /\ combined sup 4 g' /\ (st = Valid -> combined sup 3 g' /\ tol <= norm (ray g')).
Proof.
  intros sup tol left g T. revert g. induction left as [|left IH]; intros g C;
  (match goal with |- context [loop sup tol ?n g] => destruct (loop_cases sup tol n g T C) as [[L ->]|[(L & _ & g' & -> & B & Er & _)|[(L & _ & _ & g' & -> & B & Er & _)|(L & _ & _ & _ & g2 & C4 & C3 & _ & _ & _ & _ & _ & ->)]]] end;
   [eexists _, _; split; [reflexivity|split; [apply (combined_more sup 3); [lia|exact C]|discriminate]]
   |eexists _, _; split; [reflexivity|split; [apply (combined_more sup 3); [lia|exact B]|intros _; rewrite Er; auto]]
   |eexists _, _; split; [reflexivity|split; [apply (combined_more sup 3); [lia|exact B]|intros _; rewrite Er; auto]]|]).
  - eexists _, _. split; [reflexivity|]. split; [exact C4|discriminate].
  - destruct (encode15 _); [eexists _, _; split; [reflexivity|]; split; [exact C4|discriminate]|]. apply IH, C3. reflexivity.
Qed.
Lemma init_ok : forall sup guess, let d := normalized (start_dir guess) in exists g, init sup guess = Some g /\ combined sup 3 g /\
  norm2 d = 1 /\ points_of (gm g) = [sup d] /\ ray g = sup d /\ lastw g = [sup d; sup d; sup d; sup d] /\ alpha g = 0 /\ clastw g = 0%nat.
Proof.
  intros sup guess d. assert (N : start_dir guess <> vzero).
  { unfold start_dir. destruct (Rlt_dec 0 (norm2 guess)) as [L|_]; [apply neg_nz; intros ->; revert L; coords; lra|]. intros E. apply (f_equal c0) in E. cbn in E. lra. }
  assert (U : norm2 d = 1) by (apply normalized_norm2, N). unfold init. cbn [append free simp app map]. fold d. eexists. split; [reflexivity|].
  cbn [gm ray lastw alpha clastw points_of verts store simp map fst last vw]. unfold put. cbn [Nat.eqb vw vd]. split; [|auto 10]. constructor; cbn [gm ray simp verts store map fst].
  - unfold wf, slots. cbn [simp free map fst app]. apply Permutation_sym. change [0; 1; 2; 3]%nat with (rev [3; 2; 1; 0]%nat). apply Permutation_sym, Permutation_rev.
  - cbn. lia.
  - cbn [wavg fst snd Nat.eqb vw]. vcoords.
  - repeat constructor. cbn. lra.
  - cbn. lra.
  - intros v [<-|[]]. cbn [Nat.eqb vd vw]. auto.
Qed.
(** C75: for any support function the iteration neither takes a slot from an empty free list nor drops a
    vertex from an empty simplex, it ends, and what it ends with is a convex combination of at most
    four support points of unit directions - at most three, away from the origin, when the answer is Valid. *)
Theorem evaluate_combined : forall sup tol n guess, 0 < tol ->
  exists st g, evaluate sup tol n guess = Some (st, g) /\ combined sup 4 g /\ (st = Valid -> combined sup 3 g /\ tol <= norm (ray g)).
Proof.
  intros sup tol n guess T. unfold evaluate. destruct (init_ok sup guess) as (g & -> & C & _). apply loop_combined; auto.
Qed.
Print Assumptions evaluate_combined.

(** ** A true support function *)
Definition supports (sup : v3 -> v3) (K : v3 -> Prop) : Prop := forall d, norm2 d = 1 -> extreme K d (sup d).
(** All vertices of the simplex lie on the plane through the ray and normal to it, they are affinely
    independent, alpha is a lower bound of the distance, the cached points belong to the body. *)
Record geo (K : v3 -> Prop) (g : gst) : Prop := {
  ge_flat : forall x, In x (points_of (gm g)) -> dot (ray g) x = norm2 (ray g);
  ge_indep : indep (points_of (gm g));
  ge_alpha : forall x, K x -> alpha g <= norm x;
  ge_last : forall x, In x (lastw g) -> K x }.
Lemma lowest : forall sup K q x, supports sup K -> q <> vzero -> K x -> dot q (sup (normalized (vneg q))) <= dot q x.
Proof.
  intros sup K q x H N Kx. destruct (H _ (normalized_norm2 _ (neg_nz q N))) as [_ E]. specialize (E x Kx). destruct (normalized_scale _ (neg_nz q N)) as (k & Hk & Ek). set (w := sup (normalized (vneg q))) in *. rewrite Ek in E. rewrite !dot_scale_l, !dot_neg_l in E.
  apply Rmult_le_reg_l with k; [exact Hk|]. lra.
Qed.
Lemma set_nth_In : forall A i (y : A) l x, In x (set_nth i y l) -> x = y \/ In x l.
Proof. intros A i y l. revert i. induction l as [|z l IH]; intros i x H; [destruct i; contradiction|]. destruct i as [|i]; cbn in *; [destruct H; auto|]. destruct H as [H|H]; [auto|]. destruct (IH _ _ H); auto. Qed.
Lemma near_last_In : forall tol w l, near_last tol w l = true <-> exists x, In x l /\ norm2 (vsub w x) < tol.
Proof. intros tol w l. unfold near_last. rewrite existsb_exists. split; intros (x & A & B); exists x; split; auto; destruct (Rlt_dec (norm2 (vsub w x)) tol); auto; discriminate. Qed.
Lemma alpha_bound : forall sup K g x, supports sup K -> geo K g -> ray g <> vzero -> K x -> alpha' g (sup (normalized (vneg (ray g)))) <= norm x.
Proof.
  intros sup K g x H G N Kx. unfold alpha'. apply Rmax_lub; [apply G, Kx|]. pose proof (norm_pos _ N) as P. apply Rmult_le_reg_r with (norm (ray g)); [exact P|]. replace (dot (ray g) (sup (normalized (vneg (ray g)))) / norm (ray g) * norm (ray g)) with (dot (ray g) (sup (normalized (vneg (ray g))))) by (field; lra).
  apply Rle_trans with (1 := lowest sup K _ x H N Kx). rewrite (Rmult_comm (norm x)). apply cauchy_schwarz.
Qed.
Lemma strictly_below : forall g w tol, 0 < tol -> ray g <> vzero -> 0 < (norm (ray g) - alpha' g w) - tol * norm (ray g) -> dot (ray g) w < norm2 (ray g).
Proof.
  intros g w tol T N H. pose proof (norm_pos _ N) as P. pose proof (Rmax_r (alpha g) (dot (ray g) w / norm (ray g))) as M. fold (alpha' g w) in M.
  assert (0 < tol * norm (ray g)) by (apply Rmult_lt_0_compat; lra). assert (L : dot (ray g) w / norm (ray g) < norm (ray g)) by lra.
  apply Rmult_lt_compat_r with (r := norm (ray g)) in L; [|exact P]. replace (dot (ray g) w / norm (ray g) * norm (ray g)) with (dot (ray g) w) in L by (field; lra). rewrite norm_sq in L. exact L.
Qed.
Lemma points_len : forall m, length (points_of m) = length (simp m).
Proof. intros. unfold points_of, verts. rewrite !map_length. reflexivity. Qed.
Lemma step_near : forall sup tol g, 0 < tol -> combined sup 3 g -> ray g <> vzero -> (forall x, In x (points_of (gm g)) -> dot (ray g) x = norm2 (ray g)) -> indep (points_of (gm g)) ->
  let w := sup (normalized (vneg (ray g))) in 0 < (norm (ray g) - alpha' g w) - tol * norm (ray g) ->
  let l := points_of (gm g) ++ [w] in (2 <= length l)%nat /\ indep l /\ facing l.
Proof.
  intros sup tol g T C N F I w H l. unfold l. rewrite app_length, points_len. split; [destruct C; cbn; lia|]. apply (indep_app _ (ray g)); auto; [rewrite points_len; apply C|apply nz_pos, N|]. exact (strictly_below g w tol T N H).
Qed.
(** What the answers mean for the body [K]. *)
Definition answer (sup : v3 -> v3) (K : v3 -> Prop) (tol : R) (st : status) (g : gst) : Prop :=
  match st with
  | Inside => norm (ray g) < tol
  | Valid => tol <= norm (ray g) /\ (forall x, In x (points_of (gm g)) -> dot (ray g) x = norm2 (ray g)) /\ (forall x, In x (lastw g) -> K x) /\
      ((forall x, K x -> (1 - tol) * norm (ray g) <= norm x) \/
       (exists l, In l (lastw g) /\ norm2 (vsub (sup (normalized (vneg (ray g)))) l) < tol))
  | Failed => True
  end.
Lemma loop_geo : forall sup K tol left g, supports sup K -> 0 < tol -> combined sup 3 g -> geo K g ->
  exists st g', loop sup tol left g = Some (st, g') /\ answer sup K tol st g'.
Proof.
  intros sup K tol left g HS T. revert g. induction left as [|left IH]; intros g C G;
  (match goal with |- context [loop sup tol ?n g] => destruct (loop_cases sup tol n g T C) as [[L ->]|[(L & B & g' & -> & C' & Er & El & Ea & Es & Ev)|[(L & _ & CC & g' & -> & C' & Er & El & Ea & Es & Ev)|(L & _ & NC & _ & g2 & C4 & C3 & Er & Ep & El & Ea & _ & ->)]]] end;
   [eexists _, _; split; [reflexivity|exact L]| | |]);
  try (assert (Nz : ray g <> vzero) by (apply (ray_nz tol); lra)).
  all: try (eexists _, _; split; [reflexivity|]; cbn [answer]; rewrite Er, El; unfold points_of; rewrite Ev; fold (points_of (gm g)); split; [exact L|split; [apply G|split; [|]]]; [|]).
  all: try (right; apply near_last_In, B).
  all: try apply G.
  all: try (intros x Hx; apply set_nth_In in Hx; destruct Hx as [->|Hx]; [apply HS, normalized_norm2, neg_nz, Nz|apply G, Hx]).
  1, 3: (left; intros x Kx; pose proof (alpha_bound sup K g x HS G Nz Kx) as A; destruct (Rle_dec (norm (ray g) - alpha' g (sup (normalized (vneg (ray g)))) - tol * norm (ray g)) 0) as [Lc|Nc]; [lra|];
    destruct CC as [CC|CC]; [lra|]; destruct (step_near sup tol g T C Nz (ge_flat _ _ G) (ge_indep _ _ G) ltac:(lra)) as (P1 & P2 & P3);
    destruct (project_near _ P1 P2 P3) as (_ & _ & E & _); pose proof (norm2_nonneg (combo (par (project (points_of (gm g) ++ [sup (normalized (vneg (ray g)))]))) 0 (points_of (gm g) ++ [sup (normalized (vneg (ray g)))]))); lra).
  - eexists _, _. split; [reflexivity|exact I].
  - destruct (step_near sup tol g T C Nz (ge_flat _ _ G) (ge_indep _ _ G) NC) as (P1 & P2 & P3). destruct (project_near _ P1 P2 P3) as (_ & _ & _ & _ & _ & Fl & E15). rewrite <- Er in Fl, E15.
    destruct (encode15 _) eqn:E.
    + eexists _, _. split; [reflexivity|]. cbn. destruct (E15 eq_refl) as [_ ->]. rewrite norm_vzero. exact T.
    + apply IH; [apply C3; reflexivity|]. constructor.
      * rewrite Ep. intros x Hx. apply select_In in Hx. destruct Hx as (k & Hk & Ek & Nk). rewrite <- (Nk vzero). apply Fl; auto.
      * rewrite Ep. apply indep_select; [exact P2|]. rewrite <- Ep. intros Z. apply (f_equal (@length v3)) in Z. rewrite points_len in Z. cbn in Z. destruct C4. lia.
      * intros x Kx. rewrite Ea. apply (alpha_bound sup K); auto.
      * intros x. rewrite El. intros Hx. apply set_nth_In in Hx. destruct Hx as [->|Hx]; [apply HS, normalized_norm2, neg_nz, Nz|apply G, Hx].
Qed.
(** C75: Inside means that a convex combination of support points is within the tolerance of the origin.
    Valid means that either no point of the body is nearer to the origin than (1 - tolerance) times the
    ray, or the support point opposite to the ray was within the square root of the tolerance of one of the
    cached four. *)
Theorem evaluate_answer : forall sup K tol n guess, supports sup K -> 0 < tol ->
  exists st g, evaluate sup tol n guess = Some (st, g) /\ answer sup K tol st g.
Proof.
  intros sup K tol n guess HS T. unfold evaluate. destruct (init_ok sup guess) as (g & -> & C & U & Ep & Er & El & Ea & _). apply loop_geo; auto.
  assert (Kd : K (sup (normalized (start_dir guess)))) by (apply HS, U). constructor.
  - rewrite Ep, Er. intros x [<-|[]]. reflexivity.
  - rewrite Ep. exact I.
  - intros x _. rewrite Ea. apply norm_nonneg.
  - rewrite El. intros x Hx. cbn in Hx. intuition congruence.
Qed.
Print Assumptions evaluate_answer.
(** C75: the second way to Valid is right up to the square root of the tolerance if the cached point is
    still in the simplex, or more generally not nearer than the ray. *)
Theorem repeat_bound : forall sup K tol q l, supports sup K -> q <> vzero -> norm2 (vsub (sup (normalized (vneg q))) l) < tol -> norm2 q <= dot q l ->
  forall x, K x -> norm q - sqrt tol <= norm x.
Proof.
  intros sup K tol q l HS N B F x Kx. pose proof (lowest sup K q x HS N Kx) as Lo. set (w := sup _) in *. pose proof (norm_pos _ N) as P.
  assert (S : norm (vsub l w) <= sqrt tol). { unfold norm. apply sqrt_le_1_alt. rewrite norm2_sub_sym. lra. }
  pose proof (cauchy_schwarz q x) as C1. pose proof (cauchy_schwarz q (vsub l w)) as C2. rewrite dot_sub_r in C2. rewrite <- norm_sq in F.
  apply Rmult_le_reg_l with (norm q); [exact P|]. assert (norm q * norm (vsub l w) <= norm q * sqrt tol) by (apply Rmult_le_compat_l; lra). lra.
Qed.
Print Assumptions repeat_bound.

(** ** Shapes *)
Lemma in_tri_convex : forall a b c, convex (in_tri a b c).
Proof.
  intros a b c p q t (u & v & w & Hu & Hv & Hw & S & ->) (u' & v' & w' & Hu' & Hv' & Hw' & S' & ->) Ht.
  exists ((1 - t) * u + t * u'), ((1 - t) * v + t * v'), ((1 - t) * w + t * w').
  repeat (split; [apply Rplus_le_le_0_compat; apply Rmult_le_pos; lra|]). split; [replace ((1 - t) * u + t * u' + ((1 - t) * v + t * v') + ((1 - t) * w + t * w')) with ((1 - t) * (u + v + w) + t * (u' + v' + w')) by ring; rewrite S, S'; ring|]. vcoords.
Qed.
Lemma points_convex : forall s, sized s -> convex (points s).
Proof.
  intros s Z. destruct s; cbn [sized points] in *.
  - apply in_tri_convex.
  - apply box_convex.
  - apply ball_convex, Z.
  - apply ell_convex.
  - apply segment_convex, Z.
  - apply cone_convex, Z.
  - apply cyl_convex.
  - apply hull_convex.
  - contradiction.
Qed.
Lemma wavg_convex : forall (K : v3 -> Prop) g s, convex K -> (forall k, In k (map fst s) -> K (g k)) -> nonneg s -> 0 < wtot s -> K (vscale (/ wtot s) (wavg g s)).
Proof.
  intros K g s C H N. induction N as [|[k p] s Hp N IH]; intros T; cbn [wtot] in T; [lra|]. cbn [snd] in *. cbn [wtot wavg fst snd].
  pose proof (wtot_nonneg s N) as W. destruct (Req_dec (wtot s) 0) as [Z|Z].
  - rewrite (wavg_zero g s N Z), Z. replace (vscale (/ (p + 0)) (vadd (vscale p (g k)) vzero)) with (g k); [apply H; cbn; auto|]. apply v3_ext; unfold vadd, vscale, vzero; cbn [c0 c1 c2]; field; lra.
  - assert (IH' : K (vscale (/ wtot s) (wavg g s))) by (apply IH; [intros j Hj; apply H; cbn; auto|lra]).
    pose proof (C (g k) _ (wtot s / (p + wtot s)) (H k (or_introl eq_refl)) IH') as Q.
    replace (vscale (/ (p + wtot s)) (vadd (vscale p (g k)) (wavg g s))) with (vadd (g k) (vscale (wtot s / (p + wtot s)) (vsub (vscale (/ wtot s) (wavg g s)) (g k)))).
    + apply Q. assert (0 < wtot s) by lra. split; [apply Rlt_le, Rdiv_lt_0_compat; lra|]. apply Rmult_le_reg_r with (p + wtot s); [lra|]. unfold Rdiv. rewrite Rmult_assoc, Rinv_l by lra. lra.
    + generalize (wavg g s). intros u. apply v3_ext; unfold vadd, vsub, vscale; cbn [c0 c1 c2]; field; lra.
Qed.
Lemma wavg_convex1 : forall (K : v3 -> Prop) g s, convex K -> (forall k, In k (map fst s) -> K (g k)) -> nonneg s -> wtot s = 1 -> K (wavg g s).
Proof. intros K g s C H N T. replace (wavg g s) with (vscale (/ wtot s) (wavg g s)); [apply wavg_convex; auto; lra|]. rewrite T. apply v3_ext; unfold vscale; cbn [c0 c1 c2]; field. Qed.

(** The vertex loop's sentinel never interferes. *)
Definition in_range_all (big : R) (s : shape) : Prop := forall d, norm2 d = 1 -> in_range big s d.
(** The differences of points of the two placed shapes, in the first shape's frame. *)
Definition differences (s0 s1 : shape) (X0 X1 : tf) (x : v3) : Prop := mink (placed X0 (points s0)) (placed X1 (points s1)) (mapply (tf_rot X0) x).
Lemma support_supports : forall big s0 s1 X0 X1, sized s0 -> sized s1 -> ortho (tf_rot X0) -> ortho (tf_rot X1) -> in_range_all big s0 -> in_range_all big s1 ->
  supports (support big (mdiff_of s0 s1 X0 X1)) (differences s0 s1 X0 X1).
Proof.
  intros big s0 s1 X0 X1 Z0 Z1 O0 O1 I0 I1 d U. apply support_extreme; auto. apply I1. rewrite mt_norm2, mapply_norm2, norm2_neg; auto.
Qed.
(** the two weighted sums are points of the shapes and the ray is their difference *)
Lemma witness_points : forall big s0 s1 X0 X1 n g, sized s0 -> sized s1 -> ortho (tf_rot X0) -> ortho (tf_rot X1) -> in_range_all big s0 -> in_range_all big s1 ->
  let m := mdiff_of s0 s1 X0 X1 in combined (support big m) n g ->
  let w0 := weighted (support0 big m) (gm g) in let w1 := weighted (fun d => support1 big m (vneg d)) (gm g) in
  vsub w0 w1 = ray g /\ placed X0 (points s0) (tf_apply X0 w0) /\ placed X1 (points s1) (tf_apply X0 w1).
Proof.
  intros big s0 s1 X0 X1 n g Z0 Z1 O0 O1 I0 I1 m C w0 w1.
  assert (V : forall k, In k (map fst (simp (gm g))) -> norm2 (vd (store (gm g) k)) = 1 /\ vw (store (gm g) k) = support big m (vd (store (gm g) k))).
  { intros k Hk. apply C. rewrite verts_slots. apply in_map, Hk. }
  split; [|split].
  - unfold w0, w1. rewrite !weighted_wavg, <- wavg_sub, (co_ray _ _ _ C). apply wavg_ext. intros k Hk. destruct (V k Hk) as [_ ->]. reflexivity.
  - exists w0. split; [|reflexivity]. unfold w0. rewrite weighted_wavg. apply wavg_convex1; [apply points_convex, Z0| |apply C|apply C].
    intros k Hk. destruct (V k Hk) as [U _]. apply (get_support_extreme big s0 _ Z0 U). apply I0, U.
  - assert (Q : placed (tf_mul (tf_inverse X0) X1) (points s1) w1).
    { unfold w1. rewrite weighted_wavg. apply wavg_convex1; [apply placed_convex, points_convex, Z1| |apply C|apply C].
      intros k Hk. destruct (V k Hk) as [U _]. apply neg_norm2 in U. apply (second_extreme big s0 s1 X0 X1 _ Z1 U O0 O1). apply I1. rewrite mt_norm2, mapply_norm2; auto. }
    destruct Q as (q & Hq & E). exists q. split; [exact Hq|]. rewrite E. apply tf_rel, O0.
Qed.
Lemma differences_far : forall s0 s1 X0 X1 k, ortho (tf_rot X0) -> (forall x, differences s0 s1 X0 X1 x -> k <= norm x) ->
  forall p q, placed X0 (points s0) p -> placed X1 (points s1) q -> k <= dist p q.
Proof.
  intros s0 s1 X0 X1 k O H p q Hp Hq. specialize (H (mtapply (tf_rot X0) (vsub p q))). rewrite mt_norm in H by exact O. apply H. exists p, q. split; [exact Hp|split; [exact Hq|]]. apply mapply_mt, O.
Qed.
(** C75: shapeDistance always ends; an answer true comes with two points of the shapes at the reported
    distance, which therefore is never below the true one.  Unless the support point repeated one of the
    last four, the shapes are apart and no pair of points is nearer than (1 - tolerance) times it. *)
Theorem shape_distance_points : forall big tol n s0 s1 X0 X1, 0 < tol < 1 -> sized s0 -> sized s1 -> ortho (tf_rot X0) -> ortho (tf_rot X1) -> in_range_all big s0 -> in_range_all big s1 ->
  exists st g, evaluate (support big (mdiff_of s0 s1 X0 X1)) tol n (vneg (mk3 1 0 0)) = Some (st, g) /\
  match st with
  | Valid => exists d p1 p2, shape_distance big tol n s0 s1 X0 X1 = Some (Some (d, p1, p2)) /\
      placed X0 (points s0) p1 /\ placed X1 (points s1) p2 /\ d = dist p1 p2 /\ d = distance st g /\ tol <= d /\
      ((forall p q, placed X0 (points s0) p -> placed X1 (points s1) q -> 0 < (1 - tol) * d <= dist p q) \/
       (exists l, In l (lastw g) /\ differences s0 s1 X0 X1 l /\ norm2 (vsub (support big (mdiff_of s0 s1 X0 X1) (normalized (vneg (ray g)))) l) < tol /\
          (norm2 (ray g) <= dot (ray g) l -> forall p q, placed X0 (points s0) p -> placed X1 (points s1) q -> d - sqrt tol <= dist p q)))
  | _ => shape_distance big tol n s0 s1 X0 X1 = Some None
  end.
Proof.
  intros big tol n s0 s1 X0 X1 T Z0 Z1 O0 O1 I0 I1. pose proof (support_supports big s0 s1 X0 X1 Z0 Z1 O0 O1 I0 I1) as HS.
  destruct (evaluate_answer _ _ tol n (vneg (mk3 1 0 0)) HS (proj1 T)) as (st & g & E & A). destruct (evaluate_combined (support big (mdiff_of s0 s1 X0 X1)) tol n (vneg (mk3 1 0 0)) (proj1 T)) as (st' & g' & E' & C & CV). rewrite E in E'. injection E' as <- <-.
  exists st, g. split; [exact E|]. unfold shape_distance. rewrite E. destruct st; try reflexivity. destruct (CV eq_refl) as [_ Tn]. destruct A as (_ & Fl & La & A).
  destruct (witness_points big s0 s1 X0 X1 4 g Z0 Z1 O0 O1 I0 I1 C) as (Er & P0 & P1).
  eexists _, _, _. split; [reflexivity|]. split; [exact P0|split; [exact P1|]]. rewrite Er. split; [rewrite tf_dist by exact O0; unfold dist; rewrite Er; reflexivity|]. split; [reflexivity|]. split; [exact Tn|].
  destruct A as [A|(l & Il & Nl)]; [left|right].
  - intros p q Hp Hq. split; [apply Rmult_lt_0_compat; lra|]. exact (differences_far s0 s1 X0 X1 _ O0 A p q Hp Hq).
  - exists l. split; [exact Il|split; [apply La, Il|split; [exact Nl|]]]. intros F. apply (differences_far s0 s1 X0 X1 _ O0). apply (repeat_bound _ _ tol (ray g) l HS); auto. intros Z. rewrite Z, norm_vzero in Tn. lra.
Qed.
Print Assumptions shape_distance_points.
(** C75: Inside, the only answer that lets shapeIntersect say yes, means that the shapes come within the
    tolerance of each other. *)
Theorem inside_near : forall big tol n s0 s1 X0 X1, 0 < tol -> sized s0 -> sized s1 -> ortho (tf_rot X0) -> ortho (tf_rot X1) -> in_range_all big s0 -> in_range_all big s1 ->
  shape_inside big tol n s0 s1 X0 X1 <> None /\
  (shape_inside big tol n s0 s1 X0 X1 = Some true -> exists p q, placed X0 (points s0) p /\ placed X1 (points s1) q /\ dist p q < tol).
Proof.
  intros big tol n s0 s1 X0 X1 T Z0 Z1 O0 O1 I0 I1. pose proof (support_supports big s0 s1 X0 X1 Z0 Z1 O0 O1 I0 I1) as HS.
  destruct (evaluate_answer _ _ tol n (vneg (mk3 1 0 0)) HS T) as (st & g & E & A). destruct (evaluate_combined (support big (mdiff_of s0 s1 X0 X1)) tol n (vneg (mk3 1 0 0)) T) as (st' & g' & E' & C & _). rewrite E in E'. injection E' as <- <-.
  unfold shape_inside. rewrite E. destruct st; [split; discriminate| |split; discriminate]. split; [discriminate|]. intros _. cbn in A.
  destruct (witness_points big s0 s1 X0 X1 4 g Z0 Z1 O0 O1 I0 I1 C) as (Er & P0 & P1). eexists _, _. split; [exact P0|split; [exact P1|]]. rewrite tf_dist by exact O0. unfold dist. rewrite Er. exact A.
Qed.
Print Assumptions inside_near.

(** ** The vertex cache stops the iteration too early *)
Lemma trace_step : forall sup tol left g w q f e, 0 < tol < 1 -> combined sup 3 g -> alpha g = 0 -> tol <= norm (ray g) ->
  w = sup (normalized (vneg (ray g))) -> (forall x, In x (lastw g) -> tol <= norm2 (vsub w x)) -> dot (ray g) w <= 0 ->
  let l := points_of (gm g) ++ [w] in (length l <= 3)%nat -> indep l ->
  (forall k, 0 <= f k) -> total f 0 (length l) = 1 -> combo f 0 l = q -> (forall k, (k < length l)%nat -> norm2 q <= dot q (nth k l vzero)) ->
  (forall k, (k < length l)%nat -> e k = false -> norm2 q < dot q (nth k l vzero)) ->
  (forall h, total h 0 (length l) = 1 -> combo h 0 l = q -> forall k, (k < length l)%nat -> e k = true -> h k <> 0) ->
  exists g2, loop sup tol (S left) g = loop sup tol left g2 /\ combined sup 3 g2 /\ alpha g2 = 0 /\ ray g2 = q /\ points_of (gm g2) = select e 0 l /\
    lastw g2 = set_nth ((clastw g + 1) mod 4) w (lastw g) /\ clastw g2 = ((clastw g + 1) mod 4)%nat.
Proof.
  intros sup tol left g w q f e T C A0 L Ew NL Dw l Ll Ind Pf Tf Cf Mq Eo Ei.
  assert (Nz : ray g <> vzero) by (apply (ray_nz tol); lra). pose proof (norm_pos _ Nz) as P.
  assert (Al : alpha' g w = 0).
  { unfold alpha'. rewrite A0. apply Rmax_left. unfold Rdiv. assert (0 < / norm (ray g)) by (apply Rinv_0_lt_compat, P). assert (0 <= - dot (ray g) w * / norm (ray g)) by (apply Rmult_le_pos; lra). lra. }
  assert (Ct : 0 < norm (ray g) - alpha' g w - tol * norm (ray g)) by (rewrite Al; assert (0 < (1 - tol) * norm (ray g)) by (apply Rmult_lt_0_compat; lra); lra).
  assert (Fc : facing l) by (clear -Ll; clearbody l; destruct l as [|? [|? [|? [|? l]]]]; cbn [length] in Ll; try lia; exact I).
  assert (L2 : (2 <= length l)%nat) by (unfold l; rewrite app_length, points_len; destruct C; cbn; lia).
  destruct (project_near l L2 Ind Fc) as (P0 & P1 & Sd & Mn & Pz & Fl & E15).
  assert (Eq : combo (par (project l)) 0 l = q).
  { apply (least_unique l q).
    - exists f. auto.
    - exact Mq.
    - exists (par (project l)). auto.
    - apply Mn. exists f. auto. }
  rewrite Eq in *.
  assert (En : forall k, (k < length l)%nat -> enc (project l) k = e k).
  { intros k Hk. destruct (e k) eqn:Ek.
    - destruct (enc (project l) k) eqn:E; [reflexivity|]. exfalso. apply (Ei (par (project l)) P1 Eq k Hk Ek), Pz, E.
    - destruct (enc (project l) k) eqn:E; [|reflexivity]. specialize (Fl k Hk E). specialize (Eo k Hk Ek). lra. }
  assert (Sel : select (enc (project l)) 0 l = select e 0 l).
  { clear -En. revert En. generalize (enc (project l)). intros e' En.
    assert (G : forall (l1 : list v3) i, (forall k, (i <= k < i + length l1)%nat -> e' k = e k) -> select e' i l1 = select e i l1).
    { induction l1 as [|x l1 IH]; intros i H; cbn [select]; [reflexivity|]. cbn [length] in H. rewrite (H i) by lia. rewrite IH by (intros; apply H; lia). reflexivity. }
    apply G. intros k Hk. apply En. lia. }
  destruct (loop_cases sup tol (S left) g (proj1 T) C) as [[X _]|[(_ & X & _)|[(_ & _ & X & _)|(_ & _ & _ & Hs & g2 & _ & C3 & Er & Ep & El & Ea & Ec & ->)]]].
  - lra.
  - rewrite <- Ew in X. apply near_last_In in X. destruct X as (x & Hx & X). specialize (NL x Hx). lra.
  - rewrite <- Ew in X. fold l in X. exfalso. destruct X as [X|X]; [lra|]. rewrite Sd in X. pose proof (norm2_nonneg q). lra.
  - rewrite <- Ew in *. fold l in Er, Ep, C3, Hs |- *. assert (E0 : encode15 (project l) = false) by (destruct (encode15 (project l)); [destruct (E15 eq_refl); lia|reflexivity]).
    rewrite E0. exists g2. split; [reflexivity|]. split; [apply C3, E0|]. rewrite Ea, Al, Er, Eq, Ep, Sel, El, Ec. auto 10.
Qed.
Lemma trace_stop : forall sup tol left g x, 0 < tol -> combined sup 3 g -> tol <= norm (ray g) -> In x (lastw g) -> norm2 (vsub (sup (normalized (vneg (ray g)))) x) < tol ->
  exists g', loop sup tol left g = Some (Valid, g') /\ ray g' = ray g.
Proof.
  intros sup tol left g x T C L Hx N. assert (B : near_last tol (sup (normalized (vneg (ray g)))) (lastw g) = true) by (apply near_last_In; exists x; auto).
  destruct (loop_cases sup tol left g T C) as [[X _]|[(_ & _ & g' & E & _ & Er & _)|[(_ & X & _)|(_ & X & _)]]]; [lra|exists g'; auto|congruence|congruence].
Qed.
Lemma box_sup : forall big side q, q <> vzero -> get_support big (Box side) (vneg (normalized (vneg q))) = get_support big (Box side) q.
Proof.
  intros big side q N. destruct (normalized_scale _ (neg_nz q N)) as (k & Hk & ->). cbn [get_support].
  assert (E : forall x A (u v : A), (if Rlt_dec 0 (- (k * - x)) then u else v) = (if Rlt_dec 0 x then u else v)).
  { intros x A u v. destruct (Rlt_dec 0 x) as [L|L], (Rlt_dec 0 (- (k * - x))) as [M|M]; auto; exfalso.
    - apply M. replace (- (k * - x)) with (k * x) by ring. apply Rmult_lt_0_compat; auto.
    - apply L. apply Rmult_lt_reg_l with k; [exact Hk|]. lra. }
  unfold vneg, vscale. cbn [c0 c1 c2]. rewrite !E. reflexivity.
Qed.
Lemma poly_sup : forall big vs q v, q <> vzero -> (forall u, In u vs -> norm u < big) -> In v vs -> (forall u, In u vs -> u = v \/ dot q v < dot q u) ->
  far_vertex big vs (normalized (vneg q)) = v.
Proof.
  intros big vs q v N Hb Iv M. pose proof (normalized_norm2 _ (neg_nz q N)) as U. destruct (normalized_scale _ (neg_nz q N)) as (k & Hk & Ek).
  assert (IR : forall u, In u vs -> - big < dot (normalized (vneg q)) u).
  { intros u Hu. pose proof (cauchy_schwarz_abs (normalized (vneg q)) u) as CS. assert (norm (normalized (vneg q)) = 1) by (unfold norm; rewrite U; apply sqrt_1). rewrite H, Rmult_1_l in CS. specialize (Hb u Hu). unfold Rabs in CS. destruct (Rcase_abs _) in CS; lra. }
  unfold far_vertex. destruct (far_fold (normalized (vneg q)) vs (- big, vzero)) as (A & B & D). specialize (B v Iv).
  destruct D as [D|(D & E)].
  - rewrite D in B. cbn [fst] in B. specialize (IR v Iv). lra.
  - set (r := fold_left _ _ _) in *. destruct (M _ D) as [X|X]; [exact X|]. exfalso. rewrite E, Ek in B. rewrite !dot_scale_l, !dot_neg_l in B. assert (k * dot q v < k * dot q (snd r)) by (apply Rmult_lt_compat_l; auto). lra.
Qed.
Definition idt : tf := mktf mid vzero.
Lemma id_support : forall big s0 s1 d, support big (mdiff_of s0 s1 idt idt) d = vsub (get_support big s0 d) (get_support big s1 (vneg d)).
Proof.
  intros big s0 s1 d. unfold support, support0, support1. cbn [mdiff_of sh0 sh1 toshape0 toshape1 tf_rot idt]. f_equal.
  assert (E : mapply (mmul (mtrans mid) mid) (vneg d) = vneg d).
  { rewrite mapply_mmul, mapply_mtrans.
 unfold mtapply, mapply, mid. cbn [m0 m1 m2].
 apply v3_ext; coords. }
  rewrite E.
  replace (tf_mul (tf_inverse idt) idt) with idt by (unfold tf_mul, tf_inverse, tf_apply, idt, mmul, mtrans, mid, mapply, mtapply, vneg, vadd, vscale, vzero, dot; cbn; repeat f_equal; ring).
  generalize (get_support big s1 (vneg d)). intros p. unfold tf_apply, idt, mapply, mid. cbn [tf_rot tf_tr m0 m1 m2]. vcoords.
Qed.
Definition tet0 : list v3 := [mk3 0 2 3; mk3 (-1) 0 1; mk3 3 (-3) 4; vzero].
Definition box0 : v3 := mk3 2 4 2.
Lemma tet0_short : forall big u, 6 <= big -> In u tet0 -> norm u < big.
Proof.
  intros big u B Hu. apply Rlt_le_trans with 6; [|exact B]. unfold norm. rewrite <- (sqrt_square 6) by lra. apply sqrt_lt_1_alt. split; [apply norm2_nonneg|].
  cbn in Hu. destruct Hu as [<-|[<-|[<-|[<-|[]]]]]; coords; lra.
Qed.
Ltac decR := repeat match goal with |- context [Rlt_dec ?u ?v] => destruct (Rlt_dec u v); [try (exfalso; lra)|try (exfalso; lra)] end.
Lemma sup0 : forall big q v c, 6 <= big -> q <> vzero -> In v tet0 -> (forall u, In u tet0 -> u = v \/ dot q v < dot q u) -> get_support big (Box box0) q = c ->
  support big (mdiff_of (Polytope tet0) (Box box0) idt idt) (normalized (vneg q)) = vsub v c.
Proof.
  intros big q v c B N Iv M Ec. rewrite id_support. rewrite box_sup by exact N. rewrite Ec. f_equal. cbn [get_support]. apply poly_sup; auto. intros u Hu. apply tet0_short; auto.
Qed.
Lemma norm_lower : forall v k, 0 <= k -> k * k <= norm2 v -> k <= norm v.
Proof. intros. apply norm_ge_sq; auto. Qed.
Lemma nonzero_by : forall v, 0 < norm2 v -> v <> vzero.
Proof. intros v H ->. revert H. coords. lra. Qed.
Definition wts (l : list R) (k : nat) : R := nth k l 0.
Definition bits (l : list bool) (k : nat) : bool := nth k l true.
Lemma repeat_trace : forall big tol n, 6 <= big -> 0 < tol <= 1 / 9 -> (4 <= n)%nat ->
  exists g, evaluate (support big (mdiff_of (Polytope tet0) (Box box0) idt idt)) tol n (vneg (mk3 1 0 0)) = Some (Valid, g) /\ norm2 (ray g) = 1 / 81.
Proof.
  intros big tol n B T Hn. set (sup := support big _). unfold evaluate. destruct (init_ok sup (vneg (mk3 1 0 0))) as (g0 & -> & C0 & U & Ep0 & Er0 & El0 & Ea0 & Ec0).
  assert (D0 : start_dir (vneg (mk3 1 0 0)) = vneg (mk3 (-1) 0 0)).
  { unfold start_dir. destruct (Rlt_dec 0 (norm2 (vneg (mk3 1 0 0)))) as [_|N]; [vcoords|]. exfalso. apply N. coords. lra. }
  assert (SUP : forall q v c w, 0 < norm2 q -> In v tet0 -> (forall u, In u tet0 -> u = v \/ dot q v < dot q u) -> get_support big (Box box0) q = c -> w = vsub v c -> w = sup (normalized (vneg q))).
  { intros q v c w Hq Iv M Ec Ew. unfold sup. rewrite (sup0 big q v c B); auto. apply nonzero_by, Hq. }
  assert (S0 : sup (normalized (start_dir (vneg (mk3 1 0 0)))) = mk3 4 (-1) 5).
  { rewrite D0. symmetry. apply (SUP _ (mk3 3 (-3) 4) (mk3 (-1) (-2) (-1))).
    - coords. lra.
    - cbn. auto.
    - intros u Hu. cbn in Hu. destruct Hu as [<-|[<-|[<-|[<-|[]]]]]; auto; right; coords; lra.
    - cbn [get_support box0 c0 c1 c2]. decR; apply v3_ext; cbn; lra.
    - vcoords. }
  rewrite S0 in *. clear U D0 S0. destruct n as [|[|[|[|n]]]]; try lia. cbn [pred].
  (* first step *)
  destruct (trace_step sup tol (S (S n)) g0 (mk3 (-1) 2 (-1)) (mk3 (3/14) (89/70) (16/35)) (wts [17/70; 53/70]) (bits [true; true])) as (g1 & -> & C1 & Ea1 & Er1 & Ep1 & El1 & Ec1).
  { lra. } { exact C0. } { exact Ea0. }
  { rewrite Er0. apply norm_lower; [lra|]. apply Rle_trans with (1 * 1); [apply Rmult_le_compat; lra|]. coords; lra. }
  { rewrite Er0. apply (SUP _ vzero (mk3 1 (-2) 1)).
    - coords. lra.
    - cbn. auto.
    - intros u Hu. cbn in Hu. destruct Hu as [<-|[<-|[<-|[<-|[]]]]]; auto; right; coords; lra.
    - cbn [get_support box0 c0 c1 c2]. decR; apply v3_ext; cbn; lra.
    - vcoords. }
  { rewrite El0. intros x Hx. apply Rle_trans with 1; [lra|]. cbn in Hx. destruct Hx as [<-|[<-|[<-|[<-|[]]]]]; coords; lra. }
  { rewrite Er0. coords; lra. }
  { rewrite Ep0. cbn. lia. }
  { rewrite Ep0. cbn [app indep]. intros E. apply (f_equal c0) in E. cbn in E. lra. }
  { intros [|[|[|k]]]; cbn; lra. }
  { rewrite Ep0. cbn. lra. }
  { rewrite Ep0. cbn [app combo wts nth]. apply v3_ext; coords; field. }
  { rewrite Ep0. intros [|[|k]] Hk; cbn [app length] in Hk; try lia; cbn [app nth]; coords; lra. }
  { rewrite Ep0. intros [|[|k]] Hk; cbn [app length] in Hk; try lia; cbn; discriminate. }
  { rewrite Ep0. intros h Th Eh [|[|k]] Hk _ Z; cbn [app length] in Hk; try lia; cbn [app length total] in Th; cbn [app combo] in Eh; rewrite Z in *; apply (f_equal c0) in Eh; cbn in Eh; lra. }
  rewrite Ep0 in Ep1. cbn [app select bits nth] in Ep1. rewrite Ec0 in *. change ((0 + 1) mod 4)%nat with 1%nat in *. rewrite El0 in El1. cbn [set_nth] in El1.
  (* second step *)
  destruct (trace_step sup tol (S n) g1 (mk3 2 (-5) 3) (mk3 (-11/74) (1/74) (10/74)) (wts [0; 53/74; 21/74]) (bits [false; true; true])) as (g2 & -> & C2 & Ea2 & Er2 & Ep2 & El2 & Ec2).
  { lra. } { exact C1. } { exact Ea1. }
  { rewrite Er1. apply norm_lower; [lra|]. apply Rle_trans with (1 * 1); [apply Rmult_le_compat; lra|]. coords; lra. }
  { rewrite Er1. apply (SUP _ (mk3 3 (-3) 4) (mk3 1 2 1)).
    - coords. lra.
    - cbn. auto.
    - intros u Hu. cbn in Hu. destruct Hu as [<-|[<-|[<-|[<-|[]]]]]; auto; right; coords; lra.
    - cbn [get_support box0 c0 c1 c2]. decR; apply v3_ext; cbn; lra.
    - vcoords. }
  { rewrite El1. intros x Hx. apply Rle_trans with 1; [lra|]. cbn in Hx. destruct Hx as [<-|[<-|[<-|[<-|[]]]]]; coords; lra. }
  { rewrite Er1. coords; lra. }
  { rewrite Ep1. cbn. lia. }
  { rewrite Ep1. cbn [app indep]. intros E. apply (f_equal c0) in E. unfold cross, vsub in E. cbn in E. lra. }
  { intros [|[|[|[|k]]]]; cbn; lra. }
  { rewrite Ep1. cbn. lra. }
  { rewrite Ep1. cbn [app combo wts nth]. apply v3_ext; coords; field. }
  { rewrite Ep1. intros [|[|[|k]]] Hk; cbn [app length] in Hk; try lia; cbn [app nth]; coords; lra. }
  { rewrite Ep1. intros [|[|[|k]]] Hk; cbn [app length] in Hk; try lia; cbn [bits nth]; try discriminate. intros _. cbn [app nth]. coords; lra. }
  { rewrite Ep1. intros h Th Eh [|[|[|k]]] Hk Ek Z; cbn [app length] in Hk; try lia; try discriminate; cbn [app length total] in Th; cbn [app combo] in Eh; rewrite Z in *; pose proof (f_equal c0 Eh) as E0; pose proof (f_equal c1 Eh) as E1; cbn in E0, E1; lra. }
  rewrite Ep1 in Ep2. cbn [app select bits nth] in Ep2. rewrite Ec1 in *. change ((1 + 1) mod 4)%nat with 2%nat in *. rewrite El1 in El2. cbn [set_nth] in El2.
  (* third step *)
  destruct (trace_step sup tol n g2 (mk3 1 (-2) (-1)) (mk3 (-8/81) (-4/81) (-1/81)) (wts [109/162; 20/81; 13/162]) (bits [true; true; true])) as (g3 & -> & C3 & Ea3 & Er3 & Ep3 & El3 & Ec3).
  { lra. } { exact C2. } { exact Ea2. }
  { rewrite Er2. apply norm_lower; [lra|]. apply Rle_trans with (1/9 * (1/9)); [apply Rmult_le_compat; lra|]. coords; lra. }
  { rewrite Er2. apply (SUP _ vzero (mk3 (-1) 2 1)).
    - coords. lra.
    - cbn. auto.
    - intros u Hu. cbn in Hu. destruct Hu as [<-|[<-|[<-|[<-|[]]]]]; auto; right; coords; lra.
    - cbn [get_support box0 c0 c1 c2]. decR; apply v3_ext; cbn; lra.
    - vcoords. }
  { rewrite El2. intros x Hx. apply Rle_trans with 1; [lra|]. cbn in Hx. destruct Hx as [<-|[<-|[<-|[<-|[]]]]]; coords; lra. }
  { rewrite Er2. coords; lra. }
  { rewrite Ep2. cbn. lia. }
  { rewrite Ep2. cbn [app indep]. intros E. apply (f_equal c0) in E. unfold cross, vsub in E. cbn in E. lra. }
  { intros [|[|[|[|k]]]]; cbn; lra. }
  { rewrite Ep2. cbn. lra. }
  { rewrite Ep2. cbn [app combo wts nth]. apply v3_ext; coords; field. }
  { rewrite Ep2. intros [|[|[|k]]] Hk; cbn [app length] in Hk; try lia; cbn [app nth]; coords; lra. }
  { rewrite Ep2. intros [|[|[|k]]] Hk; cbn [app length] in Hk; try lia; cbn [bits nth]; discriminate. }
  { rewrite Ep2. intros h Th Eh [|[|[|k]]] Hk Ek Z; cbn [app length] in Hk; try lia; cbn [app length total] in Th; cbn [app combo] in Eh; rewrite Z in *; pose proof (f_equal c0 Eh) as E0; pose proof (f_equal c1 Eh) as E1; pose proof (f_equal c2 Eh) as E2; cbn in E0, E1, E2; lra. }
  rewrite Ec2 in *. change ((2 + 1) mod 4)%nat with 3%nat in *. rewrite El2 in El3. cbn [set_nth] in El3.
  (* the first vertex is found again *)
  destruct (trace_stop sup tol n g3 (mk3 4 (-1) 5)) as (g4 & -> & Er4).
  { lra. } { exact C3. }
  { rewrite Er3. apply norm_lower; [lra|]. apply Rle_trans with (1/9 * (1/9)); [apply Rmult_le_compat; lra|]. coords; lra. }
  { rewrite El3. cbn. auto. }
  { rewrite Er3. rewrite <- (SUP _ (mk3 3 (-3) 4) (mk3 (-1) (-2) (-1)) (mk3 4 (-1) 5)).
    - coords. lra.
    - coords. lra.
    - cbn. auto.
    - intros u Hu. cbn in Hu. destruct Hu as [<-|[<-|[<-|[<-|[]]]]]; auto; right; coords; lra.
    - cbn [get_support box0 c0 c1 c2]. decR; apply v3_ext; cbn; lra.
    - vcoords. }
  exists g4. split; [reflexivity|]. rewrite Er4, Er3. coords. field.
Qed.
(** C75: a tetrahedron with a vertex in the centre of a box: the distance query answers 1/9 and the
    intersection query no, for every tolerance up to 1/9 and any number of iterations from 4 on. *)
Theorem repeat_refuted : forall big tol n, 6 <= big -> 0 < tol <= 1 / 9 -> (4 <= n)%nat ->
  (exists p1 p2, shape_distance big tol n (Polytope tet0) (Box box0) idt idt = Some (Some (1 / 9, p1, p2))) /\
  shape_inside big tol n (Polytope tet0) (Box box0) idt idt = Some false /\
  In vzero tet0 /\ placed idt (points (Polytope tet0)) vzero /\ (forall x, norm x <= 1 -> placed idt (points (Box box0)) x).
Proof.
  intros big tol n B T Hn. destruct (repeat_trace big tol n B T Hn) as (g & E & Nr).
  assert (N9 : norm (ray g) = 1 / 9) by (unfold norm; rewrite Nr; replace (1 / 81) with (1 / 9 * (1 / 9)) by field; apply sqrt_square; lra).
  assert (Oi : ortho (tf_rot idt)) by (unfold idt, mid, ortho, dot; cbn; repeat split; ring).
  assert (Pl : forall (K : v3 -> Prop) (x : v3), K x -> placed idt K x) by (intros K x Hx; exists x; split; [exact Hx|]; unfold tf_apply, idt, mapply, mid; cbn [tf_rot tf_tr m0 m1 m2]; vcoords).
  assert (IR : in_range_all big (Polytope tet0)).
  { intros d U v Hv. pose proof (cauchy_schwarz_abs d v) as CS. assert (Nd : norm d = 1) by (unfold norm; rewrite U; apply sqrt_1). rewrite Nd, Rmult_1_l in CS. pose proof (tet0_short big v B Hv). unfold Rabs in CS. destruct (Rcase_abs _) in CS; lra. }
  split; [|split; [|split; [cbn; auto|split]]].
  - destruct (shape_distance_points big tol n (Polytope tet0) (Box box0) idt idt) as (st & g' & E' & M); auto; [lra|discriminate|cbn; lra|intros d U; exact I|].
    rewrite E in E'. injection E' as <- <-. destruct M as (d & p1 & p2 & Es & _ & _ & _ & Ed & _). cbn in Ed. rewrite Ed, N9 in Es. eauto.
  - unfold shape_inside. rewrite E. reflexivity.
  - apply Pl. cbn [points]. apply hull_extreme with (d := vzero); [cbn; auto|]. intros v Hv. coords. lra.
  - intros x Hx. apply Pl. cbn [points]. pose proof (comp_le_norm 0 x) as A0. pose proof (comp_le_norm 1 x) as A1. pose proof (comp_le_norm 2 x) as A2. cbn [comp] in A0, A1, A2.
    intros i Hi. destruct i as [|[|[|i]]]; try lia; cbn; unfold Rabs in *; destruct (Rcase_abs _), (Rcase_abs _), (Rcase_abs _); lra.
Qed.
Print Assumptions repeat_refuted.

(** ** Small bodies *)
Lemma tiny : forall sup tol n guess, 0 < tol -> (forall d e, norm2 d = 1 -> norm2 e = 1 -> norm2 (vsub (sup d) (sup e)) < tol) ->
  tol <= norm (sup (normalized (start_dir guess))) -> exists g, evaluate sup tol n guess = Some (Valid, g) /\ ray g = sup (normalized (start_dir guess)).
Proof.
  intros sup tol n guess T S L. unfold evaluate. destruct (init_ok sup guess) as (g & -> & C & U & Ep & Er & El & Ea & _). rewrite <- Er in L.
  destruct (trace_stop sup tol (pred n) g (ray g) T C L) as (g' & E & Er').
  - rewrite El, Er. cbn. auto.
  - rewrite Er at 2. apply S; [|exact U]. apply normalized_norm2, neg_nz, (ray_nz tol); lra.
  - exists g'. rewrite Er'. auto.
Qed.
(** C75: bodies smaller than the square root of the tolerance are reported apart wherever they are: two
    equal spheres with the same centre. *)
Theorem tiny_refuted : forall big tol n r, 0 < tol <= 2 * r -> tol < 1 -> 16 * (r * r) < tol ->
  (exists p1 p2, shape_distance big tol n (Sphere r) (Sphere r) idt idt = Some (Some (2 * r, p1, p2))) /\ shape_inside big tol n (Sphere r) (Sphere r) idt idt = Some false.
Proof.
  intros big tol n r T T1 S.
  assert (Es : forall d, support big (mdiff_of (Sphere r) (Sphere r) idt idt) d = vscale (2 * r) d) by (intros d; rewrite id_support; cbn [get_support]; vcoords).
  assert (U : norm2 (normalized (start_dir (vneg (mk3 1 0 0)))) = 1).
  { apply normalized_norm2. unfold start_dir. destruct (Rlt_dec 0 (norm2 (vneg (mk3 1 0 0)))); intros E; apply (f_equal c0) in E; cbn in E; lra. }
  assert (Nn : norm (vscale (2 * r) (normalized (start_dir (vneg (mk3 1 0 0))))) = 2 * r).
  { rewrite norm_scale. unfold norm. rewrite U, sqrt_1, Rabs_right; lra. }
  destruct (tiny (support big (mdiff_of (Sphere r) (Sphere r) idt idt)) tol n (vneg (mk3 1 0 0))) as (g & E & Er).
  - lra.
  - intros d e Ud Ue. rewrite !Es. assert (X : norm2 (vsub (vscale (2 * r) d) (vscale (2 * r) e)) = 4 * (r * r) * (norm2 d + norm2 e - 2 * dot d e)) by coords. rewrite X, Ud, Ue.
    pose proof (cauchy_schwarz_abs d e) as CS. unfold norm in CS. rewrite Ud, Ue, sqrt_1 in CS. unfold Rabs in CS. destruct (Rcase_abs (dot d e)) in CS;
    (apply Rle_lt_trans with (4 * (r * r) * 4); [apply Rmult_le_compat_l; [assert (0 <= r * r) by (apply Rmult_le_pos; lra); lra|lra]|lra]).
  - rewrite Es, Nn. lra.
  - rewrite Es in Er. split; [|unfold shape_inside; rewrite E; reflexivity].
    assert (Oi : ortho (tf_rot idt)) by (unfold idt, mid, ortho, dot; cbn; repeat split; ring).
    destruct (shape_distance_points big tol n (Sphere r) (Sphere r) idt idt) as (st & g' & E' & M); auto; try (cbn; lra); try (intros d Ud; exact I).
    rewrite E in E'. injection E' as <- <-. destruct M as (d & p1 & p2 & Ed & _ & _ & _ & Dd & _). cbn in Dd. rewrite Dd, Er, Nn in Ed. eauto.
Qed.
Print Assumptions tiny_refuted.

(** ** The iteration limit *)
(** C75: an answer other than Failed does not depend on the limit. *)
Theorem evaluate_more : forall sup tol n k guess st g, st <> Failed -> evaluate sup tol n guess = Some (st, g) -> (1 <= n)%nat -> evaluate sup tol (n + k) guess = Some (st, g).
Proof.
  intros sup tol n k guess st g Ns E Hn. unfold evaluate in *. destruct (init sup guess) as [g0|]; [|discriminate]. replace (pred (n + k)) with (pred n + k)%nat by lia. revert g0 E. generalize (pred n). clear n Hn.
  induction n as [|n IH]; intros g0 E.
  - revert E. cbn [loop Nat.add]. destruct k as [|k]; cbn [loop]; (destruct (Rlt_dec (norm (ray g0)) tol); [auto|]; destruct (append sup (vneg (ray g0)) (gm g0)); [|auto]; destruct (near_last _ _ _); [auto|]; destruct (Rle_dec _ 0); [auto|]; destruct (Rle_dec 0 _); [|auto]; congruence).
  - revert E. cbn [loop Nat.add]. destruct (Rlt_dec (norm (ray g0)) tol); [auto|]. destruct (append sup (vneg (ray g0)) (gm g0)); [|auto]. destruct (near_last _ _ _); [auto|]. destruct (Rle_dec _ 0); [auto|]. destruct (Rle_dec 0 _); [|auto]. destruct (encode15 _); [auto|]. apply IH.
Qed.
Print Assumptions evaluate_more.

(** ** encloseOrigin *)
(** What a call leaves: with true a simplex of four independent vertices that begins with the old one, the
    new ones support points of unit directions; with false the old simplex. *)
Definition enclosed (sup : v3 -> v3) (m : mem) (b : bool) (m' : mem) : Prop :=
  wf m' /\ if b then length (simp m') = 4%nat /\ indep (points_of m') /\ exists l, verts m' = verts m ++ l /\ forall v, In v l -> norm2 (vd v) = 1 /\ vw v = sup (vd v)
  else simp m' = simp m /\ verts m' = verts m.
Lemma try_ok : forall sup next dirs m k, wf m -> length (simp m) = k -> (k <= 3)%nat -> (forall d, In d dirs -> d <> vzero) ->
  (forall m1, wf m1 -> length (simp m1) = S k -> exists b m2, next m1 = Some (b, m2) /\ enclosed sup m1 b m2) ->
  (exists b m', try sup next dirs m = Some (b, m') /\ enclosed sup m b m') /\
  ((exists d, In d dirs /\ forall m1, wf m1 -> length (simp m1) = S k -> points_of m1 = points_of m ++ [sup (normalized d)] -> exists m2, next m1 = Some (true, m2)) ->
   exists m', try sup next dirs m = Some (true, m')).
Proof.
  intros sup next dirs. induction dirs as [|d dirs IH]; intros m k W L K N H; cbn [try].
  - split; [eexists _, _; split; [reflexivity|]; split; auto|]. intros (d & [] & _).
  - destruct (append_ok sup d m W ltac:(lia)) as (f & m1 & -> & W1 & S1 & V1 & St1).
    assert (L1 : length (simp m1) = S k) by (rewrite S1, app_length, L; cbn; lia).
    assert (P1 : points_of m1 = points_of m ++ [sup (normalized d)]) by (unfold points_of; rewrite V1, map_app; reflexivity).
    destruct (H m1 W1 L1) as (b & m2 & E2 & W2 & En). rewrite E2. destruct b.
    + split; [|intros _; eauto]. eexists _, _. split; [reflexivity|]. split; [exact W2|]. destruct En as (L4 & I4 & l & V2 & Sl). split; [exact L4|split; [exact I4|]]. exists (Vtx (normalized d) (sup (normalized d)) :: l). split; [rewrite V2, V1, <- app_assoc; reflexivity|].
      intros v [<-|Hv]; [|apply Sl, Hv]. cbn [vd vw]. split; [apply normalized_norm2, N; cbn; auto|reflexivity].
    + destruct En as (S2 & V2). rewrite S1 in S2. destruct (remove_ok m2 (f, 0) (simp m) W2 S2) as (m3 & -> & W3 & S3 & _ & V3).
      assert (V3' : verts m3 = verts m). { rewrite V3, V1 in V2. apply app_inj_tail in V2. apply V2. }
      assert (P3 : points_of m3 = points_of m) by (unfold points_of; rewrite V3'; reflexivity).
      destruct (IH m3 k W3 ltac:(congruence) K ltac:(intros; apply N; cbn; auto) H) as (A & B). split.
      * destruct A as (b & m' & E & W' & En). exists b, m'. split; [exact E|]. split; [exact W'|]. rewrite V3', S3 in En. exact En.
      * intros (e & [<-|He] & Te); [destruct (Te m1 W1 L1 P1) as (m2' & X); congruence|]. apply B. exists e. split; [exact He|]. rewrite P3. exact Te.
Qed.
Lemma enclose4_ok : forall sup m, wf m -> length (simp m) = 4%nat -> (exists b m', enclose4 m = Some (b, m') /\ enclosed sup m b m') /\
  (indep (points_of m) -> exists m', enclose4 m = Some (true, m')).
Proof.
  intros sup m W L. rewrite <- points_len in L. unfold enclose4. destruct (points_of m) as [|a [|b [|c [|d [|e l]]]]] eqn:Ep; cbn [length] in L; try lia.
  destruct (Rlt_dec 0 (Rabs (triple (vsub a d) (vsub b d) (vsub c d)))) as [P|P].
  - split; [|eauto]. eexists _, _. split; [reflexivity|]. split; [exact W|]. rewrite <- points_len, Ep. split; [reflexivity|split].
    + cbn [indep]. intros Z. rewrite Z, Rabs_R0 in P. lra.
    + exists []. rewrite app_nil_r. split; [reflexivity|intros v []].
  - split; [eexists _, _; split; [reflexivity|]; split; auto|]. cbn [indep]. intros N. exfalso. apply P, Rabs_pos_lt, N.
Qed.
(** The body does not lie in a plane. *)
Definition solid (K : v3 -> Prop) : Prop := forall n, n <> vzero -> exists x y, K x /\ K y /\ dot n x <> dot n y.
Lemma solid_side : forall sup K n a, supports sup K -> solid K -> n <> vzero -> exists d, In d (both n) /\ dot n (sup (normalized d)) <> dot n a.
Proof.
  intros sup K n a HS So N. destruct (Req_dec (dot n (sup (normalized n))) (dot n a)) as [E|E]; [|exists n; cbn; auto].
  destruct (Req_dec (dot n (sup (normalized (vneg n)))) (dot n a)) as [E'|E']; [|exists (vneg n); cbn; auto]. exfalso.
  assert (Lo : forall x, K x -> dot n (sup (normalized (vneg n))) <= dot n x) by (intros; apply (lowest sup K); auto).
  assert (Hi : forall x, K x -> dot n x <= dot n (sup (normalized n))).
  { intros x Kx. pose proof (lowest sup K (vneg n) x HS (neg_nz n N) Kx) as Q. replace (vneg (vneg n)) with n in Q by vcoords. rewrite !dot_neg_l in Q. lra. }
  destruct (So n N) as (x & y & Kx & Ky & D). apply D. pose proof (Lo x Kx). pose proof (Hi x Kx). pose proof (Lo y Ky). pose proof (Hi y Ky). lra.
Qed.
Lemma both_nz : forall n d, n <> vzero -> In d (both n) -> d <> vzero.
Proof. intros n d N [<-|[<-|[]]]; [exact N|apply neg_nz, N]. Qed.
Lemma nz_spec : forall v, nz v = true <-> v <> vzero.
Proof. intros v. unfold nz. destruct (Rlt_dec 0 (norm2 v)) as [P|P]; split; auto; try discriminate; [intros _; apply nonzero_by, P|intros N; exfalso; apply P, nz_pos, N]. Qed.
Lemma enclose3_ok : forall sup m, wf m -> length (simp m) = 3%nat -> (exists b m', enclose3 sup m = Some (b, m') /\ enclosed sup m b m') /\
  (forall K, supports sup K -> solid K -> indep (points_of m) -> exists m', enclose3 sup m = Some (true, m')).
Proof.
  intros sup m W L. pose proof L as L'. rewrite <- points_len in L'. unfold enclose3. destruct (points_of m) as [|a [|b [|c [|d l]]]] eqn:Ep; cbn [length] in L'; try lia.
  destruct (nz (cross (vsub b a) (vsub c a))) eqn:Nz.
  - apply nz_spec in Nz. destruct (try_ok sup enclose4 (both (cross (vsub b a) (vsub c a))) m 3 W L) as (A & B); [lia|intros d; apply both_nz, Nz|intros m1 W1 L1; apply (enclose4_ok sup m1 W1 L1)|].
    split; [exact A|]. intros K HS So I. apply B. destruct (solid_side sup K _ a HS So Nz) as (d & Hd & D). exists d. split; [exact Hd|]. intros m1 W1 L1 P1. apply (enclose4_ok sup m1 W1 L1). rewrite P1, Ep. cbn [app indep].
    intros T. apply D. replace (dot (cross (vsub b a) (vsub c a)) (sup (normalized d))) with (dot (cross (vsub b a) (vsub c a)) a - triple (vsub a (sup (normalized d))) (vsub b (sup (normalized d))) (vsub c (sup (normalized d)))) by (generalize (sup (normalized d)); intros w; coords). lra.
  - split; [eexists _, _; split; [reflexivity|]; split; auto|]. intros K HS So I. exfalso. cbn [indep] in I. apply I.
    assert (Z : ~ cross (vsub b a) (vsub c a) <> vzero) by (rewrite <- nz_spec, Nz; discriminate). replace (cross (vsub a b) (vsub b c)) with (cross (vsub b a) (vsub c a)) by vcoords. apply norm2_zero. destruct (Req_dec (norm2 (cross (vsub b a) (vsub c a))) 0) as [Y|Y]; [exact Y|]. exfalso. apply Z. intros Q. apply Y. rewrite Q. coords.
Qed.
Lemma in_boths : forall l n d, In n l -> In d (both n) -> In d (flat_map both l).
Proof. intros l n d Hn Hd. apply in_flat_map. eauto. Qed.
Lemma boths_in : forall l d, (forall n, In n l -> n <> vzero) -> In d (flat_map both l) -> d <> vzero.
Proof. intros l d N H. apply in_flat_map in H as (n & Hn & Hd). exact (both_nz n d (N n Hn) Hd). Qed.
Lemma cross_axes : forall d, d <> vzero -> exists p, In p (filter nz (map (cross d) axes)) /\ p <> vzero /\ dot p d = 0.
Proof.
  intros d N. assert (exists e, In e axes /\ cross d e <> vzero) as (e & He & X).
  { destruct (Req_dec (c0 d) 0) as [E0|E0]; [destruct (Req_dec (c1 d) 0) as [E1|E1]|].
    - exists (mk3 1 0 0). split; [cbn; auto|]. intros Q. apply N. apply (f_equal c1) in Q. revert Q. coords. intros Q. apply v3_ext; cbn; lra.
    - exists (mk3 1 0 0). split; [cbn; auto|]. intros Q. apply E1. apply (f_equal c2) in Q. revert Q. coords. lra.
    - exists (mk3 0 1 0). split; [cbn; auto|]. intros Q. apply E0. apply (f_equal c2) in Q. revert Q. coords. lra. }
  exists (cross d e). split; [apply filter_In; split; [apply in_map, He|apply nz_spec, X]|]. split; [exact X|]. coords.
Qed.
Lemma enclose2_ok : forall sup m, wf m -> length (simp m) = 2%nat -> (exists b m', enclose2 sup m = Some (b, m') /\ enclosed sup m b m') /\
  (forall K, supports sup K -> solid K -> indep (points_of m) -> exists m', enclose2 sup m = Some (true, m')).
Proof.
  intros sup m W L. pose proof L as L'. rewrite <- points_len in L'. unfold enclose2. destruct (points_of m) as [|a [|b [|c l]]] eqn:Ep; cbn [length] in L'; try lia.
  destruct (try_ok sup (enclose3 sup) (flat_map both (filter nz (map (cross (vsub b a)) axes))) m 2 W L) as (A & B).
  - lia.
  - intros d. apply boths_in. intros n Hn. apply filter_In in Hn as (_ & Hn). apply nz_spec, Hn.
  - intros m1 W1 L1. apply (enclose3_ok sup m1 W1 L1).
  - split; [exact A|]. intros K HS So I. apply B. cbn [indep] in I.
    destruct (cross_axes (vsub b a)) as (p & Hp & Np & Pd). { intros Q. apply I. apply v3_ext; [apply (f_equal c0) in Q|apply (f_equal c1) in Q|apply (f_equal c2) in Q]; cbn in Q; lra. }
    destruct (solid_side sup K p a HS So Np) as (d & Hd & D). exists d. split; [exact (in_boths _ p d Hp Hd)|]. intros m1 W1 L1 P1.
    apply (proj2 (enclose3_ok sup m1 W1 L1) K HS So). rewrite P1, Ep. cbn [app indep]. generalize dependent (sup (normalized d)). intros w D _ Q.
    assert (X : norm2 (vsub b a) * (dot p w - dot p a) = 0).
    { assert (Y : norm2 (vsub b a) * (dot p w - dot p a) = dot (vsub b a) (vsub w a) * dot p (vsub b a) - dot p (cross (vsub b a) (cross (vsub a b) (vsub b w)))) by coords.
      rewrite Y, Pd, Q. coords. }
    apply Rmult_integral in X as [X|X]; [|lra]. apply norm2_zero in X. apply I. apply v3_ext; [apply (f_equal c0) in X|apply (f_equal c1) in X|apply (f_equal c2) in X]; cbn in X; lra.
Qed.
Lemma enclose1_ok : forall sup m, wf m -> length (simp m) = 1%nat -> (exists b m', enclose1 sup m = Some (b, m') /\ enclosed sup m b m') /\
  (forall K, supports sup K -> solid K -> indep (points_of m) -> exists m', enclose1 sup m = Some (true, m')).
Proof.
  intros sup m W L. pose proof L as L'. rewrite <- points_len in L'. unfold enclose1. destruct (points_of m) as [|a [|b l]] eqn:Ep; cbn [length] in L'; try lia.
  assert (Na : forall n, In n axes -> n <> vzero). { intros n [<-|[<-|[<-|[]]]] E; [apply (f_equal c0) in E|apply (f_equal c1) in E|apply (f_equal c2) in E]; cbn in E; lra. }
  destruct (try_ok sup (enclose2 sup) (flat_map both axes) m 1 W L) as (A & B).
  - lia.
  - intros d. apply boths_in, Na.
  - intros m1 W1 L1. apply (enclose2_ok sup m1 W1 L1).
  - split; [exact A|]. intros K HS So _. apply B. assert (H0 : In (mk3 1 0 0) axes) by (cbn; auto).
    destruct (solid_side sup K (mk3 1 0 0) a HS So (Na _ H0)) as (d & Hd & D). exists d. split; [exact (in_boths _ _ d H0 Hd)|]. intros m1 W1 L1 P1.
    apply (proj2 (enclose2_ok sup m1 W1 L1) K HS So). rewrite P1, Ep. cbn [app indep]. intros Q. apply D. rewrite <- Q. reflexivity.
Qed.
(** C75: encloseOrigin. *)
Theorem enclose_frame : forall sup m, wf m -> (1 <= length (simp m) <= 4)%nat -> exists b m', enclose_origin sup m = Some (b, m') /\ enclosed sup m b m'.
Proof.
  intros sup m W L. unfold enclose_origin. destruct (length (simp m)) as [|[|[|[|[|k]]]]] eqn:E; try lia;
  [apply (enclose1_ok sup m W E)|apply (enclose2_ok sup m W E)|apply (enclose3_ok sup m W E)|apply (enclose4_ok sup m W E)].
Qed.
Print Assumptions enclose_frame.
Theorem enclose_complete : forall sup K m, wf m -> supports sup K -> solid K -> indep (points_of m) -> exists m', enclose_origin sup m = Some (true, m').
Proof.
  intros sup K m W HS So I. unfold enclose_origin. rewrite <- points_len. pose proof (eq_sym (points_len m)) as L.
  destruct (points_of m) as [|a [|b [|c [|d [|e l]]]]] eqn:Ep; cbn [length] in *; try (exfalso; exact I); rewrite <- Ep in I;
  [apply (proj2 (enclose1_ok sup m W L) K)|apply (proj2 (enclose2_ok sup m W L) K)|apply (proj2 (enclose3_ok sup m W L) K)|apply (enclose4_ok sup m W L)]; auto.
Qed.
Print Assumptions enclose_complete.

Example tiny_example : shape_inside 1 (1 / 100) 128 (Sphere (1 / 50)) (Sphere (1 / 50)) idt idt = Some false.
Proof. apply tiny_refuted; lra. Qed.
(** The answer true says that the four points are not in a plane, wherever the origin is. *)
Definition far_tet : mem := Mem (fun k => match k with 0%nat => Vtx (mk3 1 0 0) (mk3 5 0 0) | 1%nat => Vtx (mk3 1 0 0) (mk3 6 0 0) | 2%nat => Vtx (mk3 1 0 0) (mk3 5 1 0) | _ => Vtx (mk3 1 0 0) (mk3 5 0 1) end) [] [(0%nat, 0); (1%nat, 0); (2%nat, 0); (3%nat, 1)].
Example enclose_far : forall sup, enclose_origin sup far_tet = Some (true, far_tet).
Proof.
  intros sup. unfold enclose_origin, far_tet. cbn [length simp enclose4 points_of verts map store fst snd vw].
  match goal with |- context [triple ?a ?b ?c] => replace (triple a b c) with (-1) by coords end.
  destruct (Rlt_dec 0 (Rabs (-1))) as [_|N]; [reflexivity|]. exfalso. apply N, Rabs_pos_lt. lra.
Qed.
