(** C90: collision of two shapes. *)
From Coq Require Import Reals Lra Lia List Bool Arith Permutation.
From Verif Require Import VecR Motion Prim P_Prim ShapeBV P_ShapeBV HalfBV P_HalfBV HalfQuery P_HalfQuery P_PlaneQuery ShapePair.
From Verif Require Dispatch P_Dispatch MeshFlat.
Import ListNotations.
Open Scope R_scope.

(** std::partial_sort by decreasing depth: the first k elements are sorted, and none of the others is deeper than one of them *)
Definition partial_sorted (psort : nat -> list contact -> list contact) : Prop := forall k l, (k <= length l)%nat ->
  Permutation l (psort k l) /\
  (forall i j, (i <= j < k)%nat -> forall c d, nth_error (psort k l) i = Some c -> nth_error (psort k l) j = Some d -> cdepth d <= cdepth c) /\
  (forall c d, In c (firstn k (psort k l)) -> In d (skipn k (psort k l)) -> cdepth d <= cdepth c).

(** With contacts: as many of the contacts of the algorithm are added as there is room for, and no contact left out is deeper than one added.
    Without: one contact, if there is room. *)
Theorem pair_contacts : forall psort cost max r a, partial_sorted psort ->
  (exists added rest, pair_collide psort true cost max r a = r ++ map Some added /\
    (full a = true -> Permutation (found a) (added ++ rest)) /\ (full a = false -> added = []) /\
    (full a = true -> length added = min (max - length r) (length (found a))) /\
    (forall c d, In c added -> In d rest -> cdepth d <= cdepth c) /\
    (rest <> [] -> forall i j, (i <= j)%nat -> forall c d, nth_error added i = Some c -> nth_error added j = Some d -> cdepth d <= cdepth c)) /\
  pair_collide psort false cost max r a = r ++ (if plain a && (length r <? max)%nat then [None] else []).
Proof.
  intros psort cost max r a Hp. unfold pair_collide. split.
  - assert (N : (max <= length r)%nat -> exists added rest, r = r ++ map Some added /\ (full a = true -> Permutation (found a) (added ++ rest)) /\ (full a = false -> added = []) /\
      (full a = true -> length added = min (max - length r) (length (found a))) /\ (forall c d, In c added -> In d rest -> cdepth d <= cdepth c) /\
      (rest <> [] -> forall i j, (i <= j)%nat -> forall c d, nth_error added i = Some c -> nth_error added j = Some d -> cdepth d <= cdepth c)).
    { intros L. exists [], (found a). cbn. rewrite app_nil_r. split; [reflexivity|]. split; [auto|]. split; [auto|]. split; [replace (max - length r)%nat with 0%nat by lia; reflexivity|]. split; [tauto|]. intros _ [|i] j _ c d E; discriminate E. }
    destruct (negb cost && (0 <? length r)%nat && (max <=? length r)%nat) eqn:Es.
    { apply N. apply andb_prop in Es. apply Nat.leb_le. tauto. }
    unfold shape_leaf. destruct (full a) eqn:Ef.
    + destruct (Nat.ltb_spec (length r) max) as [L|L]; [|apply N, L]. cbv zeta. destruct (Nat.ltb_spec (max - length r) (length (found a))) as [F|F].
      * set (k := (max - length r)%nat) in *. destruct (Hp k (found a) ltac:(lia)) as (P & S & D). exists (firstn k (psort k (found a))), (skipn k (psort k (found a))). split; [reflexivity|].
        split; [intros _; rewrite firstn_skipn; exact P|]. split; [discriminate|]. split; [intros _; rewrite firstn_length; rewrite <- (Permutation_length P); reflexivity|]. split; [exact D|].
        intros _ i j Hij c d Ec Ed. assert (Lj : (j < k)%nat). { assert (H := proj1 (nth_error_Some (firstn k (psort k (found a))) j)). rewrite firstn_length in H. rewrite Ed in H. specialize (H ltac:(discriminate)). lia. }
        assert (G : forall n, (n < k)%nat -> nth_error (firstn k (psort k (found a))) n = nth_error (psort k (found a)) n).
        { intros n Hn. rewrite <- (firstn_skipn k (psort k (found a))) at 2. symmetry. apply nth_error_app1. rewrite firstn_length, <- (Permutation_length P). lia. }
        rewrite G in Ec, Ed by lia. apply (S i j); [lia|exact Ec|exact Ed].
      * exists (found a), []. split; [reflexivity|]. split; [intros _; rewrite app_nil_r; apply Permutation_refl|]. split; [discriminate|]. split; [intros _; lia|]. split; [intros c d _ []|congruence].
    + exists [], (found a). cbn. rewrite app_nil_r. split; [reflexivity|]. split; [discriminate|]. split; [reflexivity|]. split; [discriminate|]. split; [tauto|]. intros _ [|i] j _ c d E; discriminate E.
  - destruct (negb cost && (0 <? length r)%nat && (max <=? length r)%nat) eqn:Es.
    + apply andb_prop in Es. destruct Es as (_ & L). apply Nat.leb_le in L. destruct (Nat.ltb_spec (length r) max); [lia|]. rewrite andb_false_r, app_nil_r. reflexivity.
    + unfold shape_leaf. destruct (plain a); [|cbn; rewrite app_nil_r; reflexivity]. destruct (length r <? max)%nat; cbn; rewrite ?app_nil_r; reflexivity.
Qed.
Print Assumptions pair_contacts.

(** ** The points of the shapes, and the pairs with an exact algorithm *)
Definition gset (g : geom) : v3 -> Prop :=
  match g with
  | GSphere r => ball vzero r | GEll radii => ellset radii | GBox side => boxset side | GCapsule lz r => capset lz r | GCyl lz r => cylset lz r
  | GCone lz r => coneset lz r | GConvex vs => hull vs | GHalf s => in_half s | GPlane s => in_plane s
  end.
Section Exact.
Variables eps tol meps big : R.
(** Sizes that are not negative, unit normals, and directions not within the tolerance tol of an exceptional direction (C68, C69) *)
Definition well_posed (g1 : geom) (X1 : tf) (g2 : geom) (X2 : tf) : Prop :=
  match g1, g2 with
  | GSphere r1, GSphere r2 => 0 <= r1 /\ 0 <= r2
  | GSphere r1, GCapsule lz r => 0 <= r1 /\ 0 <= lz /\ 0 <= r
  | GSphere r1, GBox side => 0 <= r1 /\ posside side
  | GSphere r1, GCyl lz r => 0 <= r1 /\ 0 <= lz /\ 0 <= r
  | _, GHalf s => dot (fn s) (fn s) = 1 /\ let h := flat_transform s X2 in let c := dot (VecR.m2 (tf_rot X1)) (fn h) in
      match g1 with
      | GSphere r => 0 <= r
      | GEll radii => 0 < support2 radii (fn (P_HalfQuery.loc h X1))
      | GBox side => 0 <= c0 side /\ 0 <= c1 side /\ 0 <= c2 side
      | GCapsule lz r => 0 <= lz /\ 0 <= r /\ sharp tol c 0
      | GCyl lz r => 0 < tol /\ 0 <= lz /\ 0 <= r /\ cyl_sharp tol c
      | GCone lz r => 0 < tol /\ 0 <= lz /\ 0 <= r /\ (c = 0 \/ tol <= c) /\ sharp tol c 1
      | GConvex vs => 0 < big /\ forall v, In v vs -> sd h (tf_apply X1 v) < big
      | _ => False
      end
  | _, GPlane s => dot (fn s) (fn s) = 1 /\ let h := flat_transform s X2 in
      match g1 with
      | GSphere r => 0 <= r
      | GEll radii => 0 < support2 radii (fn (P_HalfQuery.loc h X1))
      | GBox side => 0 <= c0 side /\ 0 <= c1 side /\ 0 <= c2 side
      | GCapsule lz r => 0 <= lz /\ 0 <= r /\ 0 <= tol /\ let d1 := sd h (fst (capsule_ends lz X1)) in let d2 := sd h (snd (capsule_ends lz X1)) in
          ~ (- tol <= d1 * d2 < 0) /\ ~ (d1 = 0 /\ d2 < 0)
      | _ => False
      end
  | _, _ => False
  end.

(** The answers with and without contacts are right, and with contacts there is one *)
Definition right (M : Prop) (a : answer) : Prop := (plain a = true <-> M) /\ (full a = true <-> M) /\ (full a = true -> exists c, found a = [c]).

Lemma right_test : forall (M : Prop) t o, (t = true <-> M) -> (o <> None <-> M) -> right M (one_contact t o).
Proof. intros M t [c|] H1 H2; unfold right, one_contact; cbn; split; auto; split; [|eauto| |discriminate]; rewrite <- H2; split; congruence. Qed.
Lemma right_same : forall (M : Prop) o, (o <> None <-> M) -> right M (same o).
Proof. intros M o H. apply right_test; [|exact H]. rewrite <- H. destruct o; cbn; split; congruence. Qed.
Lemma iff_none : forall (o : option contact) M, (o = None <-> ~ M) -> (o <> None <-> M).
Proof. intros [c|] M H; split; try congruence; intros K; [|exfalso; apply H; [reflexivity|exact K]]. destruct (Classical_Prop.classic M) as [m|n]; [exact m|]. apply H in n. discriminate n. Qed.
Lemma half_iff : forall nrm w K s X2 o, half_ok nrm w K s X2 o -> (o <> None <-> meets K (placed X2 (in_half s))).
Proof. intros nrm w K s X2 o (H & _). apply iff_none, H. Qed.
Lemma plane_iff : forall K s X2 o, plane_ok K s X2 o -> (o <> None <-> meets K (placed X2 (in_plane s))).
Proof. intros K s X2 o (H & _). apply iff_none, H. Qed.
Lemma ball_placed : forall r X q, ortho (tf_rot X) -> (ball (tf_tr X) r q <-> placed X (ball vzero r) q).
Proof.
  intros r X q O. assert (E : tf_apply X vzero = tf_tr X) by (destruct X as [A []]; unfold tf_apply, mapply, vzero, vadd, dot; cbn; f_equal; ring).
  unfold ball, placed. split.
  - intros D. exists (tf_inv_apply X q). rewrite tf_inv_right by exact O. split; [|reflexivity]. rewrite <- (tf_dist X _ _ O), tf_inv_right, E by exact O. exact D.
  - intros (p & D & ->). rewrite <- E, tf_dist by exact O. exact D.
Qed.
Lemma meets_ball : forall r X (K : v3 -> Prop), ortho (tf_rot X) -> ((exists q, ball (tf_tr X) r q /\ K q) <-> meets (placed X (ball vzero r)) K).
Proof. intros r X K O. unfold meets. split; intros (q & A & B); exists q; (split; [apply (ball_placed r X q O), A|exact B]). Qed.

Lemma alg_right : forall g1 X1 g2 X2, ortho (tf_rot X1) -> ortho (tf_rot X2) -> well_posed g1 X1 g2 X2 ->
  exists a, alg eps tol meps big g1 X1 g2 X2 = Some a /\ right (meets (placed X1 (gset g1)) (placed X2 (gset g2))) a.
Proof.
  intros g1 X1 g2 X2 O1 O2 W. destruct g1, g2; cbn [well_posed] in W; try contradiction W; try (destruct W as (_ & W); contradiction W); (eexists; split; [reflexivity|]); cbn [gset].
  - destruct W as (A & B). apply right_same. rewrite ss_intersect_iff by assumption. rewrite <- meets_ball by assumption. split; intros (q & C & D); exists q; (split; [exact C|apply (ball_placed _ X2 q O2), D]).
  - destruct W as (A & B). apply right_same. rewrite sb_intersect_iff by assumption. apply meets_ball, O1.
  - destruct W as (A & B & C). apply right_same. rewrite sc_intersect_iff by assumption. apply meets_ball, O1.
  - destruct W as (A & B & C). apply right_same. rewrite sy_intersect_iff by assumption. apply meets_ball, O1.
  - destruct W as (U & A). apply right_same, (half_iff _ _ _ _ _ _ (sphere_half_exact _ X1 s X2 A O1 O2 U)).
  - destruct W as (U & A). apply right_same, (plane_iff _ _ _ _ (sphere_plane_exact _ X1 s X2 A O1 O2 U)).
  - destruct W as (U & A). destruct (ell_half_exact _ X1 s X2 O1 O2 U A) as (w & _ & H). apply right_same, (half_iff _ _ _ _ _ _ H).
  - destruct W as (U & A). apply right_same, (plane_iff _ _ _ _ (ell_plane_exact _ X1 s X2 O1 O2 U A)).
  - destruct W as (U & A & B & C). destruct (box_half_answer tol side X1 s X2 A B C O1 O2 U) as (H1 & H2 & _). apply right_test; [exact H1|]. rewrite <- H1, H2. destruct (box_half _ _ _ _); split; congruence.
  - destruct W as (U & A & B & C). apply right_same, (plane_iff _ _ _ _ (box_plane_exact tol _ X1 s X2 A B C O1 O2 U)).
  - destruct W as (U & A & B & C). apply right_same, (half_iff _ _ _ _ _ _ (capsule_half_exact tol _ _ X1 s X2 A B O1 O2 U C)).
  - destruct W as (U & A & B & T & C & D). apply right_test; [apply capsule_plane_test_exact; assumption|]. apply (plane_iff _ _ _ _ (capsule_plane_exact tol _ _ X1 s X2 A B T O1 O2 U C D)).
  - destruct W as (U & T & A & B & C). apply right_same, (half_iff _ _ _ _ _ _ (cyl_half_exact tol _ _ X1 s X2 T A B O1 O2 U C)).
  - destruct W as (U & T & A & B & C & D). apply right_same, (half_iff _ _ _ _ _ _ (cone_half_exact tol _ _ X1 s X2 T A B O1 O2 U C D)).
  - destruct W as (U & A & B). apply right_test; [apply convex_half_test_exact; assumption|]. apply (half_iff _ _ _ _ _ _ (convex_half_exact big _ X1 s X2 A O1 O2 U B)).
Qed.

(** In either order of the arguments and with or without contacts: a contact is reported exactly if the placed shapes have a
    common point. *)
Theorem collide_pairs : forall g1 X1 g2 X2, ortho (tf_rot X1) -> ortho (tf_rot X2) -> well_posed g1 X1 g2 X2 \/ well_posed g2 X2 g1 X1 ->
  exists a, solve eps tol meps big g1 X1 g2 X2 = Some a /\ forall psort enable cost max, (1 <= max)%nat ->
    (pair_collide psort enable cost max [] a <> [] <-> exists x y, gset g1 x /\ gset g2 y /\ tf_apply X1 x = tf_apply X2 y).
Proof.
  assert (R : forall (M : Prop) a, right M a -> forall psort enable cost max, (1 <= max)%nat -> (pair_collide psort enable cost max [] a <> [] <-> M)).
  { intros M a (H1 & H2 & H3) psort enable cost max Hm. unfold pair_collide. cbn [length Nat.ltb Nat.leb]. rewrite andb_false_r. cbn [andb]. unfold shape_leaf. cbn [length].
    destruct (Nat.ltb_spec 0 max); [|lia]. destruct enable.
    - destruct (full a); [|split; [congruence|intros m; apply H2 in m; discriminate m]]. destruct (H3 eq_refl) as (c & E). rewrite E. cbn [length]. destruct (Nat.ltb_spec (max - 0) 1); [lia|]. cbn. rewrite <- H2. split; congruence.
    - destruct (plain a); rewrite <- H1; cbn; split; congruence. }
  intros g1 X1 g2 X2 O1 O2 W. unfold solve.
  assert (Q : meets (placed X1 (gset g1)) (placed X2 (gset g2)) <-> exists x y, gset g1 x /\ gset g2 y /\ tf_apply X1 x = tf_apply X2 y).
  { split; [intros (z & (x & A & E) & (y & B & F)); exists x, y; split; [exact A|split; [exact B|congruence]]|]. intros (x & y & A & B & E). exists (tf_apply X1 x). split; [exists x; auto|exists y; auto]. }
  assert (S : meets (placed X2 (gset g2)) (placed X1 (gset g1)) <-> meets (placed X1 (gset g1)) (placed X2 (gset g2))) by (split; intros (z & A & B); exists z; auto).
  destruct W as [W|W].
  - destruct (alg_right g1 X1 g2 X2 O1 O2 W) as (a & -> & Ra). exists a. split; [reflexivity|]. intros psort enable cost max Hm. rewrite <- Q. apply R; assumption.
  - destruct (alg eps tol meps big g1 X1 g2 X2) as [a|] eqn:E.
    + exists a. split; [reflexivity|]. intros psort enable cost max Hm. rewrite <- Q. apply R; [|exact Hm].
      assert (W' : well_posed g1 X1 g2 X2) by (destruct g1, g2; cbn [alg] in E; try discriminate E; cbn [well_posed] in W; try contradiction W; try (destruct W as (_ & W); contradiction W); cbn [well_posed]; tauto).
      destruct (alg_right g1 X1 g2 X2 O1 O2 W') as (a' & E' & Ra). congruence.
    + destruct (alg_right g2 X2 g1 X1 O2 O1 W) as (a & -> & (H1 & H2 & H3)). exists (flipped a). split; [reflexivity|]. intros psort enable cost max Hm. rewrite <- Q, <- S. apply R; [|exact Hm].
      split; [exact H1|]. split; [exact H2|]. intros F. destruct (H3 F) as (c & Ec). exists (flip c). cbn. rewrite Ec. reflexivity.
Qed.

(** Exchanging the two shapes exchanges the result up to the direction of the normals, whatever the shapes. *)
Lemma flip_flip : forall c, flip (flip c) = c.
Proof. intros [n p d]. unfold flip. cbn. f_equal. destruct n; unfold vneg; cbn; f_equal; ring. Qed.
Lemma flipped_twice : forall a, flipped (flipped a) = a.
Proof. intros [p f l]. unfold flipped. cbn. f_equal. rewrite map_map. induction l as [|c l IH]; [reflexivity|]. cbn. rewrite flip_flip, IH. reflexivity. Qed.
Lemma alg_short : forall g1 X1 g2 X2 a, alg eps tol meps big g1 X1 g2 X2 = Some a -> (length (found a) <= 1)%nat.
Proof.
  assert (H : forall t o, (length (found (one_contact t o)) <= 1)%nat) by (intros t [c|]; cbn; lia).
  intros g1 X1 g2 X2 a E. destruct g1, g2; cbn [alg] in E; try discriminate E; assert (E' := f_equal (fun o => match o with Some x => x | None => a end) E); cbv beta iota in E'; rewrite <- E'; first [apply H|cbn; lia].
Qed.
Lemma cross_sym : forall a b, norm2 (cross a b) = norm2 (cross b a).
Proof. intros [] []. unfold norm2, cross, dot. cbn. ring. Qed.
Lemma dot_sym : forall a b, dot a b = dot b a.
Proof. intros [] []. unfold dot. cbn. ring. Qed.
Lemma half_half_sym : forall a b, half_half_test meps a b = half_half_test meps b a.
Proof. intros a b. unfold half_half_test. rewrite (cross_sym (fn a)), (dot_sym (fn a)), (Rplus_comm (fd a)). reflexivity. Qed.
Lemma plane_plane_sym : forall a b, plane_plane a b = plane_plane b a.
Proof. intros a b. unfold plane_plane, eqb. rewrite (dot_sym (fn a)). repeat destruct (Req_EM_T _ _); cbn; try reflexivity; exfalso; lra. Qed.
Lemma ss_flip : forall r1 X1 r2 X2, 0 < r1 + r2 -> ss_intersect r2 X2 r1 X1 = option_map flip (ss_intersect r1 X1 r2 X2).
Proof.
  intros r1 [A1 p] r2 [A2 q] Hr. unfold ss_intersect. cbn [tf_tr].
  assert (D : vsub p q = vneg (vsub q p)) by (destruct p, q; unfold vsub, vneg; cbn; f_equal; ring).
  assert (N : norm (vneg (vsub q p)) = norm (vsub q p)) by (unfold norm, norm2; f_equal; destruct (vsub q p); unfold dot, vneg; cbn; ring).
  rewrite D, N, (Rplus_comm r2 r1). destruct (Rlt_dec (r1 + r2) (norm (vsub q p))); [reflexivity|]. cbn [option_map]. unfold flip. cbn [cnorm cpos cdepth]. f_equal. f_equal.
  - destruct (Rlt_dec 0 (norm (vsub q p))); [|reflexivity]. destruct (vsub q p); unfold vscale, vneg; cbn; f_equal; ring.
  - assert (E : r2 / (r1 + r2) = 1 - r1 / (r1 + r2)) by (field; lra). rewrite E. set (t := r1 / (r1 + r2)). destruct p, q; unfold vadd, vscale, vneg, vsub; cbn; f_equal; ring.
Qed.
Lemma solve_flip : forall g1 X1 g2 X2 a, solve eps tol meps big g1 X1 g2 X2 = Some a ->
  (forall r1 r2, g1 = GSphere r1 -> g2 = GSphere r2 -> 0 < r1 + r2) -> solve eps tol meps big g2 X2 g1 X1 = Some (flipped a).
Proof.
  assert (P : forall t o, flipped (one_contact t o) = one_contact t (option_map flip o)) by (intros t [c|]; reflexivity).
  assert (Q : forall o, some (option_map flip o) = some o) by (intros [c|]; reflexivity).
  intros g1 X1 g2 X2 a E Hs. unfold solve in *. destruct (alg eps tol meps big g1 X1 g2 X2) as [a1|] eqn:E1.
  - assert (E' : a1 = a) by congruence. subst a1. clear E. destruct (alg eps tol meps big g2 X2 g1 X1) as [a2|] eqn:E2; [|reflexivity].
    destruct g1, g2; cbn [alg] in E1, E2; try (exfalso; discriminate E1); try (exfalso; discriminate E2); rewrite <- E2; assert (E' := f_equal (fun o => match o with Some x => x | None => a end) E1); cbv beta iota in E'; rewrite <- E'.
    + unfold same. rewrite P, (ss_flip r X1 r0 X2) by (apply Hs; reflexivity). rewrite Q. reflexivity.
    + rewrite half_half_sym. reflexivity.
    + rewrite plane_plane_sym. reflexivity.
  - destruct (alg eps tol meps big g2 X2 g1 X1) as [a2|] eqn:E2; [|discriminate E]. cbn [option_map] in E. assert (E' : flipped a2 = a) by congruence. rewrite <- E', flipped_twice. reflexivity.
Qed.
Theorem collide_exchange : forall g1 X1 g2 X2 a, solve eps tol meps big g1 X1 g2 X2 = Some a ->
  (forall r1 r2, g1 = GSphere r1 -> g2 = GSphere r2 -> 0 < r1 + r2) ->
  exists b, solve eps tol meps big g2 X2 g1 X1 = Some b /\ forall psort enable cost max, (1 <= max)%nat ->
    pair_collide psort enable cost max [] b = map (option_map (fun c => mkct (vneg (cnorm c)) (cpos c) (cdepth c))) (pair_collide psort enable cost max [] a).
Proof.
  intros g1 X1 g2 X2 a E Hs. exists (flipped a). split; [apply solve_flip; assumption|]. intros psort enable cost max Hm.
  assert (L : (length (found a) <= 1)%nat).
  { unfold solve in E. destruct (alg eps tol meps big g1 X1 g2 X2) as [a1|] eqn:E1; [injection E as <-; exact (alg_short _ _ _ _ _ E1)|].
    destruct (alg eps tol meps big g2 X2 g1 X1) as [a2|] eqn:E2; [|discriminate E]. injection E as <-. cbn. rewrite map_length. exact (alg_short _ _ _ _ _ E2). }
  unfold pair_collide. cbn [length]. change (0 <? 0)%nat with false. rewrite andb_false_r. cbn [andb]. unfold shape_leaf. cbn [length]. destruct (Nat.ltb_spec 0 max); [|lia]. unfold flipped. cbn [plain full found]. rewrite map_length.
  destruct (Nat.ltb_spec (max - 0) (length (found a))); [lia|]. destruct enable; [|destruct (plain a); reflexivity]. destruct (full a); [|reflexivity]. cbn [app]. rewrite !map_map. reflexivity.
Qed.

(** Two half-spaces, two planes, a plane and a half-space: with enable_contact never a contact, although they meet whenever the
    normals are not parallel, and without enable_contact there is one. *)
Definition flat_pair (g : geom) (s : flat) : Prop := g = GHalf s \/ g = GPlane s.
Theorem flat_pairs_refuted : forall g1 s1 X1 g2 s2 X2, flat_pair g1 s1 -> flat_pair g2 s2 -> exists a, solve eps tol meps big g1 X1 g2 X2 = Some a /\
  forall psort cost max, (1 <= max)%nat ->
  pair_collide psort true cost max [] a = [] /\
  (0 < meps -> ortho (tf_rot X1) -> ortho (tf_rot X2) -> dot (fn s1) (fn s1) = 1 -> dot (fn s2) (fn s2) = 1 ->
    meps <= norm2 (cross (mapply (tf_rot X1) (fn s1)) (mapply (tf_rot X2) (fn s2))) ->
    pair_collide psort false cost max [] a = [None] /\ exists x y, gset g1 x /\ gset g2 y /\ tf_apply X1 x = tf_apply X2 y).
Proof.
  intros g1 s1 X1 g2 s2 X2 F1 F2.
  assert (S : exists t, solve eps tol meps big g1 X1 g2 X2 = Some (no_contact t) /\
    (0 < meps -> ortho (tf_rot X1) -> ortho (tf_rot X2) -> dot (fn s1) (fn s1) = 1 -> dot (fn s2) (fn s2) = 1 -> meps <= norm2 (cross (fn (flat_transform s1 X1)) (fn (flat_transform s2 X2))) -> t = true)).
  { destruct F1 as [-> | ->], F2 as [-> | ->]; (eexists; split; [reflexivity|]); intros M O1 O2 U1 U2 H.
    - unfold half_half_test. destruct (Rlt_dec _ meps); [lra|reflexivity].
    - rewrite cross_sym in H. unfold plane_half_test. destruct (Rlt_dec _ meps); [lra|reflexivity].
    - unfold plane_half_test. destruct (Rlt_dec _ meps); [lra|reflexivity].
    - apply plane_plane_exact; [apply transform_unit; assumption|apply transform_unit; assumption|]. apply cross_meets. intros Z. rewrite Z in H. unfold norm2, dot, vzero in H. cbn in H. lra. }
  destruct S as (t & E & T). exists (no_contact t). split; [exact E|]. intros psort cost max Hm. unfold pair_collide. cbn [length]. change (0 <? 0)%nat with false. rewrite andb_false_r. cbn [andb]. unfold shape_leaf, no_contact. cbn [length plain full found].
  destruct (Nat.ltb_spec 0 max); [|lia]. split.
  - destruct t; [|reflexivity]. destruct (Nat.ltb_spec (max - 0) 0); [lia|reflexivity].
  - intros M O1 O2 U1 U2 H'.
    assert (Hc : meps <= norm2 (cross (fn (flat_transform s1 X1)) (fn (flat_transform s2 X2)))) by (destruct (transform_form s1 X1 O1 U1) as [-> _], (transform_form s2 X2 O2 U2) as [-> _]; exact H').
    rewrite (T M O1 O2 U1 U2 Hc). split; [reflexivity|].
    destruct (cross_meets (flat_transform s1 X1) (flat_transform s2 X2)) as (p & A & B). { intros Z. rewrite Z in Hc. unfold norm2, dot, vzero in Hc. cbn in Hc. lra. }
    apply (proj2 (flat_transform_exact s1 X1 p O1 U1)) in A. apply (proj2 (flat_transform_exact s2 X2 p O2 U2)) in B. destruct A as (x & A & Ex), B as (y & B & Ey).
    exists x, y. split; [|split; [|congruence]]; [destruct F1 as [-> | ->]|destruct F2 as [-> | ->]]; cbn [gset]; unfold in_half, in_plane in *; lra.
Qed.
End Exact.
Print Assumptions collide_pairs.
Print Assumptions collide_exchange.
Print Assumptions flat_pairs_refuted.

(** ** The algorithm behind the entry of the table *)
(** Every pair of the nine shapes but a convex and a plane has an algorithm of its own or a support function for both shapes. *)
Theorem pair_algorithm : forall (A : Type) (class : A -> Dispatch.cls) v octo max (x y : A) a b, (1 <= max)%nat ->
  class x = Dispatch.Shape a -> class y = Dispatch.Shape b -> a <> Dispatch.TriangleP -> b <> Dispatch.TriangleP ->
  Dispatch.collide_call class octo max x y = Dispatch.Call (Dispatch.FSS a b) x y /\
  (pair_alg v a b = PSpecial \/ pair_alg v a b = PSupport <-> ~ (a = Dispatch.Convex /\ b = Dispatch.Plane \/ a = Dispatch.Plane /\ b = Dispatch.Convex)) /\
  (pair_alg v a b = PSupport -> MeshFlat.has_initializer a = true /\ MeshFlat.has_initializer b = true /\ MeshFlat.has_support a = true /\ MeshFlat.has_support b = true) /\
  pair_alg v a b = pair_alg v b a.
Proof.
  intros A class v octo max x y a b Hm Ex Ey Na Nb. split.
  - destruct (P_Dispatch.collide_dispatch A class octo max x y Hm) as (D & _). rewrite Ex, Ey in D. destruct D as (_ & D).
    { split; [destruct a; try exact I; congruence|]. split; [destruct b; try exact I; congruence|exact I]. }
    destruct (D ltac:(intros [])) as (f & E & C). rewrite Ex, Ey in C. rewrite E. destruct f; cbn in C; congruence.
  - split; [|split].
    + destruct v, a, b; try congruence; cbv; (split; [intros [H|H]; try discriminate H; intros [[H1 H2]|[H1 H2]]; congruence|intros H; try (left; reflexivity); try (right; reflexivity); exfalso; apply H; auto]).
    + destruct v, a, b; try congruence; cbv; intros H; try discriminate H; auto.
    + destruct v, a, b; try congruence; reflexivity.
Qed.
Print Assumptions pair_algorithm.
(** A convex and a plane, in either order: libccd is called with null function pointers, or GJK with a support function that gives
    the origin for the plane; convexPlaneIntersect (plane-inl.h 641-697) is not registered *)
Theorem convex_plane_refuted : forall (A : Type) (class : A -> Dispatch.cls) octo max (x y : A) a b, (1 <= max)%nat ->
  class x = Dispatch.Shape a -> class y = Dispatch.Shape b -> a = Dispatch.Convex /\ b = Dispatch.Plane \/ a = Dispatch.Plane /\ b = Dispatch.Convex ->
  Dispatch.collide_call class octo max x y = Dispatch.Call (Dispatch.FSS a b) x y /\ pair_alg MeshFlat.Libccd a b = PNull /\ pair_alg MeshFlat.Indep a b = POrigin.
Proof.
  intros A class octo max x y a b Hm Ex Ey H. assert (N : a <> Dispatch.TriangleP /\ b <> Dispatch.TriangleP) by (destruct H as [[-> ->]|[-> ->]]; split; discriminate).
  split; [apply (pair_algorithm A class MeshFlat.Libccd octo max x y a b Hm Ex Ey); tauto|]. destruct H as [[-> ->]|[-> ->]]; split; reflexivity.
Qed.
Print Assumptions convex_plane_refuted.

(** ** The statements are about something *)
(** insertion sort by decreasing depth is a partial sort *)
Fixpoint dinsert (c : contact) (l : list contact) : list contact :=
  match l with [] => [c] | d :: l' => if Rle_dec (cdepth d) (cdepth c) then c :: l else d :: dinsert c l' end.
Definition dsort (l : list contact) : list contact := fold_right dinsert [] l.
Lemma dinsert_perm : forall c l, Permutation (c :: l) (dinsert c l).
Proof. intros c l. induction l as [|d l IH]; [apply Permutation_refl|]. cbn. destruct (Rle_dec _ _); [apply Permutation_refl|]. apply Permutation_trans with (d :: c :: l); [apply perm_swap|apply perm_skip, IH]. Qed.
Lemma dsort_perm : forall l, Permutation l (dsort l).
Proof. induction l as [|c l IH]; [apply Permutation_refl|]. cbn. apply Permutation_trans with (c :: dsort l); [apply perm_skip, IH|apply dinsert_perm]. Qed.
Fixpoint desc (l : list contact) : Prop := match l with [] => True | c :: l' => (forall d, In d l' -> cdepth d <= cdepth c) /\ desc l' end.
Lemma dinsert_desc : forall c l, desc l -> desc (dinsert c l).
Proof.
  intros c l. induction l as [|d l IH]; [cbn; tauto|]. intros [H D]. cbn. destruct (Rle_dec (cdepth d) (cdepth c)) as [L|L].
  - split; [|split; assumption]. intros e [<-|He]; [exact L|]. specialize (H e He). lra.
  - split; [|apply IH, D]. intros e He. apply (Permutation_in e (Permutation_sym (dinsert_perm c l))) in He. destruct He as [<-|He]; [lra|apply H, He].
Qed.
Lemma dsort_desc : forall l, desc (dsort l).
Proof. induction l as [|c l IH]; [exact I|]. cbn. apply dinsert_desc, IH. Qed.
Lemma desc_nth : forall l, desc l -> forall i j, (i <= j)%nat -> forall c d, nth_error l i = Some c -> nth_error l j = Some d -> cdepth d <= cdepth c.
Proof.
  induction l as [|e l IH]; [intros _ [|i] j _ c d E; discriminate E|]. intros [H D] [|i] [|j] L c d Ec Ed; cbn in Ec, Ed; try lia.
  - replace d with c by congruence. lra.
  - injection Ec as <-. apply H. exact (nth_error_In _ _ Ed).
  - apply (IH D i j); [lia|exact Ec|exact Ed].
Qed.
Lemma desc_split : forall k l, desc l -> forall c d, In c (firstn k l) -> In d (skipn k l) -> cdepth d <= cdepth c.
Proof.
  induction k as [|k IH]; [intros l _ c d []|]. intros [|e l] D c d Hc Hd; [destruct Hc|]. destruct D as [H D]. cbn in Hc, Hd. destruct Hc as [<-|Hc]; [|apply (IH l D); assumption].
  apply H. rewrite <- (firstn_skipn k l). apply in_or_app. right. exact Hd.
Qed.
Example dsort_partial_sorted : partial_sorted (fun _ => dsort).
Proof. intros k l _. split; [apply dsort_perm|]. split; [intros i j L; apply desc_nth; [apply dsort_desc|lia]|apply desc_split, dsort_desc]. Qed.
(** three contacts and room for two: the deepest two are kept *)
Example two_of_three : let c d := mkct (mk3 0 0 1) vzero d in
  pair_collide (fun _ => dsort) true false 2 [] (Ans true true [c 1; c 3; c 2]) = [Some (c 3); Some (c 2)].
Proof. intros c. unfold pair_collide, shape_leaf, dsort, c. cbn. repeat (destruct (Rle_dec _ _); cbn; try lra). all: reflexivity. Qed.
(** a cone and the half-space z <= 0, and the half-space and the cone: a contact although the cone's pair is only registered once *)
Example half_cone : let s := Flat (mk3 0 0 1) 0 in let I3 := mktf mid vzero in
  well_posed (1/1000) 10 (GCone 2 1) I3 (GHalf s) I3 /\ well_posed (1/1000) 10 (GConvex [mk3 0 0 1; mk3 0 0 (-1)]) I3 (GHalf s) I3 /\
  exists a, solve 0 (1/1000) 0 10 (GHalf s) I3 (GCone 2 1) I3 = Some a /\ pair_collide (fun _ => dsort) true false 1 [] a <> [].
Proof.
  intros s I3. assert (O : ortho (tf_rot I3)) by exact ortho_mid. assert (U : dot (fn s) (fn s) = 1) by (unfold dot; cbn; ring).
  assert (F : flat_transform s I3 = Flat (mk3 0 0 1) 0).
  { destruct (transform_form s I3 O U) as [-> _]. assert (E : mapply (tf_rot I3) (fn s) = mk3 0 0 1) by (unfold I3, s, mapply, mid, dot, vadd, vscale; cbn; f_equal; ring). rewrite E. f_equal. unfold I3, s, dot, vzero. cbn. ring. }
  assert (C : dot (VecR.m2 (tf_rot I3)) (fn (Flat (mk3 0 0 1) 0)) = 1) by (unfold I3, mid, dot; cbn; ring).
  assert (W : well_posed (1/1000) 10 (GCone 2 1) I3 (GHalf s) I3).
  { cbn [well_posed]. split; [exact U|]. rewrite F. cbv zeta. rewrite C. unfold sharp. repeat split; try lra. }
  split; [exact W|]. split.
  { cbn [well_posed]. split; [exact U|]. rewrite F. split; [lra|]. intros v [<-|[<-|[]]]; unfold sd, tf_apply, mapply, I3, mid, dot, vadd, vzero; cbn; lra. }
  destruct (collide_pairs 0 (1/1000) 0 10 (GHalf s) I3 (GCone 2 1) I3 O O (or_intror W)) as (a & E & H). exists a. split; [exact E|]. apply H; [lia|].
  exists vzero, vzero. split; [|split; [|reflexivity]].
  - unfold gset, in_half, s, dot, vzero. cbn. lra.
  - exists (1/2). unfold vzero. cbn. repeat split; lra.
Qed.
