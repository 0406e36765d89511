(** C81: where EPA of the libccd extension starts, which faces an expansion takes away, and that the signed
    distance of separated shapes is their distance. *)
From Coq Require Import Reals Lra Lia List Bool Arith Permutation.
From Verif Require Import VecR Motion Prim P_PlaneQuery ShapeBV P_BoundVerts Support P_Support Gjk P_Gjk CcdGjk P_CcdGjk P_CcdDist CcdPoly P_CcdPoly CcdEpa P_CcdEpa.
Import ListNotations.
Open Scope R_scope.

(** ** The faces taken away *)
Lemma join_keeps : forall v l st f, In f (fs (fst st)) -> In f (fs (fst (fold_left (join v) l st))).
Proof.
  intros v l. induction l as [|b l IH]; intros st f H; [exact H|]. cbn [fold_left]. apply IH. unfold join.
  assert (K : forall s u, fs (fst (snd (spoke v s u))) = fs (fst s)) by (intros s u; unfold spoke; destruct (snd s u); reflexivity).
  destruct (spoke v st (ea (pe (fst st) b))) as (x, st1) eqn:E1. pose proof (K st (ea (pe (fst st) b))) as K1. rewrite E1 in K1. cbn [snd] in K1.
  destruct (spoke v st1 (eb (pe (fst st) b))) as (y, st2) eqn:E2. pose proof (K st1 (eb (pe (fst st) b))) as K2. rewrite E2 in K2. cbn [snd] in K2.
  cbn [fst add_face fs]. apply in_app_iff. left. congruence.
Qed.
Lemma kept_iff : forall ord P s q, (forall l, Permutation (ord l) l) -> closed P -> fresh P -> patch_of P s -> forall g, In g (fs P) -> (In g (fs (patch_in ord P s q)) <-> ~ In g (vis s)).
Proof.
  intros ord P s q HO C FR PO g F. destruct (cut_ok ord P s HO C PO) as (_ & _ & _ & _ & _ & _ & A7 & _). split.
  - intros I. destruct (patch_in_V ord P s q HO C FR PO) as (m & w). assert (L : (g < nx P)%nat) by (apply FR; auto). destruct (v_old _ _ _ _ _ _ _ _ _ _ w g ltac:(lia)) as (_ & Y). apply Y, A7 in I. apply I.
  - intros N. unfold patch_in. cbn [add_vertex]. apply join_keeps. cbn [fst fs]. apply A7. auto.
Qed.

(** Above the plane of a face *)
Definition above (big : R) (P : pt) (f : nat) (q : v3) : Prop := 0 < height big P f q.
Lemma outside_above : forall big P f q, outside big P f q = true <-> above big P f q.
Proof. intros. unfold outside, above, height, anchor. destruct (Rlt_dec _ _); split; intros; auto; try discriminate; contradiction. Qed.

(** C81: an expansion takes away the face it starts from and faces reached from there if
    the new point is above them or the triangle over an edge of theirs is without area by the test of the code; it keeps no face
    next to one taken away if the new point is above it. *)
Theorem expand_sees : forall feps big ord P x q Q, (forall l, Permutation (ord l) l) -> closed P -> fresh P -> element P x -> expand feps big ord P x q = Ok Q ->
  exists f0, In f0 (fs P) /\ ~ In f0 (fs Q) /\ (x = EF f0 \/ exists e, x = EE e /\ on_edge P e f0 /\ above big P f0 (sv q)) /\
    (forall g, In g (fs P) -> ~ In g (fs Q) -> g = f0 \/
       exists e, has P g e /\ (above big P g (sv q) \/ area_zero feps (sv q) (from P e) (into P e) = true)) /\
    (forall g h e, In g (fs P) -> ~ In g (fs Q) -> In h (fs P) -> In h (fs Q) -> has P g e -> has P h e -> ~ above big P h (sv q)).
Proof.
  intros feps big ord P x q Q HO C FR E H. unfold expand in H. destruct (start_face big P x (sv q)) as [f| |] eqn:S; try discriminate.
  assert (F : In f (fs P)) by (eapply start_in; eauto).
  destruct (patch_classified P (seen feps big P (sv q)) f C F) as (s & Es & _ & Fv & V & _ & _ & Rj & _). rewrite Es in H. injection H as <-.
  pose proof (found_patch P _ f s C F Es) as PO. pose proof (kept_iff ord P s q HO C FR PO) as KI.
  assert (NV : forall g, In g (fs P) -> ~ In g (fs (patch_in ord P s q)) -> In g (vis s)).
  { intros g Fg N. destruct (in_dec Nat.eq_dec g (vis s)) as [|Z]; [assumption|]. exfalso. apply N, KI; assumption. }
  exists f. split; [exact F|]. split; [intros I; apply KI in I; auto|]. split; [|split].
  - destruct x as [v|e|f']; cbn [start_face] in S; [discriminate| |injection S as <-; auto]. right. exists e. split; [reflexivity|].
    destruct (l0 (pe P e)) as [a|] eqn:L0; [|discriminate]. destruct (l1 (pe P e)) as [b|] eqn:L1; [|discriminate]. unfold on_edge. rewrite L0, L1.
    destruct (outside big P a (sv q)) eqn:Oa; [injection S as <-; split; [auto|apply outside_above, Oa]|]. destruct (outside big P b (sv q)) eqn:Ob; [|discriminate]. injection S as <-. split; [auto|apply outside_above, Ob].
  - intros g Fg N. destruct (V g (NV g Fg N)) as (_ & Rg).
    destruct Rg as [|h g e Rh Hh Hg Nn Sg]; [auto|]. right. exists e. split; [exact Hg|]. unfold seen in Sg. apply orb_true_iff in Sg. destruct Sg as [Sg|Sg]; [left; apply outside_above, Sg|right; exact Sg].
  - intros g h e Fg Ng Fh Ih Hg Hh A. apply KI in Ih; [|exact Fh]. destruct (Rj g h e (NV g Fg Ng) Hg Hh Fh Ih) as (g' & e' & _ & _ & _ & _ & Z). unfold seen in Z. apply orb_false_iff in Z. destruct Z as (Z & _). apply outside_above in A. congruence.
Qed.
Print Assumptions expand_sees.

(** ** The first polytope *)
(** C81: with three points the fourth corner is the one of the two support points perpendicular to the triangle that is
    farther from it, unless one of them is within sqrt(CCD_EPS) of it: then the triangle is the result. *)
Theorem from3_farther : forall ceps tri sup a b c P o, tri_ok tri -> from3 ceps tri sup a b c = (P, o) ->
  let n := cross (vsub (sv b) (sv a)) (vsub (sv c) (sv a)) in
  let away p := fst (tri (sv p) (sv a) (sv b) (sv c)) in
  pv P 0%nat = a /\ pv P 1%nat = b /\ pv P 2%nat = c /\
  match o with
  | Some x => x = EF 6 /\ el_simplex P x = [a; b; c] /\ (away (sup n) < ceps \/ away (sup (vneg n)) < ceps)
  | None => closed P /\ vs P = [0; 1; 2; 3]%nat /\ (pv P 3%nat = sup n \/ pv P 3%nat = sup (vneg n)) /\ away (sup n) <= away (pv P 3%nat) /\ away (sup (vneg n)) <= away (pv P 3%nat) /\ ceps <= away (pv P 3%nat)
  end.
Proof.
  intros ceps tri sup a b c P o TO E n away. unfold from3 in E. fold n in E. fold (away (sup n)) in E. fold (away (sup (vneg n))) in E.
  assert (Po : forall p, 0 <= away p). { intros p. unfold away. destruct (TO (sv p) (sv a) (sv b) (sv c)) as (_ & ->). apply VecR.norm2_nonneg. }
  pose proof (Po (sup n)) as P0. pose proof (Po (sup (vneg n))) as P1.
  assert (Z : forall r, 0 <= r -> ccd_zero ceps r = true <-> r < ceps) by (intros r Hr; unfold ccd_zero; rewrite (Rabs_pos_eq r Hr); destruct (Rlt_dec r ceps); split; intros; auto; try discriminate; contradiction).
  destruct (ccd_zero ceps (away (sup n)) || ccd_zero ceps (away (sup (vneg n))))%bool eqn:B.
  - cbn [add_vertex add_edge nx fst snd empty] in E. apply pair_equal_spec in E; destruct E as (<- & <-). split; [reflexivity|]. split; [reflexivity|]. split; [reflexivity|]. split; [reflexivity|]. split; [reflexivity|].
    apply orb_true_iff in B. destruct B as [B|B]; apply Z in B; auto.
  - apply orb_false_iff in B. destruct B as (B1 & B2). assert (Q1 : ~ away (sup n) < ceps) by (rewrite <- Z by exact P0; congruence). assert (Q2 : ~ away (sup (vneg n)) < ceps) by (rewrite <- Z by exact P1; congruence).
    rewrite (Rabs_pos_eq _ P0), (Rabs_pos_eq _ P1) in E. destruct (Rlt_dec _ _) as [L|L]; apply pair_equal_spec in E; destruct E as (<- & <-).
    + destruct (tetra_parts false a b c (sup n)) as (EV & _ & E0 & E1 & E2 & E3). rewrite E0, E1, E2, E3, EV. split; [reflexivity|]. split; [reflexivity|]. split; [reflexivity|]. split; [apply tetra_closed|]. split; [reflexivity|]. split; [auto|]. lra.
    + destruct (tetra_parts false a b c (sup (vneg n))) as (EV & _ & E0 & E1 & E2 & E3). rewrite E0, E1, E2, E3, EV. split; [reflexivity|]. split; [reflexivity|]. split; [reflexivity|]. split; [apply tetra_closed|]. split; [reflexivity|]. split; [auto|]. lra.
Qed.
Print Assumptions from3_farther.

(** C81: with four points the polytope is their tetrahedron if the origin is at least eps away from its four faces, and otherwise
    it is made from a face within eps of the origin. *)
Theorem from4_faces : forall ceps meps tri sup a b c d P o, tri_ok tri -> 0 < meps -> from4 ceps meps tri sup a b c d = (P, o) ->
  let face x y z := [x; y; z] = [a; b; c] \/ [x; y; z] = [a; c; d] \/ [x; y; z] = [a; b; d] \/ [x; y; z] = [b; c; d] in
  (exists x y z w, face x y z /\ pv P 0%nat = x /\ pv P 1%nat = y /\ pv P 2%nat = z /\ in_tri (sv x) (sv y) (sv z) w /\ norm w < meps) \/
  (o = None /\ closed P /\ map (pv P) (vs P) = [a; b; c; d] /\ forall x y z, face x y z -> meps <= norm (snd (tri vzero (sv x) (sv y) (sv z)))).
Proof.
  intros ceps meps tri sup a b c d P o TO Hm E face. unfold from4 in E.
  assert (T : forall x y z, let w := snd (tri vzero (sv x) (sv y) (sv z)) in in_tri (sv x) (sv y) (sv z) w /\ (tiny2 meps (fst (tri vzero (sv x) (sv y) (sv z))) = true <-> norm w < meps)).
  { intros x y z w. destruct (TO vzero (sv x) (sv y) (sv z)) as (T1 & T2). fold w in T1, T2. split; [exact T1|]. assert (T3 : fst (tri vzero (sv x) (sv y) (sv z)) = norm w * norm w) by (rewrite T2, norm_sq; coords). rewrite T3. unfold tiny2. clear T2 T3. clearbody w. pose proof (norm_nonneg w). rewrite Rabs_pos_eq by (apply Rmult_le_pos; assumption).
    destruct (Rlt_dec _ _) as [L|L]; split; intros G; auto; try discriminate.
    - apply Rnot_le_lt. intros Q. apply (Rlt_not_le _ _ L). apply Rmult_le_compat; lra.
    - exfalso. apply L. apply Rmult_le_0_lt_compat; lra. }
  assert (G : forall x y z, face x y z -> tiny2 meps (fst (tri vzero (sv x) (sv y) (sv z))) = true -> from3 ceps tri sup x y z = (P, o) ->
    exists x y z w, face x y z /\ pv P 0%nat = x /\ pv P 1%nat = y /\ pv P 2%nat = z /\ in_tri (sv x) (sv y) (sv z) w /\ norm w < meps).
  { intros x y z F Ti Ef. destruct (from3_farther ceps tri sup x y z P o TO Ef) as (A & B & C & _). destruct (T x y z) as (T1 & T2). exists x, y, z, (snd (tri vzero (sv x) (sv y) (sv z))). split; [exact F|]. split; [exact A|]. split; [exact B|]. split; [exact C|]. split; [exact T1|]. apply T2, Ti. }
  destruct (tiny2 meps (fst (tri vzero (sv a) (sv b) (sv c)))) eqn:B1; [left; eapply G; eauto; unfold face; auto|].
  destruct (tiny2 meps (fst (tri vzero (sv a) (sv c) (sv d)))) eqn:B2; [left; eapply G; eauto; unfold face; auto|].
  destruct (tiny2 meps (fst (tri vzero (sv a) (sv b) (sv d)))) eqn:B3; [left; eapply G; eauto; unfold face; auto|].
  destruct (tiny2 meps (fst (tri vzero (sv b) (sv c) (sv d)))) eqn:B4; [left; eapply G; eauto; unfold face; auto|].
  right. apply pair_equal_spec in E; destruct E as (<- & <-). destruct (tetra_parts true a b c d) as (EV & _ & E0 & E1 & E2 & E3). split; [reflexivity|]. split; [apply tetra_closed|]. rewrite EV. cbn [map]. rewrite E0, E1, E2, E3. split; [reflexivity|].
  intros x y z F. apply Rnot_lt_le. intros L. apply (proj2 (T x y z)) in L. destruct F as [F|[F|[F|F]]]; injection F as -> -> ->; congruence.
Qed.
Print Assumptions from4_faces.

(** C81: with two points the polytope is an octahedron in which the two points are opposite corners: no edge joins them, each
    of the other four is joined to both. *)
Definition joined (P : pt) (u w : nat) : Prop := exists e, In e (es P) /\ joins P e u w.
Lemma octa_shape : forall a s0 b s1 s2 s3, let P := octa a s0 b s1 s2 s3 in vs P = [0; 1; 2; 3; 4; 5]%nat /\
  pv P 0%nat = a /\ pv P 1%nat = s0 /\ pv P 2%nat = b /\ pv P 3%nat = s1 /\ pv P 4%nat = s2 /\ pv P 5%nat = s3 /\
  es P = [6; 7; 8; 9; 10; 11; 12; 13; 14; 15; 16; 17]%nat /\
  map (fun e => (ea (pe P e), eb (pe P e))) (es P) = [(0, 1); (1, 2); (2, 3); (3, 0); (4, 0); (4, 1); (4, 2); (4, 3); (5, 0); (5, 1); (5, 2); (5, 3)]%nat.
Proof. intros. repeat (split; [reflexivity|]). vm_compute. reflexivity. Qed.
Lemma joined_iff : forall P u w, joined P u w <-> In (u, w) (map (fun e => (ea (pe P e), eb (pe P e))) (es P)) \/ In (w, u) (map (fun e => (ea (pe P e), eb (pe P e))) (es P)).
Proof.
  intros P u w. rewrite !in_map_iff. unfold joined, joins. split.
  - intros (e & I & [(A & B)|(A & B)]); [left|right]; exists e; split; auto; congruence.
  - intros [(e & E & I)|(e & E & I)]; injection E as A B; exists e; split; auto.
Qed.
Theorem from2_opposite : forall veq sup dirs a b P, from2 veq sup dirs a b = (P, None) ->
  closed P /\ vs P = [0; 1; 2; 3; 4; 5]%nat /\ pv P 0%nat = a /\ pv P 2%nat = b /\ ~ joined P 0 2 /\
  (forall u, In u [1; 3; 4; 5]%nat -> joined P u 0 /\ joined P u 2 /\ exists v, pv P u = sup v /\ veq (sv a) (sv (pv P u)) = false /\ veq (sv b) (sv (pv P u)) = false) /\
  pv P 3%nat = sup (vneg (sv (pv P 1%nat))) /\
  (let n := cross (vsub (sv (pv P 1%nat)) (sv a)) (vsub (sv (pv P 3%nat)) (sv a)) in pv P 4%nat = sup n /\ pv P 5%nat = sup (vneg n)).
Proof.
  intros veq sup dirs a b P E. unfold from2 in E. cbv zeta in E. destruct (find _ dirs) as [d|] eqn:F; [|apply (f_equal snd) in E; discriminate E]. apply find_some in F. destruct F as (_ & N0).
  set (s0 := sup d) in *. set (s1 := sup (vneg (sv s0))) in *. destruct (negb (veq (sv a) (sv s1) || _)) eqn:N1; [|apply (f_equal snd) in E; discriminate E].
  set (n := cross (vsub (sv s0) (sv a)) (vsub (sv s1) (sv a))) in *. set (s2 := sup n) in *. destruct (negb (veq (sv a) (sv s2) || _)) eqn:N2; [|apply (f_equal snd) in E; discriminate E].
  set (s3 := sup (vneg n)) in *. destruct (negb (veq (sv a) (sv s3) || _)) eqn:N3; [|apply (f_equal snd) in E; discriminate E]. apply pair_equal_spec in E. destruct E as (<- & _).
  assert (D : forall p, negb (veq (sv a) (sv p) || veq (sv b) (sv p)) = true -> veq (sv a) (sv p) = false /\ veq (sv b) (sv p) = false) by (intros p H; apply negb_true_iff, orb_false_iff in H; exact H).
  apply D in N0, N1, N2, N3. destruct N0 as (N0 & M0), N1 as (N1 & M1), N2 as (N2 & M2), N3 as (N3 & M3).
  destruct (octa_shape a s0 b s1 s2 s3) as (EV & E0 & E1 & E2 & E3 & E4 & E5 & _ & EM). pose proof (octa_closed a s0 b s1 s2 s3) as (C & _). set (P := octa a s0 b s1 s2 s3) in *. clearbody P.
  split; [exact C|]. split; [exact EV|]. split; [exact E0|]. split; [exact E2|]. split.
  { rewrite joined_iff, EM. clear. cbn. intuition discriminate. }
  split; [|rewrite E1, E3, E4, E5; auto].
  assert (W : forall u, In u [1; 3; 4; 5]%nat -> joined P u 0 /\ joined P u 2).
  { clear - EM. intros u I. rewrite !joined_iff, EM. clear EM. cbn in I. destruct I as [ <- |[ <- |[ <- |[ <- |[]]]]]; cbn; tauto. }
  intros u I. destruct (W u I) as (W0 & W1). split; [exact W0|]. split; [exact W1|]. destruct I as [ <- |[ <- |[ <- |[ <- |[]]]]]; rewrite ?E1, ?E3, ?E4, ?E5; eexists; split; try reflexivity; auto.
Qed.
Print Assumptions from2_opposite.

(** ** Signed and unsigned distance *)
(** C81: where the distance query of the same extension finds a distance, the signed distance is the same, with the same points; and a
    penetration is returned only where the distance query finds no distance. *)
Theorem signed_agrees : forall ceps meps feps big tri seg veq sup tol ord near dirs dtol n m first,
  (forall d p1 p2, ccd_dist2 ceps meps feps tri veq sup seg dtol big n first = Dist d p1 p2 -> signed_dist ceps meps feps big tri seg veq sup tol ord near dirs dtol n m first = Some (Sep (Dist d p1 p2))) /\
  (forall d p1 p2, signed_dist ceps meps feps big tri seg veq sup tol ord near dirs dtol n m first = Some (Pen d p1 p2) -> ccd_dist2 ceps meps feps tri veq sup seg dtol big n first = NoDist /\ d <= 0).
Proof.
  intros. unfold ccd_dist2, signed_dist. destruct (ccd_gjk _ _ _ _ _ _ _ _) as [(w, s)|].
  2: { split; intros; discriminate. }
  destruct w; split; intros d' p1 p2 H; try discriminate; try (rewrite H; reflexivity).
  split; [reflexivity|]. destruct (ccd_epa _ _ _ _ _ _ _ _ _ _ _ _ _ _) as [[(x, P)| |]|]; try discriminate. destruct (pen_points _ _ _ _ _) as [(u, v)|]; [|discriminate]. injection H as <- _ _. pose proof (sqrt_pos (el_dist tri seg P x)). lra.
Qed.
Print Assumptions signed_agrees.
(** C81: for shapes, so the signed distance of a pair it calls separated is the length of a difference of points of the two. *)
Theorem signed_shapes : forall ceps meps feps tol dtol big rmax tri seg veq find ord near dirs s0 s1 X0 X1 n m first d p1 p2,
  0 < ceps -> 0 < meps -> 0 < feps -> 0 < dtol -> tri_ok tri -> seg_ok seg -> always big find s0 -> always big find s1 -> ortho (tf_rot X0) -> ortho (tf_rot X1) ->
  let sup := shapes_sup big ceps find s0 s1 X0 X1 in first <> vzero -> sv (sup first) <> vzero ->
  (forall p q, placed X0 (points s0) p -> placed X1 (points s1) q -> dist p q < rmax) ->
  signed_dist ceps meps feps rmax tri seg veq sup tol ord near dirs dtol n m first = Some (Sep (Dist d p1 p2)) ->
  exists p q, placed X0 (points s0) p /\ placed X1 (points s1) q /\ dist p q = d /\
    (flat feps sup (vsub p q) \/ placed X0 (points s0) p1 /\ placed X1 (points s1) p2 /\ Rabs (dist p1 p2 - d) <= 2 * feps).
Proof.
  intros ceps meps feps tol dtol big rmax tri seg veq find ord near dirs s0 s1 X0 X1 n m first d p1 p2 Hc Hm Hf Ht TO SO A0 A1 O0 O1 sup N N1 B E.
  apply (shapes_dist ceps meps feps dtol big rmax tri seg veq find s0 s1 X0 X1 n first d p1 p2); auto. fold sup.
  revert E. unfold ccd_dist2, signed_dist. destruct (ccd_gjk _ _ _ _ _ _ _ _) as [(w, s)|]; [|discriminate]. destruct w; try (intros H; injection H as ->; reflexivity).
  destruct (ccd_epa _ _ _ _ _ _ _ _ _ _ _ _ _ _) as [[(x, P)| |]|]; try discriminate. destruct (pen_points _ _ _ _ _) as [(u, v)|]; discriminate.
Qed.
Print Assumptions signed_shapes.

(** A triangle with a support point two above and one below it: the one above is taken *)
Example farther_case : let tri := fun p a b c : v3 => (norm2 (vsub a p), a) in
  let pnt := fun z => Sp (mk3 0 0 z) (mk3 0 0 z) vzero in
  let sup := fun d => if Rlt_dec 0 (c2 d) then pnt 2 else pnt (-1) in
  let at3 := fun x y => Sp (mk3 x y 0) (mk3 x y 0) vzero in
  tri_ok tri /\ exists P, from3 1 tri sup (at3 1 0) (at3 0 1) (at3 (-1) 0) = (P, None) /\ pv P 3%nat = pnt 2.
Proof.
  intros tri pnt sup at3. assert (TO : tri_ok tri).
  { intros p a b c. split; [|reflexivity]. exists 1, 0, 0. split; [lra|]. split; [lra|]. split; [lra|]. split; [lra|]. cbn [snd tri]. clear. destruct a, b, c. unfold vadd, vscale. cbn. f_equal; ring. }
  split; [exact TO|]. destruct (from3 1 tri sup (at3 1 0) (at3 0 1) (at3 (-1) 0)) as (P, o) eqn:E. exists P.
  destruct (from3_farther _ _ _ _ _ _ _ _ TO E) as (_ & _ & _ & H). cbv zeta in H.
  set (n := cross _ _) in H. assert (N : n = mk3 0 0 2) by (unfold n, cross, vsub, at3; cbn; f_equal; lra). rewrite N in H.
  assert (U : sup (mk3 0 0 2) = pnt 2) by (unfold sup; cbn; destruct (Rlt_dec 0 2); [reflexivity|exfalso; lra]).
  assert (L : sup (vneg (mk3 0 0 2)) = pnt (-1)) by (unfold sup, vneg; cbn; destruct (Rlt_dec _ _); [exfalso; lra|reflexivity]). rewrite U, L in H. unfold tri, at3, pnt in H. cbn [fst snd sv] in H.
  assert (A2 : norm2 (vsub (mk3 1 0 0) (mk3 0 0 2)) = 5) by (unfold norm2, dot, vsub; cbn; lra). assert (A1 : norm2 (vsub (mk3 1 0 0) (mk3 0 0 (-1))) = 2) by (unfold norm2, dot, vsub; cbn; lra). rewrite A1, A2 in H.
  destruct o as [x|]; [exfalso; lra|]. split; [reflexivity|]. destruct H as (_ & _ & [H|H] & Q & _); [rewrite H; reflexivity|]. exfalso. rewrite H in Q. cbn [sv] in Q. rewrite A1 in Q. lra.
Qed.
