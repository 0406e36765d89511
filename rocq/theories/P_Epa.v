(** C76: EPA and the intersection query. *)
From Coq Require Import Reals Lra Lia List Bool PeanoNat Permutation.
From Verif Require Import VecR Motion Prim P_Prim HalfQuery P_HalfQuery P_PlaneQuery Project Support P_Support Gjk P_Gjk Epa.
Import ListNotations.
Open Scope R_scope.

(** ** The surface stays closed *)
(** Before every iteration: each face is in the hull or in the stock, each side of a face of the hull has
    its partner there, every face was made by newFace. *)
Record ready (sup : v3 -> v3) (tol : R) (maxf pass : nat) (s : est) : Prop := {
  rd_perm : Permutation (hull s ++ stock s) (seq 0 maxf);
  rd_closed : closed s;
  rd_good : all_good sup tol s;
  rd_pass : forall x, In x (hull s) -> (fpass (fs s x) <= pass)%nat }.
Lemma mark_good : forall sup tol s p b, all_good sup tol s -> all_good sup tol (Est (upd (fs s) b (set_pass p (fs s b))) (hull s) (stock s)).
Proof. intros sup tol s p b G z Hz. cbn [hull fs] in *. unfold upd. destruct (Nat.eqb_spec z b) as [->|]; [|apply G, Hz]. apply (fgood_ext sup tol (fs s b)); auto. Qed.
Lemma mark_closed : forall s p b, closed s -> closed (Est (upd (fs s) b (set_pass p (fs s b))) (hull s) (stock s)).
Proof.
  intros s p b C x i Hx Hi. destruct (C x i Hx Hi) as (y & j & P). exists y, j. apply (paired_ext s); cbn [fs hull]; auto; unfold upd; [destruct (Nat.eqb_spec x b)|destruct (Nat.eqb_spec y b)|destruct (Nat.eqb_spec x b)|destruct (Nat.eqb_spec y b)]; subst; reflexivity.
Qed.
Lemma start_inv : forall sup tol maxf pass w s b, ready sup tol maxf pass s -> In b (hull s) ->
  inv tol maxf (S pass) w [] [(b, 0%nat); (b, 1%nat); (b, 2%nat)] [b] (Hz None None 0) (Est (upd (fs s) b (set_pass (S pass) (fs s b))) (hull s) (stock s)).
Proof.
  intros sup tol maxf pass w s b Rd Hb. set (m := upd (fs s) b (set_pass (S pass) (fs s b))).
  assert (Pb : fpass (m b) = S pass) by (unfold m; rewrite upd_same; reflexivity).
  assert (Po : forall z, In z (hull s) -> z <> b -> fpass (m z) <> S pass). { intros z Hz Nz. unfold m. rewrite upd_other by exact Nz. pose proof (rd_pass _ _ _ _ _ Rd z Hz). lia. }
  pose proof (mark_closed s (S pass) b (rd_closed _ _ _ _ _ Rd)) as C.
  assert (Pin : forall j, (j < 3)%nat -> In (b, j) [(b, 0%nat); (b, 1%nat); (b, 2%nat)]) by (intros [|[|[|j]]] H; try lia; cbn; auto).
  constructor; cbn [hull stock fs].
  - apply (rd_perm _ _ _ _ _ Rd).
  - intros x Hx. destruct (Nat.eq_dec x b) as [->|N]; [lia|]. unfold m. rewrite upd_other by exact N. pose proof (rd_pass _ _ _ _ _ Rd x Hx). lia.
  - intros x. fold m. split; [intros [<-|[]]; auto|]. intros (Hx & Px). left. destruct (Nat.eq_dec b x); [assumption|]. exfalso. exact (Po x Hx (not_eq_sym n) Px).
  - constructor; [intros []|constructor].
  - intros x [].
  - intros x i Hx Hi Px _. destruct (C x i Hx Hi) as (y & j & P). exists y, j. split; [exact P|]. destruct P as (_ & Hy & Hj & _). fold m. destruct (Nat.eq_dec y b) as [->|N]; [right; apply Pin, Hj|left; split; [apply Po; auto|intros []]].
  - intros y j Hp. assert (Hyj : y = b /\ (j < 3)%nat) by (cbn in Hp; destruct Hp as [E|[E|[E|[]]]]; injection E as <- <-; split; lia || reflexivity). destruct Hyj as (-> & Hj). split; [exact Hb|split; [exact Hj|split; [exact Pb|]]].
    destruct (C b j Hb Hj) as (x & i & P). exists x, i. split; [exact P|split; [intros []|]]. destruct P as (_ & Hx & Hi & _). fold m. intros Px. destruct (Nat.eq_dec x b) as [->|N]; [apply Pin, Hi|]. exfalso. exact (Po x Hx N Px).
  - repeat constructor; cbn; intuition congruence.
  - intros x i _ _ _ _ _ [].
  - exists (fcor (m b) 0%nat). cbn. auto.
Qed.
Lemma sides_ok : forall sup tol maxf p w fuel b, p <> 0%nat -> vgood sup w -> (maxf <= fuel)%nat -> forall js s h N,
  inv tol maxf p w N (map (fun j => (b, j)) js) [b] h s -> all_good sup tol s -> (cf h = None -> nf h = 0%nat) ->
  exists r s' h', expand_sides tol fuel p w b js s h = Some (r, s', h') /\ (r = true -> (exists N', inv tol maxf p w N' [] [b] h' s') /\ all_good sup tol s' /\ (cf h' = None -> nf h' = 0%nat)).
Proof.
  intros sup tol maxf p w fuel b Np Gw F js. induction js as [|j js IH]; intros s h N I G Hn; cbn [expand_sides].
  - eexists _, _, _. split; [reflexivity|]. eauto.
  - cbn [map] in I. destruct (expand_ok sup tol maxf p w Np Gw fuel s h N b j _ [b] I G ltac:(cbn [length]; lia) Hn) as (r & s1 & h1 & E & T). rewrite E. destruct r; [|eexists _, _, _; split; [reflexivity|discriminate]].
    destruct (T eq_refl) as ((N1 & I1) & G1 & Hn1). exact (IH s1 h1 N1 I1 G1 Hn1).
Qed.
Lemma finish : forall sup tol maxf pass w N s b h a c, inv tol maxf (S pass) w N [] [b] h s -> all_good sup tol s -> hf h = Some a -> cf h = Some c ->
  let s2 := to_stock b (Est (bind (fs s) a 2 c 1) (hull s) (stock s)) in ready sup tol maxf (S pass) s2 /\ In a (hull s2).
Proof.
  intros sup tol maxf pass w N s b h a c I G Ea Ec s2. pose proof (iv_open _ _ _ _ _ _ _ _ _ I) as O. rewrite Ea, Ec in O. destruct O as (An & Cn & Aw & Cw & Pa). cbn [path] in Pa.
  destruct (iv_N _ _ _ _ _ _ _ _ _ I a An) as (Ah & Ap). destruct (iv_N _ _ _ _ _ _ _ _ _ I c Cn) as (Ch & Cp).
  assert (Hr : forall z, In z (hull s2) <-> In z (hull s) /\ z <> b) by (intros z; split; [apply in_remove|intros (A & B); apply in_in_remove; auto]).
  assert (Mb : In b (hull s) /\ fpass (fs s b) = S pass) by (apply (iv_M _ _ _ _ _ _ _ _ _ I); left; reflexivity). destruct Mb as (Hb & Mb).
  assert (Nm : forall z, In z (hull s) -> z <> b -> fpass (fs s z) <> S pass). { intros z Hz Nz Pz. destruct (proj2 (iv_M _ _ _ _ _ _ _ _ _ I z) (conj Hz Pz)) as [E|[]]. congruence. }
  assert (Nab : a <> b) by congruence. assert (Ncb : c <> b) by congruence.
  assert (Sc : forall z, fcor (fs s2 z) = fcor (fs s z)) by (intros z; unfold s2; cbn [to_stock fs]; apply bind_face).
  assert (Op : opens h = [(a, 2%nat); (c, 1%nat)]) by (unfold opens; rewrite Ea, Ec; reflexivity).
  pose proof (inv_drop _ _ _ _ _ _ _ _ _ b I (fun j H => H)) as I2.
  split; [|apply Hr; auto]. constructor.
  - exact (iv_perm _ _ _ _ _ _ _ _ _ I2).
  - intros x i Hx Hi. apply Hr in Hx as (Hx & Nx). destruct (half_dec (x, i) (a, 2%nat)) as [E|N1]; [|destruct (half_dec (x, i) (c, 1%nat)) as [E|N2]].
    + injection E as -> ->. exists c, 1%nat. unfold paired, matched. rewrite !Sc. cbn [nexti]. split; [unfold s2; cbn [to_stock fs]; apply bind_link1; congruence|split; [apply Hr; auto|split; [lia|split; [unfold s2; cbn [to_stock fs]; apply bind_link2|split; congruence]]]].
    + injection E as -> ->. exists a, 2%nat. unfold paired, matched. rewrite !Sc. cbn [nexti]. split; [unfold s2; cbn [to_stock fs]; apply bind_link2|split; [apply Hr; auto|split; [lia|split; [unfold s2; cbn [to_stock fs]; apply bind_link1; congruence|split; congruence]]]].
    + destruct (iv_live _ _ _ _ _ _ _ _ _ I x i Hx Hi (Nm x Hx Nx)) as (y & j & P & Q); [rewrite Op; intros [E|[E|[]]]; congruence|]. destruct Q as [(Py & Oy)|[]]. rewrite Op in Oy.
      assert (Y1 : (y, j) <> (a, 2%nat)) by (intros E; apply Oy; left; congruence). assert (Y2 : (y, j) <> (c, 1%nat)) by (intros E; apply Oy; right; left; congruence).
      exists y, j. destruct P as (L1 & Hy & Hj & L2 & Mt). unfold paired, matched. rewrite !Sc. split; [unfold s2; cbn [to_stock fs]; rewrite bind_link by assumption; exact L1|split; [apply Hr; split; [exact Hy|congruence]|split; [exact Hj|split; [unfold s2; cbn [to_stock fs]; rewrite bind_link by assumption; exact L2|exact Mt]]]].
  - intros x Hx. apply Hr in Hx as (Hx & _). exact (bind_good sup tol (fs s) (hull s) (stock s) a 2 c 1 G x Hx).
  - intros x Hx. apply Hr in Hx as (Hx & _). unfold s2. cbn [to_stock fs]. destruct (bind_face (fs s) a 2 c 1 x) as (_ & _ & -> & _). apply (iv_pass _ _ _ _ _ _ _ _ _ I), Hx.
Qed.
Lemma fold_best : forall m l r b, b = fold_left (best_step m) l r -> (b = r \/ In b l) /\ forall x, x = r \/ In x l -> fd (m b) * fd (m b) <= fd (m x) * fd (m x).
Proof.
  intros m l. induction l as [|y l IH]; intros r b Eb; cbn in *; [subst b; split; [auto|]; intros x [->|[]]; lra|].
  destruct (IH (best_step m r y) b Eb) as (A & B).
  assert (S : (best_step m r y = r \/ best_step m r y = y) /\ fd (m (best_step m r y)) * fd (m (best_step m r y)) <= fd (m r) * fd (m r) /\ fd (m (best_step m r y)) * fd (m (best_step m r y)) <= fd (m y) * fd (m y)).
  { unfold best_step. destruct (Rlt_dec _ _); split; auto; lra. }
  destruct S as (S1 & S2 & S3). pose proof (B _ (or_introl eq_refl)) as B0. split; [destruct A as [A|A]; [rewrite A; destruct S1 as [-> | ->]; auto|auto]|].
  intros x [->|[->|Hx]]; [lra|lra|apply B; auto].
Qed.
Lemma find_best_ok : forall s b, find_best s = Some b -> In b (hull s) /\ forall x, In x (hull s) -> fd (fs s b) * fd (fs s b) <= fd (fs s x) * fd (fs s x).
Proof.
  intros s b E. unfold find_best in E. destruct (hull s) as [|r l]; [discriminate|]. injection E as <-. destruct (fold_best (fs s) l r _ eq_refl) as (A & B). cbn [In]. split; [destruct A; auto|]. intros x Hx. apply B. destruct Hx; auto.
Qed.
Lemma unit_normal : forall sup tol f, 0 <= tol -> fgood sup tol f -> norm2 (fn f) = 1 /\ normalized (fn f) = fn f.
Proof.
  intros sup tol f T (_ & L & E & _). assert (U : norm2 (fn f) = 1).
  { rewrite E. replace (norm2 (vscale (/ norm (normal3 f)) (normal3 f))) with (/ norm (normal3 f) * / norm (normal3 f) * norm2 (normal3 f)) by coords. rewrite <- (norm_sq (normal3 f)). field. lra. }
  split; [exact U|]. unfold normalized, norm. rewrite U, sqrt_1. destruct (Rlt_dec 0 1); [|lra]. rewrite Rinv_1. vcoords.
Qed.
(** What a face at the end says. *)
Record epa_end (sup : v3 -> v3) (tol : R) (maxf : nat) (st : estatus) (s : est) (o : face) : Prop := {
  ee_good : fgood sup tol o;
  ee_closed : st <> InvalidHull -> Permutation (hull s ++ stock s) (seq 0 maxf) /\ closed s /\ all_good sup tol s /\
    (exists b, In b (hull s) /\ fcor (fs s b) = fcor o) /\ forall x, In x (hull s) -> fd o * fd o <= fd (fs s x) * fd (fs s x);
  ee_acc : st = AccuracyReached -> dot (fn o) (sup (fn o)) <= fd o + tol }.
Lemma loop_end : forall sup tol maxv maxf, 0 <= tol -> forall left nextsv pass s b, ready sup tol maxf pass s -> find_best s = Some b ->
  exists st s' o, epa_loop sup tol maxv (S maxf) left nextsv pass s b (fs s b) = Some (st, s', o) /\ epa_end sup tol maxf st s' o /\ st <> FallBack.
Proof.
  intros sup tol maxv maxf T left. induction left as [|left IH]; intros nextsv pass s b Rd Fb; destruct (find_best_ok s b Fb) as (Hb & Mb); pose proof (rd_good _ _ _ _ _ Rd b Hb) as Gb; cbn [epa_loop].
  - eexists _, _, _. split; [reflexivity|split; [|discriminate]]. constructor; [exact Gb| |discriminate]. intros _. split; [apply (rd_perm _ _ _ _ _ Rd)|split; [apply (rd_closed _ _ _ _ _ Rd)|split; [apply (rd_good _ _ _ _ _ Rd)|split; [eauto|exact Mb]]]].
  - destruct (Nat.ltb_spec nextsv maxv) as [Hv|Hv].
    2: { eexists _, _, _. split; [reflexivity|split; [|discriminate]]. constructor; [exact Gb| |discriminate]. intros _. split; [apply (rd_perm _ _ _ _ _ Rd)|split; [apply (rd_closed _ _ _ _ _ Rd)|split; [apply (rd_good _ _ _ _ _ Rd)|split; [eauto|exact Mb]]]]. }
    destruct (unit_normal sup tol _ T Gb) as (Un & En). set (w := support_vertex sup (fn (fs s b))). set (s0 := Est (upd (fs s) b (set_pass (S pass) (fs s b))) (hull s) (stock s)).
    destruct (Rlt_dec _ _) as [Hw|Hw].
    + assert (Gw : vgood sup w) by (unfold vgood, w, support_vertex; cbn; rewrite En; auto).
      destruct (sides_ok sup tol maxf (S pass) w (S maxf) b ltac:(lia) Gw ltac:(lia) [0; 1; 2]%nat s0 (Hz None None 0) [] (start_inv sup tol maxf pass w s b Rd Hb) (mark_good _ _ _ _ _ (rd_good _ _ _ _ _ Rd)) (fun _ => eq_refl)) as (r & s1 & h & E & Tr).
      rewrite E. destruct r; [|eexists _, _, _; split; [reflexivity|split; [|discriminate]]; constructor; [exact Gb|congruence|discriminate]].
      destruct (Tr eq_refl) as ((N & I) & G1 & Hn). destruct (Nat.leb_spec 3 (nf h)) as [H3|H3]; [|eexists _, _, _; split; [reflexivity|split; [|discriminate]]; constructor; [exact Gb|congruence|discriminate]].
      pose proof (iv_open _ _ _ _ _ _ _ _ _ I) as O. destruct (cf h) as [c|] eqn:Ec; [|exfalso; pose proof (Hn eq_refl); lia]. destruct (hf h) as [a|] eqn:Ea; [|contradiction]. clear O.
      destruct (finish sup tol maxf pass w N s1 b h a c I G1 Ea Ec) as (Rd2 & Ha). set (s2 := to_stock b (Est (bind (fs s1) a 2 c 1) (hull s1) (stock s1))) in *.
      destruct (find_best s2) as [b2|] eqn:Fb2; [|exfalso; unfold find_best in Fb2; destruct (hull s2); [destruct Ha|discriminate]]. apply IH; auto.
    + eexists _, _, _. split; [reflexivity|split; [|discriminate]]. constructor; [exact Gb| |].
      * intros _. split; [apply (rd_perm _ _ _ _ _ Rd)|split; [apply mark_closed, (rd_closed _ _ _ _ _ Rd)|split; [apply mark_good, (rd_good _ _ _ _ _ Rd)|split]]].
        -- exists b. split; [exact Hb|]. unfold s0. cbn [fs]. rewrite upd_same. reflexivity.
        -- intros x Hx. unfold s0 in *. cbn [fs hull] in *. unfold upd. destruct (Nat.eqb_spec x b) as [->|]; [cbn [set_pass fd]; lra|apply Mb, Hx].
      * intros _. unfold w, support_vertex in Hw. cbn in Hw. rewrite En in Hw. lra.
Qed.
Lemma tetra_ready : forall sup tol maxf fs0 c0 c1 c2 c3 s, vgood sup c0 -> vgood sup c1 -> vgood sup c2 -> vgood sup c3 ->
  tetrahedron tol c0 c1 c2 c3 (Est fs0 [] (seq 0 maxf)) = Some s -> ready sup tol maxf 0 s /\ length (hull s) = 4%nat.
Proof.
  intros sup tol maxf fs0 c0 c1 c2 c3 s G0 G1 G2 G3 E. unfold tetrahedron in E.
  destruct (new_face_cases sup tol c0 c1 c2 true (Est fs0 [] (seq 0 maxf)) G0 G1 G2) as [E0|(t0 & st0 & f0 & S0 & E0 & F0 & P0 & C0)]; rewrite E0 in E; [discriminate|].
  cbn [stock hull fs] in *. match type of E with context [new_face tol c1 c0 c3 true ?x] => set (s0 := x) in * end.
  destruct (new_face_cases sup tol c1 c0 c3 true s0 G1 G0 G3) as [E1|(t1 & st1 & f1 & S1 & E1 & F1 & P1 & C1)]; rewrite E1 in E; [discriminate|].
  match type of E with context [new_face tol c2 c1 c3 true ?x] => set (s1 := x) in * end.
  destruct (new_face_cases sup tol c2 c1 c3 true s1 G2 G1 G3) as [E2|(t2 & st2 & f2 & S2 & E2 & F2 & P2 & C2)]; rewrite E2 in E; [discriminate|].
  match type of E with context [new_face tol c0 c2 c3 true ?x] => set (s2 := x) in * end.
  destruct (new_face_cases sup tol c0 c2 c3 true s2 G0 G2 G3) as [E3|(t3 & st3 & f3 & S3 & E3 & F3 & P3 & C3)]; rewrite E3 in E; [discriminate|].
  cbn [s2 s1 s0 stock hull fs] in S1, S2, S3. subst st0 st1 st2. clear E0 E1 E2 E3.
  destruct maxf as [|[|[|[|n]]]]; cbn [seq] in S0; try discriminate. injection S0 as <- <- <- <- <-.
  cbn [s2 s1 s0 stock hull fs] in E. injection E as <-. clear s0 s1 s2. split; [|reflexivity]. constructor; cbn [hull stock fs].
  - cbn [app seq]. change (Permutation (rev [0; 1; 2; 3]%nat ++ seq 4 n) ([0; 1; 2; 3]%nat ++ seq 4 n)). apply Permutation_app_tail, Permutation_sym, Permutation_rev.
  - intros x i Hx Hi.
    assert (Hi' : i = 0%nat \/ i = 1%nat \/ i = 2%nat) by lia. cbn [hull] in Hx.
    destruct Hx as [<-|[<-|[<-|[<-|[]]]]]; destruct Hi' as [ -> | [ -> | -> ] ];
    [exists 0%nat, 2%nat|exists 2%nat, 2%nat|exists 1%nat, 1%nat|exists 0%nat, 1%nat|exists 1%nat, 2%nat|exists 3%nat, 1%nat|exists 0%nat, 0%nat|exists 3%nat, 2%nat|exists 2%nat, 1%nat|exists 1%nat, 0%nat|exists 2%nat, 0%nat|exists 3%nat, 0%nat];
    (split; [reflexivity|split; [cbn; auto|split; [lia|split; [reflexivity|]]]]); unfold matched; cbn; rewrite ?C0, ?C1, ?C2, ?C3; split; reflexivity.
  - do 6 apply bind_good. intros x Hx. cbn [hull fs] in *. destruct Hx as [<-|[<-|[<-|[<-|[]]]]]; cbn; assumption.
  - intros x Hx. do 6 (match goal with |- context [bind ?m ?a ?i ?b ?j x] => destruct (bind_face m a i b j x) as (_ & _ & -> & _) end).
    destruct Hx as [<-|[<-|[<-|[<-|[]]]]]; cbn; lia.
Qed.

(** C76: from the first tetrahedron on, every side of every face has its partner, whatever the support
    function answers; unless an expansion fails the loop ends with such a surface, made of support points,
    and with the face whose recorded distance is the smallest. *)
Theorem polytope_closed : forall sup tol maxv maxf maxi fs0 c0 c1 c2 c3 s b, 0 <= tol -> vgood sup c0 -> vgood sup c1 -> vgood sup c2 -> vgood sup c3 ->
  tetrahedron tol c0 c1 c2 c3 (Est fs0 [] (seq 0 maxf)) = Some s -> find_best s = Some b ->
  closed s /\ exists st s' o, epa_loop sup tol maxv (S maxf) maxi 0 0 s b (fs s b) = Some (st, s', o) /\ epa_end sup tol maxf st s' o /\ st <> FallBack.
Proof.
  intros sup tol maxv maxf maxi fs0 c0 c1 c2 c3 s b T G0 G1 G2 G3 E Fb. destruct (tetra_ready sup tol maxf fs0 c0 c1 c2 c3 s G0 G1 G2 G3 E) as (Rd & _). split; [apply (rd_closed _ _ _ _ _ Rd)|]. apply loop_end; auto.
Qed.
Print Assumptions polytope_closed.

(** ** The answer *)
Definition convex_weights (l : list (vtx * R)) : Prop := (forall e, In e l -> 0 <= snd e) /\ fold_right (fun e a => snd e + a) 0 l = 1.
Lemma face_weights : forall sup tol o, 0 <= tol -> fgood sup tol o -> convex_weights (rp (face_result o)).
Proof.
  intros sup tol o T (_ & L & _ & _). unfold face_result. cbv zeta. cbn [rp]. unfold normal3 in L. set (q := vscale (fd o) (fn o)).
  set (a := vw (fcor o 0%nat)) in *. set (b := vw (fcor o 1%nat)) in *. set (c := vw (fcor o 2%nat)) in *. clearbody a b c q.
  set (p0 := norm (cross (vsub b q) (vsub c q))). set (p1 := norm (cross (vsub c q) (vsub a q))). set (p2 := norm (cross (vsub a q) (vsub b q))).
  assert (P : 0 < p0 + p1 + p2).
  { replace (cross (vsub b a) (vsub c a)) with (vadd (vadd (cross (vsub b q) (vsub c q)) (cross (vsub c q) (vsub a q))) (cross (vsub a q) (vsub b q))) in L by vcoords.
    pose proof (norm_triangle (vadd (cross (vsub b q) (vsub c q)) (cross (vsub c q) (vsub a q))) (cross (vsub a q) (vsub b q))). pose proof (norm_triangle (cross (vsub b q) (vsub c q)) (cross (vsub c q) (vsub a q))). unfold p0, p1, p2. lra. }
  split.
  - assert (A : forall x, 0 <= x -> 0 <= x / (p0 + p1 + p2)) by (intros x Hx; apply Rmult_le_pos; [exact Hx|apply Rlt_le, Rinv_0_lt_compat, P]).
    intros e [<-|[<-|[<-|[]]]]; cbn [snd]; apply A; apply norm_nonneg.
  - cbn [fold_right snd]. field. lra.
Qed.
Lemma orient_perm : forall l, Permutation (orient l) l.
Proof. intros l. destruct l as [|a [|b [|x [|y [|z l]]]]]; try reflexivity. cbn [orient]. destruct (Rlt_dec _ _); [apply perm_swap|reflexivity]. Qed.
(** C76: EPA always answers; the normal is a unit vector, the weights are those of a convex combination of
    support points.  AccuracyReached means that the body lies below the plane at depth + tolerance. *)
Theorem epa_answer : forall sup (K : v3 -> Prop) tol maxv maxf maxi fs0 m guess, 0 <= tol -> supports sup K -> wf m -> (1 <= length (simp m) <= 4)%nat ->
  (forall v, In v (verts m) -> vgood sup v) ->
  exists st r, epa_evaluate sup tol maxv maxf maxi fs0 m guess = Some (st, r) /\ norm2 (rn r) = 1 /\ convex_weights (rp r) /\ (forall e, In e (rp r) -> vgood sup (fst e)) /\
    (st = AccuracyReached -> forall x, K x -> dot (rn r) x <= rd r + tol) /\ (st = FallBack -> rd r = 0) /\ (st <> FallBack -> exists o, fgood sup tol o /\ r = face_result o).
Proof.
  intros sup K tol maxv maxf maxi fs0 m guess T HS W L G.
  assert (FB : forall c, c <> [] -> (forall v, In v c -> vgood sup v) -> exists st r, fall_back c guess = Some (st, r) /\ norm2 (rn r) = 1 /\ convex_weights (rp r) /\ (forall e, In e (rp r) -> vgood sup (fst e)) /\
    (st = AccuracyReached -> forall x, K x -> dot (rn r) x <= rd r + tol) /\ (st = FallBack -> rd r = 0) /\ (st <> FallBack -> exists o, fgood sup tol o /\ r = face_result o)).
  { intros [|a c] Nc Gc; [congruence|]. unfold fall_back. eexists _, _. split; [reflexivity|]. cbn [rn rp rd]. split; [|split; [|split; [|split; [discriminate|split; [reflexivity|congruence]]]]].
    - destruct (Rlt_dec _ _) as [P|P]; [|coords]. replace (norm2 (vscale (/ norm (vneg guess)) (vneg guess))) with (/ norm (vneg guess) * / norm (vneg guess) * norm2 (vneg guess)) by coords. rewrite <- (norm_sq (vneg guess)). field. lra.
    - split; [intros e [<-|[]]; cbn; lra|cbn; ring].
    - intros e [<-|[]]. apply Gc. left. reflexivity. }
  assert (Vn : forall mm, (1 <= length (simp mm))%nat -> verts mm <> []) by (intros mm Lm E; apply (f_equal (@length vtx)) in E; unfold verts in E; rewrite map_length in E; cbn in E; lia).
  unfold epa_evaluate. destruct (Nat.ltb_spec 1 (length (simp m))) as [L1|L1]; [|apply FB; [apply Vn; lia|exact G]].
  destruct (enclose_frame sup m W ltac:(lia)) as (b & m1 & -> & W1 & En). destruct b; [|destruct En as (S1 & V1); rewrite V1; apply FB; [apply Vn; lia|exact G]].
  destruct En as (L4 & _ & l & V1 & Gl).
  assert (G1 : forall v, In v (orient (verts m1)) -> vgood sup v). { intros v Hv. apply (Permutation_in _ (orient_perm _)) in Hv. rewrite V1 in Hv. apply in_app_or in Hv as [Hv|Hv]; [apply G, Hv|apply Gl, Hv]. }
  assert (L4' : length (orient (verts m1)) = 4%nat) by (rewrite (Permutation_length (orient_perm _)); unfold verts; rewrite map_length; exact L4).
  destruct (orient (verts m1)) as [|a0 [|a1 [|a2 [|a3 [|a4 ll]]]]] eqn:Eo; cbn [length] in L4'; try lia.
  destruct (tetrahedron tol a0 a1 a2 a3 (Est fs0 [] (seq 0 maxf))) as [s|] eqn:Et; [|apply FB; [discriminate|exact G1]].
  destruct (tetra_ready sup tol maxf fs0 a0 a1 a2 a3 s) as (Rd & Lh); try (apply G1; cbn; auto); [exact Et|].
  destruct (find_best s) as [bb|] eqn:Fb; [|unfold find_best in Fb; destruct (hull s); discriminate].
  destruct (loop_end sup tol maxv maxf T maxi 0 0 s bb Rd Fb) as (st & s' & o & -> & Ee & Nf). exists st, (face_result o). pose proof (ee_good _ _ _ _ _ _ Ee) as Go. destruct (unit_normal sup tol o T Go) as (U & _).
  split; [reflexivity|split; [exact U|split; [apply (face_weights sup tol o T Go)|split; [|split; [|split; [contradiction|intros _; exists o; auto]]]]]].
  - unfold face_result. cbn [rp]. intros e [<-|[<-|[<-|[]]]]; apply Go.
  - intros Ea x Kx. pose proof (ee_acc _ _ _ _ _ _ Ee Ea) as A. unfold face_result. cbn [rn rd]. destruct (HS (fn o) U) as (_ & M). specialize (M x Kx). lra.
Qed.
Print Assumptions epa_answer.

(** C76: if the origin projects into the face, to [k] times the normal with the barycentric coordinates
    [l], [m], [n], then the recorded distance is [k] and these are the weights. *)
Theorem face_point : forall sup tol o l m n k, 0 <= tol -> fgood sup tol o -> 0 <= l -> 0 <= m -> 0 <= n -> l + m + n = 1 ->
  vadd (vscale l (vw (fcor o 0%nat))) (vadd (vscale m (vw (fcor o 1%nat))) (vscale n (vw (fcor o 2%nat)))) = vscale k (fn o) ->
  fd o = k /\ rp (face_result o) = [(fcor o 0%nat, l); (fcor o 1%nat, m); (fcor o 2%nat, n)].
Proof.
  intros sup tol o l m n k T (_ & L & En & Ed) Pl Pm Pn S E. unfold face_result. cbv zeta. cbn [rp]. rewrite Ed. unfold normal3 in *.
  set (a := vw (fcor o 0%nat)) in *. set (b := vw (fcor o 1%nat)) in *. set (c := vw (fcor o 2%nat)) in *. clearbody a b c.
  set (N := cross (vsub b a) (vsub c a)) in *. set (r := norm N) in *. assert (Pr : 0 < r) by lra.
  assert (Rr : r * r = norm2 N) by (unfold r; apply norm_sq).
  assert (Ek : vscale (k / r) N = vscale k (fn o)) by (rewrite En; vcoords; field; lra).
  set (f := vscale k (fn o)) in *.
  assert (Ea : a = vsub f (vadd (vscale m (vsub b a)) (vscale n (vsub c a)))). { rewrite <- E. replace l with (1 - m - n) by lra. vcoords. }
  assert (Eb : b = vadd f (vsub (vscale (1 - m) (vsub b a)) (vscale n (vsub c a)))). { rewrite <- E. replace l with (1 - m - n) by lra. vcoords. }
  assert (Ec : c = vadd f (vsub (vscale (1 - n) (vsub c a)) (vscale m (vsub b a)))). { rewrite <- E. replace l with (1 - m - n) by lra. vcoords. }
  assert (Xab : cross (vsub a f) (vsub b f) = vscale n N).
  { set (u := vsub b a) in *. set (v := vsub c a) in *. clearbody u v. rewrite Ea, Eb. unfold N. clear. vcoords. }
  assert (Xbc : cross (vsub b f) (vsub c f) = vscale l N).
  { set (u := vsub b a) in *. set (v := vsub c a) in *. clearbody u v. rewrite Ec, Eb. unfold N. replace l with (1 - m - n) by lra. clear. vcoords. }
  assert (Xca : cross (vsub c f) (vsub a f) = vscale m N).
  { set (u := vsub b a) in *. set (v := vsub c a) in *. clearbody u v. rewrite Ea, Ec. unfold N. clear. vcoords. }
  assert (G : forall x y t, 0 <= t -> cross (vsub x f) (vsub y f) = vscale t N -> 0 <= dot x (cross (vsub y x) N)).
  { intros x y t Pt X. assert (Y : dot x (cross (vsub y x) N) = dot N (cross (vsub x f) (vsub y f))).
    { rewrite <- Ek. generalize N (k / r). clear. intros N k. coords. }
    rewrite Y, X. replace (dot N (vscale t N)) with (t * norm2 N) by (generalize N; intros; coords). apply Rmult_le_pos; [exact Pt|]. rewrite <- Rr. apply Rmult_le_pos; lra. }
  assert (Ed' : face_dist N a b c = k).
  { unfold face_dist, edge_dist. destruct (Rlt_dec (dot a _) 0) as [H|_]; [pose proof (G a b n Pn Xab); lra|]. destruct (Rlt_dec (dot b _) 0) as [H|_]; [pose proof (G b c l Pl Xbc); lra|]. destruct (Rlt_dec (dot c _) 0) as [H|_]; [pose proof (G c a m Pm Xca); lra|].
    assert (D : dot a N = k * r). { transitivity (dot f N); [|rewrite <- Ek; replace (dot (vscale (k / r) N) N) with (k / r * norm2 N) by (generalize N; intros; coords); rewrite <- Rr; field; lra].
      rewrite Ea. replace (dot N N) with (dot N N) by reflexivity. unfold N. set (u := vsub b a) in *. set (v := vsub c a) in *. clearbody u v f. clear. coords. }
    fold r. rewrite D. field. lra. }
  split; [exact Ed'|]. rewrite Ed'. fold f. rewrite Xab, Xbc, Xca, !norm_scale. fold r. rewrite !Rabs_right by lra.
  replace (l * r + m * r + n * r) with r by (rewrite <- !Rmult_plus_distr_r, S; ring). repeat (f_equal; try (field; lra)).
Qed.
Print Assumptions face_point.

(** ** Recorded distances *)
(** C76: getEdgeDist.  If the origin projects onto an end of the side the value is the distance of the side
    from the origin; if it projects inside, the value is that distance times the length of the side. *)
Theorem edge_dist_scaled : forall n a b d, a <> b -> edge_dist n a b = Some d ->
  exists t, 0 <= t <= 1 /\ (forall u, 0 <= u <= 1 -> norm (vadd a (vscale t (vsub b a))) <= norm (vadd a (vscale u (vsub b a)))) /\
    d = (if Rlt_dec 0 (dot a (vsub b a)) then 1 else if Rlt_dec (dot b (vsub b a)) 0 then 1 else norm (vsub b a)) * norm (vadd a (vscale t (vsub b a))).
Proof.
  intros n a b d Ne E. set (e := vsub b a). assert (Pe : 0 < norm2 e). { apply nz_pos. intros Z. apply Ne. unfold e in Z. apply v3_ext; [apply (f_equal c0) in Z|apply (f_equal c1) in Z|apply (f_equal c2) in Z]; cbn in Z; lra. }
  assert (Eb : dot b e = dot a e + norm2 e) by (unfold e; coords).
  assert (Sq : forall u, norm2 (vadd a (vscale u e)) = norm2 a + 2 * u * dot a e + u * u * norm2 e) by (intros u; coords).
  assert (Le : forall x y, norm2 x <= norm2 y -> norm x <= norm y) by (intros x y H; apply sqrt_le_1_alt, H).
  unfold edge_dist in E. fold e in E. destruct (Rlt_dec (dot a (cross e n)) 0) as [_|]; [|discriminate]. destruct (Rlt_dec 0 (dot a e)) as [A|A].
  - injection E as <-. exists 0. split; [lra|split; [|rewrite Rmult_1_l; f_equal; vcoords]]. intros u Hu. apply Le. rewrite !Sq. assert (0 <= u * dot a e) by (apply Rmult_le_pos; lra). assert (0 <= u * u * norm2 e) by (apply Rmult_le_pos; [apply Rmult_le_pos; lra|lra]). lra.
  - destruct (Rlt_dec (dot b e) 0) as [B|B].
    + injection E as <-. exists 1. split; [lra|split; [|rewrite Rmult_1_l; f_equal; unfold e; vcoords]]. intros u Hu. apply Le. rewrite !Sq.
      assert (0 <= (1 - u) * - (dot a e + norm2 e)) by (apply Rmult_le_pos; lra). assert (0 <= (1 - u) * (1 - u) * norm2 e) by (apply Rmult_le_pos; [apply Rmult_le_pos; lra|lra]). lra.
    + injection E as <-. set (t := - dot a e / norm2 e). assert (Et : t * norm2 e = - dot a e) by (unfold t; field; lra). exists t. split; [|split].
      * split; [apply Rmult_le_reg_r with (norm2 e)|apply Rmult_le_reg_r with (norm2 e)]; lra.
      * intros u Hu. apply Le. rewrite !Sq. assert (Q : 0 <= (u - t) * (u - t) * norm2 e) by (apply Rmult_le_pos; [apply Rle_0_sqr|lra]). replace ((u - t) * (u - t) * norm2 e) with (u * u * norm2 e - 2 * u * (t * norm2 e) + t * (t * norm2 e)) in Q by ring. rewrite Et in Q. replace (t * t * norm2 e) with (t * (t * norm2 e)) by ring. rewrite Et. lra.
      * unfold norm. rewrite <- sqrt_mult_alt by lra. f_equal. rewrite Sq. replace (norm2 e * (norm2 a + 2 * t * dot a e + t * t * norm2 e)) with (norm2 a * norm2 e + 2 * (t * norm2 e) * dot a e + (t * norm2 e) * (t * norm2 e)) by ring. rewrite Et.
        assert (X : norm2 a * norm2 b - dot a b * dot a b = norm2 a * norm2 e - dot a e * dot a e) by (unfold e; coords). rewrite X. rewrite Rmax_left; [ring|]. assert (Y : norm2 a * norm2 e - dot a e * dot a e = norm2 (cross a e)) by coords. rewrite Y. unfold norm2, dot. pose proof (Rle_0_sqr (c0 (cross a e))). pose proof (Rle_0_sqr (c1 (cross a e))). pose proof (Rle_0_sqr (c2 (cross a e))). unfold Rsqr in *. lra.
Qed.
Print Assumptions edge_dist_scaled.

(** ** A wrong depth *)
(** A tetrahedron with edges of about 15 cm, the origin inside. *)
Definition q0 : v3 := mk3 (-1 / 20) 0 0.
Definition q1 : v3 := mk3 (-1 / 20) (2 / 20) (1 / 20).
Definition q2 : v3 := mk3 (2 / 20) (2 / 20) (-2 / 20).
Definition q3 : v3 := mk3 (2 / 20) (-2 / 20) 0.
Definition qtet : list v3 := [q0; q1; q2; q3].
Lemma norm_is : forall v r, 0 <= r -> norm2 v = r * r -> norm v = r.
Proof. intros v r H E. unfold norm. rewrite E. apply sqrt_square, H. Qed.
Ltac num := unfold q0, q1, q2, q3; coords; lra.
Lemma forced_face : forall tol a b c st m k l n r d, cross (vsub (vw b) (vw a)) (vsub (vw c) (vw a)) = vscale r n -> 0 < r -> norm n = 1 -> tol < r ->
  face_dist (vscale r n) (vw a) (vw b) (vw c) = d ->
  new_face tol a b c true (Est m l (k :: st)) = (Some k, Est (upd m k (Face n d 0 (cor3 a b c) (flk (m k)))) (k :: l) st).
Proof.
  intros tol a b c st m k l n r d En Pr Un T Ed. unfold new_face. cbn [stock hull fs]. rewrite En, Ed.
  assert (Nr : norm (vscale r n) = r) by (rewrite norm_scale, Un, Rabs_right by lra; ring). rewrite Nr. destruct (Rlt_dec tol r); [|lra]. cbn [orb].
  replace (vscale (/ r) (vscale r n)) with n by (apply v3_ext; unfold vscale; cbn [c0 c1 c2]; field; lra). reflexivity.
Qed.
Lemma plane_dist : forall n r a b c, 0 < r -> norm n = 1 -> 0 <= dot a (cross (vsub b a) (vscale r n)) -> 0 <= dot b (cross (vsub c b) (vscale r n)) -> 0 <= dot c (cross (vsub a c) (vscale r n)) ->
  face_dist (vscale r n) a b c = dot a n.
Proof.
  intros n r a b c Pr Un A B C. unfold face_dist, edge_dist. destruct (Rlt_dec (dot a _) 0); [lra|]. destruct (Rlt_dec (dot b _) 0); [lra|]. destruct (Rlt_dec (dot c _) 0); [lra|].
  rewrite norm_scale, Un, Rabs_right by lra. unfold dot, vscale. cbn [c0 c1 c2]. field. lra.
Qed.
Lemma expand_stop : forall tol n p w f e s h, fpass (fs s f) = p -> expand tol (S n) p w f e s h = Some (false, s, h).
Proof. intros tol n p w f e s h E. cbn [expand]. rewrite E, Nat.eqb_refl. reflexivity. Qed.
Lemma expand_deeper : forall tol n p w f e s h s1 h1 g j, fpass (fs s f) <> p -> - tol <= dot (fn (fs s f)) (vw w) - fd (fs s f) ->
  flk (fs s f) (nexti e) = (g, j) -> expand tol n p w g j (Est (upd (fs s) f (set_pass p (fs s f))) (hull s) (stock s)) h = Some (false, s1, h1) ->
  expand tol (S n) p w f e s h = Some (false, s1, h1).
Proof.
  intros tol n p w f e s h s1 h1 g j E V K H. cbn [expand]. destruct (Nat.eqb_spec (fpass (fs s f)) p); [contradiction|]. destruct (Rlt_dec _ _); [lra|].
  cbn [fs]. rewrite upd_same. cbn [set_pass flk]. rewrite K. cbn [fst snd]. rewrite H. reflexivity.
Qed.
Lemma sides_fail : forall tol n p w b j js s h s1 h1 g e, flk (fs s b) j = (g, e) -> expand tol n p w g e s h = Some (false, s1, h1) ->
  expand_sides tol n p w b (j :: js) s h = Some (false, s1, h1).
Proof. intros tol n p w b j js s h s1 h1 g e K H. cbn [expand_sides]. rewrite K. cbn [fst snd]. rewrite H. reflexivity. Qed.
(** C76: with the four corners as the simplex EPA gives up at once, with the recorded distance of a side as
    the depth: about half the true depth, a ball of radius 1/70 is inside.  The contact is reported
    nevertheless. *)
Theorem depth_refuted : forall big tol maxv maxf maxi fs0 m guess, 1 <= big -> 0 < tol <= 1 / 200 -> (1 <= maxv)%nat -> (4 <= maxf)%nat -> (1 <= maxi)%nat ->
  points_of m = qtet ->
  (exists r, epa_evaluate (get_support big (Polytope qtet)) tol maxv maxf maxi fs0 m guess = Some (InvalidHull, r) /\ rd r + tol < 1 / 70) /\
  (forall u, norm2 u = 1 -> exists x, points (Polytope qtet) x /\ dot u x = 1 / 70).
Proof.
  intros big tol maxv maxf maxi fs0 m guess Hb T Hv Hf Hi Ep. split.
  - assert (Lm : length (simp m) = 4%nat) by (rewrite <- points_len, Ep; reflexivity). unfold epa_evaluate, enclose_origin. rewrite Lm. cbn [Nat.ltb Nat.leb]. unfold enclose4. rewrite Ep. unfold qtet at 1.
    destruct (Rlt_dec 0 (Rabs (triple (vsub q0 q3) (vsub q1 q3) (vsub q2 q3)))) as [_|N].
    2: { exfalso. apply N, Rabs_pos_lt. assert (E : triple (vsub q0 q3) (vsub q1 q3) (vsub q2 q3) = 24 / 8000) by num. rewrite E. lra. }
    unfold points_of in Ep. destruct (verts m) as [|v0 [|v1 [|v2 [|v3' [|v4 l]]]]]; try discriminate. cbn [map] in Ep. unfold qtet in Ep. injection Ep as E0 E1 E2 E3.
    cbn [orient]. destruct (Rlt_dec _ 0) as [N|_]; [exfalso; rewrite E0, E1, E2, E3 in N; revert N; unfold q0, q1, q2, q3; coords; lra|].
    destruct maxf as [|[|[|[|maxf]]]]; try lia. cbn [seq]. unfold tetrahedron.
    assert (U0 : norm (mk3 (-2/3) (1/3) (-2/3)) = 1) by (apply norm_is; [lra|coords; lra]). assert (U1 : norm (mk3 (-2/7) (-3/7) (6/7)) = 1) by (apply norm_is; [lra|coords; lra]).
    assert (U2 : norm (mk3 (2/3) (1/3) (2/3)) = 1) by (apply norm_is; [lra|coords; lra]). assert (U3 : norm (mk3 (-2/7) (-3/7) (-6/7)) = 1) by (apply norm_is; [lra|coords; lra]).
    rewrite (forced_face tol v0 v1 v2 _ _ _ _ (mk3 (-2/3) (1/3) (-2/3)) (9/400) (sqrt (8 / 160000))); [|rewrite E0, E1, E2; apply v3_ext; num|lra|exact U0|lra|].
    2: { rewrite E0, E1, E2. unfold face_dist, edge_dist. destruct (Rlt_dec (dot q0 _) 0) as [N|_]; [exfalso; revert N; num|]. destruct (Rlt_dec (dot q1 _) 0) as [N|_]; [exfalso; revert N; num|]. destruct (Rlt_dec (dot q2 (cross _ _)) 0) as [_|N]; [|exfalso; apply N; num].
         destruct (Rlt_dec 0 _) as [N|_]; [exfalso; revert N; num|]. destruct (Rlt_dec _ 0) as [N|_]; [exfalso; revert N; num|]. f_equal. rewrite Rmax_left; num. }
    rewrite (forced_face tol v1 v0 v3' _ _ _ _ (mk3 (-2/7) (-3/7) (6/7)) (7/400) (1/70)); [|rewrite E0, E1, E3; apply v3_ext; num|lra|exact U1|lra|rewrite E0, E1, E3, plane_dist; try num; exact U1].
    rewrite (forced_face tol v2 v1 v3' _ _ _ _ (mk3 (2/3) (1/3) (2/3)) (18/400) (1/30)); [|rewrite E2, E1, E3; apply v3_ext; num|lra|exact U2|lra|rewrite E2, E1, E3, plane_dist; try num; exact U2].
    rewrite (forced_face tol v0 v2 v3' _ _ _ _ (mk3 (-2/7) (-3/7) (-6/7)) (14/400) (1/70)); [|rewrite E0, E2, E3; apply v3_ext; num|lra|exact U3|lra|rewrite E0, E2, E3, plane_dist; try num; exact U3].
    assert (S8 : 0 <= sqrt (8 / 160000) <= 3 / 400). { split; [apply sqrt_pos|]. rewrite <- (sqrt_square (3 / 400)) by lra. apply sqrt_le_1_alt. lra. }
    assert (S88 : sqrt (8 / 160000) * sqrt (8 / 160000) = 8 / 160000) by (apply sqrt_sqrt; lra).
    cbn [hull stock fs]. set (F := bind _ 2 2 3 1).
    assert (D0 : fd (F 0%nat) = sqrt (8 / 160000)) by reflexivity. assert (D1 : fd (F 1%nat) = 1 / 70) by reflexivity. assert (D2 : fd (F 2%nat) = 1 / 30) by reflexivity. assert (D3 : fd (F 3%nat) = 1 / 70) by reflexivity.
    assert (N0 : fn (F 0%nat) = mk3 (-2/3) (1/3) (-2/3)) by reflexivity. assert (N1 : fn (F 1%nat) = mk3 (-2/7) (-3/7) (6/7)) by reflexivity. assert (N3 : fn (F 3%nat) = mk3 (-2/7) (-3/7) (-6/7)) by reflexivity.
    assert (P1 : fpass (F 1%nat) = 0%nat) by reflexivity. assert (P3 : fpass (F 3%nat) = 0%nat) by reflexivity.
    assert (K0 : flk (F 0%nat) 0%nat = (1, 0)%nat) by reflexivity. assert (K1 : flk (F 1%nat) 1%nat = (3, 2)%nat) by reflexivity. assert (K3 : flk (F 3%nat) 0%nat = (0, 2)%nat) by reflexivity.
    clearbody F.
    assert (Fb : find_best (Est F [3; 2; 1; 0]%nat (seq 4 maxf)) = Some 0%nat).
    { unfold find_best. cbn [hull fold_left fs]. f_equal. unfold best_step at 3. rewrite D2, D3. destruct (Rlt_dec _ _); [lra|]. unfold best_step at 2. rewrite D1, D3. destruct (Rlt_dec _ _); [lra|]. unfold best_step. rewrite D0, D3, S88. destruct (Rlt_dec _ _); [reflexivity|lra]. }
    rewrite Fb. destruct maxi as [|maxi]; [lia|]. cbn [epa_loop]. destruct (Nat.ltb_spec 0 maxv); [|lia]. cbn [fs hull stock]. rewrite N0, D0.
    set (w := support_vertex _ _).
    assert (Ew : vw w = q0).
    { unfold w, support_vertex. cbn [vw]. assert (En : normalized (mk3 (-2/3) (1/3) (-2/3)) = mk3 (-2/3) (1/3) (-2/3)).
      { unfold normalized. rewrite U0. destruct (Rlt_dec _ _); [|reflexivity]. rewrite Rinv_1. apply v3_ext; unfold vscale; cbn [c0 c1 c2]; ring. }
      rewrite En. cbn [get_support]. unfold far_vertex, qtet. cbn [fold_left]. unfold far_step at 4. cbn [fst snd]. destruct (Rlt_dec (- big) _) as [_|N]; [|exfalso; apply N; unfold q0; coords; lra].
      unfold far_step at 3. cbn [fst snd]. destruct (Rlt_dec _ _) as [N|_]; [exfalso; revert N; num|]. unfold far_step at 2. cbn [fst snd]. destruct (Rlt_dec _ _) as [N|_]; [exfalso; revert N; num|]. unfold far_step. cbn [fst snd]. destruct (Rlt_dec _ _) as [N|_]; [exfalso; revert N; num|]. reflexivity. }
    destruct (Rlt_dec tol _) as [_|N].
    2: { exfalso. apply N. rewrite Ew. replace (dot (mk3 (-2 / 3) (1 / 3) (-2 / 3)) q0) with (1 / 30) by num. lra. }
    assert (Ex : exists s1 h1, expand_sides tol (S (S (S (S (S maxf))))) 1 w 0 [0; 1; 2]%nat (Est (upd F 0%nat (set_pass 1 (F 0%nat))) [3; 2; 1; 0]%nat (seq 4 maxf)) (Hz None None 0) = Some (false, s1, h1)).
    { eexists. eexists. eapply sides_fail; [cbn [fs]; rewrite upd_same; cbn [set_pass flk]; exact K0|].
      eapply expand_deeper; cbn [fs hull stock]; rewrite ?(upd_other _ _ _ 1%nat) by lia; [rewrite P1; lia | rewrite N1, D1, Ew; num | exact K1 |].
      eapply expand_deeper; cbn [fs hull stock]; rewrite ?(upd_other _ _ _ 3%nat) by lia; [rewrite P3; lia | rewrite N3, D3, Ew; num | exact K3 |].
      apply expand_stop. cbn [fs]. rewrite !(upd_other _ _ _ 0%nat) by lia. rewrite upd_same. reflexivity. }
    destruct Ex as [s1 [h1 Ex]]. rewrite Ex.
    eexists. split; [reflexivity|]. unfold face_result. cbn [rd]. rewrite D0. lra.
  - intros u U. exists (vscale (1 / 70) u). split; [|unfold norm2 in U; replace (dot u (vscale (1 / 70) u)) with (1 / 70 * dot u u) by coords; rewrite U; ring].
    intros e h H. assert (CS : forall n, norm2 n = 1 -> dot n u <= 1). { intros n Un. pose proof (cauchy_schwarz n u) as C. unfold norm in C. rewrite U, Un, sqrt_1 in C. lra. }
    pose proof (CS (mk3 (-2/3) (1/3) (-2/3)) ltac:(coords; lra)) as A0. pose proof (CS (mk3 (-2/7) (-3/7) (6/7)) ltac:(coords; lra)) as A1. pose proof (CS (mk3 (2/3) (1/3) (2/3)) ltac:(coords; lra)) as A2. pose proof (CS (mk3 (-2/7) (-3/7) (-6/7)) ltac:(coords; lra)) as A3. clear CS.
    set (y := vscale (1 / 70) u).
    set (l0 := 1 / 2 + 20 * (- (1 / 2) * c0 y - 1 / 4 * c1 y - 1 / 2 * c2 y)). set (l1 := 1 / 6 + 20 * (1 / 6 * c0 y + 1 / 4 * c1 y + 1 / 2 * c2 y)).
    set (l2 := 1 / 12 + 20 * (1 / 12 * c0 y + 1 / 8 * c1 y - 1 / 4 * c2 y)). set (l3 := 1 / 4 + 20 * (1 / 4 * c0 y - 1 / 8 * c1 y + 1 / 4 * c2 y)).
    assert (B0 : 0 <= l0) by (unfold l0, y; revert A2; coords; lra). assert (B1 : 0 <= l1) by (unfold l1, y; revert A3; coords; lra). assert (B2 : 0 <= l2) by (unfold l2, y; revert A1; coords; lra). assert (B3 : 0 <= l3) by (unfold l3, y; revert A0; coords; lra).
    assert (Ey : dot e y = l0 * dot e q0 + l1 * dot e q1 + l2 * dot e q2 + l3 * dot e q3) by (unfold l0, l1, l2, l3, q0, q1, q2, q3, dot; cbn [c0 c1 c2]; field).
    assert (Es : l0 + l1 + l2 + l3 = 1) by (unfold l0, l1, l2, l3; field).
    pose proof (H q0 ltac:(cbn; auto)) as H0. pose proof (H q1 ltac:(cbn; auto)) as H1. pose proof (H q2 ltac:(cbn; auto)) as H2. pose proof (H q3 ltac:(cbn; auto)) as H3. fold y. rewrite Ey.
    pose proof (Rmult_le_compat_l l0 _ _ B0 H0). pose proof (Rmult_le_compat_l l1 _ _ B1 H1). pose proof (Rmult_le_compat_l l2 _ _ B2 H2). pose proof (Rmult_le_compat_l l3 _ _ B3 H3). replace h with (l0 * h + l1 * h + l2 * h + l3 * h); [lra|]. rewrite <- !Rmult_plus_distr_r, Es. ring.
Qed.
Print Assumptions depth_refuted.

(** Non-vacuity: a corner cut off by the plane 2x + y + 2z = 1; the depth 1/3 is found at once. *)
Definition t0 : v3 := mk3 2 (-1) (-1).
Definition t1 : v3 := mk3 (-1) (-1) (-1).
Definition t2 : v3 := mk3 (-1) 5 (-1).
Definition t3 : v3 := mk3 (-1) (-1) 2.
Definition ttet : list v3 := [t0; t1; t2; t3].
Ltac tnum := unfold t0, t1, t2, t3; coords; lra.
Example ex_accuracy : forall big tol maxv maxf maxi fs0 m guess, 10 <= big -> 0 < tol <= 1 -> (1 <= maxv)%nat -> (4 <= maxf)%nat -> (1 <= maxi)%nat -> points_of m = ttet ->
  exists r, epa_evaluate (get_support big (Polytope ttet)) tol maxv maxf maxi fs0 m guess = Some (AccuracyReached, r) /\ rd r = 1 / 3 /\ rn r = mk3 (2/3) (1/3) (2/3).
Proof.
  intros big tol maxv maxf maxi fs0 m guess Hb T Hv Hf Hi Ep.
  assert (Lm : length (simp m) = 4%nat) by (rewrite <- points_len, Ep; reflexivity). unfold epa_evaluate, enclose_origin. rewrite Lm. cbn [Nat.ltb Nat.leb]. unfold enclose4. rewrite Ep. unfold ttet at 1.
  destruct (Rlt_dec 0 (Rabs (triple (vsub t0 t3) (vsub t1 t3) (vsub t2 t3)))) as [_|N].
  2: { exfalso. apply N, Rabs_pos_lt. assert (E : triple (vsub t0 t3) (vsub t1 t3) (vsub t2 t3) = 54) by tnum. rewrite E. lra. }
  unfold points_of in Ep. destruct (verts m) as [|v0 [|v1 [|v2 [|v3' [|v4 l]]]]]; try discriminate. cbn [map] in Ep. unfold ttet in Ep. injection Ep as E0 E1 E2 E3.
  cbn [orient]. destruct (Rlt_dec _ 0) as [N|_]; [exfalso; rewrite E0, E1, E2, E3 in N; revert N; tnum|].
  destruct maxf as [|[|[|[|maxf]]]]; try lia. cbn [seq]. unfold tetrahedron.
  assert (U0 : norm (mk3 0 0 (-1)) = 1) by (apply norm_is; [lra|coords; lra]). assert (U1 : norm (mk3 0 (-1) 0) = 1) by (apply norm_is; [lra|coords; lra]).
  assert (U2 : norm (mk3 (-1) 0 0) = 1) by (apply norm_is; [lra|coords; lra]). assert (U3 : norm (mk3 (2/3) (1/3) (2/3)) = 1) by (apply norm_is; [lra|coords; lra]).
  rewrite (forced_face tol v0 v1 v2 _ _ _ _ (mk3 0 0 (-1)) 18 1); [|rewrite E0, E1, E2; apply v3_ext; tnum|lra|exact U0|lra|rewrite E0, E1, E2, plane_dist; try tnum; exact U0].
  rewrite (forced_face tol v1 v0 v3' _ _ _ _ (mk3 0 (-1) 0) 9 1); [|rewrite E0, E1, E3; apply v3_ext; tnum|lra|exact U1|lra|rewrite E0, E1, E3, plane_dist; try tnum; exact U1].
  rewrite (forced_face tol v2 v1 v3' _ _ _ _ (mk3 (-1) 0 0) 18 1); [|rewrite E2, E1, E3; apply v3_ext; tnum|lra|exact U2|lra|rewrite E2, E1, E3, plane_dist; try tnum; exact U2].
  rewrite (forced_face tol v0 v2 v3' _ _ _ _ (mk3 (2/3) (1/3) (2/3)) 27 (1/3)); [|rewrite E0, E2, E3; apply v3_ext; tnum|lra|exact U3|lra|rewrite E0, E2, E3, plane_dist; try tnum; exact U3].
  cbn [hull stock fs]. set (F := bind _ 2 2 3 1).
  assert (D0 : fd (F 0%nat) = 1) by reflexivity. assert (D1 : fd (F 1%nat) = 1) by reflexivity. assert (D2 : fd (F 2%nat) = 1) by reflexivity. assert (D3 : fd (F 3%nat) = 1 / 3) by reflexivity.
  assert (N3 : fn (F 3%nat) = mk3 (2/3) (1/3) (2/3)) by reflexivity.
  clearbody F.
  assert (Fb : find_best (Est F [3; 2; 1; 0]%nat (seq 4 maxf)) = Some 3%nat).
  { unfold find_best. cbn [hull fold_left fs]. f_equal. unfold best_step at 3. rewrite D2, D3. destruct (Rlt_dec _ _); [lra|]. unfold best_step at 2. rewrite D1, D3. destruct (Rlt_dec _ _); [lra|]. unfold best_step. rewrite D0, D3. destruct (Rlt_dec _ _); [lra|reflexivity]. }
  rewrite Fb. destruct maxi as [|maxi]; [lia|]. cbn [epa_loop]. destruct (Nat.ltb_spec 0 maxv); [|lia]. cbn [fs hull stock]. rewrite N3, D3.
  set (w := support_vertex _ _).
  assert (Ew : vw w = t0).
  { unfold w, support_vertex. cbn [vw]. assert (En : normalized (mk3 (2/3) (1/3) (2/3)) = mk3 (2/3) (1/3) (2/3)).
    { unfold normalized. rewrite U3. destruct (Rlt_dec _ _); [|reflexivity]. rewrite Rinv_1. apply v3_ext; unfold vscale; cbn [c0 c1 c2]; ring. }
    rewrite En. cbn [get_support]. unfold far_vertex, ttet. cbn [fold_left]. unfold far_step at 4. cbn [fst snd]. destruct (Rlt_dec (- big) _) as [_|N]; [|exfalso; apply N; tnum].
    unfold far_step at 3. cbn [fst snd]. destruct (Rlt_dec _ _) as [N|_]; [exfalso; revert N; tnum|]. unfold far_step at 2. cbn [fst snd]. destruct (Rlt_dec _ _) as [N|_]; [exfalso; revert N; tnum|]. unfold far_step. cbn [fst snd]. destruct (Rlt_dec _ _) as [N|_]; [exfalso; revert N; tnum|]. reflexivity. }
  destruct (Rlt_dec tol _) as [N|_].
  { exfalso. rewrite Ew in N. replace (dot (mk3 (2 / 3) (1 / 3) (2 / 3)) t0) with (1 / 3) in N by tnum. lra. }
  eexists. split; [reflexivity|]. unfold face_result. cbn [rd rn]. split; [exact D3|exact N3].
Qed.

(** ** The contact *)
Fixpoint wsum (f : v3 -> v3) (l : list (vtx * R)) : v3 := match l with [] => vzero | e :: l' => vadd (vscale (snd e) (f (vd (fst e)))) (wsum f l') end.
Lemma weighted_sum : forall f l, weighted_pts f l = wsum f l.
Proof.
  intros f l. unfold weighted_pts. assert (A : forall l a, fold_left (fun a e => vadd a (vscale (snd e) (f (vd (fst e))))) l a = vadd a (wsum f l)).
  { clear l. induction l as [|e l IH]; intros a; cbn [fold_left wsum]; [vcoords|]. rewrite IH. generalize (wsum f l) (f (vd (fst e))). intros u v. vcoords. }
  rewrite A. generalize (wsum f l). intros u. vcoords.
Qed.
Lemma wsum_convex : forall (K : v3 -> Prop) f l, convex K -> (forall e, In e l -> K (f (vd (fst e))) /\ 0 <= snd e) ->
  let T := fold_right (fun (e : vtx * R) a => snd e + a) 0 l in (T = 0 /\ wsum f l = vzero) \/ (0 < T /\ K (vscale (/ T) (wsum f l))).
Proof.
  intros K f l C. induction l as [|e l IH]; intros H T; [left; split; reflexivity|]. unfold T. cbn [fold_right wsum]. clear T.
  destruct (H e (or_introl eq_refl)) as (He & P). specialize (IH (fun x Hx => H x (or_intror Hx))). set (t := fold_right _ 0 l) in *. cbv zeta in IH. clearbody t. generalize dependent (wsum f l). intros u IH.
  generalize dependent (f (vd (fst e))). intros v Hv. generalize dependent (snd e). intros p P. destruct IH as [(-> & ->)|(Pt & Kt)].
  - destruct (Req_dec p 0) as [ -> |N]; [left; split; [ring|vcoords]|right]. split; [lra|]. replace (vscale _ _) with v; [exact Hv|]. apply v3_ext; unfold vadd, vscale, vzero; cbn [c0 c1 c2]; field; lra.
  - right. split; [lra|]. pose proof (C v _ (t / (p + t)) Hv Kt) as Q. replace (vscale (/ (p + t)) (vadd (vscale p v) u)) with (vadd v (vscale (t / (p + t)) (vsub (vscale (/ t) u) v))).
    + apply Q. split; [apply Rlt_le, Rdiv_lt_0_compat; lra|]. apply Rmult_le_reg_r with (p + t); [lra|]. unfold Rdiv. rewrite Rmult_assoc, Rinv_l by lra. lra.
    + apply v3_ext; unfold vadd, vsub, vscale; cbn [c0 c1 c2]; field; lra.
Qed.
Lemma weighted_convex : forall (K : v3 -> Prop) f l, convex K -> (forall e, In e l -> K (f (vd (fst e)))) -> convex_weights l -> K (weighted_pts f l).
Proof.
  intros K f l C H (N & S1). rewrite weighted_sum. destruct (wsum_convex K f l C) as [(Z & _)|(_ & A)]; [auto|cbv zeta in Z; rewrite S1 in Z; lra|]. cbv zeta in A. rewrite S1 in A. replace (wsum f l) with (vscale (/ 1) (wsum f l)); [exact A|]. generalize (wsum f l). intros u. apply v3_ext; unfold vscale; cbn [c0 c1 c2]; field.
Qed.
(** C76: shapeIntersect always ends; it says yes exactly if GJK said Inside.  The reported depth is minus
    EPA's, the point is half that depth before a point of the first shape, the normal is a unit vector in
    the frame of the first shape.  If EPA reached its accuracy no point of the first shape is further
    than depth + tolerance ahead of a point of the second one along that normal, so moving the first
    shape back by depth + tolerance separates the two. *)
Theorem intersect_contact : forall big gtol gmax etol maxf maxv maxi fs0 s0 s1 X0 X1, 0 < gtol -> 0 <= etol -> sized s0 -> sized s1 -> ortho (tf_rot X0) -> ortho (tf_rot X1) -> in_range_all big s0 -> in_range_all big s1 ->
  exists st g, evaluate (support big (mdiff_of s0 s1 X0 X1)) gtol gmax (vneg (mk3 1 0 0)) = Some (st, g) /\
  match st with
  | Inside => exists es r w0, epa_evaluate (support big (mdiff_of s0 s1 X0 X1)) etol maxv maxf maxi fs0 (gm g) (vneg (mk3 1 0 0)) = Some (es, r) /\
      shape_intersect big gtol gmax etol maxf maxv maxi fs0 s0 s1 X0 X1 = Some (Some (rn r, tf_apply X0 (vsub w0 (vscale (rd r / 2) (rn r))), - rd r)) /\
      norm2 (rn r) = 1 /\ placed X0 (points s0) (tf_apply X0 w0) /\
      (es = AccuracyReached -> forall p q, placed X0 (points s0) p -> placed X1 (points s1) q -> dot (mapply (tf_rot X0) (rn r)) (vsub p q) <= rd r + etol) /\
      (es = FallBack -> rd r = 0)
  | _ => shape_intersect big gtol gmax etol maxf maxv maxi fs0 s0 s1 X0 X1 = Some None
  end.
Proof.
  intros big gtol gmax etol maxf maxv maxi fs0 s0 s1 X0 X1 T Te Z0 Z1 O0 O1 I0 I1. pose proof (support_supports big s0 s1 X0 X1 Z0 Z1 O0 O1 I0 I1) as HS.
  destruct (evaluate_combined (support big (mdiff_of s0 s1 X0 X1)) gtol gmax (vneg (mk3 1 0 0)) T) as (st & g & E & C & _). exists st, g. split; [exact E|]. unfold shape_intersect. rewrite E. destruct st; try reflexivity.
  destruct (epa_answer _ _ etol maxv maxf maxi fs0 (gm g) (vneg (mk3 1 0 0)) Te HS (co_wf _ _ _ C) (co_rank _ _ _ C) (co_sup _ _ _ C)) as (es & r & Ee & U & W & V & A & F & _).
  exists es, r, (weighted_pts (support0 big (mdiff_of s0 s1 X0 X1)) (rp r)). rewrite Ee. split; [reflexivity|]. split; [unfold Rdiv; rewrite Rmult_1_l; reflexivity|]. split; [exact U|]. split; [|split; [|exact F]].
  - eexists. split; [|reflexivity]. apply weighted_convex; [apply points_convex, Z0| |exact W]. intros e He. destruct (V e He) as (Ue & _). apply (get_support_extreme big s0 _ Z0 Ue). apply I0, Ue.
  - intros Ea p q Hp Hq. specialize (A Ea (mtapply (tf_rot X0) (vsub p q))). rewrite dot_comm, adjoint, dot_comm. apply A. exists p, q. split; [exact Hp|split; [exact Hq|]]. apply mapply_mt, O0.
Qed.
Print Assumptions intersect_contact.
(** C76: in every case but the fallback the answer is that of a face with three corners.  If the origin
    projects into it the two weighted sums are points of the shapes that differ by the depth along the
    normal, and the contact point is midway between them. *)
Theorem contact_midway : forall big gtol gmax etol maxf maxv maxi fs0 s0 s1 X0 X1 g es r, 0 < gtol -> 0 <= etol -> sized s0 -> sized s1 -> ortho (tf_rot X0) -> ortho (tf_rot X1) -> in_range_all big s0 -> in_range_all big s1 ->
  evaluate (support big (mdiff_of s0 s1 X0 X1)) gtol gmax (vneg (mk3 1 0 0)) = Some (Inside, g) ->
  epa_evaluate (support big (mdiff_of s0 s1 X0 X1)) etol maxv maxf maxi fs0 (gm g) (vneg (mk3 1 0 0)) = Some (es, r) -> es <> FallBack ->
  exists a b c, map fst (rp r) = [a; b; c] /\
    (forall v, In v [a; b; c] -> differences s0 s1 X0 X1 (vw v)) /\ dot (rn r) (vsub (vw b) (vw a)) = 0 /\ dot (rn r) (vsub (vw c) (vw a)) = 0 /\
    forall l m n k, 0 <= l -> 0 <= m -> 0 <= n -> l + m + n = 1 -> vadd (vscale l (vw a)) (vadd (vscale m (vw b)) (vscale n (vw c))) = vscale k (rn r) ->
    rd r = k /\ exists p0 p1, placed X0 (points s0) p0 /\ placed X1 (points s1) p1 /\ vsub p0 p1 = vscale k (mapply (tf_rot X0) (rn r)) /\
      shape_intersect big gtol gmax etol maxf maxv maxi fs0 s0 s1 X0 X1 = Some (Some (rn r, vscale (1 / 2) (vadd p0 p1), - k)).
Proof.
  intros big gtol gmax etol maxf maxv maxi fs0 s0 s1 X0 X1 g es r T Te Z0 Z1 O0 O1 I0 I1 E Ee Nf. pose proof (support_supports big s0 s1 X0 X1 Z0 Z1 O0 O1 I0 I1) as HS. set (M := mdiff_of s0 s1 X0 X1) in *.
  destruct (evaluate_combined (support big M) gtol gmax (vneg (mk3 1 0 0)) T) as (st & g' & E' & C & _). rewrite E in E'. injection E' as <- <-.
  destruct (epa_answer _ _ etol maxv maxf maxi fs0 (gm g) (vneg (mk3 1 0 0)) Te HS (co_wf _ _ _ C) (co_rank _ _ _ C) (co_sup _ _ _ C)) as (es' & r' & Ee' & U & W & V & _ & _ & O). rewrite Ee in Ee'. injection Ee' as <- <-.
  destruct (O Nf) as (o & Go & Er). pose proof Go as (Gc & L & En & _).
  exists (fcor o 0%nat), (fcor o 1%nat), (fcor o 2%nat). split; [rewrite Er; reflexivity|]. split; [|split; [|split]].
  - intros v Hv. assert (Gv : vgood (support big M) v) by (destruct Hv as [<-|[<-|[<-|[]]]]; apply Gc). destruct Gv as (Uv & ->). apply HS, Uv.
  - rewrite Er. unfold face_result. cbn [rn]. rewrite En. unfold normal3. generalize (vw (fcor o 0%nat)) (vw (fcor o 1%nat)) (vw (fcor o 2%nat)) (/ norm (normal3 o)). clear. intros a b c t. coords.
  - rewrite Er. unfold face_result. cbn [rn]. rewrite En. unfold normal3. generalize (vw (fcor o 0%nat)) (vw (fcor o 1%nat)) (vw (fcor o 2%nat)) (/ norm (normal3 o)). clear. intros a b c t. coords.
  - intros l m n k Pl Pm Pn S Ek. assert (Rn : rn r = fn o) by (rewrite Er; reflexivity). rewrite Rn in Ek. destruct (face_point _ _ _ l m n k Te Go Pl Pm Pn S Ek) as (Dk & Wk).
    assert (Rd : rd r = k) by (rewrite Er; exact Dk). rewrite <- Er in Wk. split; [exact Rd|].
    assert (K0 : points s0 (weighted_pts (support0 big M) (rp r))).
    { apply weighted_convex; [apply points_convex, Z0| |exact W]. intros e He. destruct (V e He) as (Ue & _). apply (get_support_extreme big s0 _ Z0 Ue). apply I0, Ue. }
    assert (K1 : placed (tf_mul (tf_inverse X0) X1) (points s1) (weighted_pts (fun d => support1 big M (vneg d)) (rp r))).
    { apply weighted_convex; [apply placed_convex, points_convex, Z1| |exact W]. intros e He. destruct (V e He) as (Ue & _). apply neg_norm2 in Ue. apply (second_extreme big s0 s1 X0 X1 _ Z1 Ue O0 O1). apply I1. rewrite mt_norm2, mapply_norm2; auto. }
    assert (Df : vsub (weighted_pts (support0 big M) (rp r)) (weighted_pts (fun d => support1 big M (vneg d)) (rp r)) = vscale k (rn r)).
    { rewrite Rn, <- Ek, Wk. unfold weighted_pts. cbn [fold_left fst snd].
      destruct (Gc 0%nat) as (_ & ->), (Gc 1%nat) as (_ & ->), (Gc 2%nat) as (_ & ->). unfold support.
      generalize (support0 big M (vd (fcor o 0%nat))) (support0 big M (vd (fcor o 1%nat))) (support0 big M (vd (fcor o 2%nat))) (support1 big M (vneg (vd (fcor o 0%nat)))) (support1 big M (vneg (vd (fcor o 1%nat)))) (support1 big M (vneg (vd (fcor o 2%nat)))). clear. intros a b c d e f. vcoords. }
    set (w0 := weighted_pts (support0 big M) (rp r)) in *. set (w1 := weighted_pts (fun d => support1 big M (vneg d)) (rp r)) in *.
    exists (tf_apply X0 w0), (tf_apply X0 w1). split; [exists w0; auto|]. split; [destruct K1 as (q & Hq & Eq); exists q; split; [exact Hq|]; rewrite Eq; apply tf_rel, O0|].
    assert (Lk : mapply (tf_rot X0) (vscale k (rn r)) = vscale k (mapply (tf_rot X0) (rn r))) by (generalize (rn r) (tf_rot X0); clear; intros v A; unfold mapply; vcoords).
    split; [unfold tf_apply; rewrite <- Lk, <- Df, mapply_sub; generalize (mapply (tf_rot X0) w0) (mapply (tf_rot X0) w1) (tf_tr X0); clear; intros a b c; vcoords|].
    unfold shape_intersect. fold M. rewrite E, Ee. fold w0. rewrite Rd. do 2 f_equal. f_equal. f_equal.
    replace w1 with (vsub w0 (vscale k (rn r))) by (rewrite <- Df; generalize w0 w1; clear; intros a b; vcoords). unfold tf_apply. generalize w0 (rn r) (tf_rot X0) (tf_tr X0). clear. intros a b A c. unfold mapply. vcoords; field.
Qed.
Print Assumptions contact_midway.
Lemma mat_ext : forall A B, (forall v, mapply A v = mapply B v) -> A = B.
Proof.
  intros [a0 a1 a2] [b0 b1 b2] H. pose proof (H (mk3 1 0 0)) as H0. pose proof (H (mk3 0 1 0)) as H1. pose proof (H (mk3 0 0 1)) as H2. unfold mapply in H0, H1, H2. cbn [m0 m1 m2 c0 c1 c2] in *.
  f_equal; [clear H1 H2|clear H0 H2|clear H0 H1]; match goal with H : vadd _ _ = _ |- _ => pose proof (f_equal c0 H) as X; pose proof (f_equal c1 H) as Y; pose proof (f_equal c2 H) as Z; cbn in X, Y, Z; apply v3_ext; lra end.
Qed.
Lemma mt_diff : forall A x y, vadd (mtapply A x) (vneg (mtapply A y)) = mtapply A (vsub x y).
Proof. intros A x y. rewrite mtapply_sub. generalize (mtapply A x) (mtapply A y). intros u v. vcoords. Qed.
Lemma shift_diff : forall A x y c, vsub (vadd (mapply A x) c) (vadd (mapply A y) c) = mapply A (vsub x y).
Proof. intros A x y c. rewrite mapply_sub. generalize (mapply A x) (mapply A y). intros u v. vcoords. Qed.
(** C76: moving both shapes by the same rigid motion Q moves the contact point but not the normal. *)
Theorem intersect_frame : forall big gtol gmax etol maxf maxv maxi fs0 s0 s1 X0 X1 Q, ortho (tf_rot Q) ->
  shape_intersect big gtol gmax etol maxf maxv maxi fs0 s0 s1 (tf_mul Q X0) (tf_mul Q X1) =
  match shape_intersect big gtol gmax etol maxf maxv maxi fs0 s0 s1 X0 X1 with
  | Some (Some (n, p, d)) => Some (Some (n, tf_apply Q p, d))
  | r => r
  end.
Proof.
  intros big gtol gmax etol maxf maxv maxi fs0 s0 s1 X0 X1 Q O.
  assert (M : mdiff_of s0 s1 (tf_mul Q X0) (tf_mul Q X1) = mdiff_of s0 s1 X0 X1).
  { unfold mdiff_of. f_equal.
    - apply mat_ext. intros v. unfold tf_mul. cbn [tf_rot]. rewrite !mapply_mmul, !mapply_mtrans, mtapply_mmul, mt_mapply by exact O. reflexivity.
    - unfold tf_mul, tf_inverse. cbn [tf_rot tf_tr]. f_equal.
      + apply mat_ext. intros v. rewrite !mapply_mmul, !mapply_mtrans, mtapply_mmul, mt_mapply by exact O. reflexivity.
      + unfold tf_apply. cbn [tf_rot tf_tr]. rewrite !mapply_mtrans, !mtapply_mmul, !mt_diff, <- (mtapply_sub (tf_rot Q)), shift_diff, mt_mapply by exact O. reflexivity. }
  unfold shape_intersect. rewrite M. destruct (evaluate _ _ _ _) as [[[] g]|]; try reflexivity. destruct (epa_evaluate _ _ _ _ _ _ _ _) as [[es r]|]; [|reflexivity]. do 2 f_equal. f_equal. f_equal. unfold tf_mul, tf_apply at 1. cbn [tf_rot tf_tr]. rewrite mapply_mmul. unfold tf_apply. rewrite mapply_add. generalize (mapply (tf_rot Q) (mapply (tf_rot X0) (vsub (weighted_pts (support0 big (mdiff_of s0 s1 X0 X1)) (rp r)) (vscale (rd r * (1 / 2)) (rn r))))) (mapply (tf_rot Q) (tf_tr X0)) (tf_tr Q). intros a b c. vcoords.
Qed.
Print Assumptions intersect_frame.

(** ** A normal in the wrong frame *)
Lemma unit_perp : forall n : v3, exists u, norm2 u = 1 /\ dot u n = 0.
Proof.
  intros n. destruct (Req_dec (c0 n) 0) as [E0|N0].
  - exists (mk3 1 0 0). split; [coords|]. unfold dot. cbn [c0 c1 c2]. rewrite E0. ring.
  - set (v := mk3 (- c1 n) (c0 n) 0). assert (Nv : v <> vzero) by (intros Z; apply N0; apply (f_equal c1) in Z; exact Z).
    exists (normalized v). split; [apply normalized_norm2, Nv|]. destruct (normalized_scale v Nv) as (k & _ & ->). unfold v. coords.
Qed.
(** the half-turn about [u] *)
Definition half_turn (u : v3) : mat3 :=
  mkm (vsub (vscale (2 * c0 u) u) (mk3 1 0 0)) (vsub (vscale (2 * c1 u) u) (mk3 0 1 0)) (vsub (vscale (2 * c2 u) u) (mk3 0 0 1)).
Lemma half_turn_apply : forall u v, mapply (half_turn u) v = vsub (vscale (2 * dot u v) u) v.
Proof. intros u v. unfold mapply, half_turn. cbn [m0 m1 m2]. vcoords. Qed.
Lemma half_turn_rigid : forall u, norm2 u = 1 -> ortho (half_turn u) /\ det (half_turn u) = 1.
Proof.
  intros u U. unfold ortho, det, half_turn. cbn [m0 m1 m2]. revert U. coords. intros U. set (a := c0 u) in *. set (b := c1 u) in *. set (c := c2 u) in *. clearbody a b c.
  assert (E : c * c = 1 - a * a - b * b) by lra.
  repeat split.
  - transitivity (1 + 4 * a * a * (a * a + b * b + c * c - 1)); [ring|]. rewrite U. ring.
  - transitivity (1 + 4 * b * b * (a * a + b * b + c * c - 1)); [ring|]. rewrite U. ring.
  - transitivity (1 + 4 * c * c * (a * a + b * b + c * c - 1)); [ring|]. rewrite U. ring.
  - transitivity (4 * a * b * (a * a + b * b + c * c - 1)); [ring|]. rewrite U. ring.
  - transitivity (4 * a * c * (a * a + b * b + c * c - 1)); [ring|]. rewrite U. ring.
  - transitivity (4 * b * c * (a * a + b * b + c * c - 1)); [ring|]. rewrite U. ring.
  - transitivity (2 * (a * a + b * b + c * c) - 1); [ring|]. rewrite U. ring.
Qed.
(** C76: for every contact there is a rotation of the whole scene after which the reported normal is the
    opposite of the one that belongs to the rotated scene. *)
Theorem normal_refuted : forall big gtol gmax etol maxf maxv maxi fs0 s0 s1 X0 X1 n p d,
  shape_intersect big gtol gmax etol maxf maxv maxi fs0 s0 s1 X0 X1 = Some (Some (n, p, d)) ->
  exists Q, ortho (tf_rot Q) /\ det (tf_rot Q) = 1 /\
    shape_intersect big gtol gmax etol maxf maxv maxi fs0 s0 s1 (tf_mul Q X0) (tf_mul Q X1) = Some (Some (n, tf_apply Q p, d)) /\
    mapply (tf_rot Q) n = vneg n.
Proof.
  intros big gtol gmax etol maxf maxv maxi fs0 s0 s1 X0 X1 n p d E. destruct (unit_perp n) as (u & U & P). destruct (half_turn_rigid u U) as (O & D).
  exists (mktf (half_turn u) vzero). cbn [tf_rot]. split; [exact O|]. split; [exact D|]. split; [rewrite intersect_frame, E by exact O; reflexivity|]. rewrite half_turn_apply, P. vcoords.
Qed.
Print Assumptions normal_refuted.
(** C76: if the first support point is nearer to the origin than GJK's tolerance EPA has a single vertex to
    start from and does not start: depth 0, normal along x, whatever the shapes are. *)
Theorem early_contact : forall big gtol gmax etol maxf maxv maxi fs0 s0 s1 X0 X1, 0 < gtol ->
  norm (support big (mdiff_of s0 s1 X0 X1) (mk3 1 0 0)) < gtol ->
  exists p, shape_intersect big gtol gmax etol maxf maxv maxi fs0 s0 s1 X0 X1 = Some (Some (mk3 1 0 0, p, - 0)).
Proof.
  intros big gtol gmax etol maxf maxv maxi fs0 s0 s1 X0 X1 T H. unfold shape_intersect, evaluate. set (sup := support big (mdiff_of s0 s1 X0 X1)) in *.
  assert (Ed : normalized (start_dir (vneg (mk3 1 0 0))) = mk3 1 0 0).
  { unfold start_dir. replace (norm2 (vneg (mk3 1 0 0))) with 1 by coords. destruct (Rlt_dec 0 1); [|lra]. replace (vneg (vneg (mk3 1 0 0))) with (mk3 1 0 0) by vcoords. unfold normalized. rewrite (norm_is _ 1) by (try lra; coords). destruct (Rlt_dec _ _); [|reflexivity]. rewrite Rinv_1. vcoords. }
  destruct (init_ok sup (vneg (mk3 1 0 0))) as (g & -> & C & _ & Ep & Er & _). rewrite Ed in *.
  destruct (loop_cases sup gtol (pred gmax) g T C) as [[_ ->]|[(X & _)|[(X & _)|(X & _)]]]; try (rewrite Er in X; lra).
  unfold epa_evaluate. rewrite <- points_len, Ep. cbn [length Nat.ltb Nat.leb]. assert (Lv : length (verts (gm g)) = 1%nat) by (unfold verts; rewrite map_length, <- points_len, Ep; reflexivity).
  destruct (verts (gm g)) as [|a l]; [discriminate|]. cbn [fall_back rn rd rp]. replace (vneg (vneg (mk3 1 0 0))) with (mk3 1 0 0) by vcoords. rewrite (norm_is _ 1) by (try lra; coords). destruct (Rlt_dec 0 1); [|lra].
  replace (vscale (/ 1) (mk3 1 0 0)) with (mk3 1 0 0) by (rewrite Rinv_1; vcoords). eexists. reflexivity.
Qed.
Print Assumptions early_contact.
(** Non-vacuity: two concentric balls, one 1/4, one 1/8 large, tolerance 1/2. *)
Example ex_contact : forall big gmax etol maxf maxv maxi fs0,
  exists p, shape_intersect big (1 / 2) gmax etol maxf maxv maxi fs0 (Sphere (1 / 4)) (Sphere (1 / 8)) idt idt = Some (Some (mk3 1 0 0, p, - 0)).
Proof. intros. apply early_contact; [lra|]. rewrite id_support. cbn [get_support]. rewrite (norm_is _ (3 / 8)); [lra|lra|coords; field]. Qed.
