(** The EPA polytope expansion and the intersection query of GJKSolver_indep built on it. *)
From Coq Require Import Reals Lra Lia List Bool PeanoNat.
From Verif Require Import VecR HalfQuery Project Support Gjk.
Import ListNotations.
Open Scope R_scope.

(** EPA::SimplexF, epa.h 62-71: normal, distance, pass, the corners c[0..2], and for each side the adjacent
    face and the number of the side there (f[i], e[i]).  Corners are kept by value: a SimplexV is not
    written again once a face points to it.  The list links l[0..1] are in [est]. *)
Record face := Face { fn : v3; fd : R; fpass : nat; fcor : nat -> vtx; flk : nat -> nat * nat }.
(** fc_store and the two lists through it, in the order of l[1] from the root, epa.h 73-83, 109-112 *)
Record est := Est { fs : nat -> face; hull : list nat; stock : list nat }.
(** nexti, previ, epa-inl.h 351-352 *)
Definition nexti (e : nat) : nat := match e with 0%nat => 1%nat | 1%nat => 2%nat | _ => 0%nat end.
Definition previ (e : nat) : nat := match e with 0%nat => 2%nat | 1%nat => 0%nat | _ => 1%nat end.
Definition cor3 (a b c : vtx) (i : nat) : vtx := match i with 0%nat => a | 1%nat => b | _ => c end.
Definition upd (m : nat -> face) (k : nat) (f : face) : nat -> face := fun x => if Nat.eqb x k then f else m x.
Definition set_link (i : nat) (l : nat * nat) (f : face) : face :=
  Face (fn f) (fd f) (fpass f) (fcor f) (fun k => if Nat.eqb k i then l else flk f k).
Definition set_pass (p : nat) (f : face) : face := Face (fn f) (fd f) p (fcor f) (flk f).
(** EPA::bind, epa-inl.h 83-88 *)
Definition bind (m : nat -> face) (a i b j : nat) : nat -> face :=
  let m1 := upd m a (set_link i (b, j) (m a)) in upd m1 b (set_link j (a, i) (m1 b)).
(** SimplexList::append and remove, epa-inl.h 62-80 *)
Definition to_stock (x : nat) (s : est) : est := Est (fs s) (List.remove Nat.eq_dec x (hull s)) (x :: stock s).
(** SimplexHorizon, epa.h 87-93 *)
Record horizon := Hz { cf : option nat; hf : option nat; nf : nat }.

(** getEdgeDist, epa-inl.h 127-155; [n] is not yet of unit length when it is called *)
Definition edge_dist (n a b : v3) : option R :=
  let ba := vsub b a in
  if Rlt_dec (dot a (cross ba n)) 0 then
    Some (if Rlt_dec 0 (dot a ba) then norm a
          else if Rlt_dec (dot b ba) 0 then norm b
          else sqrt (Rmax (norm2 a * norm2 b - dot a b * dot a b) 0))
  else None.
Definition face_dist (n a b c : v3) : R :=
  match edge_dist n a b with
  | Some d => d
  | None => match edge_dist n b c with
    | Some d => d
    | None => match edge_dist n c a with Some d => d | None => dot a n / norm n end
    end
  end.

(** EPA::Status; Touching is never set, Degenerated, NonConvex and OutOfFaces are always overwritten before
    evaluate returns, Failed is only the value before the first call *)
Inductive estatus := EValid | InvalidHull | OutOfVertices | AccuracyReached | FallBack.
(** normal, depth, result: the corners with their weights *)
Record eres := Eres { rn : v3; rd : R; rp : list (vtx * R) }.

Section Epa.
Variable sup : v3 -> v3.
Variable tol : R.
Variable maxv : nat.

(** newFace, epa-inl.h 158-202; a face that is refused goes back to the root of the stock, its contents
    are not read again and are left as they were *)
Definition new_face (a b c : vtx) (forced : bool) (s : est) : option nat * est :=
  match stock s with
  | [] => (None, s)
  | k :: st =>
      let n := cross (vsub (vw b) (vw a)) (vsub (vw c) (vw a)) in
      let d := face_dist n (vw a) (vw b) (vw c) in
      if Rlt_dec tol (norm n) then
        if (forced || if Rle_dec (- tol) d then true else false)%bool
        then (Some k, Est (upd (fs s) k (Face (vscale (/ norm n) n) d 0 (cor3 a b c) (flk (fs s k)))) (k :: hull s) st)
        else (None, s)
      else (None, s)
  end.
(** findBest, epa-inl.h 206-221; [None]: the hull is empty, the code reads a null pointer *)
Definition best_step (m : nat -> face) (b x : nat) : nat := if Rlt_dec (fd (m x) * fd (m x)) (fd (m b) * fd (m b)) then x else b.
Definition find_best (s : est) : option nat :=
  match hull s with [] => None | r :: l => Some (fold_left (best_step (fs s)) l r) end.
(** expand, epa-inl.h 348-394; [None]: out of fuel *)
Fixpoint expand (fuel : nat) (p : nat) (w : vtx) (f e : nat) (s : est) (h : horizon) : option (bool * est * horizon) :=
  match fuel with
  | O => None
  | S fuel' =>
      let F := fs s f in
      if Nat.eqb (fpass F) p then Some (false, s, h)
      else if Rlt_dec (dot (fn F) (vw w) - fd F) (- tol) then
        match new_face (fcor F (nexti e)) (fcor F e) w false s with
        | (None, s1) => Some (false, s1, h)
        | (Some k, s1) =>
            let m1 := bind (fs s1) k 0 f e in
            match cf h with
            | Some c => Some (true, Est (bind m1 k 2 c 1) (hull s1) (stock s1), Hz (Some k) (hf h) (S (nf h)))
            | None => Some (true, Est m1 (hull s1) (stock s1), Hz (Some k) (Some k) (S (nf h)))
            end
        end
      else
        let s0 := Est (upd (fs s) f (set_pass p F)) (hull s) (stock s) in
        let l1 := flk (fs s0 f) (nexti e) in
        match expand fuel' p w (fst l1) (snd l1) s0 h with
        | None => None
        | Some (false, s1, h1) => Some (false, s1, h1)
        | Some (true, s1, h1) =>
            let l2 := flk (fs s1 f) (previ e) in
            match expand fuel' p w (fst l2) (snd l2) s1 h1 with
            | None => None
            | Some (false, s2, h2) => Some (false, s2, h2)
            | Some (true, s2, h2) => Some (true, to_stock f s2, h2)
            end
        end
  end.
(** the loop over the sides of the best face, epa-inl.h 284-287 *)
Fixpoint expand_sides (fuel p : nat) (w : vtx) (b : nat) (js : list nat) (s : est) (h : horizon) : option (bool * est * horizon) :=
  match js with
  | [] => Some (true, s, h)
  | j :: js' =>
      let l := flk (fs s b) j in
      match expand fuel p w (fst l) (snd l) s h with
      | None => None
      | Some (false, s1, h1) => Some (false, s1, h1)
      | Some (true, s1, h1) => expand_sides fuel p w b js' s1 h1
      end
  end.
(** the main loop, epa-inl.h 259-313, with the copy [outer] of the best face *)
Definition support_vertex (n : v3) : vtx := let d := normalized n in Vtx d (sup d).
Fixpoint epa_loop (fuel left nextsv pass : nat) (s : est) (best : nat) (outer : face) : option (estatus * est * face) :=
  match left with
  | O => Some (EValid, s, outer)
  | S left' =>
      if (nextsv <? maxv)%nat then
        let p := S pass in
        let s0 := Est (upd (fs s) best (set_pass p (fs s best))) (hull s) (stock s) in
        let n := fn (fs s best) in
        let w := support_vertex n in
        if Rlt_dec tol (dot n (vw w) - fd (fs s best)) then
          match expand_sides fuel p w best [0; 1; 2]%nat s0 (Hz None None 0) with
          | None => None
          | Some (false, s1, _) => Some (InvalidHull, s1, outer)
          | Some (true, s1, h) =>
              if (3 <=? nf h)%nat then
                match hf h, cf h with
                | Some a, Some c =>
                    let s2 := to_stock best (Est (bind (fs s1) a 2 c 1) (hull s1) (stock s1)) in
                    match find_best s2 with
                    | None => None
                    | Some b => epa_loop fuel left' (S nextsv) p s2 b (fs s2 b)
                    end
                | _, _ => None
                end
              else Some (InvalidHull, s1, outer)
          end
        else Some (AccuracyReached, s0, outer)
      else Some (OutOfVertices, s, outer)
  end.
(** the answer from the face, epa-inl.h 315-329 *)
Definition face_result (o : face) : eres :=
  let q := vscale (fd o) (fn o) in
  let a := vw (fcor o 0%nat) in let b := vw (fcor o 1%nat) in let c := vw (fcor o 2%nat) in
  let p0 := norm (cross (vsub b q) (vsub c q)) in
  let p1 := norm (cross (vsub c q) (vsub a q)) in
  let p2 := norm (cross (vsub a q) (vsub b q)) in
  let sum := p0 + p1 + p2 in
  Eres (fn o) (fd o) [(fcor o 0%nat, p0 / sum); (fcor o 1%nat, p1 / sum); (fcor o 2%nat, p2 / sum)].
(** the faces of the first tetrahedron and their connectivity, epa-inl.h 251-269; [None]: hull.count is
    not 4 *)
Definition tetrahedron (c0 c1 c2 c3 : vtx) (s : est) : option est :=
  match new_face c0 c1 c2 true s with
  | (Some t0, s0) =>
      match new_face c1 c0 c3 true s0 with
      | (Some t1, s1) =>
          match new_face c2 c1 c3 true s1 with
          | (Some t2, s2) =>
              match new_face c0 c2 c3 true s2 with
              | (Some t3, s3) =>
                  let m := bind (bind (bind (bind (bind (bind (fs s3) t0 0 t1 0) t0 1 t2 0) t0 2 t3 0) t1 1 t3 2) t1 2 t2 1) t2 2 t3 1 in
                  Some (Est m (hull s3) (stock s3))
              | (None, _) => None
              end
          | (None, _) => None
          end
      | (None, _) => None
      end
  | (None, _) => None
  end.
(** evaluate, epa-inl.h 224-344, on a fresh object with [maxf] faces whose contents [fs0] are arbitrary.
    The best face is found before the sides are bound (258, 264-269); binding does not change
    distances. *)
Definition orient (c : list vtx) : list vtx :=
  match c with
  | [a; b; x; y] => if Rlt_dec (dot (vsub (vw a) (vw y)) (cross (vsub (vw b) (vw y)) (vsub (vw x) (vw y)))) 0 then [b; a; x; y] else [a; b; x; y]
  | _ => c
  end.
Definition fall_back (c : list vtx) (guess : v3) : option (estatus * eres) :=
  match c with
  | [] => None
  | a :: _ =>
      let n := vneg guess in
      Some (FallBack, Eres (if Rlt_dec 0 (norm n) then vscale (/ norm n) n else mk3 1 0 0) 0 [(a, 1)])
  end.
Definition epa_evaluate (maxf maxi : nat) (fs0 : nat -> face) (m : mem) (guess : v3) : option (estatus * eres) :=
  match (if (1 <? length (simp m))%nat then enclose_origin sup m else Some (false, m)) with
  | None => None
  | Some (false, m1) => fall_back (verts m1) guess
  | Some (true, m1) =>
      match orient (verts m1) with
      | [c0; c1; c2; c3] =>
          match tetrahedron c0 c1 c2 c3 (Est fs0 [] (seq 0 maxf)) with
          | None => fall_back (orient (verts m1)) guess
          | Some s =>
              match find_best s with
              | None => None
              | Some b =>
                  match epa_loop (S maxf) maxi 0 0 s b (fs s b) with
                  | None => None
                  | Some (st, _, o) => Some (st, face_result o)
                  end
              end
          end
      | _ => None
      end
  end.
End Epa.

(** ShapeIntersectIndepImpl::run, gjk_solver_indep-inl.h 111-163, with enable_cached_guess off: the contact
    (normal, point, depth), or false.  EPA never returns Failed. *)
Definition weighted_pts (f : v3 -> v3) (l : list (vtx * R)) : v3 :=
  fold_left (fun a e => vadd a (vscale (snd e) (f (vd (fst e))))) l vzero.
Definition shape_intersect (big gtol : R) (gmax : nat) (etol : R) (maxf maxv maxi : nat) (fs0 : nat -> face)
    (s0 s1 : shape) (X0 X1 : tf) : option (option (v3 * v3 * R)) :=
  let m := mdiff_of s0 s1 X0 X1 in
  let guess := vneg (mk3 1 0 0) in
  match evaluate (support big m) gtol gmax guess with
  | None => None
  | Some (Inside, g) =>
      match epa_evaluate (support big m) etol maxv maxf maxi fs0 (gm g) guess with
      | None => None
      | Some (_, r) =>
          let w0 := weighted_pts (support0 big m) (rp r) in
          Some (Some (rn r, tf_apply X0 (vsub w0 (vscale (rd r * (1 / 2)) (rn r))), - rd r))
      end
  | Some (_, _) => Some None
  end.

(** * Lemmas *)
From Coq Require Import Permutation.

Lemma next_lt : forall e, (nexti e < 3)%nat. Proof. intros [|[|e]]; cbn; lia. Qed.
Lemma prev_lt : forall e, (previ e < 3)%nat. Proof. intros [|[|e]]; cbn; lia. Qed.
Lemma next_next : forall e, (e < 3)%nat -> nexti (nexti e) = previ e. Proof. intros [|[|[|e]]] H; try lia; reflexivity. Qed.
Lemma next_prev : forall e, (e < 3)%nat -> nexti (previ e) = e. Proof. intros [|[|[|e]]] H; try lia; reflexivity. Qed.
Lemma three : forall e k, (e < 3)%nat -> (k < 3)%nat -> k = e \/ k = nexti e \/ k = previ e.
Proof. intros [|[|[|e]]] [|[|[|k]]] H K; try lia; cbn; auto. Qed.
Lemma next_ne : forall e, (e < 3)%nat -> nexti e <> e /\ previ e <> e /\ nexti e <> previ e.
Proof. intros [|[|[|e]]] H; try lia; cbn; repeat split; lia. Qed.
Lemma upd_same : forall m k f, upd m k f k = f. Proof. intros. unfold upd. rewrite Nat.eqb_refl. reflexivity. Qed.
Lemma upd_other : forall m k f x, x <> k -> upd m k f x = m x. Proof. intros m k f x H. unfold upd. apply Nat.eqb_neq in H. rewrite H. reflexivity. Qed.
Lemma bind_face : forall m a i b j x, fn (bind m a i b j x) = fn (m x) /\ fd (bind m a i b j x) = fd (m x) /\ fpass (bind m a i b j x) = fpass (m x) /\ fcor (bind m a i b j x) = fcor (m x).
Proof. intros. unfold bind, upd. destruct (Nat.eqb_spec x b), (Nat.eqb_spec x a); subst; cbn; rewrite ?Nat.eqb_refl; cbn; try (destruct (Nat.eqb_spec b a); subst; cbn); auto. Qed.
Lemma bind_link2 : forall m a i b j, flk (bind m a i b j b) j = (a, i).
Proof. intros. unfold bind. rewrite upd_same. cbn. rewrite Nat.eqb_refl. reflexivity. Qed.
Lemma bind_link1 : forall m a i b j, (a, i) <> (b, j) -> flk (bind m a i b j a) i = (b, j).
Proof.
  intros m a i b j N. unfold bind. destruct (Nat.eq_dec a b) as [->|Ne].
  - rewrite !upd_same. cbn. destruct (Nat.eqb_spec i j) as [->|]; [congruence|]. rewrite Nat.eqb_refl. reflexivity.
  - rewrite (upd_other _ b) by exact Ne. rewrite upd_same. cbn. rewrite Nat.eqb_refl. reflexivity.
Qed.
Lemma bind_link : forall m a i b j x k, (x, k) <> (a, i) -> (x, k) <> (b, j) -> flk (bind m a i b j x) k = flk (m x) k.
Proof.
  intros m a i b j x k N1 N2. unfold bind, upd. destruct (Nat.eqb_spec x b) as [->|].
  - cbn. destruct (Nat.eqb_spec k j) as [->|]; [congruence|]. destruct (Nat.eqb_spec b a) as [->|]; [cbn|reflexivity]. destruct (Nat.eqb_spec k i) as [->|]; [congruence|reflexivity].
  - destruct (Nat.eqb_spec x a) as [->|]; [cbn|reflexivity]. destruct (Nat.eqb_spec k i) as [->|]; [congruence|reflexivity].
Qed.

(** ** The surface *)
(** side i of x and side j of y have the same ends, in opposite directions *)
Definition matched (m : nat -> face) (x i y j : nat) : Prop :=
  fcor (m x) i = fcor (m y) (nexti j) /\ fcor (m x) (nexti i) = fcor (m y) j.
(** a pending or finished half: x, i in the hull with its partner y, j *)
Definition paired (s : est) (x i y j : nat) : Prop :=
  flk (fs s x) i = (y, j) /\ In y (hull s) /\ (j < 3)%nat /\ flk (fs s y) j = (x, i) /\ matched (fs s) x i y j.
(** every side of a face of the hull is paired with a side of a face of the hull *)
Definition closed (s : est) : Prop := forall x i, In x (hull s) -> (i < 3)%nat -> exists y j, paired s x i y j.
Definition visible (tol : R) (w : vtx) (f : face) : Prop := ~ dot (fn f) (vw w) - fd f < - tol.
(** the two free sides of the new fan *)
Definition opens (h : horizon) : list (nat * nat) :=
  match hf h, cf h with Some a, Some c => [(a, 2%nat); (c, 1%nat)] | _, _ => [] end.
Fixpoint path (m : nat -> face) (l : list (nat * nat)) (u v : vtx) : Prop :=
  match l with [] => u = v | (y, j) :: l' => fcor (m y) j = u /\ path m l' (fcor (m y) (nexti j)) v end.
(** The invariant of the expansion: P are the sides of removed faces still to be visited, in order; M the
    removed faces still in the hull; N the new faces. *)
Record inv (tol : R) (maxf p : nat) (w : vtx) (N : list nat) (P : list (nat * nat)) (M : list nat) (h : horizon) (s : est) : Prop := {
  iv_perm : Permutation (hull s ++ stock s) (seq 0 maxf);
  iv_pass : forall x, In x (hull s) -> (fpass (fs s x) <= p)%nat;
  iv_M : forall x, In x M <-> In x (hull s) /\ fpass (fs s x) = p;
  iv_Mn : NoDup M;
  iv_N : forall x, In x N -> In x (hull s) /\ fpass (fs s x) <> p;
  iv_live : forall x i, In x (hull s) -> (i < 3)%nat -> fpass (fs s x) <> p -> ~ In (x, i) (opens h) ->
    exists y j, paired s x i y j /\ ((fpass (fs s y) <> p /\ ~ In (y, j) (opens h)) \/ In (y, j) P);
  iv_pend : forall y j, In (y, j) P -> In y (hull s) /\ (j < 3)%nat /\ fpass (fs s y) = p /\
    exists x i, paired s y j x i /\ ~ In x N /\ (fpass (fs s x) = p -> In (x, i) P);
  iv_nodup : NoDup P;
  iv_new : forall x i, In x (hull s) -> ~ In x N -> fpass (fs s x) <> p -> visible tol w (fs s x) -> (i < 3)%nat -> ~ In (fst (flk (fs s x) i)) N;
  iv_open : match cf h, hf h with
    | None, None => exists u, path (fs s) P u u
    | Some c, Some a => In a N /\ In c N /\ fcor (fs s a) 2 = w /\ fcor (fs s c) 2 = w /\ path (fs s) P (fcor (fs s c) 1) (fcor (fs s a) 0)
    | _, _ => False
    end }.
Lemma opens_new : forall tol maxf p w N P M h s x i, inv tol maxf p w N P M h s -> In (x, i) (opens h) -> In x N.
Proof.
  intros tol maxf p w N P M h s x i I H. pose proof (iv_open _ _ _ _ _ _ _ _ _ I) as O. unfold opens in H. destruct (hf h) as [a|], (cf h) as [c|]; try contradiction.
  destruct O as (A & C & _). destruct H as [H|[H|[]]]; injection H as <- <-; assumption.
Qed.
Lemma path_ext : forall m m' l u v, (forall y j, In (y, j) l -> fcor (m' y) = fcor (m y)) -> path m l u v -> path m' l u v.
Proof.
  intros m m' l. induction l as [|(y, j) l IH]; intros u v E H; cbn in *; [exact H|]. destruct H as (H1 & H2). rewrite (E y j) by auto. split; [exact H1|]. apply IH; [intros z k Hz; apply (E z k); auto|exact H2].
Qed.
Lemma paired_ext : forall s s' x i y j, paired s x i y j -> (forall z, In z (hull s) -> In z (hull s')) ->
  fcor (fs s' x) = fcor (fs s x) -> fcor (fs s' y) = fcor (fs s y) -> flk (fs s' x) i = flk (fs s x) i -> flk (fs s' y) j = flk (fs s y) j -> paired s' x i y j.
Proof. intros s s' x i y j (A & B & C & D & E & F) H Cx Cy Lx Ly. unfold paired, matched. rewrite Lx, Ly, Cx, Cy. auto 8. Qed.
Lemma paired_inj : forall s x i y j y' j', paired s x i y j -> paired s x i y' j' -> (y, j) = (y', j').
Proof. intros s x i y j y' j' (A & _) (B & _). congruence. Qed.
Lemma paired_back : forall s x i y j x' i', paired s x i y j -> paired s x' i' y j -> (x, i) = (x', i').
Proof. intros s x i y j x' i' (_ & _ & _ & A & _) (_ & _ & _ & B & _). congruence. Qed.
Lemma paired_sym : forall s x i y j, In x (hull s) -> (i < 3)%nat -> paired s x i y j -> paired s y j x i.
Proof. intros s x i y j Hx Hi (A & B & C & D & E & F). unfold paired, matched. auto 8. Qed.

Lemma half_dec : forall a b : nat * nat, {a = b} + {a <> b}.
Proof. decide equality; apply Nat.eq_dec. Qed.
Lemma inv_attach : forall tol maxf p w N y j P M h s x i k m st h',
  inv tol maxf p w N ((y, j) :: P) M h s -> paired s y j x i -> fpass (fs s x) <> p -> ~ visible tol w (fs s x) -> p <> 0%nat -> stock s = k :: st ->
  (forall z, In z (hull s) -> fn (m z) = fn (fs s z) /\ fd (m z) = fd (fs s z) /\ fpass (m z) = fpass (fs s z) /\ fcor (m z) = fcor (fs s z)) ->
  fpass (m k) = 0%nat -> fcor (m k) = cor3 (fcor (fs s x) (nexti i)) (fcor (fs s x) i) w -> flk (m k) 0%nat = (x, i) -> flk (m x) i = (k, 0%nat) ->
  match cf h with Some c => flk (m k) 2%nat = (c, 1%nat) /\ flk (m c) 1%nat = (k, 2%nat) | None => True end ->
  (forall z i', In z (hull s) -> (z, i') <> (x, i) -> match cf h with Some c => (z, i') <> (c, 1%nat) | None => True end -> flk (m z) i' = flk (fs s z) i') ->
  cf h' = Some k -> hf h' = match cf h with Some _ => hf h | None => Some k end ->
  inv tol maxf p w (k :: N) P M h' (Est m (k :: hull s) st).
Proof.
  intros tol maxf p w N y j P M h s x i k m st h' I Py Nx Vx Np Es Same Kp Kc Kl Xl Cl Rest Ec Ef.
  pose proof (iv_perm _ _ _ _ _ _ _ _ _ I) as Perm. rewrite Es in Perm.
  assert (Nd : NoDup (hull s ++ k :: st)) by (apply (Permutation_NoDup (Permutation_sym Perm)), seq_NoDup).
  assert (Kh : ~ In k (hull s)). { intros H. apply NoDup_remove_2 in Nd. apply Nd, in_or_app. auto. }
  destruct (iv_pend _ _ _ _ _ _ _ _ _ I y j (or_introl eq_refl)) as (Hy & Hj & My & x0 & i0 & P0 & Nn & Q).
  pose proof (paired_inj _ _ _ _ _ _ _ P0 Py) as E0. injection E0 as -> ->. clear P0 Q.
  destruct Py as (Lyx & Hx & Hi & Lxy & Mt). assert (Py : paired s y j x i) by (unfold paired; auto).
  pose proof (iv_nodup _ _ _ _ _ _ _ _ _ I) as NdP. apply NoDup_cons_iff in NdP as (NyP & NdP).
  assert (Nk : forall z, In z (hull s) -> z <> k) by (intros z Hz ->; exact (Kh Hz)).
  assert (Sp : forall z, In z (hull s) -> fpass (m z) = fpass (fs s z)) by (intros; apply Same; auto).
  assert (Sc : forall z, In z (hull s) -> fcor (m z) = fcor (fs s z)) by (intros; apply Same; auto).
  assert (Cin : forall c, cf h = Some c -> In c N /\ In (c, 1%nat) (opens h)).
  { intros c E. pose proof (iv_open _ _ _ _ _ _ _ _ _ I) as O. unfold opens. rewrite E in *. destruct (hf h); [|contradiction]. split; [apply O|cbn; auto]. }
  assert (Opn : forall z l, In (z, l) (opens h') -> In (z, l) (opens h) \/ z = k).
  { intros z l. unfold opens. rewrite Ec, Ef. pose proof (iv_open _ _ _ _ _ _ _ _ _ I) as O. destruct (cf h) as [c|], (hf h) as [a|]; try contradiction; cbn; intros [H|[H|[]]]; injection H as <- <-; auto. }
  assert (Opo : forall z l, In (z, l) (opens h) -> In (z, l) (opens h') \/ exists c, cf h = Some c /\ (z, l) = (c, 1%nat)).
  { intros z l. unfold opens. rewrite Ec, Ef. pose proof (iv_open _ _ _ _ _ _ _ _ _ I) as O. destruct (cf h) as [c|], (hf h) as [a|]; try contradiction; cbn; try tauto. intros [H|[H|[]]]; [auto|right; eauto]. }
  assert (Cdec : forall q, (exists c, cf h = Some c /\ q = (c, 1%nat)) \/ match cf h with Some c => q <> (c, 1%nat) | None => True end).
  { intros q. destruct (cf h) as [c|]; [|auto]. destruct (half_dec q (c, 1%nat)); [left; eauto|auto]. }
  constructor; cbn [hull stock fs].
  - rewrite <- Perm. cbn. rewrite <- Permutation_middle. reflexivity.
  - intros z [<-|Hz]; [rewrite Kp; lia|rewrite Sp by exact Hz; apply (iv_pass _ _ _ _ _ _ _ _ _ I), Hz].
  - intros z. rewrite (iv_M _ _ _ _ _ _ _ _ _ I). split; [intros (Hz & Pz); rewrite Sp by exact Hz; split; [right; exact Hz|exact Pz]|]. intros (Hz' & Pz); destruct Hz' as [Ez|Hz]; [subst z; rewrite Kp in Pz; congruence|rewrite Sp in Pz by exact Hz; auto].
  - apply (iv_Mn _ _ _ _ _ _ _ _ _ I).
  - intros z [<-|Hz]; [split; [left; reflexivity|rewrite Kp; congruence]|]. destruct (iv_N _ _ _ _ _ _ _ _ _ I z Hz) as (A & B). rewrite Sp by exact A. split; [right; exact A|exact B].
  - (* live *) intros z l [<-|Hz] Hl Pz Oz.
    + destruct l as [|[|[|l]]]; [| | |lia].
      * exists x, i. split.
        { unfold paired, matched. cbn [fs hull]. rewrite Kc, Sc by exact Hx. cbn. auto 8. }
        left. rewrite Sp by exact Hx. split; [exact Nx|]. intros O. apply Opn in O as [O|O]; [|exact (Nk x Hx O)]. exact (Nn (opens_new _ _ _ _ _ _ _ _ _ _ _ I O)).
      * exfalso. apply Oz. unfold opens. rewrite Ec, Ef. pose proof (iv_open _ _ _ _ _ _ _ _ _ I) as O. destruct (cf h) as [c|], (hf h) as [a|]; try contradiction; cbn; auto.
      * destruct (cf h) as [c|] eqn:Eh.
        { destruct (Cin c eq_refl) as (Cn & Co). destruct (iv_N _ _ _ _ _ _ _ _ _ I c Cn) as (Ch & Cp). exists c, 1%nat. pose proof (iv_open _ _ _ _ _ _ _ _ _ I) as O. rewrite Eh in O. destruct (hf h) as [a|] eqn:Ea; [|contradiction]. destruct O as (_ & _ & _ & Cw & Pa). cbn in Pa. destruct Pa as (Pa & _). split.
          - unfold paired, matched. cbn [fs hull]. rewrite Kc, Sc by exact Ch. cbn. split; [apply Cl|split; [right; exact Ch|split; [lia|split; [apply Cl|split; [congruence|rewrite <- Pa; symmetry; apply Mt]]]]].
          - left. rewrite Sp by exact Ch. split; [exact Cp|]. unfold opens. rewrite Ec, Ef. cbn. intros [H|[H|[]]]; injection H; intros; subst; [lia|exact (Kh Ch)]. }
        { exfalso. apply Oz. unfold opens. rewrite Ec, Ef. cbn. auto. }
    + rewrite Sp in Pz by exact Hz. destruct (half_dec (z, l) (x, i)) as [E|Nz].
      { injection E as -> ->. exists k, 0%nat. split.
        - unfold paired, matched. cbn [fs hull]. rewrite Kc, Sc by exact Hx. cbn. repeat split; auto; lia.
        - left. rewrite Kp. split; [congruence|]. unfold opens. rewrite Ec, Ef. pose proof (iv_open _ _ _ _ _ _ _ _ _ I) as O; destruct (cf h) as [c|] eqn:Eh, (hf h) as [a|] eqn:Ea; try contradiction; cbn; intros [H|[H|[]]]; congruence. }
      destruct (Cdec (z, l)) as [(c & Eh & Ez)|Zc].
      { injection Ez as -> ->. destruct (Cin c Eh) as (Cn & Co). exists k, 2%nat. rewrite Eh in Cl, Ef. pose proof (iv_open _ _ _ _ _ _ _ _ _ I) as O. rewrite Eh in O. destruct (hf h) as [a|] eqn:Ea; [|contradiction]. destruct O as (An & _ & _ & Cw & Pa). cbn in Pa. destruct Pa as (Pa & _). split.
        - unfold paired, matched. cbn [fs hull]. rewrite Kc, Sc by exact Hz. cbn. split; [apply Cl|split; [left; reflexivity|split; [lia|split; [apply Cl|split; [rewrite <- Pa; apply Mt|exact Cw]]]]].
        - left. rewrite Kp. split; [congruence|]. unfold opens. rewrite Ec, Ef. cbn. intros [H|[H|[]]]; [|congruence]. injection H as ->. apply Kh, (iv_N _ _ _ _ _ _ _ _ _ I), An. }
      assert (Oz' : ~ In (z, l) (opens h)). { intros O. destruct (Opo z l O) as [O'|(c & Eh & Ez)]; [exact (Oz O')|]. rewrite Eh in Zc. exact (Zc Ez). }
      destruct (iv_live _ _ _ _ _ _ _ _ _ I z l Hz Hl Pz Oz') as (y' & j' & P' & Q). pose proof P' as (L1 & Hy' & Hj' & L2 & _). exists y', j'.
      assert (Ny1 : (y', j') <> (x, i)). { intros E. injection E as -> ->. rewrite Lxy in L2. injection L2 as -> ->. congruence. }
      assert (Ny2 : match cf h with Some c => (y', j') <> (c, 1%nat) | None => True end).
      { destruct (Cdec (y', j')) as [(c & Eh & Ez)|Zc']; [|exact Zc']. exfalso. injection Ez as -> ->. destruct (Cin c Eh) as (Cn & Co). destruct Q as [(_ & Q)|Q]; [exact (Q Co)|]. destruct (iv_pend _ _ _ _ _ _ _ _ _ I _ _ Q) as (_ & _ & Q' & _). destruct (iv_N _ _ _ _ _ _ _ _ _ I c Cn). contradiction. }
      split; [apply (paired_ext s); cbn [hull fs]; [exact P'|intros ? ?; right; assumption|auto|auto|auto|auto]|]. rewrite Sp by exact Hy'. destruct Q as [(Q1 & Q2)|[Q|Q]].
      * left. split; [exact Q1|]. intros O. destruct (Opn _ _ O) as [O'|O']; [exact (Q2 O')|exact (Nk _ Hy' O')].
      * exfalso. injection Q as -> ->. rewrite Lyx in L2. congruence.
      * right. exact Q.
  - (* pending *) intros y' j' Hp. destruct (iv_pend _ _ _ _ _ _ _ _ _ I y' j' (or_intror Hp)) as (Hy' & Hj' & My' & x' & i' & P' & Nn' & Q). pose proof P' as (L1 & Hx' & Hi' & L2 & _).
    rewrite Sp by exact Hy'. split; [right; exact Hy'|split; [exact Hj'|split; [exact My'|]]]. exists x', i'.
    assert (Ne1 : (y', j') <> (x, i)) by (intros E; injection E as -> ->; contradiction).
    assert (Ne2 : match cf h with Some c => (y', j') <> (c, 1%nat) | None => True end).
    { destruct (Cdec (y', j')) as [(c & Eh & Ez)|Z]; [|exact Z]. exfalso. injection Ez as -> ->. destruct (iv_N _ _ _ _ _ _ _ _ _ I c (proj1 (Cin c Eh))). contradiction. }
    assert (Nt1 : (x', i') <> (x, i)). { intros E. injection E as -> ->. rewrite Lxy in L2. injection L2 as -> ->. exact (NyP Hp). }
    assert (Nt2 : match cf h with Some c => (x', i') <> (c, 1%nat) | None => True end).
    { destruct (Cdec (x', i')) as [(c & Eh & Ez)|Z]; [|exact Z]. exfalso. injection Ez as -> ->. exact (Nn' (proj1 (Cin c Eh))). }
    split; [apply (paired_ext s); cbn [hull fs]; [exact P'|intros ? ?; right; assumption|auto|auto|auto|auto]|]. split; [intros [<-|H]; [exact (Kh Hx')|exact (Nn' H)]|]. rewrite Sp by exact Hx'. intros Mx. destruct (Q Mx) as [E|H]; [|exact H]. exfalso. injection E as -> ->. rewrite Lyx in L2. injection L2 as -> ->. contradiction.
  - exact NdP.
  - (* new *) intros z l [<-|Hz] Nz Pz Vz Hl; [exfalso; apply Nz; left; reflexivity|]. rewrite Sp in Pz by exact Hz.
    assert (Vz' : visible tol w (fs s z)) by (unfold visible in *; destruct (Same z Hz) as (-> & -> & _) in Vz; exact Vz).
    assert (Nz' : ~ In z N) by (intros H; apply Nz; right; exact H).
    rewrite Rest; [|exact Hz|intros E; injection E as -> ->; contradiction|destruct (Cdec (z, l)) as [(c & Eh & Ez)|Z]; [|exact Z]; exfalso; injection Ez as -> ->; exact (Nz' (proj1 (Cin c Eh)))].
    assert (Oz : ~ In (z, l) (opens h)) by (intros O; exact (Nz' (opens_new _ _ _ _ _ _ _ _ _ _ _ I O))).
    destruct (iv_live _ _ _ _ _ _ _ _ _ I z l Hz Hl Pz Oz) as (y' & j' & (L1 & Hy' & _) & _). pose proof (iv_new _ _ _ _ _ _ _ _ _ I z l Hz Nz' Pz Vz' Hl) as A. rewrite L1 in *. cbn in *. intros [<-|H]; [exact (Kh Hy')|exact (A H)].
  - (* open *) rewrite Ec, Ef. pose proof (iv_open _ _ _ _ _ _ _ _ _ I) as O.
    assert (Px : forall u v, path (fs s) P u v -> path m P u v). { intros u v. apply path_ext. intros z l Hzl. apply Sc. apply (iv_pend _ _ _ _ _ _ _ _ _ I z l). right. exact Hzl. }
    destruct (cf h) as [c|] eqn:Eh, (hf h) as [a|] eqn:Ea; try contradiction.
    + destruct O as (An & Cn & Aw & Cw & Pa & Pb). destruct (iv_N _ _ _ _ _ _ _ _ _ I a An) as (Ah & _). rewrite Kc, Sc by exact Ah. cbn [cor3].
      split; [right; exact An|split; [left; reflexivity|split; [exact Aw|split; [reflexivity|]]]]. apply Px. destruct Mt as (_ & Mt). rewrite <- Mt. exact Pb.
    + destruct O as (u & Pa & Pb). rewrite Kc. cbn [cor3]. split; [left; reflexivity|split; [left; reflexivity|split; [reflexivity|split; [reflexivity|]]]]. apply Px. destruct Mt as (Mt1 & Mt). rewrite <- Mt, <- Mt1, Pa. exact Pb.
Qed.
Lemma inv_mark : forall tol maxf p w N y j P M h s x i,
  inv tol maxf p w N ((y, j) :: P) M h s -> paired s y j x i -> fpass (fs s x) <> p -> visible tol w (fs s x) ->
  inv tol maxf p w N ((x, nexti i) :: (x, previ i) :: P) (x :: M) h (Est (upd (fs s) x (set_pass p (fs s x))) (hull s) (stock s)).
Proof.
  intros tol maxf p w N y j P M h s x i I Py Nx Vx. set (m := upd (fs s) x (set_pass p (fs s x))).
  destruct (iv_pend _ _ _ _ _ _ _ _ _ I y j (or_introl eq_refl)) as (Hy & Hj & My & x0 & i0 & P0 & Nn & Q).
  pose proof (paired_inj _ _ _ _ _ _ _ P0 Py) as E0. injection E0 as -> ->. clear P0 Q.
  destruct Py as (Lyx & Hx & Hi & Lxy & Mt). assert (Py : paired s y j x i) by (unfold paired; auto).
  pose proof (iv_nodup _ _ _ _ _ _ _ _ _ I) as NdP. apply NoDup_cons_iff in NdP as (NyP & NdP).
  assert (Sc : forall z, fcor (m z) = fcor (fs s z)) by (intros z; unfold m, upd; destruct (Nat.eqb_spec z x); subst; reflexivity).
  assert (Sl : forall z, flk (m z) = flk (fs s z)) by (intros z; unfold m, upd; destruct (Nat.eqb_spec z x); subst; reflexivity).
  assert (Sv : forall z, visible tol w (m z) -> visible tol w (fs s z)) by (intros z; unfold m, upd, visible; destruct (Nat.eqb_spec z x); subst; auto).
  assert (Px : fpass (m x) = p) by (unfold m; rewrite upd_same; reflexivity).
  assert (Po : forall z, z <> x -> fpass (m z) = fpass (fs s z)) by (intros z Hz; unfold m; rewrite upd_other by exact Hz; reflexivity).
  assert (Pp : forall z l u v, paired s z l u v -> paired (Est m (hull s) (stock s)) z l u v) by (intros; apply (paired_ext s); cbn [fs hull]; rewrite ?Sc, ?Sl; auto).
  assert (Xo : forall l, ~ In (x, l) (opens h)) by (intros l O; exact (Nn (opens_new _ _ _ _ _ _ _ _ _ _ _ I O))).
  assert (Xh : forall l z u, (l < 3)%nat -> flk (fs s x) l = (z, u) -> (z, u) <> (y, j) -> In (x, l) ((x, nexti i) :: (x, previ i) :: P)).
  { intros l z u Hl El Ne. destruct (three i l Hi Hl) as [ -> | [ -> | -> ] ]; [congruence|left; reflexivity|right; left; reflexivity]. }
  assert (New : forall l, (l < 3)%nat -> l <> i -> In x (hull s) /\ (l < 3)%nat /\ fpass (m x) = p /\ exists z u, paired (Est m (hull s) (stock s)) x l z u /\ ~ In z N /\ (fpass (m z) = p -> In (z, u) ((x, nexti i) :: (x, previ i) :: P))).
  { intros l Hl Nl. split; [exact Hx|split; [exact Hl|split; [exact Px|]]]. destruct (iv_live _ _ _ _ _ _ _ _ _ I x l Hx Hl Nx (Xo l)) as (z & u & Pz & Q). exists z, u. split; [apply Pp, Pz|]. pose proof Pz as (L1 & Hz & Hu & L2 & _).
    split; [pose proof (iv_new _ _ _ _ _ _ _ _ _ I x l Hx Nn Nx Vx Hl) as A; rewrite L1 in A; exact A|]. intros Mz. destruct (Nat.eq_dec z x) as [->|Nz].
    - apply (Xh u x l Hu L2). congruence.
    - rewrite Po in Mz by exact Nz. destruct Q as [(Q & _)|[Q|Q]]; [contradiction| |right; right; exact Q]. injection Q as -> ->. rewrite Lyx in L2. congruence. }
  constructor; cbn [hull stock fs].
  - apply (iv_perm _ _ _ _ _ _ _ _ _ I).
  - intros z Hz. destruct (Nat.eq_dec z x) as [->|Nz]; [rewrite Px; lia|rewrite Po by exact Nz; apply (iv_pass _ _ _ _ _ _ _ _ _ I), Hz].
  - intros z. cbn [In]. rewrite (iv_M _ _ _ _ _ _ _ _ _ I). destruct (Nat.eq_dec z x) as [->|Nz]; [rewrite Px; tauto|rewrite Po by exact Nz]. split; [intros [E|E]; [congruence|exact E]|auto].
  - constructor; [|apply (iv_Mn _ _ _ _ _ _ _ _ _ I)]. rewrite (iv_M _ _ _ _ _ _ _ _ _ I). tauto.
  - intros z Hz. rewrite Po; [apply (iv_N _ _ _ _ _ _ _ _ _ I), Hz|]. intros ->. exact (Nn Hz).
  - intros z l Hz Hl Pz Oz. assert (Nz : z <> x) by congruence. rewrite Po in Pz by exact Nz. destruct (iv_live _ _ _ _ _ _ _ _ _ I z l Hz Hl Pz Oz) as (y' & j' & P' & Q). pose proof P' as (L1 & Hy' & Hj' & L2 & _). exists y', j'. split; [apply Pp, P'|].
    destruct (Nat.eq_dec y' x) as [->|Ny]; [right; apply (Xh j' z l Hj' L2); congruence|]. rewrite Po by exact Ny. destruct Q as [Q|[Q|Q]]; [auto| |right; right; right; exact Q]. injection Q as -> ->. rewrite Lyx in L2. congruence.
  - intros y' j' [E|[E|Hp]]; [injection E as <- <-; apply New; [apply next_lt|apply (next_ne i Hi)]|injection E as <- <-; apply New; [apply prev_lt|apply (next_ne i Hi)]|].
    destruct (iv_pend _ _ _ _ _ _ _ _ _ I y' j' (or_intror Hp)) as (Hy' & Hj' & My' & x' & i' & P' & Nn' & Q). pose proof P' as (L1 & Hx' & Hi' & L2 & _). rewrite Po by congruence. split; [exact Hy'|split; [exact Hj'|split; [exact My'|]]]. exists x', i'. split; [apply Pp, P'|split; [exact Nn'|]]. intros Mx.
    destruct (Nat.eq_dec x' x) as [->|Nx']; [apply (Xh i' y' j' Hi' L2); congruence|]. rewrite Po in Mx by exact Nx'. destruct (Q Mx) as [E|H]; [|right; right; exact H]. injection E as -> ->. rewrite Lyx in L2. injection L2 as -> ->. congruence.
  - assert (Np : forall l, ~ In (x, l) P) by (intros l H; destruct (iv_pend _ _ _ _ _ _ _ _ _ I x l (or_intror H)) as (_ & _ & A & _); contradiction).
    constructor; [intros [E|H]; [injection E; intros E'; apply (next_ne i Hi); congruence|exact (Np _ H)]|]. constructor; [apply Np|exact NdP].
  - intros z l Hz Nz Pz Vz Hl. rewrite Sl. assert (z <> x) by congruence. rewrite Po in Pz by assumption. apply (iv_new _ _ _ _ _ _ _ _ _ I); auto.
  - pose proof (iv_open _ _ _ _ _ _ _ _ _ I) as O.
    assert (Pe : forall u v, path (fs s) ((y, j) :: P) u v -> path m ((x, nexti i) :: (x, previ i) :: P) u v).
    { intros u v (A & B). cbn [path]. rewrite !Sc, next_next, next_prev by exact Hi. destruct Mt as (M1 & M2). split; [congruence|split; [reflexivity|]]. rewrite <- M2. revert B. apply path_ext. intros; apply Sc. }
    destruct (cf h), (hf h); try contradiction; [rewrite !Sc; destruct O as (A & B & C & D & E); auto 6|destruct O as (u & O); exists u; auto].
Qed.
Lemma nodup_app : forall (a b : list nat), NoDup (a ++ b) <-> NoDup a /\ NoDup b /\ forall z, In z a -> ~ In z b.
Proof.
  induction a as [|x a IH]; intros b; cbn [app].
  - split; [intros H; split; [constructor|split; [exact H|intros z []]]|intros (_ & H & _); exact H].
  - rewrite !NoDup_cons_iff, IH, in_app_iff. split.
    + intros (A & B & C & D). split; [split; [tauto|exact B]|split; [exact C|]]. intros z [<-|Hz]; [tauto|apply D, Hz].
    + intros ((A & B) & C & D). split; [intros [H|H]; [exact (A H)|exact (D x (or_introl eq_refl) H)]|split; [exact B|split; [exact C|]]]. intros z Hz. apply D. right. exact Hz.
Qed.
Lemma nodup_remove : forall x (l : list nat), NoDup l -> NoDup (List.remove Nat.eq_dec x l).
Proof.
  intros x l. induction l as [|a l IH]; intros H; cbn; [constructor|]. apply NoDup_cons_iff in H as (A & B). destruct (Nat.eq_dec x a); [auto|]. constructor; [intros H; apply in_remove in H; tauto|auto].
Qed.
Lemma inv_drop : forall tol maxf p w N P M h s x, inv tol maxf p w N P (x :: M) h s -> (forall j, ~ In (x, j) P) ->
  inv tol maxf p w N P M h (to_stock x s).
Proof.
  intros tol maxf p w N P M h s x I Np. pose proof (iv_perm _ _ _ _ _ _ _ _ _ I) as Perm.
  assert (Nd : NoDup (hull s ++ stock s)) by (apply (Permutation_NoDup (Permutation_sym Perm)), seq_NoDup).
  assert (Hx : In x (hull s) /\ fpass (fs s x) = p) by (apply (iv_M _ _ _ _ _ _ _ _ _ I); left; reflexivity). destruct Hx as (Hx & Mx).
  assert (Hr : forall z, In z (hull (to_stock x s)) <-> In z (hull s) /\ z <> x) by (intros z; split; [apply in_remove|intros (A & B); apply in_in_remove; auto]).
  assert (Pp : forall z l u v, paired s z l u v -> u <> x -> paired (to_stock x s) z l u v) by (intros z l u v (A & B & C & D & E) Nu; repeat split; try apply Hr; auto; apply E).
  pose proof (iv_Mn _ _ _ _ _ _ _ _ _ I) as Mn. apply NoDup_cons_iff in Mn as (Nm & Mn).
  assert (Xn : ~ In x N) by (intros H; destruct (iv_N _ _ _ _ _ _ _ _ _ I x H); contradiction).
  constructor.
  - apply NoDup_Permutation; [|apply seq_NoDup|].
    + cbn [hull stock to_stock]. apply nodup_app in Nd as (Nh & Ns & Dj). apply nodup_app. split; [apply nodup_remove, Nh|split; [constructor; [apply Dj, Hx|exact Ns]|]].
      intros z Hz Hs. apply in_remove in Hz as (Hz & Nz). destruct Hs as [Hs|Hs]; [congruence|exact (Dj z Hz Hs)].
    + intros z. rewrite in_app_iff, Hr. cbn [to_stock stock In]. split.
      * intros [(A & _)|[<-|A]]; apply (Permutation_in _ Perm), in_or_app; auto.
      * intros A. apply (Permutation_in _ (Permutation_sym Perm)) in A. apply in_app_or in A as [A|A]; [destruct (Nat.eq_dec z x); auto|auto].
  - intros z Hz. apply Hr in Hz as (Hz & _). apply (iv_pass _ _ _ _ _ _ _ _ _ I), Hz.
  - intros z. rewrite Hr. cbn [to_stock fs]. pose proof (iv_M _ _ _ _ _ _ _ _ _ I z) as A. cbn [In] in A. split.
    + intros Hz. destruct (proj1 A (or_intror Hz)). repeat split; auto. intros ->. contradiction.
    + intros ((Hz & Ne) & Pz). destruct (proj2 A (conj Hz Pz)) as [E|E]; [congruence|exact E].
  - exact Mn.
  - intros z Hz. rewrite Hr. destruct (iv_N _ _ _ _ _ _ _ _ _ I z Hz) as (A & B). repeat split; auto. intros ->. contradiction.
  - intros z l Hz Hl Pz Oz. apply Hr in Hz as (Hz & Nz). destruct (iv_live _ _ _ _ _ _ _ _ _ I z l Hz Hl Pz Oz) as (y & j & Py & Q). exists y, j. split; [|exact Q]. apply Pp; [exact Py|]. intros ->. destruct Q as [(Q & _)|Q]; [contradiction|exact (Np j Q)].
  - intros y j Hp. destruct (iv_pend _ _ _ _ _ _ _ _ _ I y j Hp) as (Hy & Hj & My & z & i & Pz & Nz & Q). rewrite Hr. split; [split; [exact Hy|intros ->; exact (Np j Hp)]|split; [exact Hj|split; [exact My|]]]. exists z, i. split; [|auto]. apply Pp; [exact Pz|]. intros ->. exact (Np i (Q Mx)).
  - apply (iv_nodup _ _ _ _ _ _ _ _ _ I).
  - intros z l Hz. apply Hr in Hz as (Hz & _). apply (iv_new _ _ _ _ _ _ _ _ _ I); auto.
  - apply (iv_open _ _ _ _ _ _ _ _ _ I).
Qed.
(** a vertex made by getSupport, a face made by newFace *)
Definition vgood (sup : v3 -> v3) (v : vtx) : Prop := norm2 (vd v) = 1 /\ vw v = sup (vd v).
Definition normal3 (f : face) : v3 := cross (vsub (vw (fcor f 1%nat)) (vw (fcor f 0%nat))) (vsub (vw (fcor f 2%nat)) (vw (fcor f 0%nat))).
Definition fgood (sup : v3 -> v3) (tol : R) (f : face) : Prop :=
  (forall i, vgood sup (fcor f i)) /\ tol < norm (normal3 f) /\ fn f = vscale (/ norm (normal3 f)) (normal3 f) /\
  fd f = face_dist (normal3 f) (vw (fcor f 0%nat)) (vw (fcor f 1%nat)) (vw (fcor f 2%nat)).
Definition all_good (sup : v3 -> v3) (tol : R) (s : est) : Prop := forall x, In x (hull s) -> fgood sup tol (fs s x).
Lemma fgood_ext : forall sup tol f g, fn g = fn f -> fd g = fd f -> fcor g = fcor f -> fgood sup tol f -> fgood sup tol g.
Proof. intros sup tol f g A B C H. unfold fgood, normal3 in *. rewrite A, B, C. exact H. Qed.
Lemma new_face_cases : forall sup tol a b c forced s, vgood sup a -> vgood sup b -> vgood sup c ->
  new_face tol a b c forced s = (None, s) \/
  exists k st f, stock s = k :: st /\ new_face tol a b c forced s = (Some k, Est (upd (fs s) k f) (k :: hull s) st) /\ fgood sup tol f /\ fpass f = 0%nat /\ fcor f = cor3 a b c.
Proof.
  intros sup tol a b c forced s Ga Gb Gc. unfold new_face. destruct (stock s) as [|k st]; [auto|]. cbv zeta. destruct (Rlt_dec _ _) as [L|L]; [|auto]. destruct (forced || _)%bool; [|auto].
  right. eexists k, st, _. split; [reflexivity|split; [reflexivity|]]. split; [|split; reflexivity]. unfold fgood, normal3. cbn [fcor fn fd cor3]. split; [intros [|[|i]]; assumption|auto].
Qed.
Lemma bind_good : forall sup tol m l st a i b j, all_good sup tol (Est m l st) -> all_good sup tol (Est (bind m a i b j) l st).
Proof. intros sup tol m l st a i b j H x Hx. cbn [hull fs] in *. destruct (bind_face m a i b j x) as (A & B & _ & C). apply (fgood_ext sup tol (m x)); auto. Qed.
Lemma expand_ok : forall sup tol maxf p w, p <> 0%nat -> vgood sup w -> forall fuel s h N y j P M,
  inv tol maxf p w N ((y, j) :: P) M h s -> all_good sup tol s -> (maxf < length M + fuel)%nat -> (cf h = None -> nf h = 0%nat) ->
  exists b s' h', expand tol fuel p w (fst (flk (fs s y) j)) (snd (flk (fs s y) j)) s h = Some (b, s', h') /\
    (b = true -> (exists N', inv tol maxf p w N' P M h' s') /\ all_good sup tol s' /\ (cf h' = None -> nf h' = 0%nat)).
Proof.
  intros sup tol maxf p w Np Gw. induction fuel as [|fuel IH]; intros s h N y j P M I G F Hn.
  - exfalso. assert (L : (length M <= length (seq 0 maxf))%nat).
    { apply NoDup_incl_length; [apply (iv_Mn _ _ _ _ _ _ _ _ _ I)|]. intros z Hz. apply (iv_M _ _ _ _ _ _ _ _ _ I) in Hz as (Hz & _). apply (Permutation_in _ (iv_perm _ _ _ _ _ _ _ _ _ I)), in_or_app. auto. }
    rewrite seq_length in L. lia.
  - destruct (iv_pend _ _ _ _ _ _ _ _ _ I y j (or_introl eq_refl)) as (Hy & Hj & My & x & i & Py & Nn & Q). pose proof Py as (Lyx & Hx & Hi & Lxy & Mt). rewrite Lyx. cbn [fst snd expand].
    destruct (Nat.eqb_spec (fpass (fs s x)) p) as [Ex|Nx]; [eexists _, _, _; split; [reflexivity|discriminate]|].
    destruct (Rlt_dec _ _) as [V|V].
    + pose proof (G x Hx) as Gx. destruct (new_face_cases sup tol (fcor (fs s x) (nexti i)) (fcor (fs s x) i) w false s) as [E|(k & st & f & Es & E & Gf & Pf & Cf)]; [apply Gx|apply Gx|exact Gw| |]; rewrite E; [eexists _, _, _; split; [reflexivity|discriminate]|].
      cbn [fs hull stock].
      assert (Kh : ~ In k (hull s)). { pose proof (iv_perm _ _ _ _ _ _ _ _ _ I) as Perm. rewrite Es in Perm. assert (Nd : NoDup (hull s ++ k :: st)) by (apply (Permutation_NoDup (Permutation_sym Perm)), seq_NoDup). intros H. apply NoDup_remove_2 in Nd. apply Nd, in_or_app. auto. }
      assert (Nk : forall z, In z (hull s) -> z <> k) by (intros z Hz ->; exact (Kh Hz)).
      assert (Gs : all_good sup tol (Est (upd (fs s) k f) (k :: hull s) st)). { intros z [<-|Hz]; cbn [fs]; [rewrite upd_same; exact Gf|rewrite upd_other by (apply Nk, Hz); apply G, Hz]. }
      set (m0 := upd (fs s) k f) in *. set (m1 := bind m0 k 0 x i).
      assert (Xk : x <> k) by (apply Nk, Hx).
      assert (M1 : forall z, In z (hull s) -> fn (m1 z) = fn (fs s z) /\ fd (m1 z) = fd (fs s z) /\ fpass (m1 z) = fpass (fs s z) /\ fcor (m1 z) = fcor (fs s z)).
      { intros z Hz. unfold m1. destruct (bind_face m0 k 0 x i z) as (-> & -> & -> & ->). unfold m0. rewrite upd_other by (apply Nk, Hz). auto. }
      destruct (cf h) as [c|] eqn:Eh.
      * assert (Hc : In c N /\ ~ In (c, 1%nat) [(x, i)]). { pose proof (iv_open _ _ _ _ _ _ _ _ _ I) as O. rewrite Eh in O. destruct (hf h); [|contradiction]. split; [apply O|]. intros [E'|[]]. injection E' as -> ->. apply Nn, O. }
        destruct Hc as (Cn & Cx). destruct (iv_N _ _ _ _ _ _ _ _ _ I c Cn) as (Ch & Cp). assert (Ck : c <> k) by (apply Nk, Ch). assert (Xc : x <> c) by (intros ->; contradiction).
        set (m2 := bind m1 k 2 c 1). eexists _, _, _. split; [reflexivity|]. intros _. split; [|split].
        { exists (k :: N). apply (inv_attach tol maxf p w N y j P M h s x i k m2 st); auto.
          - intros z Hz. unfold m2. destruct (bind_face m1 k 2 c 1 z) as (-> & -> & -> & ->). apply M1, Hz.
          - unfold m2. destruct (bind_face m1 k 2 c 1 k) as (_ & _ & -> & _). unfold m1. destruct (bind_face m0 k 0 x i k) as (_ & _ & -> & _). unfold m0. rewrite upd_same. exact Pf.
          - unfold m2. destruct (bind_face m1 k 2 c 1 k) as (_ & _ & _ & ->). unfold m1. destruct (bind_face m0 k 0 x i k) as (_ & _ & _ & ->). unfold m0. rewrite upd_same. exact Cf.
          - unfold m2. rewrite bind_link by congruence. unfold m1. apply bind_link1. congruence.
          - unfold m2. rewrite bind_link by congruence. unfold m1. apply bind_link2.
          - rewrite Eh. unfold m2. split; [apply bind_link1; congruence|apply bind_link2].
          - rewrite Eh. intros z l Hz N1 N2. pose proof (Nk z Hz). unfold m2. rewrite bind_link by congruence. unfold m1. rewrite bind_link by congruence. unfold m0. rewrite upd_other by assumption. reflexivity.
          - rewrite Eh. reflexivity. }
        { unfold m2, m1. apply bind_good, bind_good, Gs. }
        { discriminate. }
      * eexists _, _, _. split; [reflexivity|]. intros _. split; [|split].
        { exists (k :: N). apply (inv_attach tol maxf p w N y j P M h s x i k m1 st); auto.
          - unfold m1. destruct (bind_face m0 k 0 x i k) as (_ & _ & -> & _). unfold m0. rewrite upd_same. exact Pf.
          - unfold m1. destruct (bind_face m0 k 0 x i k) as (_ & _ & _ & ->). unfold m0. rewrite upd_same. exact Cf.
          - unfold m1. apply bind_link1. congruence.
          - unfold m1. apply bind_link2.
          - rewrite Eh. exact Logic.I.
          - intros z l Hz N1 _. pose proof (Nk z Hz). unfold m1. rewrite bind_link by congruence. unfold m0. rewrite upd_other by assumption. reflexivity.
          - rewrite Eh. reflexivity. }
        { unfold m1. apply bind_good, Gs. }
        { discriminate. }
    + set (s0 := Est (upd (fs s) x (set_pass p (fs s x))) (hull s) (stock s)).
      assert (I0 : inv tol maxf p w N ((x, nexti i) :: (x, previ i) :: P) (x :: M) h s0) by (apply (inv_mark tol maxf p w N y j); auto).
      assert (G0 : all_good sup tol s0). { intros z Hz. cbn [s0 hull fs] in *. unfold upd. destruct (Nat.eqb_spec z x) as [->|]; [|apply G, Hz]. apply (fgood_ext sup tol (fs s x)); auto. }
      assert (Nxp : forall l, ~ In (x, l) P). { intros l H. destruct (iv_pend _ _ _ _ _ _ _ _ _ I x l (or_intror H)) as (_ & _ & A & _). contradiction. }
      destruct (IH s0 h N x (nexti i) ((x, previ i) :: P) (x :: M) I0 G0 ltac:(cbn [length]; lia) Hn) as (b1 & s1 & h1 & E1 & T1). rewrite E1. destruct b1; [|eexists _, _, _; split; [reflexivity|discriminate]].
      destruct (T1 eq_refl) as ((N1 & I1) & G1 & Hn1).
      destruct (IH s1 h1 N1 x (previ i) P (x :: M) I1 G1 ltac:(cbn [length]; lia) Hn1) as (b2 & s2 & h2 & E2 & T2). rewrite E2. destruct b2; [|eexists _, _, _; split; [reflexivity|discriminate]].
      destruct (T2 eq_refl) as ((N2 & I2) & G2 & Hn2). eexists _, _, _. split; [reflexivity|]. intros _. split; [|split].
      * exists N2. apply inv_drop; auto.
      * intros z Hz. cbn [to_stock hull fs] in *. apply in_remove in Hz as (Hz & _). apply G2, Hz.
      * exact Hn2.
Qed.
