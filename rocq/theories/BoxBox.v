(** Two boxes (include/fcl/narrowphase/detail/primitive_shape_algorithm/box_box-inl.h).  Scalars are real numbers. *)
From Coq Require Import Reals List Bool Arith.
From Verif Require Import VecR Prim Obb.
Import ListNotations.
Open Scope R_scope.

(** lineClosestApproach, 85-107: alpha and beta *)
Definition line_approach (pa ua pb ub : v3) : R * R :=
  let p := vsub pb pa in
  let uaub := dot ua ub in
  let q1 := dot ua p in
  let q2 := - dot ub p in
  let d := 1 - uaub * uaub in
  if Rle_dec d (1 / 10000) then (0, 0)
  else let d := 1 / d in ((q1 + uaub * q2) * d, (uaub * q1 + q2) * d).

(** ** intersectRectQuad2, 110-167 *)
(** A point (x, y); [at2 dir] is q[dir] *)
Definition p2 := (R * R)%type.
Definition at2 (dir : bool) (p : p2) : R := if dir then snd p else fst p.
Definition ltb (x y : R) : bool := if Rlt_dec x y then true else false.
(** Where the line from a to b crosses the chopping line, 144-147 *)
Definition crossing (dir : bool) (sign h : R) (a b : p2) : p2 :=
  let o := at2 (negb dir) a + (at2 (negb dir) b - at2 (negb dir) a) / (at2 dir b - at2 dir a) * (sign * h - at2 dir a) in
  if dir then (o, sign * h) else (sign * h, o).
(** The loop over the points, 126-157, from the current point on; [first] is the first point, [r] the points
    written so far.  The flag says that the eighth point was written and the function ends. *)
Fixpoint chop (dir : bool) (sign h : R) (first : p2) (q r : list p2) : list p2 * bool :=
  match q with
  | [] => (r, false)
  | a :: q' =>
      let ina := ltb (sign * at2 dir a) h in
      let b := match q' with [] => first | b :: _ => b end in
      let r1 := if ina then r ++ [a] else r in
      if (ina && Nat.eqb (length r1) 8)%bool then (r1, true)
      else
        let c := xorb ina (ltb (sign * at2 dir b) h) in
        let r2 := if c then r1 ++ [crossing dir sign h a b] else r1 in
        if (c && Nat.eqb (length r2) 8)%bool then (r2, true)
        else chop dir sign h first q' r2
  end.
Definition chop_step (dir : bool) (sign h : R) (st : list p2 * bool) : list p2 * bool :=
  match st with
  | (q, true) => (q, true)
  | (q, false) => chop dir sign h (hd (0, 0) q) q []
  end.
Definition rect_quad (h0 h1 : R) (quad : list p2) : list p2 :=
  fst (chop_step true 1 h1 (chop_step true (-1) h1 (chop_step false 1 h0 (chop_step false (-1) h0 (quad, false))))).

(** ** cullPoints2, 170-243 *)
Section Cull.
(** std::numeric_limits<S>::epsilon, atan2 *)
Variable eps : R.
Variable atan2 : R -> R -> R.
Definition cross2 (a b : p2) : R := fst a * snd b - fst b * snd a.
(** The sums over the edges between neighbours, 191-197 *)
Fixpoint edge_sums (p : list p2) (s : R * R * R) : R * R * R :=
  match p with
  | a :: ((b :: _) as p') =>
      let '(ar, cx, cy) := s in let q := cross2 a b in
      edge_sums p' (ar + q, cx + q * (fst a + fst b), cy + q * (snd a + snd b))
  | _ => s
  end.
Definition centroid (p : list p2) : p2 :=
  match p with
  | [a] => a
  | [a; b] => (1/2 * (fst a + fst b), 1/2 * (snd a + snd b))
  | _ =>
      let '(ar, cx, cy) := edge_sums p (0, 0, 0) in
      let z := last p (0, 0) in let a := hd (0, 0) p in
      let q := cross2 z a in
      let k := if Rlt_dec eps (Rabs (ar + q)) then 1 / (3 * (ar + q)) else 1000000000000000000 in
      (k * (cx + q * (fst z + fst a)), k * (cy + q * (snd z + snd a)))
  end.
Definition angles (p : list p2) : list R := let c := centroid p in map (fun a => atan2 (snd a - snd c) (fst a - fst c)) p.
(** The inner loop, 228-240: the available point whose angle is nearest to a *)
Fixpoint nearest_angle (a : R) (i : nat) (As : list R) (avail : nat -> bool) (best : R * nat) : nat :=
  match As with
  | [] => snd best
  | x :: As' =>
      let best' :=
        if avail i then
          let d := Rabs (x - a) in
          let d := if Rlt_dec PI d then 2 * PI - d else d in
          if Rlt_dec d (fst best) then (d, i) else best
        else best in
      nearest_angle a (S i) As' avail best'
  end.
(** The outer loop, 220-242, j = k .. m - 1 *)
Fixpoint pick (todo k m i0 : nat) (As : list R) (avail : nat -> bool) : list nat :=
  match todo with
  | O => []
  | S todo' =>
      let a := INR k * (2 * PI / INR m) + nth i0 As 0 in
      let a := if Rlt_dec PI a then a - 2 * PI else a in
      let i := nearest_angle a 0 As avail (1000000000, i0) in
      i :: pick todo' (S k) m i0 As (fun j => (avail j && negb (Nat.eqb j i))%bool)
  end.
Definition cull (p : list p2) (m i0 : nat) : list nat :=
  i0 :: pick (m - 1) 1 m i0 (angles p) (fun j => negb (Nat.eqb j i0)).

(** ** boxBox2, 246-839 *)
(** std::numeric_limits<S>::max *)
Variable far : R.
Definition fudge : R := 105 / 100.
(** s, code, invert_normal, and the column of R1 or R2 or R1 * normalC in [bn] *)
Record best := Best { bs : R; bcode : nat; binv : bool; bn : v3 }.
(** One of the axes u1, u2, u3, v1, v2, v3, 301-376; [None] is "return 0" *)
Definition try_face (tmp r : R) (n : v3) (code : nat) (st : option best) : option best :=
  match st with
  | None => None
  | Some b =>
      let s2 := Rabs tmp - r in
      if Rlt_dec 0 s2 then None
      else if Rlt_dec (bs b) s2 then Some (Best s2 code (ltb tmp 0) n) else Some b
  end.
(** One of the axes u x v, 404-552; [R1] takes the normal to world coordinates *)
Definition try_edge (R1 : mat3) (tmp r : R) (n : v3) (code : nat) (st : option best) : option best :=
  match st with
  | None => None
  | Some b =>
      let s2 := Rabs tmp - r in
      if Rlt_dec 0 s2 then None
      else
        let l := norm n in
        if Rlt_dec eps l then
          let s2 := s2 / l in
          if Rlt_dec (bs b) (s2 * fudge) then Some (Best s2 code (ltb tmp 0) (mapply R1 (vscale (/ l) n))) else Some b
        else Some b
  end.
(** The padding of Q, 397-401 *)
Definition pad (A B : v3) : R := Rmax (Rmax (Rmax (c0 A) (Rmax (c1 A) (c2 A))) (Rmax (c0 B) (Rmax (c1 B) (c2 B)))) 1 * 10 * eps.
(** Q, before and after the padding *)
Definition aq (M : mat3) (i j : nat) : R := Rabs (ent M i j).
Definition pq (k : R) (M : mat3) (i j : nat) : R := aq M i j + k.
(** The fifteen axes, 263-552 *)
Definition sat (A : v3) (X1 : tf) (B : v3) (X2 : tf) : option best :=
  let R1 := tf_rot X1 in let R2 := tf_rot X2 in
  let p := vsub (tf_tr X2) (tf_tr X1) in
  let pp := mtapply R1 p in
  let M := mtmul R1 R2 in
  let st := Some (Best (- far) 0 false vzero) in
  let st := try_face (c0 pp) (aq M 0 0 * c0 B + aq M 0 1 * c1 B + aq M 0 2 * c2 B + c0 A) (m0 R1) 1 st in
  let st := try_face (c1 pp) (aq M 1 0 * c0 B + aq M 1 1 * c1 B + aq M 1 2 * c2 B + c1 A) (m1 R1) 2 st in
  let st := try_face (c2 pp) (aq M 2 0 * c0 B + aq M 2 1 * c1 B + aq M 2 2 * c2 B + c2 A) (m2 R1) 3 st in
  let st := try_face (dot (m0 R2) p) (aq M 0 0 * c0 A + aq M 1 0 * c1 A + aq M 2 0 * c2 A + c0 B) (m0 R2) 4 st in
  let st := try_face (dot (m1 R2) p) (aq M 0 1 * c0 A + aq M 1 1 * c1 A + aq M 2 1 * c2 A + c1 B) (m1 R2) 5 st in
  let st := try_face (dot (m2 R2) p) (aq M 0 2 * c0 A + aq M 1 2 * c1 A + aq M 2 2 * c2 A + c2 B) (m2 R2) 6 st in
  let k := pad A B in
  let st := try_edge R1 (c2 pp * ent M 1 0 - c1 pp * ent M 2 0) (c1 A * pq k M 2 0 + c2 A * pq k M 1 0 + c1 B * pq k M 0 2 + c2 B * pq k M 0 1) (mk3 0 (- ent M 2 0) (ent M 1 0)) 7 st in
  let st := try_edge R1 (c2 pp * ent M 1 1 - c1 pp * ent M 2 1) (c1 A * pq k M 2 1 + c2 A * pq k M 1 1 + c0 B * pq k M 0 2 + c2 B * pq k M 0 0) (mk3 0 (- ent M 2 1) (ent M 1 1)) 8 st in
  let st := try_edge R1 (c2 pp * ent M 1 2 - c1 pp * ent M 2 2) (c1 A * pq k M 2 2 + c2 A * pq k M 1 2 + c0 B * pq k M 0 1 + c1 B * pq k M 0 0) (mk3 0 (- ent M 2 2) (ent M 1 2)) 9 st in
  let st := try_edge R1 (c0 pp * ent M 2 0 - c2 pp * ent M 0 0) (c0 A * pq k M 2 0 + c2 A * pq k M 0 0 + c1 B * pq k M 1 2 + c2 B * pq k M 1 1) (mk3 (ent M 2 0) 0 (- ent M 0 0)) 10 st in
  let st := try_edge R1 (c0 pp * ent M 2 1 - c2 pp * ent M 0 1) (c0 A * pq k M 2 1 + c2 A * pq k M 0 1 + c0 B * pq k M 1 2 + c2 B * pq k M 1 0) (mk3 (ent M 2 1) 0 (- ent M 0 1)) 11 st in
  let st := try_edge R1 (c0 pp * ent M 2 2 - c2 pp * ent M 0 2) (c0 A * pq k M 2 2 + c2 A * pq k M 0 2 + c0 B * pq k M 1 1 + c1 B * pq k M 1 0) (mk3 (ent M 2 2) 0 (- ent M 0 2)) 12 st in
  let st := try_edge R1 (c1 pp * ent M 0 0 - c0 pp * ent M 1 0) (c0 A * pq k M 1 0 + c1 A * pq k M 0 0 + c1 B * pq k M 2 2 + c2 B * pq k M 2 1) (mk3 (- ent M 1 0) (ent M 0 0) 0) 13 st in
  let st := try_edge R1 (c1 pp * ent M 0 1 - c0 pp * ent M 1 1) (c0 A * pq k M 1 1 + c1 A * pq k M 0 1 + c0 B * pq k M 2 2 + c2 B * pq k M 2 0) (mk3 (- ent M 1 1) (ent M 0 1) 0) 14 st in
  try_edge R1 (c1 pp * ent M 0 2 - c0 pp * ent M 1 2) (c0 A * pq k M 1 2 + c1 A * pq k M 0 2 + c0 B * pq k M 2 1 + c1 B * pq k M 2 0) (mk3 (- ent M 1 2) (ent M 0 2) 0) 15 st.

(** The contact of two edges, 572-608 *)
Definition edge_contact (A : v3) (X1 : tf) (B : v3) (X2 : tf) (code : nat) (normal : v3) (depth : R) : contact :=
  let R1 := tf_rot X1 in let R2 := tf_rot X2 in
  let up j := if Rlt_dec 0 (dot (col j R1) normal) then 1 else -1 in
  let dn j := if Rlt_dec 0 (dot (col j R2) normal) then -1 else 1 in
  let pa := vadd (vadd (vadd (tf_tr X1) (vscale (c0 A * up 0%nat) (m0 R1))) (vscale (c1 A * up 1%nat) (m1 R1))) (vscale (c2 A * up 2%nat) (m2 R1)) in
  let pb := vadd (vadd (vadd (tf_tr X2) (vscale (c0 B * dn 0%nat) (m0 R2))) (vscale (c1 B * dn 1%nat) (m1 R2))) (vscale (c2 B * dn 2%nat) (m2 R2)) in
  let ua := col ((code - 7) / 3) R1 in
  let ub := col ((code - 7) mod 3) R2 in
  let (alpha, beta) := line_approach pa ua pb ub in
  let pa := vadd pa (vscale alpha ua) in
  let pb := vadd pb (vscale beta ub) in
  mkct normal (vscale (1/2) (vadd pa pb)) depth.

(** The incident face, 660-690: lanr, a1, a2 *)
Definition incident (anr : v3) : nat * nat * nat :=
  if Rlt_dec (c0 anr) (c1 anr) then
    if Rlt_dec (c2 anr) (c1 anr) then (1, 0, 2)%nat else (2, 0, 1)%nat
  else
    if Rlt_dec (c2 anr) (c0 anr) then (0, 1, 2)%nat else (2, 0, 1)%nat.
(** code1, code2 for codeN, 705-719 *)
Definition others (n : nat) : nat * nat := match n with 0%nat => (1, 2)%nat | 1%nat => (0, 2)%nat | _ => (0, 1)%nat end.
(** A kept point: ret, points, dep *)
Record hit := Hit { h2 : p2; h3 : v3; hd_ : R }.
(** The points of the clipped incident face that are below the reference face, 693-786.  [Sa], [Ra], [Sb], [Rb]
    belong to the reference and the incident box, [c] is the centre of the incident box relative to the one of
    the reference box, [n2] the outward normal of the reference face, [cn] its number. *)
Section Face.
Variables (Sa : v3) (Ra : mat3) (Sb : v3) (Rb : mat3) (c n2 : v3) (cn : nat).
Let nr : v3 := mtapply Rb n2.
Let anr : v3 := mk3 (Rabs (c0 nr)) (Rabs (c1 nr)) (Rabs (c2 nr)).
Definition face_points : list hit :=
  let '(lanr, a1, a2) := incident anr in
  let center := if Rlt_dec (comp lanr nr) 0 then vadd c (vscale (comp lanr Sb) (col lanr Rb)) else vsub c (vscale (comp lanr Sb) (col lanr Rb)) in
  let (code1, code2) := others cn in
  let x1 := dot (col code1 Ra) center in
  let x2 := dot (col code2 Ra) center in
  let m11 := dot (col a1 Rb) (col code1 Ra) in
  let m12 := dot (col a2 Rb) (col code1 Ra) in
  let m21 := dot (col a1 Rb) (col code2 Ra) in
  let m22 := dot (col a2 Rb) (col code2 Ra) in
  let k1 := m11 * comp a1 Sb in
  let k2 := m21 * comp a1 Sb in
  let k3 := m12 * comp a2 Sb in
  let k4 := m22 * comp a2 Sb in
  let quad := [(x1 - k1 - k3, x2 - k2 - k4); (x1 - k1 + k3, x2 - k2 + k4); (x1 + k1 + k3, x2 + k2 + k4); (x1 + k1 - k3, x2 + k2 - k4)] in
  let det1 := 1 / (m11 * m22 - m12 * m21) in
  let m11 := m11 * det1 in let m12 := m12 * det1 in
  let m21 := m21 * det1 in let m22 := m22 * det1 in
  let lift (z : p2) :=
    let k1 := m22 * (fst z - x1) - m12 * (snd z - x2) in
    let k2 := - m21 * (fst z - x1) + m11 * (snd z - x2) in
    vadd (vadd center (vscale k1 (col a1 Rb))) (vscale k2 (col a2 Rb)) in
  let dep z := comp cn Sa - dot n2 (lift z) in
  filter (fun x => if Rle_dec 0 (hd_ x) then true else false)
    (map (fun z => Hit z (lift z) (dep z)) (rect_quad (comp code1 Sa) (comp code2 Sa) quad)).
End Face.
(** The index of the first deepest point, 804-813 *)
Fixpoint deepest (i : nat) (l : list hit) (m : R) (i1 : nat) : nat :=
  match l with
  | [] => i1
  | x :: l' => if Rlt_dec m (hd_ x) then deepest (S i) l' (hd_ x) i else deepest (S i) l' m i1
  end.
(** The selection of the points, 789-817 *)
Definition select (maxc : nat) (l : list hit) : list hit :=
  let n := length l in
  let m := Nat.max 1 (Nat.min maxc n) in
  if Nat.ltb m n then
    let zero := Hit (0, 0) vzero 0 in
    let i1 := deepest 1 (tl l) (hd_ (hd zero l)) 0 in
    map (fun i => nth i l zero) (cull (map h2 l) m i1)
  else l.
(** boxBox2: return_code, depth and the contacts *)
Definition box_box (maxc : nat) (side1 : v3) (X1 : tf) (side2 : v3) (X2 : tf) : nat * list contact :=
  let A := vscale (1/2) side1 in
  let B := vscale (1/2) side2 in
  match sat A X1 B X2 with
  | None => (0%nat, [])
  | Some b =>
      let code := bcode b in
      if Nat.eqb code 0 then (0%nat, [])
      else
        let normal := if binv b then vneg (bn b) else bn b in
        let depth := - bs b in
        if Nat.ltb 6 code then (code, [edge_contact A X1 B X2 code normal depth])
        else
          let p := vsub (tf_tr X2) (tf_tr X1) in
          if Nat.leb code 3 then
            let l := face_points A (tf_rot X1) B (tf_rot X2) p normal (code - 1) in
            (code, map (fun x => mkct normal (vadd (vadd (h3 x) (tf_tr X1)) (vscale (hd_ x / 2) normal)) (hd_ x)) (select maxc l))
          else
            let l := face_points B (tf_rot X2) A (tf_rot X1) (vneg p) (vneg normal) (code - 4) in
            (code, map (fun x => mkct normal (vsub (vadd (h3 x) (tf_tr X2)) (vscale (hd_ x / 2) normal)) (hd_ x)) (select maxc l))
  end.
(** boxBoxIntersect, 860-881 *)
Definition box_box_intersect (side1 : v3) (X1 : tf) (side2 : v3) (X2 : tf) : bool * list contact :=
  let r := box_box 4 side1 X1 side2 X2 in (negb (Nat.eqb (fst r) 0), snd r).
End Cull.
