(** Projection on segments, triangles and tetrahedra
    (include/fcl/math/detail/project-inl.h), over the reals. *)
From Coq Require Import Nsatz Reals Lra Psatz Lia Arith List.
From Verif Require Import VecR.
Import ListNotations.
Open Scope R_scope.

(** ProjectResult (project.h 52-66, project-inl.h 305-312): parameterization, sqr_distance and
    the bits of encode. *)
Record pres := mkp { par : nat -> R; sd : R; enc : nat -> bool }.
Definition pzero : pres := mkp (fun _ => 0) (-1) (fun _ => false).

(** projectLine (54-74) *)
Definition project_line (a b p : v3) : pres :=
  let d := vsub b a in
  let l := norm2 d in
  if Rlt_dec 0 l then
    let t := dot (vsub p a) d in
    let w1 := if Rle_dec l t then 1 else if Rle_dec t 0 then 0 else t / l in
    let w k := match k with 0%nat => 1 - w1 | 1%nat => w1 | _ => 0 end in
    if Rle_dec l t then mkp w (norm2 (vsub p b)) (fun k => Nat.eqb k 1)
    else if Rle_dec t 0 then mkp w (norm2 (vsub p a)) (fun k => Nat.eqb k 0)
    else mkp w (norm2 (vsub (vadd a (vscale w1 d)) p)) (fun k => Nat.ltb k 2)
  else pzero.

Definition nexti (i : nat) : nat := match i with 0 => 1 | 1 => 2 | _ => 0 end.
Definition tri (a b c : v3) (k : nat) : v3 := match k with 0%nat => a | 1%nat => b | _ => c end.
(** the loop shared by projectTriangle and projectTetrahedra: the nearest of the candidates whose
    condition holds; mindist is the sqr_distance of the result so far *)
Definition best (cond : nat -> bool) (cand : nat -> pres) : pres :=
  fold_left (fun r i => if cond i then let c := cand i in
               if Rlt_dec (sd r) 0 then c else if Rlt_dec (sd c) (sd r) then c else r else r) [0; 1; 2]%nat pzero.
Definition pos (x : R) : bool := if Rlt_dec 0 x then true else false.

(** projectTriangle (76-127) *)
Definition edge_cand (v : nat -> v3) (p : v3) (i : nat) : pres :=
  let j := nexti i in let r := project_line (v i) (v j) p in
  mkp (fun k => if Nat.eqb k i then par r 0 else if Nat.eqb k j then par r 1 else 0) (sd r)
      (fun k => if Nat.eqb k i then enc r 0 else if Nat.eqb k j then enc r 1 else false).
Definition project_triangle (a b c p : v3) : pres :=
  let v := tri a b c in
  let dl := tri (vsub a b) (vsub b c) (vsub c a) in
  let n := cross (vsub a b) (vsub b c) in
  let l := norm2 n in
  if Rlt_dec 0 l then
    let r := best (fun i => pos (dot (vsub (v i) p) (cross (dl i) n))) (edge_cand v p) in
    if Rlt_dec (sd r) 0 then
      let d := dot (vsub a p) n in
      let s := sqrt l in
      let pp := vscale (d / l) n in
      let w0 := norm (cross (dl 1%nat) (vsub (vsub b p) pp)) / s in
      let w1 := norm (cross (dl 2%nat) (vsub (vsub c p) pp)) / s in
      mkp (fun k => match k with 0%nat => w0 | 1%nat => w1 | 2%nat => 1 - w0 - w1 | _ => 0 end) (norm2 pp) (fun k => Nat.ltb k 3)
    else r
  else pzero.

Definition triple (a b c : v3) : R := dot a (cross b c).
(** projectTetrahedra (129-189) *)
Definition tet (a b c d : v3) (k : nat) : v3 := match k with 0%nat => a | 1%nat => b | 2%nat => c | _ => d end.
Definition face_cand (v : nat -> v3) (d p : v3) (i : nat) : pres :=
  let j := nexti i in let r := project_triangle (v i) (v j) d p in
  mkp (fun k => if Nat.eqb k i then par r 0 else if Nat.eqb k j then par r 1 else if Nat.eqb k (nexti j) then 0 else if Nat.eqb k 3 then par r 2 else 0) (sd r)
      (fun k => if Nat.eqb k i then enc r 0 else if Nat.eqb k j then enc r 1 else if Nat.eqb k 3 then enc r 2 else false).
Definition project_tetra (a b c d p : v3) : pres :=
  let v := tet a b c d in
  let dl := tri (vsub a d) (vsub b d) (vsub c d) in
  let vl := triple (vsub a d) (vsub b d) (vsub c d) in
  let ng := if Rle_dec (vl * dot (vsub a p) (cross (vsub b c) (vsub a b))) 0 then true else false in
  if (ng && pos (Rabs vl))%bool then
    let r := best (fun i => pos (vl * dot (vsub d p) (cross (dl i) (dl (nexti i))))) (face_cand v d p) in
    if Rlt_dec (sd r) 0 then
      let w0 := triple (vsub c p) (vsub b p) (vsub d p) / vl in
      let w1 := triple (vsub a p) (vsub c p) (vsub d p) / vl in
      let w2 := triple (vsub b p) (vsub a p) (vsub d p) / vl in
      mkp (fun k => match k with 0%nat => w0 | 1%nat => w1 | 2%nat => w2 | 3%nat => 1 - (w0 + w1 + w2) | _ => 0 end) 0 (fun k => Nat.ltb k 4)
    else r
  else if ng then pzero else project_triangle a b c p.

(** the …Origin variants (191-303) as written, for p at the origin *)
Definition project_line_origin (a b : v3) : pres :=
  let d := vsub b a in
  let l := norm2 d in
  if Rlt_dec 0 l then
    let t := - dot a d in
    let w1 := if Rle_dec l t then 1 else if Rle_dec t 0 then 0 else t / l in
    let w k := match k with 0%nat => 1 - w1 | 1%nat => w1 | _ => 0 end in
    if Rle_dec l t then mkp w (norm2 b) (fun k => Nat.eqb k 1)
    else if Rle_dec t 0 then mkp w (norm2 a) (fun k => Nat.eqb k 0)
    else mkp w (norm2 (vadd a (vscale w1 d))) (fun k => Nat.ltb k 2)
  else pzero.
Definition edge_cand_origin (v : nat -> v3) (i : nat) : pres :=
  let j := nexti i in let r := project_line_origin (v i) (v j) in
  mkp (fun k => if Nat.eqb k i then par r 0 else if Nat.eqb k j then par r 1 else 0) (sd r)
      (fun k => if Nat.eqb k i then enc r 0 else if Nat.eqb k j then enc r 1 else false).
Definition project_triangle_origin (a b c : v3) : pres :=
  let v := tri a b c in
  let dl := tri (vsub a b) (vsub b c) (vsub c a) in
  let n := cross (vsub a b) (vsub b c) in
  let l := norm2 n in
  if Rlt_dec 0 l then
    let r := best (fun i => pos (dot (v i) (cross (dl i) n))) (edge_cand_origin v) in
    if Rlt_dec (sd r) 0 then
      let d := dot a n in
      let s := sqrt l in
      let pp := vscale (d / l) n in
      let w0 := norm (cross (dl 1%nat) (vsub b pp)) / s in
      let w1 := norm (cross (dl 2%nat) (vsub c pp)) / s in
      mkp (fun k => match k with 0%nat => w0 | 1%nat => w1 | 2%nat => 1 - w0 - w1 | _ => 0 end) (norm2 pp) (fun k => Nat.ltb k 3)
    else r
  else pzero.
Definition face_cand_origin (v : nat -> v3) (d : v3) (i : nat) : pres :=
  let j := nexti i in let r := project_triangle_origin (v i) (v j) d in
  mkp (fun k => if Nat.eqb k i then par r 0 else if Nat.eqb k j then par r 1 else if Nat.eqb k (nexti j) then 0 else if Nat.eqb k 3 then par r 2 else 0) (sd r)
      (fun k => if Nat.eqb k i then enc r 0 else if Nat.eqb k j then enc r 1 else if Nat.eqb k 3 then enc r 2 else false).
Definition project_tetra_origin (a b c d : v3) : pres :=
  let v := tet a b c d in
  let dl := tri (vsub a d) (vsub b d) (vsub c d) in
  let vl := triple (vsub a d) (vsub b d) (vsub c d) in
  let ng := if Rle_dec (vl * dot a (cross (vsub b c) (vsub a b))) 0 then true else false in
  if (ng && pos (Rabs vl))%bool then
    let r := best (fun i => pos (vl * dot d (cross (dl i) (dl (nexti i))))) (face_cand_origin v d) in
    if Rlt_dec (sd r) 0 then
      let w0 := triple c b d / vl in
      let w1 := triple a c d / vl in
      let w2 := triple b a d / vl in
      mkp (fun k => match k with 0%nat => w0 | 1%nat => w1 | 2%nat => w2 | 3%nat => 1 - (w0 + w1 + w2) | _ => 0 end) 0 (fun k => Nat.ltb k 4)
    else r
  else if ng then pzero else project_triangle_origin a b c.

(** ** Lemmas *)
Definition segp (a b : v3) (s : R) : v3 := vadd (vscale (1 - s) a) (vscale s b).
Definition bary3 (a b c : v3) (x y z : R) : v3 := vadd (vscale x a) (vadd (vscale y b) (vscale z c)).
Definition bary4 (a b c d : v3) (x y z w : R) : v3 := vadd (bary3 a b c x y z) (vscale w d).

Lemma norm2_nonneg : forall v, 0 <= norm2 v. Proof. intros []. unfold norm2, dot. cbn. nra. Qed.
Lemma norm2_sym : forall u v, norm2 (vsub u v) = norm2 (vsub v u). Proof. intros [] []. unfold norm2, dot, vsub. cbn. ring. Qed.

Lemma pos_spec : forall x, pos x = true <-> 0 < x.
Proof. intros. unfold pos. destruct (Rlt_dec 0 x); split; intros; try congruence; lra. Qed.

Lemma best_spec : forall cond cand, (forall i, (i < 3)%nat -> cond i = true -> 0 <= sd (cand i)) ->
  ((forall i, (i < 3)%nat -> cond i = false) /\ best cond cand = pzero) \/
  (exists i, (i < 3)%nat /\ cond i = true /\ best cond cand = cand i /\ forall k, (k < 3)%nat -> cond k = true -> sd (cand i) <= sd (cand k)).
Proof.
  intros cond cand Hp. unfold best.
  assert (G : forall l done r, (forall i, In i (done ++ l) -> cond i = true -> 0 <= sd (cand i)) ->
    (((forall i, In i done -> cond i = false) /\ r = pzero) \/ (exists i, In i done /\ cond i = true /\ r = cand i /\ forall k, In k done -> cond k = true -> sd (cand i) <= sd (cand k))) ->
    let r' := fold_left (fun r i => if cond i then let c := cand i in
               if Rlt_dec (sd r) 0 then c else if Rlt_dec (sd c) (sd r) then c else r else r) l r in
    (((forall i, In i (done ++ l) -> cond i = false) /\ r' = pzero) \/ (exists i, In i (done ++ l) /\ cond i = true /\ r' = cand i /\ forall k, In k (done ++ l) -> cond k = true -> sd (cand i) <= sd (cand k)))).
  { induction l as [|x l IH]; intros done r Hn Hr; [rewrite app_nil_r; exact Hr|].
    replace (done ++ x :: l) with ((done ++ [x]) ++ l) in * by (rewrite <- app_assoc; reflexivity).
    cbn [fold_left]. apply IH; [exact Hn|]. clear IH.
    destruct (cond x) eqn:Cx; cbv zeta.
    - right. assert (Px : 0 <= sd (cand x)) by (apply Hn; [rewrite !in_app_iff; cbn; tauto|exact Cx]).
      destruct Hr as [[Hf ->]|(i & Hi & Ci & -> & Mi)].
      + destruct (Rlt_dec (sd pzero) 0) as [_|n]; [|exfalso; apply n; cbn; lra].
        exists x. split; [rewrite in_app_iff; cbn; tauto|split; [exact Cx|split; [reflexivity|]]]. intros k Hk Ck. apply in_app_iff in Hk. destruct Hk as [Hk|[<-|[]]]; [rewrite (Hf k Hk) in Ck; discriminate|lra].
      + assert (Pi : 0 <= sd (cand i)) by (apply Hn; [rewrite !in_app_iff; tauto|exact Ci]).
        destruct (Rlt_dec (sd (cand i)) 0); [lra|]. destruct (Rlt_dec (sd (cand x)) (sd (cand i))) as [L|L].
        * exists x. split; [rewrite in_app_iff; cbn; tauto|split; [exact Cx|split; [reflexivity|]]]. intros k Hk Ck. apply in_app_iff in Hk. destruct Hk as [Hk|[<-|[]]]; [specialize (Mi k Hk Ck); lra|lra].
        * exists i. split; [rewrite in_app_iff; tauto|split; [exact Ci|split; [reflexivity|]]]. intros k Hk Ck. apply in_app_iff in Hk. destruct Hk as [Hk|[<-|[]]]; [exact (Mi k Hk Ck)|lra].
    - destruct Hr as [[Hf ->]|(i & Hi & Ci & -> & Mi)].
      + left. split; [|reflexivity]. intros k Hk. apply in_app_iff in Hk. destruct Hk as [Hk|[<-|[]]]; [auto|exact Cx].
      + right. exists i. split; [rewrite in_app_iff; tauto|split; [exact Ci|split; [reflexivity|]]]. intros k Hk Ck. apply in_app_iff in Hk. destruct Hk as [Hk|[<-|[]]]; [exact (Mi k Hk Ck)|congruence]. }
  assert (I3 : forall i, In i [0; 1; 2]%nat <-> (i < 3)%nat) by (intros i; cbn; split; [intros [<-|[<-|[<-|[]]]]; lia|lia]).
  specialize (G [0; 1; 2]%nat [] pzero). cbv zeta in G. rewrite app_nil_l in G.
  destruct G as [[H1 H2]|(i & Hi & Ci & E & M)].
  - intros i Hi. apply Hp, I3, Hi.
  - left. split; [intros i []|reflexivity].
  - left. split; [intros i Hi; apply H1, I3, Hi|exact H2].
  - right. exists i. split; [apply I3, Hi|split; [exact Ci|split; [exact E|]]]. intros k Hk. apply M, I3, Hk.
Qed.

(** segment *)
Lemma sq0 : forall a b c, a * a + b * b + c * c <= 0 -> a = 0 /\ b = 0 /\ c = 0.
Proof.
  intros a b c H. pose proof (Rle_0_sqr a) as A. pose proof (Rle_0_sqr b) as B. pose proof (Rle_0_sqr c) as C. unfold Rsqr in *.
  split; [|split]; apply Rsqr_0_uniq; unfold Rsqr; lra.
Qed.
Lemma line_pos : forall a b : v3, a <> b -> 0 < norm2 (vsub b a).
Proof.
  intros [x y z] [x' y' z'] H. unfold norm2, dot, vsub. cbn. apply Rnot_le_lt. intros L. apply H. apply sq0 in L. f_equal; lra.
Qed.

Lemma line_spec : forall a b p, 0 < norm2 (vsub b a) -> let r := project_line a b p in
  0 <= par r 1 <= 1 /\ par r 0 = 1 - par r 1 /\ (forall k, (2 <= k)%nat -> par r k = 0) /\
  sd r = norm2 (vsub (segp a b (par r 1)) p) /\ (forall s, 0 <= s <= 1 -> sd r <= norm2 (vsub (segp a b s) p)) /\
  (forall k, (k < 2)%nat -> (enc r k = true <-> par r k <> 0)) /\ (forall k, (2 <= k)%nat -> enc r k = false).
Proof.
  intros a b p Hl r. unfold r, project_line. cbv zeta. set (d := vsub b a) in *. set (l := norm2 d) in *. set (t := dot (vsub p a) d).
  destruct (Rlt_dec 0 l) as [_|n]; [|lra].
  assert (Sg : forall s, norm2 (vsub (segp a b s) p) = norm2 (vsub p a) - 2 * s * t + s * s * l).
  { intros s. unfold t, l, d, segp. destruct a, b, p. unfold norm2, dot, vsub, vadd, vscale. cbn. ring. }
  assert (S0 : norm2 (vsub p a) = norm2 (vsub (segp a b 0) p)) by (rewrite Sg; ring).
  assert (S1 : norm2 (vsub p b) = norm2 (vsub (segp a b 1) p)).
  { unfold segp. destruct a, b, p. unfold norm2, dot, vsub, vadd, vscale. cbn. ring. }
  assert (Sm : forall s, vadd a (vscale s d) = segp a b s) by (intros; unfold d, segp; destruct a, b; unfold vadd, vscale, vsub; cbn; f_equal; ring).
  destruct (Rle_dec l t) as [A|A].
  { cbn [par sd enc]. split; [lra|split; [lra|split; [intros [|[|k]] Hk; [lia|lia|reflexivity]|split; [exact S1|split]]]].
    - intros s Hs. rewrite S1, !Sg. assert (0 <= (1 - s) * (t - l)) by (apply Rmult_le_pos; lra). assert (0 <= (1 - s) * ((1 - s) * l)) by (apply Rmult_le_pos; [lra|apply Rmult_le_pos; lra]). lra.
    - split; [intros [|[|k]] Hk; cbn; split; intros; try congruence; try lia; lra|intros [|[|k]] Hk; try lia; reflexivity]. }
  destruct (Rle_dec t 0) as [B|B].
  { cbn [par sd enc]. split; [lra|split; [lra|split; [intros [|[|k]] Hk; [lia|lia|reflexivity]|split; [exact S0|split]]]].
    - intros s Hs. rewrite S0, !Sg. assert (0 <= s * - t) by (apply Rmult_le_pos; lra). assert (0 <= s * s * l) by (apply Rmult_le_pos; [apply Rmult_le_pos; lra|lra]). lra.
    - split; [intros [|[|k]] Hk; cbn; split; intros; try congruence; try lia; lra|intros [|[|k]] Hk; try lia; reflexivity]. }
  cbn [par sd enc].
  assert (T : t / l * l = t) by (field; lra). assert (T01 : 0 < t / l < 1) by (split; [apply Rdiv_lt_0_compat; lra|apply Rmult_lt_reg_r with l; lra]).
  split; [lra|split; [lra|split; [intros [|[|k]] Hk; [lia|lia|reflexivity]|split; [rewrite Sm; reflexivity|split]]]].
  - intros s Hs. rewrite Sm, !Sg. set (u := t / l) in *. assert (0 <= (s - u) * (s - u) * l) by (apply Rmult_le_pos; [apply Rle_0_sqr|lra]). assert (u * t = u * u * l) by (rewrite <- T at 1; ring). assert (s * t = s * u * l) by (rewrite <- T at 1; ring). lra.
  - split; [intros [|[|k]] Hk; cbn; split; intros; try congruence; try lia; lra|intros [|[|k]] Hk; try lia; reflexivity].
Qed.

(** leaving a simplex towards a point outside *)
Lemma exit : forall (N : nat) (q p : nat -> R), (forall k, (k < N)%nat -> 0 <= q k) -> (exists k, (k < N)%nat /\ p k < 0) ->
  exists t i, 0 <= t <= 1 /\ (i < N)%nat /\ p i < 0 /\ (1 - t) * q i + t * p i = 0 /\ forall k, (k < N)%nat -> 0 <= (1 - t) * q k + t * p k.
Proof.
  induction N as [|N IH]; intros q p Hq (k & Hk & Pk); [lia|].
  assert (Cross : forall q p, 0 <= q -> p < 0 -> exists t, 0 <= t <= 1 /\ (1 - t) * q + t * p = 0).
  { intros a b Ha Hb. exists (a / (a - b)). assert (0 < a - b) by lra. split; [|field; lra].
    split; [apply Rmult_le_pos; [lra|apply Rlt_le, Rinv_0_lt_compat; lra]|]. apply Rmult_le_reg_r with (a - b); [lra|]. unfold Rdiv. rewrite Rmult_assoc, Rinv_l by lra. lra. }
  destruct (Rlt_dec (p N) 0) as [PN|PN].
  - destruct (Cross (q N) (p N) (Hq N ltac:(lia)) PN) as (tN & TN & EN).
    destruct (Nat.eq_dec N 0) as [->|NZ].
    { exists tN, 0%nat. split; [exact TN|split; [lia|split; [exact PN|split; [exact EN|]]]]. intros j Hj. replace j with 0%nat by lia. lra. }
    destruct (Exists_dec (fun j => p j < 0) (seq 0 N)) as [Ex|Nex]; [intros j; apply Rlt_dec| |].
    + apply Exists_exists in Ex. destruct Ex as (j & Hj & Pj). apply in_seq in Hj.
      destruct (IH q p ltac:(intros; apply Hq; lia) ltac:(exists j; split; [lia|exact Pj])) as (t & i & Ht & Hi & Pi & Ei & All).
      destruct (Rle_dec t tN) as [Le|Le].
      * exists t, i. split; [exact Ht|split; [lia|split; [exact Pi|split; [exact Ei|]]]]. intros m Hm. destruct (Nat.eq_dec m N) as [->|Hn]; [|apply All; lia].
        pose proof (Hq N ltac:(lia)). nra.
      * exists tN, N. split; [exact TN|split; [lia|split; [exact PN|split; [exact EN|]]]]. intros m Hm. destruct (Nat.eq_dec m N) as [->|Hn]; [lra|].
        pose proof (All m ltac:(lia)) as Am. pose proof (Hq m ltac:(lia)) as Qm. destruct (Rle_dec (q m) (p m)); nra.
    + exists tN, N. split; [exact TN|split; [lia|split; [exact PN|split; [exact EN|]]]]. intros m Hm. destruct (Nat.eq_dec m N) as [->|Hn]; [lra|].
      pose proof (Hq m ltac:(lia)) as Qm. assert (0 <= p m). { apply Rnot_lt_le. intros L. apply Nex. apply Exists_exists. exists m. split; [apply in_seq; lia|exact L]. }
      nra.
  - assert (k <> N) by (intros ->; contradiction).
    destruct (IH q p ltac:(intros; apply Hq; lia) ltac:(exists k; split; [lia|exact Pk])) as (t & i & Ht & Hi & Pi & Ei & All).
    exists t, i. split; [exact Ht|split; [lia|split; [exact Pi|split; [exact Ei|]]]]. intros m Hm. destruct (Nat.eq_dec m N) as [->|Hn]; [|apply All; lia].
    pose proof (Hq N ltac:(lia)). nra.
Qed.

(** triangle *)
Lemma tri_bary : forall a b c p, let n := cross (vsub a b) (vsub b c) in let l := norm2 n in 0 < l ->
  let e i := dot (vsub (tri a b c i) p) (cross (tri (vsub a b) (vsub b c) (vsub c a) i) n) in
  let x := - e 1%nat / l in let y := - e 2%nat / l in let z := - e 0%nat / l in
  x + y + z = 1 /\ p = vadd (bary3 a b c x y z) (vscale (- (dot (vsub a p) n / l)) n).
Proof.
  intros a b c p n l Hl e x y z.
  set (u := vsub a b). set (v := vsub b c). set (w := vsub a p).
  assert (E0 : e 0%nat = dot w (cross u n)) by reflexivity.
  assert (E1 : e 1%nat = dot (vsub w u) (cross v n)).
  { unfold e, w, u. cbn [tri]. fold v. f_equal. destruct a, b, p. unfold vsub. cbn. f_equal; ring. }
  assert (E2 : e 2%nat = dot (vsub (vsub w u) v) (cross (vneg (vadd u v)) n)).
  { unfold e, w, u, v. cbn [tri]. f_equal; [|f_equal]; destruct a, b, c, p; unfold vsub, vneg, vadd; cbn; f_equal; ring. }
  assert (S : e 0%nat + e 1%nat + e 2%nat = - l).
  { rewrite E0, E1, E2. unfold l, n. fold u v. clearbody u v w. destruct u, v, w. unfold norm2, dot, cross, vsub, vadd, vneg. cbn. ring. }
  assert (Sum : x + y + z = 1). { unfold x, y, z. replace (- e 1%nat / l + - e 2%nat / l + - e 0%nat / l) with (- (e 0%nat + e 1%nat + e 2%nat) / l) by (field; lra). rewrite S. field. lra. }
  split; [exact Sum|].
  assert (X : x = 1 - y - z) by lra.
  assert (W : vscale l w = vadd (vscale (- e 2%nat) u) (vadd (vscale (- e 0%nat) (vadd u v)) (vscale (dot w n) n))).
  { rewrite E0, E2. unfold l, n. fold u v. clearbody u v w. clear. destruct u, v, w. unfold norm2, dot, cross, vsub, vadd, vneg, vscale. cbn. f_equal; ring. }
  assert (W' : w = vadd (vscale y u) (vadd (vscale z (vadd u v)) (vscale (dot w n / l) n))).
  { transitivity (vscale (/ l) (vscale l w)); [|rewrite W; unfold y, z; clear -Hl; clearbody u v w n l; destruct u, v, w, n; unfold vscale, vadd, Rdiv; cbn; f_equal; ring].
    clear -Hl. clearbody w l. destruct w. unfold vscale. cbn. f_equal; field; lra. }
  fold w. rewrite X. set (h := dot w n / l) in *. clearbody h y z n.
  transitivity (vsub a w); [unfold w; destruct a, p; unfold vsub; cbn; f_equal; ring|].
  rewrite W'. unfold u, v, bary3. destruct a, b, c, n. unfold vsub, vadd, vscale. cbn. f_equal; ring.
Qed.

Lemma bary3_dist : forall a b c n x y z h x' y' z', dot (vsub a b) n = 0 -> dot (vsub b c) n = 0 -> x + y + z = 1 -> x' + y' + z' = 1 ->
  norm2 (vsub (bary3 a b c x' y' z') (vadd (bary3 a b c x y z) (vscale h n))) = h * h * norm2 n + norm2 (vadd (vscale (x' - x) (vsub a b)) (vscale (z - z') (vsub b c))).
Proof.
  intros a b c n x y z h x' y' z' H1 H2 S S'.
  replace (vsub (bary3 a b c x' y' z') (vadd (bary3 a b c x y z) (vscale h n))) with (vsub (vadd (vscale (x' - x) (vsub a b)) (vscale (z - z') (vsub b c))) (vscale h n)).
  - set (u := vsub a b) in *. set (v := vsub b c) in *. clearbody u v. set (A := x' - x). set (C := z - z').
    assert (E : dot (vadd (vscale A u) (vscale C v)) n = 0) by (rewrite dot_add_l, !dot_scale_l; rewrite H1, H2; ring).
    set (m := vadd (vscale A u) (vscale C v)) in *. clearbody m. unfold norm2. rewrite dot_sub_l, !dot_sub_r, !dot_scale_l, !dot_scale_r. rewrite (dot_comm n m), E. ring.
  - replace y' with (1 - x' - z') by lra. replace y with (1 - x - z) by lra. unfold bary3. destruct a, b, c, n. unfold vsub, vadd, vscale. cbn. f_equal; ring.
Qed.

Definition tri_pt (a b c : v3) (q : v3) : Prop := exists x y z, 0 <= x /\ 0 <= y /\ 0 <= z /\ x + y + z = 1 /\ q = bary3 a b c x y z.
Definition tet_pt (a b c d : v3) (q : v3) : Prop := exists x y z w, 0 <= x /\ 0 <= y /\ 0 <= z /\ 0 <= w /\ x + y + z + w = 1 /\ q = bary4 a b c d x y z w.
Definition seg_pt (a b q : v3) : Prop := exists s, 0 <= s <= 1 /\ q = segp a b s.
Definition nearest (In : v3 -> Prop) (p q : v3) (d2 : R) : Prop := In q /\ d2 = norm2 (vsub q p) /\ forall q', In q' -> d2 <= norm2 (vsub q' p).

(** moving a point of the triangle towards the projection of p stops at an edge p is outside of *)
Lemma tri_exit : forall a b c p, let n := cross (vsub a b) (vsub b c) in let l := norm2 n in 0 < l ->
  let e i := dot (vsub (tri a b c i) p) (cross (tri (vsub a b) (vsub b c) (vsub c a) i) n) in
  (exists i, (i < 3)%nat /\ 0 < e i) -> forall q, tri_pt a b c q ->
  exists i s, (i < 3)%nat /\ 0 < e i /\ 0 <= s <= 1 /\ norm2 (vsub (segp (tri a b c i) (tri a b c (nexti i)) s) p) <= norm2 (vsub q p).
Proof.
  intros a b c p n l Hl e Hex q (x' & y' & z' & X0 & Y0 & Z0 & S' & ->).
  set (x := - e 1%nat / l). set (y := - e 2%nat / l). set (z := - e 0%nat / l). set (h := - (dot (vsub a p) n / l)).
  assert (SE : x + y + z = 1 /\ p = vadd (bary3 a b c x y z) (vscale h n)) by exact (tri_bary a b c p Hl). destruct SE as [S Ep].
  assert (N1 : dot (vsub a b) n = 0) by (unfold n; destruct a, b, c; unfold dot, cross, vsub; cbn; ring).
  assert (N2 : dot (vsub b c) n = 0) by (unfold n; destruct a, b, c; unfold dot, cross, vsub; cbn; ring).
  assert (Neg : forall i, - e i / l < 0 <-> 0 < e i).
  { intros i. split; intros H.
    - assert (- e i / l * l < 0 * l) by (apply Rmult_lt_compat_r; lra). replace (- e i / l * l) with (- e i) in H0 by (field; lra). lra.
    - apply Rmult_lt_reg_r with l; [lra|]. replace (- e i / l * l) with (- e i) by (field; lra). lra. }
  destruct (exit 3 (fun k => match k with 0%nat => x' | 1%nat => y' | _ => z' end) (fun k => match k with 0%nat => x | 1%nat => y | _ => z end)) as (t & i & Ht & Hi & Pi & Ei & All).
  { intros [|[|[|k]]] _; assumption. }
  { destruct Hex as (i & Hi & Pi). destruct i as [|[|[|i]]]; try lia; [exists 2%nat|exists 0%nat|exists 1%nat]; (split; [lia|]); apply Neg; exact Pi. }
  set (x1 := (1 - t) * x' + t * x). set (y1 := (1 - t) * y' + t * y). set (z1 := (1 - t) * z' + t * z).
  assert (S1 : x1 + y1 + z1 = 1) by (transitivity ((1 - t) * (x' + y' + z') + t * (x + y + z)); [unfold x1, y1, z1; ring|rewrite S, S'; ring]).
  assert (Near : norm2 (vsub (bary3 a b c x1 y1 z1) p) <= norm2 (vsub (bary3 a b c x' y' z') p)).
  { rewrite Ep, !bary3_dist by assumption. replace (vadd (vscale (x1 - x) (vsub a b)) (vscale (z - z1) (vsub b c))) with (vscale (1 - t) (vadd (vscale (x' - x) (vsub a b)) (vscale (z - z') (vsub b c)))).
    - set (m := vadd (vscale (x' - x) (vsub a b)) (vscale (z - z') (vsub b c))). assert (norm2 (vscale (1 - t) m) = (1 - t) * (1 - t) * norm2 m) by (unfold norm2; rewrite dot_scale_l, dot_scale_r; ring).
      rewrite H. pose proof (norm2_nonneg m). assert ((1 - t) * (1 - t) <= 1) by nra. nra.
    - unfold x1, z1. clearbody x y z. destruct a, b, c. unfold vsub, vadd, vscale. cbn. f_equal; ring. }
  pose proof (All 0%nat ltac:(lia)) as A0. pose proof (All 1%nat ltac:(lia)) as A1. pose proof (All 2%nat ltac:(lia)) as A2. cbn in A0, A1, A2. fold x1 in A0. fold y1 in A1. fold z1 in A2.
  destruct i as [|[|[|i]]]; [| | |lia].
  - exists 1%nat, z1. split; [lia|split; [apply Neg; exact Pi|split; [fold x1 in Ei; lra|]]]. replace (segp (tri a b c 1) (tri a b c (nexti 1)) z1) with (bary3 a b c x1 y1 z1); [exact Near|].
    fold x1 in Ei. cbn [nexti tri]. replace y1 with (1 - z1) by lra. rewrite Ei. unfold bary3, segp. destruct a, b, c. unfold vadd, vscale. cbn. f_equal; ring.
  - exists 2%nat, x1. split; [lia|split; [apply Neg; exact Pi|split; [fold y1 in Ei; lra|]]]. replace (segp (tri a b c 2) (tri a b c (nexti 2)) x1) with (bary3 a b c x1 y1 z1); [exact Near|].
    fold y1 in Ei. cbn [nexti tri]. replace z1 with (1 - x1) by lra. rewrite Ei. unfold bary3, segp. destruct a, b, c. unfold vadd, vscale. cbn. f_equal; ring.
  - exists 0%nat, y1. split; [lia|split; [apply Neg; exact Pi|split; [fold z1 in Ei; lra|]]]. replace (segp (tri a b c 0) (tri a b c (nexti 0)) y1) with (bary3 a b c x1 y1 z1); [exact Near|].
    fold z1 in Ei. cbn [nexti tri]. replace x1 with (1 - y1) by lra. rewrite Ei. unfold bary3, segp. destruct a, b, c. unfold vadd, vscale. cbn. f_equal; ring.
Qed.
Lemma tri_edges : forall a b c, 0 < norm2 (cross (vsub a b) (vsub b c)) -> forall i, (i < 3)%nat -> 0 < norm2 (vsub (tri a b c (nexti i)) (tri a b c i)).
Proof.
  intros a b c H i Hi.
  assert (Z : norm2 (cross (vsub a b) (vsub b c)) = 0 -> False) by lra.
  destruct i as [|[|[|i]]]; try lia; cbn [tri nexti]; apply line_pos; intros E; apply Z; rewrite E; clear -a b c; destruct a, b, c; unfold norm2, dot, cross, vsub; cbn; ring.
Qed.

Definition pt3 (a b c : v3) (r : pres) : v3 := bary3 a b c (par r 0) (par r 1) (par r 2).
Definition pt4 (a b c d : v3) (r : pres) : v3 := bary4 a b c d (par r 0) (par r 1) (par r 2) (par r 3).

Lemma tri_spec : forall a b c p, 0 < norm2 (cross (vsub a b) (vsub b c)) -> let r := project_triangle a b c p in
  (forall k, 0 <= par r k) /\ par r 0 + par r 1 + par r 2 = 1 /\ (forall k, (3 <= k)%nat -> par r k = 0) /\
  sd r = norm2 (vsub (pt3 a b c r) p) /\ (forall q, tri_pt a b c q -> sd r <= norm2 (vsub q p)) /\
  (forall k, par r k <> 0 -> enc r k = true) /\ (forall k, (3 <= k)%nat -> enc r k = false) /\
  ((forall k, (k < 3)%nat -> enc r k = true) \/ (forall k, enc r k = true <-> par r k <> 0)).
Proof.
  intros a b c p Hl r. unfold r, project_triangle. cbv zeta. clear r. set (n := cross (vsub a b) (vsub b c)) in *. set (l := norm2 n) in *.
  set (e := fun i => dot (vsub (tri a b c i) p) (cross (tri (vsub a b) (vsub b c) (vsub c a) i) n)).
  change (fun i => pos (dot (vsub (tri a b c i) p) (cross (tri (vsub a b) (vsub b c) (vsub c a) i) n))) with (fun i => pos (e i)).
  destruct (Rlt_dec 0 l) as [_|]; [|lra].
  destruct (best_spec (fun i => pos (e i)) (edge_cand (tri a b c) p)) as [[NoE ->]|(i & Hi & Ci & -> & Mi)].
  { intros i Hi _. unfold edge_cand. cbn [sd]. destruct (line_spec (tri a b c i) (tri a b c (nexti i)) p (tri_edges a b c Hl i Hi)) as (_ & _ & _ & -> & _). apply norm2_nonneg. }
  - destruct (Rlt_dec (sd pzero) 0) as [_|N]; [|exfalso; apply N; cbn; lra]. cbn [par sd enc].
    assert (SE : - e 1%nat / l + - e 2%nat / l + - e 0%nat / l = 1 /\ p = vadd (bary3 a b c (- e 1%nat / l) (- e 2%nat / l) (- e 0%nat / l)) (vscale (- (dot (vsub a p) n / l)) n)) by exact (tri_bary a b c p Hl). destruct SE as [S Ep].
    assert (Nn : forall i, (i < 3)%nat -> 0 <= - e i / l).
    { intros i Hi. specialize (NoE i Hi). cbn in NoE. assert (~ 0 < e i) by (rewrite <- pos_spec, NoE; discriminate). apply Rmult_le_pos; [lra|apply Rlt_le, Rinv_0_lt_compat; lra]. }
    pose proof (Nn 0%nat ltac:(lia)) as Z0. pose proof (Nn 1%nat ltac:(lia)) as X0. pose proof (Nn 2%nat ltac:(lia)) as Y0.
    set (x := - e 1%nat / l) in *. set (y := - e 2%nat / l) in *. set (z := - e 0%nat / l) in *. set (h := dot (vsub a p) n / l) in *.
    assert (Lsq : sqrt l * sqrt l = l) by (apply sqrt_sqrt; lra). assert (Lp : 0 < sqrt l) by (apply sqrt_lt_R0; lra).
    assert (NS : forall k v, 0 <= k -> norm (vscale k v) = k * norm v).
    { intros k v Hk. unfold norm, norm2. replace (dot (vscale k v) (vscale k v)) with ((k * k) * dot v v) by (rewrite dot_scale_l, dot_scale_r; ring). rewrite sqrt_mult_alt by nra. rewrite sqrt_square by lra. reflexivity. }
    assert (P0 : vadd p (vscale h n) = bary3 a b c x y z).
    { rewrite Ep. clearbody x y z h. unfold bary3. clear. clearbody n. destruct a, b, c, n. unfold vadd, vscale. cbn. f_equal; ring. }
    assert (V : forall w, vsub (vsub w p) (vscale h n) = vsub w (bary3 a b c x y z)).
    { intros w. rewrite <- P0. clear. clearbody n h. destruct w, p, n. unfold vadd, vsub, vscale. cbn. f_equal; ring. }
    rewrite !V.
    assert (W0 : norm (cross (tri (vsub a b) (vsub b c) (vsub c a) 1) (vsub b (bary3 a b c x y z))) / sqrt l = x).
    { replace (cross (tri (vsub a b) (vsub b c) (vsub c a) 1) (vsub b (bary3 a b c x y z))) with (vscale x n); [rewrite NS by assumption; change (norm n) with (sqrt l); field; lra|].
      replace z with (1 - x - y) by lra. clear. unfold n, bary3. clearbody x y. destruct a, b, c. unfold tri, cross, vscale, vsub, vadd. cbn. f_equal; ring. }
    assert (W1 : norm (cross (tri (vsub a b) (vsub b c) (vsub c a) 2) (vsub c (bary3 a b c x y z))) / sqrt l = y).
    { replace (cross (tri (vsub a b) (vsub b c) (vsub c a) 2) (vsub c (bary3 a b c x y z))) with (vscale y n); [rewrite NS by assumption; change (norm n) with (sqrt l); field; lra|].
      replace z with (1 - x - y) by lra. clear. unfold n, bary3. clearbody x y. destruct a, b, c. unfold tri, cross, vscale, vsub, vadd. cbn. f_equal; ring. }
    rewrite W0, W1. cbn [par sd enc].
    assert (N1 : dot (vsub a b) n = 0) by (unfold n; destruct a, b, c; unfold dot, cross, vsub; cbn; ring).
    assert (N2 : dot (vsub b c) n = 0) by (unfold n; destruct a, b, c; unfold dot, cross, vsub; cbn; ring).
    replace (1 - x - y) with z by lra.
    split; [intros [|[|[|k]]]; try assumption; lra|split; [lra|split; [intros [|[|[|k]]] Hk; try lia; reflexivity|]]].
    assert (Ns : norm2 (vscale h n) = h * h * norm2 n) by (unfold norm2; rewrite dot_scale_l, dot_scale_r; ring).
    assert (Ep' : p = vadd (bary3 a b c x y z) (vscale (- h) n)) by exact Ep.
    split.
    { unfold pt3. cbn [par]. rewrite Ep' at 1. rewrite bary3_dist by assumption. rewrite Ns. replace (vadd (vscale (x - x) (vsub a b)) (vscale (z - z) (vsub b c))) with vzero; [unfold norm2 at 3, dot; cbn; ring|].
      clear. clearbody x z. destruct a, b, c. unfold vzero, vadd, vscale, vsub. cbn. f_equal; ring. }
    split.
    { intros q (x' & y' & z' & Hx & Hy & Hz & Hs & ->). rewrite Ep' at 1. rewrite bary3_dist by assumption. rewrite Ns.
      match goal with |- _ <= _ + norm2 ?m => pose proof (norm2_nonneg m) end. lra. }
    split; [intros [|[|[|k]]] H; try reflexivity; exfalso; apply H; reflexivity|].
    split; [intros [|[|[|k]]] Hk; try lia; reflexivity|]. left. intros [|[|[|k]]] Hk; try lia; reflexivity.
  - destruct (line_spec (tri a b c i) (tri a b c (nexti i)) p (tri_edges a b c Hl i Hi)) as (W & W0 & Wk & Sd & Mn & En & Ek).
    assert (Hsd : 0 <= sd (edge_cand (tri a b c) p i)) by (unfold edge_cand; cbn [sd]; rewrite Sd; apply norm2_nonneg).
    destruct (Rlt_dec (sd (edge_cand (tri a b c) p i)) 0); [lra|].
    assert (Q : forall q, tri_pt a b c q -> sd (edge_cand (tri a b c) p i) <= norm2 (vsub q p)).
    { intros q Hq. destruct (tri_exit a b c p Hl) with (q := q) as (j & s & Hj & Ej & Hs & Near); [exists i; split; [exact Hi|apply pos_spec, Ci]|exact Hq|].
      apply Rle_trans with (sd (edge_cand (tri a b c) p j)); [apply Mi; [exact Hj|apply pos_spec; exact Ej]|]. eapply Rle_trans; [|exact Near].
      unfold edge_cand. cbn [sd]. destruct (line_spec (tri a b c j) (tri a b c (nexti j)) p (tri_edges a b c Hl j Hj)) as (_ & _ & _ & _ & M & _). apply M, Hs. }
    set (r := project_line (tri a b c i) (tri a b c (nexti i)) p) in *.
    assert (E0 : forall k, (k < 2)%nat -> par r k <> 0 -> enc r k = true) by (intros k Hk H; apply En; assumption).
    assert (Dec : forall k, enc (edge_cand (tri a b c) p i) k = true <-> par (edge_cand (tri a b c) p i) k <> 0).
    { intros k. unfold edge_cand. cbn [par enc]. fold r. destruct (Nat.eqb k i); [apply En; lia|]. destruct (Nat.eqb k (nexti i)); [apply En; lia|]. split; [discriminate|intros H; exfalso; apply H; reflexivity]. }
    split. { intros k. unfold edge_cand. cbn [par]. fold r. destruct (Nat.eqb k i); [lra|]. destruct (Nat.eqb k (nexti i)); lra. }
    split. { unfold edge_cand. cbn [par]. fold r. clearbody r. destruct i as [|[|[|i]]]; try lia; cbn [nexti Nat.eqb]; lra. }
    split. { intros k Hk. destruct i as [|[|[|i]]]; try lia; destruct k as [|[|[|k]]]; try lia; reflexivity. }
    split. { unfold pt3, edge_cand. cbn [sd par]. fold r. rewrite Sd. f_equal. f_equal. clearbody r.
      destruct i as [|[|[|i]]]; try lia; cbn [nexti Nat.eqb tri] in *; rewrite W0; generalize (par r 1); intros t; clear; unfold segp, bary3; destruct a, b, c; unfold vadd, vscale; cbn; f_equal; ring. }
    split; [exact Q|]. split; [intros k; apply Dec|]. split; [|right; exact Dec].
    intros k Hk. destruct i as [|[|[|i]]]; try lia; destruct k as [|[|[|k]]]; try lia; reflexivity.
Qed.

(** tetrahedron *)
Lemma tet_bary : forall a b c d p, let vl := triple (vsub a d) (vsub b d) (vsub c d) in vl <> 0 ->
  let dl := tri (vsub a d) (vsub b d) (vsub c d) in
  let e i := dot (vsub d p) (cross (dl i) (dl (nexti i))) in
  let x := - e 1%nat / vl in let y := - e 2%nat / vl in let z := - e 0%nat / vl in let w := 1 - x - y - z in
  p = bary4 a b c d x y z w /\ vl * dot (vsub a p) (cross (vsub b c) (vsub a b)) = - (w * (vl * vl)) /\
  triple (vsub c p) (vsub b p) (vsub d p) / vl = x /\ triple (vsub a p) (vsub c p) (vsub d p) / vl = y /\ triple (vsub b p) (vsub a p) (vsub d p) / vl = z.
Proof.
  intros a b c d p vl Hv dl e x y z w.
  set (A := vsub a d). set (B := vsub b d). set (C := vsub c d). set (P := vsub d p).
  assert (E0 : e 0%nat = dot P (cross A B)) by reflexivity. assert (E1 : e 1%nat = dot P (cross B C)) by reflexivity. assert (E2 : e 2%nat = dot P (cross C A)) by reflexivity.
  assert (V : vl = dot A (cross B C)) by reflexivity.
  assert (Cr : vscale vl P = vneg (vadd (vscale (- e 1%nat) A) (vadd (vscale (- e 2%nat) B) (vscale (- e 0%nat) C)))).
  { rewrite E0, E1, E2, V. clearbody A B C P. clear. destruct A, B, C, P. unfold dot, cross, vscale, vneg, vadd. cbn. f_equal; ring. }
  assert (Pe : P = vneg (vadd (vscale x A) (vadd (vscale y B) (vscale z C)))).
  { transitivity (vscale (/ vl) (vscale vl P)); [clear -Hv; clearbody P vl; destruct P; unfold vscale; cbn; f_equal; field; exact Hv|].
    rewrite Cr. unfold x, y, z. generalize (e 0%nat) (e 1%nat) (e 2%nat). intros. clear. clearbody A B C vl. destruct A, B, C. unfold vneg, vadd, vscale, Rdiv. cbn. f_equal; ring. }
  assert (Pp : p = bary4 a b c d x y z w).
  { transitivity (vsub d P); [unfold P; clear; destruct d, p; unfold vsub; cbn; f_equal; ring|]. rewrite Pe. unfold A, B, C, w. clear. clearbody x y z. unfold bary4, bary3. destruct a, b, c, d. unfold vsub, vneg, vadd, vscale. cbn. f_equal; ring. }
  split; [exact Pp|].
  assert (Va : vsub a p = vadd A P) by (unfold A, P; clear; destruct a, d, p; unfold vsub, vadd; cbn; f_equal; ring).
  assert (Vb : vsub b p = vadd B P) by (unfold B, P; clear; destruct b, d, p; unfold vsub, vadd; cbn; f_equal; ring).
  assert (Vc : vsub c p = vadd C P) by (unfold C, P; clear; destruct c, d, p; unfold vsub, vadd; cbn; f_equal; ring).
  assert (Vbc : vsub b c = vsub B C) by (unfold B, C; clear; destruct b, c, d; unfold vsub; cbn; f_equal; ring).
  assert (Vab : vsub a b = vsub A B) by (unfold A, B; clear; destruct b, a, d; unfold vsub; cbn; f_equal; ring).
  rewrite Va, Vb, Vc, Vbc, Vab. change (vsub d p) with P. unfold w. rewrite Pe. clearbody x y z. clear -V Hv. clearbody A B C.
  assert (T : dot (vadd A (vneg (vadd (vscale x A) (vadd (vscale y B) (vscale z C))))) (cross (vsub B C) (vsub A B)) = - (1 - x - y - z) * vl).
  { rewrite V. destruct A, B, C. unfold dot, cross, vneg, vadd, vsub, vscale. cbn. ring. }
  split; [rewrite T; ring|].
  split; [|split]; apply (Rmult_eq_reg_r vl); try exact Hv; unfold Rdiv; rewrite Rmult_assoc, Rinv_l by exact Hv; rewrite V; destruct A, B, C; unfold triple, dot, cross, vneg, vadd, vsub, vscale; cbn; ring.
Qed.

Lemma tet_faces : forall a b c d, triple (vsub a d) (vsub b d) (vsub c d) <> 0 -> forall i, (i < 3)%nat ->
  0 < norm2 (cross (vsub (tet a b c d i) (tet a b c d (nexti i))) (vsub (tet a b c d (nexti i)) d)).
Proof.
  intros a b c d Hv i Hi. set (m := cross _ _). assert (Z : m <> vzero).
  { intros E. apply Hv. unfold m in E. clear m.
    destruct i as [|[|[|i]]]; try lia; cbn [tet nexti] in E.
    - replace (triple (vsub a d) (vsub b d) (vsub c d)) with (dot (vsub c d) (cross (vsub a b) (vsub b d))) by (destruct a, b, c, d; unfold triple, dot, cross, vsub; cbn; ring). rewrite E. destruct (vsub c d); unfold dot, vzero; cbn; ring.
    - replace (triple (vsub a d) (vsub b d) (vsub c d)) with (dot (vsub a d) (cross (vsub b c) (vsub c d))) by (destruct a, b, c, d; unfold triple, dot, cross, vsub; cbn; ring). rewrite E. destruct (vsub a d); unfold dot, vzero; cbn; ring.
    - replace (triple (vsub a d) (vsub b d) (vsub c d)) with (dot (vsub b d) (cross (vsub c a) (vsub a d))) by (destruct a, b, c, d; unfold triple, dot, cross, vsub; cbn; ring). rewrite E. destruct (vsub b d); unfold dot, vzero; cbn; ring. }
  clearbody m. replace m with (vsub m vzero) by (destruct m; unfold vsub, vzero; cbn; f_equal; ring). apply line_pos. congruence.
Qed.

Definition other (i : nat) : nat := nexti (nexti i).

(** the whole-tetrahedron version of tri_exit, with the vertex d as coordinate 3 *)
Lemma tet_exit : forall a b c d x y z w x' y' z' w', let p := bary4 a b c d x y z w in
  x + y + z + w = 1 -> 0 <= x' -> 0 <= y' -> 0 <= z' -> 0 <= w' -> x' + y' + z' + w' = 1 ->
  let co k := match k with 0%nat => x | 1%nat => y | 2%nat => z | _ => w end in
  (exists k, (k < 4)%nat /\ co k < 0) ->
  exists k q, (k < 4)%nat /\ co k < 0 /\ norm2 (vsub q p) <= norm2 (vsub (bary4 a b c d x' y' z' w') p) /\
    exists x1 y1 z1 w1, 0 <= x1 /\ 0 <= y1 /\ 0 <= z1 /\ 0 <= w1 /\ x1 + y1 + z1 + w1 = 1 /\ q = bary4 a b c d x1 y1 z1 w1 /\ (match k with 0%nat => x1 | 1%nat => y1 | 2%nat => z1 | _ => w1 end) = 0.
Proof.
  intros a b c d x y z w x' y' z' w' p S X0 Y0 Z0 W0 S' co Hex.
  destruct (exit 4 (fun k => match k with 0%nat => x' | 1%nat => y' | 2%nat => z' | _ => w' end) co) as (t & i & Ht & Hi & Pi & Ei & All).
  { intros [|[|[|[|k]]]] _; assumption. }
  { exact Hex. }
  pose proof (All 0%nat ltac:(lia)) as A0. pose proof (All 1%nat ltac:(lia)) as A1. pose proof (All 2%nat ltac:(lia)) as A2. pose proof (All 3%nat ltac:(lia)) as A3. cbn in A0, A1, A2, A3.
  set (x1 := (1 - t) * x' + t * x) in *. set (y1 := (1 - t) * y' + t * y) in *. set (z1 := (1 - t) * z' + t * z) in *. set (w1 := (1 - t) * w' + t * w) in *.
  exists i, (bary4 a b c d x1 y1 z1 w1). split; [exact Hi|split; [exact Pi|split]].
  - replace (vsub (bary4 a b c d x1 y1 z1 w1) p) with (vscale (1 - t) (vsub (bary4 a b c d x' y' z' w') p)).
    + set (m := vsub _ _). assert (H : norm2 (vscale (1 - t) m) = (1 - t) * (1 - t) * norm2 m) by (unfold norm2; rewrite dot_scale_l, dot_scale_r; ring).
      rewrite H. pose proof (norm2_nonneg m). assert ((1 - t) * (1 - t) <= 1) by nra. nra.
    + unfold p, x1, y1, z1, w1, bary4, bary3. clear. destruct a, b, c, d. unfold vsub, vadd, vscale. cbn. f_equal; ring.
  - exists x1, y1, z1, w1. repeat (split; [assumption|]). split; [|split; [reflexivity|]].
    + transitivity ((1 - t) * (x' + y' + z' + w') + t * (x + y + z + w)); [unfold x1, y1, z1, w1; ring|rewrite S, S'; ring].
    + destruct i as [|[|[|[|i]]]]; try lia; exact Ei.
Qed.

Definition outside_d (a b c d p : v3) : Prop := triple (vsub a d) (vsub b d) (vsub c d) * dot (vsub a p) (cross (vsub b c) (vsub a b)) > 0.

Lemma tet_spec : forall a b c d p, triple (vsub a d) (vsub b d) (vsub c d) <> 0 -> ~ outside_d a b c d p -> let r := project_tetra a b c d p in
  (forall k, 0 <= par r k) /\ par r 0 + par r 1 + par r 2 + par r 3 = 1 /\ (forall k, (4 <= k)%nat -> par r k = 0) /\
  sd r = norm2 (vsub (pt4 a b c d r) p) /\ (forall q, tet_pt a b c d q -> sd r <= norm2 (vsub q p)) /\
  (forall k, par r k <> 0 -> enc r k = true) /\ (forall k, (4 <= k)%nat -> enc r k = false).
Proof.
  intros a b c d p Hv No r. unfold r, project_tetra. clear r. cbv zeta. unfold outside_d in No.
  set (vl := triple (vsub a d) (vsub b d) (vsub c d)) in *.
  set (e := fun i => dot (vsub d p) (cross (tri (vsub a d) (vsub b d) (vsub c d) i) (tri (vsub a d) (vsub b d) (vsub c d) (nexti i)))).
  change (fun i => pos (vl * dot (vsub d p) (cross (tri (vsub a d) (vsub b d) (vsub c d) i) (tri (vsub a d) (vsub b d) (vsub c d) (nexti i))))) with (fun i => pos (vl * e i)).
  set (x := - e 1%nat / vl). set (y := - e 2%nat / vl). set (z := - e 0%nat / vl). set (w := 1 - x - y - z).
  assert (TB : p = bary4 a b c d x y z w /\ vl * dot (vsub a p) (cross (vsub b c) (vsub a b)) = - (w * (vl * vl)) /\
    triple (vsub c p) (vsub b p) (vsub d p) / vl = x /\ triple (vsub a p) (vsub c p) (vsub d p) / vl = y /\ triple (vsub b p) (vsub a p) (vsub d p) / vl = z) by exact (tet_bary a b c d p Hv).
  destruct TB as (Ep & Ng & Tx & Ty & Tz). rewrite Tx, Ty, Tz. clear Tx Ty Tz.
  assert (V2 : 0 < vl * vl) by (destruct (Rtotal_order vl 0) as [|[|]]; [nra|contradiction|nra]).
  assert (W0 : 0 <= w). { rewrite Ng in No. apply Rnot_lt_le. intros L. apply No. nra. }
  destruct (Rle_dec (vl * dot (vsub a p) (cross (vsub b c) (vsub a b))) 0) as [_|N]; [|lra].
  replace (pos (Rabs vl)) with true by (symmetry; apply pos_spec, Rabs_pos_lt, Hv). cbn [andb].
  assert (Out : forall i, pos (vl * e i) = true <-> - e i / vl < 0).
  { intros i. rewrite pos_spec. replace (vl * e i) with (- ((- e i / vl) * (vl * vl))) by (field; exact Hv). split; intros; nra. }
  set (co := fun k => match k with 0%nat => x | 1%nat => y | 2%nat => z | _ => w end).
  assert (Co : forall i, (i < 3)%nat -> pos (vl * e i) = true <-> co (other i) < 0).
  { intros i Hi. rewrite Out. destruct i as [|[|[|i]]]; try lia; reflexivity. }
  assert (Fs : forall i, (i < 3)%nat -> let r := project_triangle (tet a b c d i) (tet a b c d (nexti i)) d p in
    (forall k, 0 <= par r k) /\ par r 0 + par r 1 + par r 2 = 1 /\ (forall k, (3 <= k)%nat -> par r k = 0) /\
    sd r = norm2 (vsub (pt3 (tet a b c d i) (tet a b c d (nexti i)) d r) p) /\ (forall q, tri_pt (tet a b c d i) (tet a b c d (nexti i)) d q -> sd r <= norm2 (vsub q p)) /\
    (forall k, par r k <> 0 -> enc r k = true)).
  { intros i Hi. destruct (tri_spec (tet a b c d i) (tet a b c d (nexti i)) d p (tet_faces a b c d Hv i Hi)) as (Q1 & Q2 & Q3 & Q4 & Q5 & Q6 & _). cbv zeta. auto 10. }
  destruct (best_spec (fun i => pos (vl * e i)) (face_cand (tet a b c d) d p)) as [[NoE ->]|(i & Hi & Ci & -> & Mi)].
  { intros i Hi _. unfold face_cand. cbn [sd]. destruct (Fs i Hi) as (_ & _ & _ & -> & _). apply norm2_nonneg. }
  - destruct (Rlt_dec (sd pzero) 0) as [_|N]; [|exfalso; apply N; cbn; lra]. cbn [par sd enc].
    assert (X : forall i, (i < 3)%nat -> 0 <= co (other i)) by (intros i Hi; apply Rnot_lt_le; intros L; apply Co in L; [rewrite (NoE i Hi) in L; discriminate|exact Hi]).
    pose proof (X 0%nat ltac:(lia)) as Z0. pose proof (X 1%nat ltac:(lia)) as X0. pose proof (X 2%nat ltac:(lia)) as Y0. cbn in X0, Y0, Z0.
    assert (Pz : norm2 (vsub p p) = 0) by (destruct p; unfold norm2, dot, vsub; cbn; ring).
    split; [intros [|[|[|[|k]]]]; try assumption; unfold w in W0; lra|split; [lra|split; [intros [|[|[|[|k]]]] Hk; try lia; reflexivity|]]].
    split; [|split; [intros; apply norm2_nonneg|split; [intros [|[|[|[|k]]]] H; try reflexivity; exfalso; apply H; reflexivity|intros [|[|[|[|k]]]] Hk; try lia; reflexivity]]].
    unfold pt4. cbn [par]. replace (1 - (x + y + z)) with w by (unfold w; ring). rewrite <- Ep. symmetry. exact Pz.
  - destruct (Fs i Hi) as (R0 & R1 & R2 & R3 & R4 & R5).
    assert (Hsd : 0 <= sd (face_cand (tet a b c d) d p i)) by (unfold face_cand; cbn [sd]; rewrite R3; apply norm2_nonneg).
    destruct (Rlt_dec (sd (face_cand (tet a b c d) d p i)) 0); [lra|].
    assert (Q : forall q, tet_pt a b c d q -> sd (face_cand (tet a b c d) d p i) <= norm2 (vsub q p)).
    { intros q (x' & y' & z' & w' & X0 & Y0 & Z0 & W1 & S' & ->).
      assert (Sx : x + y + z + w = 1) by (unfold w; ring).
      pose proof (tet_exit a b c d x y z w x' y' z' w' Sx X0 Y0 Z0 W1 S') as TE. cbv zeta in TE. rewrite <- Ep in TE. change (fun k => match k with 0%nat => x | 1%nat => y | 2%nat => z | _ => w end) with co in TE.
      destruct TE as (k & q & Hk & Pk & Near & x1 & y1 & z1 & w1 & X1 & Y1 & Z1 & W2 & S1 & Eq & Ek).
      { exists (other i). split; [destruct i as [|[|[|i]]]; cbn; lia|]. apply (Co i Hi), Ci. }
      eapply Rle_trans; [|exact Near].
      assert (G : forall j, (j < 3)%nat -> co (other j) < 0 -> tri_pt (tet a b c d j) (tet a b c d (nexti j)) d q -> sd (face_cand (tet a b c d) d p i) <= norm2 (vsub q p)).
      { intros j Hj Nj Tj. apply Rle_trans with (sd (face_cand (tet a b c d) d p j)); [apply Mi; [exact Hj|apply (Co j Hj), Nj]|]. unfold face_cand. cbn [sd]. destruct (Fs j Hj) as (_ & _ & _ & _ & F & _). apply F, Tj. }
      destruct k as [|[|[|[|k]]]]; [| | | |lia].
      - apply (G 1%nat); [lia|exact Pk|]. exists y1, z1, w1. cbn in Ek. repeat (split; [lra|]). rewrite Eq, Ek. cbn [tet nexti]. unfold bary4, bary3. clear. destruct a, b, c, d. unfold vadd, vscale. cbn. f_equal; ring.
      - apply (G 2%nat); [lia|exact Pk|]. exists z1, x1, w1. cbn in Ek. repeat (split; [lra|]). rewrite Eq, Ek. cbn [tet nexti]. unfold bary4, bary3. clear. destruct a, b, c, d. unfold vadd, vscale. cbn. f_equal; ring.
      - apply (G 0%nat); [lia|exact Pk|]. exists x1, y1, w1. cbn in Ek. repeat (split; [lra|]). rewrite Eq, Ek. cbn [tet nexti]. unfold bary4, bary3. clear. destruct a, b, c, d. unfold vadd, vscale. cbn. f_equal; ring.
      - exfalso. cbn in Pk. lra. }
    set (r := project_triangle (tet a b c d i) (tet a b c d (nexti i)) d p) in *.
    split. { intros k. unfold face_cand. cbn [par]. fold r. destruct (Nat.eqb k i); [apply R0|]. destruct (Nat.eqb k (nexti i)); [apply R0|]. destruct (Nat.eqb k (nexti (nexti i))); [lra|]. destruct (Nat.eqb k 3); [apply R0|lra]. }
    split. { unfold face_cand. cbn [par]. fold r. clearbody r. destruct i as [|[|[|i]]]; try lia; cbn [nexti Nat.eqb]; lra. }
    split. { intros k Hk. destruct i as [|[|[|i]]]; try lia; destruct k as [|[|[|[|k]]]]; try lia; reflexivity. }
    split. { unfold pt4, face_cand. cbn [sd par]. fold r. rewrite R3. f_equal. f_equal. clearbody r. unfold pt3.
      destruct i as [|[|[|i]]]; try lia; cbn [nexti Nat.eqb tet] in *; generalize (par r 0) (par r 1) (par r 2); intros u0 u1 u2; clear; unfold bary4, bary3; destruct a, b, c, d; unfold vadd, vscale; cbn; f_equal; ring. }
    split; [exact Q|]. split.
    + intros k. unfold face_cand. cbn [par enc]. fold r. destruct (Nat.eqb k i); [apply R5|]. destruct (Nat.eqb k (nexti i)); [apply R5|]. destruct (Nat.eqb k (nexti (nexti i))); [intros H; exfalso; apply H; reflexivity|]. destruct (Nat.eqb k 3); [apply R5|intros H; exfalso; apply H; reflexivity].
    + intros k Hk. destruct i as [|[|[|i]]]; try lia; destruct k as [|[|[|[|k]]]]; try lia; reflexivity.
Qed.

(** the …Origin variants are the variants above with p at the origin *)
Lemma vsub_zero_r : forall v, vsub v vzero = v. Proof. intros []. unfold vsub, vzero. cbn. f_equal; ring. Qed.
Lemma norm2_vsub0 : forall v, norm2 (vsub vzero v) = norm2 v. Proof. intros []. unfold norm2, dot, vsub, vzero. cbn. ring. Qed.
Lemma dot_vsub0 : forall v w, dot (vsub vzero v) w = - dot v w. Proof. intros [] []. unfold dot, vsub, vzero. cbn. ring. Qed.
Lemma line_origin : forall a b, project_line_origin a b = project_line a b vzero.
Proof. intros a b. unfold project_line_origin, project_line. cbv zeta. rewrite !dot_vsub0, !norm2_vsub0, !vsub_zero_r. reflexivity. Qed.
Lemma best_ext : forall c c' f g, (forall i, c i = c' i) -> (forall i, f i = g i) -> best c f = best c' g.
Proof. intros c c' f g Hc Hf. unfold best. cbn [fold_left]. rewrite !Hc, !Hf. reflexivity. Qed.
Lemma triangle_origin : forall a b c, project_triangle_origin a b c = project_triangle a b c vzero.
Proof.
  intros a b c. unfold project_triangle_origin, project_triangle. cbv zeta. rewrite !vsub_zero_r.
  rewrite (best_ext _ (fun i => pos (dot (vsub (tri a b c i) vzero) (cross (tri (vsub a b) (vsub b c) (vsub c a) i) (cross (vsub a b) (vsub b c))))) (edge_cand_origin (tri a b c)) (edge_cand (tri a b c) vzero)); [reflexivity| |].
  - intros i. rewrite vsub_zero_r. reflexivity.
  - intros i. unfold edge_cand_origin, edge_cand. cbv zeta. rewrite line_origin. reflexivity.
Qed.
Lemma tetra_origin : forall a b c d, project_tetra_origin a b c d = project_tetra a b c d vzero.
Proof.
  intros a b c d. unfold project_tetra_origin, project_tetra. cbv zeta. rewrite !vsub_zero_r, triangle_origin.
  rewrite (best_ext _ (fun i => pos (triple (vsub a d) (vsub b d) (vsub c d) * dot d (cross (tri (vsub a d) (vsub b d) (vsub c d) i) (tri (vsub a d) (vsub b d) (vsub c d) (nexti i))))) (face_cand_origin (tet a b c d) d) (face_cand (tet a b c d) d vzero)); [reflexivity|reflexivity|].
  intros i. unfold face_cand_origin, face_cand. cbv zeta. rewrite triangle_origin. reflexivity.
Qed.
