(** SaPCollisionManager (include/fcl/broadphase/broadphase_SaP-inl.h, "SAP" below, and
    broadphase_SaP.h).  Registration, setup, clear and the collision queries work on the endpoint
    lists as mathematical lists; update_ is modelled on the pointers themselves. *)
From Coq Require Import ZArith List Bool Lia Permutation Arith Sorted.
From Verif Require Import AabbZ Broadphase QueryComb SortSearch SSaP IntervalManager SpatialHash.
Import ListNotations.
Local Open Scope Z_scope.

(** An EndPoint (SaP.h:181-205): the object and whether it is the upper end.  An object is
    registered at most once, so this identifies the EndPoint. *)
Notation pt := (obj * bool)%type.
Definition pt_eqb (a b : pt) : bool := Nat.eqb (fst a) (fst b) && Bool.eqb (snd a) (snd b).
(** getVal, SAP:885-919: the value lives in the cached box. *)
Definition pval (c : obj -> aabb) (i : nat) (e : pt) : Z := if snd e then high c i (fst e) else low c i (fst e).
(** SaPPair, SAP:921-936. *)
Definition mkpair (a b : obj) : obj * obj := if Nat.ltb a b then (a, b) else (b, a).

(** elist[3] and velist[3] (equal as sequences after updateVelist, SAP:465-480, which ends every
    operation here), AABB_arr, overlap_pairs, the cached boxes, optimal_axis. *)
Record sap := Sap {
  p_list : nat -> list pt;
  p_arr : list obj;
  p_pairs : list (obj * obj);
  p_cached : obj -> aabb;
  p_axis : nat
}.
(** SAP:98-107. *)
Definition p_init (box0 : obj -> aabb) : sap := Sap (fun _ => []) [] [] box0 0%nat.

Definition p_size (s : sap) : nat := length (p_arr s).                    (* SAP:879-883 *)
(** empty() returns AABB_arr.size(), SAP:872-876. *)
Definition p_is_empty (s : sap) : bool := negb (Nat.eqb (length (p_arr s)) 0).
Definition p_get (s : sap) : list obj := p_arr s.                         (* SAP:546-555 *)
(** SAP:520-543; optimal_axis is kept. *)
Definition p_clear (s : sap) : sap := Sap (fun _ => []) [] [] (p_cached s) (p_axis s).

Section Register.
  Variable c : obj -> aabb.   (** the cached boxes, the new object's included *)
  Variable i : nat.           (** the coordinate *)
  (** Insert [e] from [current] = head of the list on: [while(val < v && next) current = next],
      then before [current] if its value is at least [v], else after it.  SAP:229-252, 278-294. *)
  Fixpoint p_insert (v : Z) (e : pt) (l : list pt) : list pt :=
    match l with
    | [] => [e]
    | [a] => if v <=? pval c i a then [e; a] else [a; e]
    | a :: r => if pval c i a <? v then a :: p_insert v e r else e :: a :: r
    end.
  (** The endpoints for which the body of that loop runs. *)
  Fixpoint p_walked (v : Z) (l : list pt) : list pt :=
    match l with
    | [] | [_] => []
    | a :: r => if pval c i a <? v then a :: p_walked v r else []
    end.
  (** Insert the upper endpoint starting from the lower one, [current = curr->lo], SAP:256-294. *)
  Fixpoint p_insert_hi (o : obj) (l : list pt) : list pt :=
    match l with
    | [] => []
    | a :: r => if pt_eqb a (o, false) then p_insert (high c i o) (o, true) l else a :: p_insert_hi o r
    end.
  Fixpoint p_walked_hi (o : obj) (l : list pt) : list pt :=
    match l with
    | [] => []
    | a :: r => if pt_eqb a (o, false) then p_walked (high c i o) l else p_walked_hi o r
    end.
  Definition p_insert_lo (o : obj) (l : list pt) : list pt := p_insert (low c i o) (o, false) l.
End Register.

Section Ops.
  Variable srt : (pt -> Z) -> list pt -> list pt.   (** std::sort with the comparison of a key *)
  Variable box : obj -> aabb.                       (** the objects' current getAABB() *)

  (** registerObject, SAP:205-302.  The pairs are collected on coordinate 0, from the endpoints
      passed on the way to the upper end, without looking for repetitions. *)
  Definition p_register (o : obj) (s : sap) : sap :=
    let c := set_box (p_cached s) o (box o) in
    let lo i := p_insert_lo c i o (p_list s i) in
    let new := map (fun e => mkpair (fst e) o)
      (filter (fun e => negb (pt_eqb e (o, false)) && overlap (c (fst e)) (c o)) (p_walked_hi c 0 o (lo 0%nat))) in
    Sap (fun i => p_insert_hi c i o (lo i)) (p_arr s ++ [o]) (p_pairs s ++ new) c (p_axis s).

  (** The inner loop of the bulk sweep, SAP:178-194: up to the other endpoint of [a]. *)
  Fixpoint p_inner (c : obj -> aabb) (a : obj) (l : list pt) : list (obj * obj) :=
    match l with
    | [] => []
    | e :: r =>
        if Nat.eqb (fst e) a then []
        else (if negb (snd e) && overlap (c (fst e)) (c a) then [mkpair (fst e) a] else []) ++ p_inner c a r
    end.
  (** The outer loop, SAP:170-197.  [prev] is the object of the last [pos]; the next one is
      the first endpoint that is a lower end or belongs to the same object ([None] at the start). *)
  Fixpoint p_sweep (c : obj -> aabb) (prev : option obj) (l : list pt) : list (obj * obj) :=
    match l with
    | [] => []
    | e :: r =>
        if match prev with None => true | Some a => Nat.eqb (fst e) a || negb (snd e) end
        then p_inner c (fst e) r ++ p_sweep c (Some (fst e)) r
        else p_sweep c prev r
    end.
  Definition widest (scale : nat -> Z) : nat :=
    let axis := if scale 0%nat <? scale 1%nat then 1%nat else 0%nat in
    if scale axis <? scale 2%nat then 2%nat else axis.
  Definition set_boxes (c : obj -> aabb) (os : list obj) : obj -> aabb :=
    fun x => if mem x os then box x else c x.
  (** The endpoint vector, sorted in place for the three coordinates in turn, SAP:148-168. *)
  Definition p_bulk_list (c : obj -> aabb) (os : list obj) (i : nat) : list pt :=
    let l0 := srt (pval c 0) (tags os) in
    let l1 := srt (pval c 1) l0 in
    let l2 := srt (pval c 2) l1 in
    match i with 0%nat => l0 | 1%nat => l1 | _ => l2 end.
  (** The axis of the sweep, SAP:165-171. *)
  Definition p_bulk_axis (c : obj -> aabb) (os : list obj) : nat :=
    widest (fun i => high c i (fst (last (p_bulk_list c os i) (0%nat, false))) -
                     low c i (fst (hd (0%nat, false) (p_bulk_list c os i)))).
  (** The bulk branch of registerObjects, SAP:123-199; the manager is empty. *)
  Definition p_bulk (os : list obj) (s : sap) : sap :=
    let c := set_boxes (p_cached s) os in
    Sap (p_bulk_list c os) os (p_sweep c None (p_bulk_list c os (p_bulk_axis c os))) c (p_axis s).
  (** registerObjects, SAP:116-201. *)
  Definition p_registers (os : list obj) (s : sap) : sap :=
    match os with
    | [] => s
    | _ => if Nat.eqb (p_size s) 0 then p_bulk os s else fold_left (fun s o => p_register o s) os s
    end.
  (** unregisterObject, SAP:51-95: the iterator is used after AABB_arr.erase(it) ([it == end()], then
      [*it]); if the object is absent, erase(end()).  Undefined behaviour in every case. *)
  Definition p_unregister (o : obj) (s : sap) : option sap := None.

  (** setup, SAP:305-318. *)
  Definition p_setup (s : sap) : sap :=
    if Nat.eqb (p_size s) 0 then s
    else
      let v i f := pval (p_cached s) i (f (p_list s i)) in
      let scale i := v i (fun l => last l (0%nat, false)) - v i (hd (0%nat, false)) in
      Sap (p_list s) (p_arr s) (p_pairs s) (p_cached s) (widest scale).

  (** The endpoints before [upper_bound], and of those the lower ends of objects whose upper end is
      not below the query: the loop of collide_, SAP:558-600, and of distance_ on box [q]. *)
  Definition p_prefix (s : sap) (q : aabb) : list pt :=
    let i := p_axis s in
    firstn (upper_bound (map (pval (p_cached s) i) (p_list s i)) (coord i (bmax q))) (p_list s i).
  Definition p_candidates (s : sap) (q : aabb) : list obj :=
    let i := p_axis s in
    map fst (filter (fun e => negb (snd e) && (coord i (bmin q) <=? high (p_cached s) i (fst e))) (p_prefix s q)).
  Definition p_collide_ (s : sap) (o : obj) : query :=
    ceach (fun a => cwhen (negb (Nat.eqb a o) && overlap (p_cached s a) (box o)) (ccall o a)) (p_candidates s (box o)).
  Definition p_collide_obj (s : sap) (o : obj) : query :=   (* SAP:641-647 *)
    if Nat.eqb (p_size s) 0 then cskip else p_collide_ s o.
  Definition p_collide_self (s : sap) : query :=            (* SAP:769-782 *)
    if Nat.eqb (p_size s) 0 then cskip else ceach (fun p => ccall (fst p) (snd p)) (p_pairs s).
  Definition p_collide_other (s other : sap) : query :=     (* SAP:806-835, [this != other] *)
    if Nat.eqb (p_size s) 0 || Nat.eqb (p_size other) 0 then cskip
    else if Nat.ltb (p_size s) (p_size other) then ceach (p_collide_ other) (p_arr s)
    else ceach (p_collide_ s) (p_arr other).
End Ops.

(** ** update_ on pointers, SAP:321-462 *)

(** The prev/next pointers and heads of the three lists, the cached boxes and the pairs. *)
Record heap := Heap {
  nx : nat -> pt -> option pt;
  pv : nat -> pt -> option pt;
  hd_ : nat -> option pt;
  hc : obj -> aabb;
  hp : list (obj * obj)
}.
Definition upd (f : nat -> pt -> option pt) (i : nat) (e : pt) (x : option pt) : nat -> pt -> option pt :=
  fun j a => if Nat.eqb j i && pt_eqb a e then x else f j a.
Definition set_nx (i : nat) (e : pt) (x : option pt) (h : heap) := Heap (upd (nx h) i e x) (pv h) (hd_ h) (hc h) (hp h).
Definition set_pv (i : nat) (e : pt) (x : option pt) (h : heap) := Heap (nx h) (upd (pv h) i e x) (hd_ h) (hc h) (hp h).
Definition set_hd (i : nat) (x : option pt) (h : heap) :=
  Heap (nx h) (pv h) (fun j => if Nat.eqb j i then x else hd_ h j) (hc h) (hp h).
Definition vset (i : nat) (x : Z) (v : vec) : vec :=
  match i with 0%nat => V x (vy v) (vz v) | 1%nat => V (vx v) x (vz v) | _ => V (vx v) (vy v) x end.
(** getVal(coord) = x through the reference. *)
Definition set_val (i : nat) (e : pt) (x : Z) (h : heap) :=
  let b := hc h (fst e) in
  Heap (nx h) (pv h) (hd_ h)
       (set_box (hc h) (fst e) (if snd e then Box (bmin b) (vset i x (bmax b)) else Box (vset i x (bmin b)) (bmax b))) (hp h).
Definition pair_eqb (p q : obj * obj) : bool := Nat.eqb (fst p) (fst q) && Nat.eqb (snd p) (snd q).
(** SAP:602-619 and 621-637. *)
Definition add_pair (p : obj * obj) (h : heap) :=
  Heap (nx h) (pv h) (hd_ h) (hc h) (if existsb (pair_eqb p) (hp h) then hp h else hp h ++ [p]).
Fixpoint drop_first (p : obj * obj) (l : list (obj * obj)) : list (obj * obj) :=
  match l with [] => [] | q :: r => if pair_eqb q p then r else q :: drop_first p r end.
Definition remove_pair (p : obj * obj) (h : heap) := Heap (nx h) (pv h) (hd_ h) (hc h) (drop_first p (hp h)).
(** e->prev[i]->next[i] = x and e->next[i]->prev[i] = x: undefined when the pointer is null. *)
Definition set_prev_next (i : nat) (e : pt) (x : option pt) (h : heap) : option heap :=
  match pv h i e with Some p => Some (set_nx i p x h) | None => None end.
Definition set_next_prev (i : nat) (e : pt) (x : option pt) (h : heap) : option heap :=
  match nx h i e with Some n => Some (set_pv i n x h) | None => None end.

Notation "'do' h <- a ; b" := (match a with Some h => b | None => None end) (at level 60, right associativity, h name).

Section Update.
  Variable nb : aabb.   (** the object's new AABB, also dummy.cached *)
  Variable o : obj.
  Variable i : nat.     (** coord *)
  Let lo : pt := (o, false).
  Let hi : pt := (o, true).
  Let new_min := coord i (bmin nb).
  Let new_max := coord i (bmax nb).
  Let val (h : heap) (e : pt) : Z := pval (hc h) i e.

  (** The four walks; [fuel] bounds the length, [None] when it runs out.  SAP:352-359: *)
  Fixpoint walk_lo_down (fuel : nat) (temp : option pt) (h : heap) : option (option pt * heap) :=
    match fuel, temp with
    | O, _ => None
    | _, None => Some (None, h)
    | S f, Some e =>
        if new_min <? val h e then
          walk_lo_down f (pv h i e)
            (if snd e && overlap (hc h (fst e)) nb then add_pair (mkpair (fst e) o) h else h)
        else Some (Some e, h)
    end.
  (** SAP:385-391; a null [temp] is dereferenced. *)
  Fixpoint walk_hi_down (fuel : nat) (temp : option pt) (h : heap) : option (pt * heap) :=
    match fuel, temp with
    | O, _ | _, None => None
    | S f, Some e =>
        if new_max <? val h e then
          walk_hi_down f (pv h i e)
            (if negb (snd e) && overlap (hc h (fst e)) (hc h o) then remove_pair (mkpair (fst e) o) h else h)
        else Some (e, h)
    end.
  (** SAP:409-416. *)
  Fixpoint walk_hi_up (fuel : nat) (e : pt) (h : heap) : option (pt * heap) :=
    match fuel with
    | O => None
    | S f =>
        match nx h i e with
        | Some n =>
            if val h e <? new_max then
              walk_hi_up f n (if negb (snd e) && overlap (hc h (fst e)) nb then add_pair (mkpair (fst e) o) h else h)
            else Some (e, h)
        | None => Some (e, h)
        end
    end.
  (** SAP:441-446. *)
  Fixpoint walk_lo_up (fuel : nat) (temp : option pt) (h : heap) : option (pt * heap) :=
    match fuel, temp with
    | O, _ | _, None => None
    | S f, Some e =>
        if val h e <? new_min then
          walk_lo_up f (nx h i e)
            (if snd e && overlap (hc h (fst e)) (hc h o) then remove_pair (mkpair (fst e) o) h else h)
        else Some (e, h)
    end.

  (** SAP:348-380. *)
  Definition lo_down (fuel : nat) (h : heap) : option heap :=
    match pv h i lo with
    | None => Some (set_val i lo new_min h)
    | Some _ =>
        match walk_lo_down fuel (Some lo) h with
        | None => None
        | Some (temp, h) =>
            do h <- set_prev_next i lo (nx h i lo) h;
            do h <- set_next_prev i lo (pv h i lo) h;
            do h <- match temp with
                    | None =>
                        let h := set_pv i lo None h in
                        let h := set_nx i lo (hd_ h i) h in
                        match hd_ h i with
                        | Some e => Some (set_hd i (Some lo) (set_pv i e (Some lo) h))
                        | None => None
                        end
                    | Some t =>
                        let h := set_pv i lo (Some t) h in
                        let h := set_nx i lo (nx h i t) h in
                        do h <- set_next_prev i t (Some lo) h;
                        Some (set_nx i t (Some lo) h)
                    end;
            Some (set_val i lo new_min h)
        end
    end.
  (** SAP:383-402. *)
  Definition hi_down (fuel : nat) (h : heap) : option heap :=
    match walk_hi_down fuel (Some hi) h with
    | None => None
    | Some (t, h) =>
        do h <- set_prev_next i hi (nx h i hi) h;
        let h := match nx h i hi with Some n => set_pv i n (pv h i hi) h | None => h end in
        let h := set_pv i hi (Some t) h in
        let h := set_nx i hi (nx h i t) h in
        let h := match nx h i t with Some n => set_pv i n (Some hi) h | None => h end in
        let h := set_nx i t (Some hi) h in
        Some (set_val i hi new_max h)
    end.
  (** SAP:406-436. *)
  Definition hi_up (fuel : nat) (h : heap) : option heap :=
    match nx h i hi with
    | None => Some (set_val i hi new_max h)
    | Some _ =>
        match walk_hi_up fuel hi h with
        | None => None
        | Some (t, h) =>
            do h <- set_prev_next i hi (nx h i hi) h;
            do h <- set_next_prev i hi (pv h i hi) h;
            do h <- (if val h t <? new_max then
                       Some (set_nx i t (Some hi) (set_nx i hi None (set_pv i hi (Some t) h)))
                     else
                       let h := set_pv i hi (pv h i t) h in
                       let h := set_nx i hi (Some t) h in
                       do h <- set_prev_next i t (Some hi) h;
                       Some (set_pv i t (Some hi) h));
            Some (set_val i hi new_max h)
        end
    end.
  (** SAP:439-459. *)
  Definition lo_up (fuel : nat) (h : heap) : option heap :=
    match walk_lo_up fuel (Some lo) h with
    | None => None
    | Some (t, h) =>
        let h := match pv h i lo with Some p => set_nx i p (nx h i lo) h | None => set_hd i (nx h i lo) h end in
        do h <- set_next_prev i lo (pv h i lo) h;
        let h := set_pv i lo (pv h i t) h in
        let h := set_nx i lo (Some t) h in
        let h := match pv h i t with Some p => set_nx i p (Some lo) h | None => set_hd i (Some lo) h end in
        let h := set_pv i t (Some lo) h in
        Some (set_val i lo new_min h)
    end.
  (** The body of the loop over coord, SAP:335-461. *)
  Definition update_axis (fuel : nat) (h : heap) : option heap :=
    if new_min <? val h lo then do h <- lo_down fuel h; hi_down fuel h
    else if val h lo <? new_min then do h <- hi_up fuel h; lo_up fuel h
    else Some h.
End Update.
(** update_, SAP:321-462.  [equal] compares with isApprox. *)
Definition same_box (a b : aabb) : bool := is_approx (bmin a) (bmin b) && is_approx (bmax a) (bmax b).
Definition heap_update (fuel : nat) (nb : aabb) (o : obj) (h : heap) : option heap :=
  if same_box (hc h o) nb then Some h
  else
    do h <- update_axis nb o 0 fuel h;
    do h <- update_axis nb o 1 fuel h;
    update_axis nb o 2 fuel h.

(** The pointers of the endpoint lists of a manager. *)
Fixpoint after (e : pt) (l : list pt) : option pt :=
  match l with
  | a :: r => if pt_eqb a e then hd_error r else after e r
  | [] => None
  end.
Definition heap_of (s : sap) : heap :=
  Heap (fun i e => after e (p_list s i)) (fun i e => after e (rev (p_list s i))) (fun i => hd_error (p_list s i))
       (p_cached s) (p_pairs s).
(** [n] steps along next from [e] (the loop of updateVelist, SAP:471-478). *)
Fixpoint follow (n : nat) (h : heap) (i : nat) (e : option pt) : option pt :=
  match n, e with
  | O, _ => e
  | S m, Some a => follow m h i (nx h i a)
  | S _, None => None
  end.

(** ** Histories *)
Inductive pop :=
| PMove (o : obj) (b : aabb)
| PReg (o : obj) | PRegs (os : list obj) | PUnreg (o : obj) | PSetup | PClear.
Definition p_step (srt : (pt -> Z) -> list pt -> list pt) (op : pop) (x : sap * (obj -> aabb)) : option (sap * (obj -> aabb)) :=
  let (s, box) := x in
  match op with
  | PMove o b => Some (s, set_box box o b)
  | PReg o => Some (p_register box o s, box)
  | PRegs os => Some (p_registers srt box os s, box)
  | PUnreg o => match p_unregister o s with Some s' => Some (s', box) | None => None end
  | PSetup => Some (p_setup s, box)
  | PClear => Some (p_clear s, box)
  end.
Fixpoint p_run (srt : (pt -> Z) -> list pt -> list pt) (ops : list pop) (x : sap * (obj -> aabb)) : option (sap * (obj -> aabb)) :=
  match ops with
  | [] => Some x
  | op :: r => match p_step srt op x with Some y => p_run srt r y | None => None end
  end.

(** Specification: the registered objects, the boxes they had when registered, the current boxes. *)
Record pspec := PS { ps_regs : list obj; ps_known : obj -> aabb; ps_box : obj -> aabb }.
Definition ps_step (x : pspec) (op : pop) : pspec :=
  let '(PS regs known box) := x in
  match op with
  | PMove o b => PS regs known (set_box box o b)
  | PReg o => PS (regs ++ [o]) (set_box known o (box o)) box
  | PRegs os => PS (regs ++ os) (set_boxes box known os) box
  | PUnreg o => PS (take_out o regs) known box
  | PSetup => x
  | PClear => PS [] known box
  end.
Definition ps_init (box0 : obj -> aabb) : pspec := PS [] box0 box0.
Definition p_spec (ops : list pop) (box0 : obj -> aabb) : pspec := fold_left ps_step ops (ps_init box0).
(** Registered objects are new and distinct; boxes are not inverted; nothing is unregistered. *)
Definition p_legal (x : pspec) (op : pop) : Prop :=
  match op with
  | PMove o b => nonempty b
  | PReg o => ~ In o (ps_regs x)
  | PRegs os => NoDup os /\ forall o, In o os -> ~ In o (ps_regs x)
  | PUnreg _ => False
  | PSetup | PClear => True
  end.
Fixpoint p_legal_from (x : pspec) (ops : list pop) : Prop :=
  match ops with [] => True | op :: r => p_legal x op /\ p_legal_from (ps_step x op) r end.
Definition p_legal_history (ops : list pop) (box0 : obj -> aabb) : Prop :=
  (forall o, nonempty (box0 o)) /\ p_legal_from (ps_init box0) ops.
(** No registered object moved since it was registered. *)
Definition p_current (x : pspec) : Prop := forall o, In o (ps_regs x) -> ps_known x o = ps_box x o.

(** ** Lemmas *)
Lemma pt_eqb_spec a b : reflect (a = b) (pt_eqb a b).
Proof.
  destruct a as [a x], b as [b y]. unfold pt_eqb. cbn [fst snd].
  destruct (Nat.eqb_spec a b) as [->|N]; [|constructor; congruence].
  destruct (Bool.eqb_spec x y) as [->|N]; constructor; congruence.
Qed.
Lemma ss_app {A} (key : A -> Z) l1 l2 : StronglySorted (by_key key) (l1 ++ l2) <->
  StronglySorted (by_key key) l1 /\ StronglySorted (by_key key) l2 /\ (forall a b, In a l1 -> In b l2 -> key a <= key b).
Proof.
  induction l1 as [|x l1 IH]; cbn [app].
  - split; [|tauto]. intros H. split; [constructor|]. split; auto. intros a b [].
  - split.
    + intros H. inversion_clear H as [|? ? H1 H2]. apply IH in H1 as (A1 & A2 & A3). rewrite Forall_forall in H2.
      split; [|split; auto].
      * constructor; auto. apply Forall_forall. intros y Hy. apply H2, in_or_app. auto.
      * intros a b [<-|Ha] Hb; [apply H2, in_or_app; auto|auto].
    + intros (H1 & H2 & H3). inversion_clear H1 as [|? ? H4 H5]. constructor.
      * apply IH. split; auto. split; auto. intros a b Ha Hb. apply H3; cbn; auto.
      * rewrite Forall_forall in *. intros y Hy. apply in_app_iff in Hy as [Hy|Hy]; auto. apply H3; cbn; auto.
Qed.
Lemma ss_cons {A} (key : A -> Z) a l : StronglySorted (by_key key) (a :: l) <->
  StronglySorted (by_key key) l /\ (forall b, In b l -> key a <= key b).
Proof.
  split.
  - intros H. inversion_clear H as [|? ? H1 H2]. rewrite Forall_forall in H2. auto.
  - intros [H1 H2]. constructor; auto. apply Forall_forall. auto.
Qed.

Section RegLemmas.
  Variable c : obj -> aabb.
  Variable i : nat.
  Notation val := (pval c i).
  Notation sorted := (StronglySorted (by_key val)).

  Lemma p_insert_split v e (l : list pt) : exists l1 l2 : list pt, l = l1 ++ l2 /\ p_insert c i v e l = l1 ++ e :: l2 /\
    (forall a, In a l1 -> val a < v) /\ match l2 with [] => True | a :: _ => v <= val a end.
  Proof.
    induction l as [|a l IH].
    - exists [], []. cbn. tauto.
    - destruct l as [|b l].
      + cbn [p_insert]. destruct (Z.leb_spec v (val a)) as [H|H].
        * exists [], [a]. cbn. tauto.
        * exists [a], []. cbn. split; auto. split; auto. split; auto. intros x [<-|[]]; auto.
      + change (p_insert c i v e (a :: b :: l)) with
          (if val a <? v then a :: p_insert c i v e (b :: l) else e :: a :: b :: l).
        destruct (Z.ltb_spec (val a) v) as [H|H].
        * destruct IH as (l1 & l2 & E1 & E2 & H1 & H2). exists (a :: l1), l2. rewrite E2, E1. cbn.
          split; auto. split; auto. split; auto. intros x [<-|Hx]; auto.
        * exists [], (a :: b :: l). cbn. split; auto. split; auto. split; [tauto|auto].
  Qed.
  Lemma p_insert_perm v e l : Permutation (p_insert c i v e l) (e :: l).
  Proof.
    destruct (p_insert_split v e l) as (l1 & l2 & -> & -> & _). symmetry. apply Permutation_middle.
  Qed.
  Lemma p_insert_sorted v e l : val e = v -> sorted l -> sorted (p_insert c i v e l).
  Proof.
    intros Ev HS. destruct (p_insert_split v e l) as (l1 & l2 & -> & -> & H1 & H2). apply ss_app in HS as (S1 & S2 & S3).
    apply ss_app. split; auto. split.
    - apply ss_cons. split; auto. intros b Hb. rewrite Ev. destruct l2 as [|a l2]; [destruct Hb|]. apply ss_cons in S2 as [S2 S4].
      destruct Hb as [<-|Hb]; auto. specialize (S4 b Hb). lia.
    - intros a b Ha [<-|Hb]; [specialize (H1 a Ha); lia|auto].
  Qed.
  Lemma p_insert_hi_eq o (l1 l2 : list pt) : ~ In (o, false) l1 ->
    p_insert_hi c i o (l1 ++ (o, false) :: l2) = l1 ++ p_insert c i (high c i o) (o, true) ((o, false) :: l2).
  Proof.
    induction l1 as [|a l1 IH]; intros N; cbn [app p_insert_hi].
    - destruct (pt_eqb_spec (o, false) (o, false)); [auto|congruence].
    - cbn in N. destruct (pt_eqb_spec a (o, false)); [tauto|]. rewrite IH; auto.
  Qed.
  Lemma p_walked_hi_eq o (l1 l2 : list pt) : ~ In (o, false) l1 ->
    p_walked_hi c i o (l1 ++ (o, false) :: l2) = p_walked c i (high c i o) ((o, false) :: l2).
  Proof.
    induction l1 as [|a l1 IH]; intros N; cbn [app p_walked_hi].
    - destruct (pt_eqb_spec (o, false) (o, false)); [auto|congruence].
    - cbn in N. destruct (pt_eqb_spec a (o, false)); [tauto|]. rewrite IH; auto.
  Qed.
  Lemma p_insert_both o (l : list pt) : ~ In (o, false) l -> low c i o <= high c i o -> sorted l ->
    let r := p_insert_hi c i o (p_insert_lo c i o l) in
    Permutation r ((o, false) :: (o, true) :: l) /\ sorted r.
  Proof.
    intros N Hc HS. cbv zeta. unfold p_insert_lo. pose proof (p_insert_sorted (low c i o) (o, false) l eq_refl HS) as HS'.
    destruct (p_insert_split (low c i o) (o, false) l) as (l1 & l2 & E & E2 & H1 & _). rewrite E2 in HS' |- *.
    assert (N1 : ~ In (o, false) l1) by (intros H; apply N; rewrite E; apply in_or_app; auto).
    rewrite (p_insert_hi_eq o l1 l2 N1). apply ss_app in HS' as (S1 & S2 & S3). split.
    - rewrite p_insert_perm. subst l. rewrite (Permutation_app_comm l1 l2). rewrite (Permutation_app_comm l1). cbn [app].
      apply perm_swap.
    - apply ss_app. split; auto. split; [apply p_insert_sorted; auto|].
      intros a b Ha Hb. rewrite p_insert_perm in Hb. destruct Hb as [<-|Hb]; auto.
      specialize (S3 a (o, false) Ha (or_introl eq_refl)).
      change (val (o, false)) with (low c i o) in S3. change (val (o, true)) with (high c i o). lia.
  Qed.
  Lemma p_walked_prefix v l : exists l2, l = p_walked c i v l ++ l2.
  Proof.
    induction l as [|a l IH]; [exists []; auto|]. destruct l as [|b l]; [exists [a]; auto|].
    change (p_walked c i v (a :: b :: l)) with (if val a <? v then a :: p_walked c i v (b :: l) else []).
    destruct (val a <? v); [|exists (a :: b :: l); auto]. destruct IH as (l2 & E). exists l2. cbn. f_equal. exact E.
  Qed.
  Lemma p_walked_In v l1 e l2 : l2 <> [] -> (forall a, In a (l1 ++ [e]) -> val a < v) ->
    In e (p_walked c i v (l1 ++ e :: l2)).
  Proof.
    intros N. induction l1 as [|a l1 IH]; intros H; cbn [app].
    - destruct l2 as [|b l2]; [tauto|]. cbn [p_walked]. rewrite (proj2 (Z.ltb_lt _ _)) by (apply H; cbn; auto). left; auto.
    - assert (Ha : (val a <? v) = true) by (apply Z.ltb_lt, H; cbn; auto).
      assert (IH' := IH (fun x Hx => H x (or_intror Hx))).
      destruct (l1 ++ e :: l2) as [|b r] eqn:Eb; [destruct l1; discriminate|]. cbn [p_walked]. rewrite Ha. right; auto.
  Qed.
  Lemma p_walked_lt v l e : In e (p_walked c i v l) -> val e < v.
  Proof.
    induction l as [|a l IH]; [intros []|]. destruct l as [|b l]; [intros []|].
    change (p_walked c i v (a :: b :: l)) with (if val a <? v then a :: p_walked c i v (b :: l) else []).
    destruct (Z.ltb_spec (val a) v); intros Hi; [|destruct Hi]. destruct Hi as [<-|Hi]; auto.
  Qed.
End RegLemmas.

(** The endpoints of an object are in the lists. *)
Lemma tags_snoc regs o : Permutation (tags (regs ++ [o])) ((o, false) :: (o, true) :: tags regs).
Proof.
  unfold tags. rewrite flat_map_app. cbn [flat_map app].
  etransitivity; [apply Permutation_app_comm|]. reflexivity.
Qed.

Definition psorts (srt : (pt -> Z) -> list pt -> list pt) : Prop := forall key l,
  Permutation (srt key l) l /\ StronglySorted (by_key key) (srt key l).

(** What holds of the lists in every reachable state. *)
Definition lists_ok (s : sap) (regs : list obj) : Prop :=
  forall i, (i < 3)%nat -> Permutation (p_list s i) (tags regs) /\
    StronglySorted (by_key (pval (p_cached s) i)) (p_list s i).
Definition pairs_sound (s : sap) (regs : list obj) : Prop :=
  forall a b, In (a, b) (p_pairs s) -> (a < b)%nat /\ In a regs /\ In b regs /\ overlap (p_cached s a) (p_cached s b) = true.
Definition pinv (s : sap) (x : pspec) : Prop :=
  p_arr s = ps_regs x /\ NoDup (ps_regs x) /\ (forall o, nonempty (ps_box x o)) /\ (forall o, nonempty (ps_known x o)) /\
  (forall o, p_cached s o = ps_known x o) /\ lists_ok s (ps_regs x) /\ pairs_sound s (ps_regs x) /\ (p_axis s < 3)%nat.

Lemma pval_ext c c' i e : c (fst e) = c' (fst e) -> pval c i e = pval c' i e.
Proof. intros H. unfold pval, low, high. rewrite H. reflexivity. Qed.
Lemma mkpair_lt a b : a <> b -> (fst (mkpair a b) < snd (mkpair a b))%nat.
Proof. unfold mkpair. intros N. destruct (Nat.ltb_spec a b); cbn; lia. Qed.
Lemma mkpair_cases a b : mkpair a b = (a, b) \/ mkpair a b = (b, a).
Proof. unfold mkpair. destruct (Nat.ltb a b); auto. Qed.

Lemma nonempty_low c i o : (i < 3)%nat -> nonempty (c o) -> low c i o <= high c i o.
Proof. intros Hi H. unfold low, high. rewrite nonempty_coord in H. auto. Qed.

Lemma p_register_lists box s o regs : (forall x, nonempty (box x)) -> ~ In o regs -> lists_ok s regs ->
  lists_ok (p_register box o s) (regs ++ [o]).
Proof.
  intros NE No HL i Hi. destruct (HL i Hi) as [P S]. unfold p_register. cbn [p_list p_cached]. cbv zeta.
  set (c := set_box (p_cached s) o (box o)).
  assert (N' : ~ In (o, false) (p_list s i)) by (rewrite P; rewrite tags_In; auto).
  assert (S' : StronglySorted (by_key (pval c i)) (p_list s i)).
  { eapply StronglySorted_ext; [|exact S]. intros a Ha. apply pval_ext. unfold c, set_box.
    destruct (Nat.eqb_spec (fst a) o) as [E|]; auto. exfalso. destruct a as [a b]. cbn in E. subst a. rewrite P in Ha.
    apply tags_In in Ha. auto. }
  assert (L : low c i o <= high c i o).
  { apply nonempty_low; auto. unfold c, set_box. rewrite Nat.eqb_refl. auto. }
  destruct (p_insert_both c i o (p_list s i) N' L S') as [P2 S2]. split; auto.
  rewrite P2, tags_snoc, P. reflexivity.
Qed.
Lemma p_walked_hi_In c i o l e : In e (p_walked_hi c i o l) -> In e l.
Proof.
  induction l as [|a l IH]; cbn [p_walked_hi]; auto. destruct (pt_eqb a (o, false)).
  - intros H. destruct (p_walked_prefix c i (high c i o) (a :: l)) as (l2 & E). rewrite E. apply in_or_app; auto.
  - intros H; right; auto.
Qed.
Lemma p_insert_lo_In c i o l e : In e (p_insert_lo c i o l) <-> e = (o, false) \/ In e l.
Proof.
  unfold p_insert_lo. rewrite p_insert_perm. cbn. split; intros [H|H]; auto.
Qed.
Lemma p_register_sound box s o regs : ~ In o regs -> lists_ok s regs -> pairs_sound s regs ->
  pairs_sound (p_register box o s) (regs ++ [o]).
Proof.
  intros No HL HS a b. unfold p_register. cbn [p_pairs p_cached]. cbv zeta. set (c := set_box (p_cached s) o (box o)).
  assert (Ec : forall x, In x regs -> c x = p_cached s x).
  { intros x Hx. unfold c, set_box. destruct (Nat.eqb_spec x o) as [->|]; tauto. }
  intros H. apply in_app_iff in H as [H|H].
  - destruct (HS a b H) as (L & Ha & Hb & Ho). rewrite !in_app_iff. rewrite (Ec a Ha), (Ec b Hb). auto.
  - apply in_map_iff in H as ([e eb] & E & H). apply filter_In in H as [H F]. cbn [fst] in *.
    apply andb_true_iff in F as [F Ho]. apply negb_true_iff in F.
    apply p_walked_hi_In, p_insert_lo_In in H. destruct H as [H|H].
    { rewrite H in F. destruct (pt_eqb_spec (o, false) (o, false)); congruence. }
    rewrite (proj1 (HL 0%nat ltac:(lia))) in H. apply tags_In in H.
    assert (Ne : e <> o) by (intros ->; tauto). pose proof (mkpair_lt e o Ne) as L.
    destruct (mkpair_cases e o) as [Em|Em]; rewrite Em in *; cbn in L; injection E as <- <-; rewrite !in_app_iff; cbn;
      repeat split; auto. rewrite overlap_sym. auto.
Qed.

(** ** The bulk sweep *)
Lemma p_inner_In c a l x : In x (p_inner c a l) <->
  exists l1 b l2, l = l1 ++ (b, false) :: l2 /\ (forall e, In e l1 -> fst e <> a) /\ b <> a /\
    overlap (c b) (c a) = true /\ x = mkpair b a.
Proof.
  induction l as [|[e eb] l IH]; cbn [p_inner fst snd].
  - split; [intros []|]. intros (l1 & b & l2 & E & _). destruct l1; discriminate.
  - destruct (Nat.eqb_spec e a) as [->|N].
    + split; [intros []|]. intros ([|y l1] & b & l2 & E & H1 & H2 & _); cbn in E; injection E; intros; subst; [tauto|].
      exfalso. apply (H1 (a, eb)); cbn; auto.
    + rewrite in_app_iff, IH. split.
      * intros [H|(l1 & b & l2 & -> & H1 & H2)].
        -- destruct eb; cbn [negb andb] in H; [destruct H|]. destruct (overlap (c e) (c a)) eqn:Eo; [|destruct H].
           destruct H as [<-|[]]. exists [], e, l. cbn. repeat split; auto.
        -- exists ((e, eb) :: l1), b, l2. split; auto. split; auto. intros y [<-|Hy]; auto.
      * intros ([|y l1] & b & l2 & E & H1 & H2 & H3 & ->); cbn in E; injection E; intros; subst.
        -- left. cbn [negb andb]. rewrite H3. left; auto.
        -- right. exists l1, b, l2. split; auto. split; auto. intros z Hz. apply H1. right; auto.
Qed.

(** What the visits of lower endpoints contribute. *)
Fixpoint contrib (c : obj -> aabb) (l : list pt) : list (obj * obj) :=
  match l with
  | [] => []
  | e :: r => (if snd e then [] else p_inner c (fst e) r) ++ contrib c r
  end.
Lemma sweep_contrib c l : forall prev,
  (forall l1 a l2, l = l1 ++ (a, true) :: l2 -> p_inner c a l2 = []) -> p_sweep c prev l = contrib c l.
Proof.
  induction l as [|[e eb] l IH]; intros prev H; cbn [p_sweep contrib fst snd]; auto.
  assert (H' : forall l1 a l2, l = l1 ++ (a, true) :: l2 -> p_inner c a l2 = []).
  { intros l1 a l2 ->. apply (H ((e, eb) :: l1) a l2). auto. }
  destruct eb; cbn [negb].
  - rewrite (H [] e l eq_refl). cbn [app]. match goal with |- (if ?b then _ else _) = _ => destruct b end; apply IH; auto.
  - match goal with |- (if ?b then _ else _) = _ => replace b with true by (destruct prev; rewrite ?orb_true_r; auto) end.
    rewrite IH; auto.
Qed.
Lemma contrib_In c l x : In x (contrib c l) <-> exists l1 a l2, l = l1 ++ (a, false) :: l2 /\ In x (p_inner c a l2).
Proof.
  induction l as [|[e eb] l IH]; cbn [contrib fst snd].
  - split; [intros []|]. intros (l1 & a & l2 & E & _). destruct l1; discriminate.
  - rewrite in_app_iff, IH. split.
    + intros [H|(l1 & a & l2 & -> & H)].
      * destruct eb; [destruct H|]. exists [], e, l. auto.
      * exists ((e, eb) :: l1), a, l2. auto.
    + intros ([|y l1] & a & l2 & E & H); cbn in E; injection E; intros; subst; auto. right. eauto.
Qed.
Lemma mkpair_inj a b a' : mkpair b a = mkpair a' a -> b = a'.
Proof. unfold mkpair. destruct (Nat.ltb_spec b a), (Nat.ltb_spec a' a); intros E; injection E; intros; subst; auto; lia. Qed.
Lemma mkpair_sym a b : mkpair a b = mkpair b a.
Proof. unfold mkpair. destruct (Nat.ltb_spec a b), (Nat.ltb_spec b a); auto; try lia. assert (a = b) by lia. subst; auto. Qed.
Lemma p_inner_NoDup c a l : NoDup l -> NoDup (p_inner c a l).
Proof.
  induction 1 as [|[e eb] l N ND IH]; cbn [p_inner fst snd]; [constructor|]. destruct (Nat.eqb_spec e a) as [|Ne]; [constructor|].
  destruct (negb eb && overlap (c e) (c a)) eqn:E; cbn [app]; auto. constructor; auto.
  rewrite p_inner_In. intros (l1 & b & l2 & -> & _ & _ & _ & Em). apply mkpair_inj in Em. subst b.
  apply N. destruct eb; [discriminate|]. apply in_or_app; cbn; auto.
Qed.
Lemma mkpair_same a b a' b' : mkpair a b = mkpair a' b' -> (a = a' /\ b = b') \/ (a = b' /\ b = a').
Proof.
  unfold mkpair. destruct (Nat.ltb a b), (Nat.ltb a' b'); intros E; injection E; intros; subst; auto.
Qed.
Lemma contrib_NoDup c l : NoDup l -> NoDup (contrib c l).
Proof.
  induction 1 as [|[e eb] l N ND IH]; cbn [contrib fst snd]; [constructor|]. destruct eb; auto.
  apply NoDup_app_intro; auto; [apply p_inner_NoDup; auto|].
  intros x H1 H2. apply p_inner_In in H1 as (l1 & b & l2 & E1 & _ & _ & _ & Ex).
  apply contrib_In in H2 as (k1 & a & k2 & E2 & H2). apply p_inner_In in H2 as (k3 & b' & k4 & E3 & _ & _ & _ & Ex').
  rewrite Ex in Ex'. apply N. apply mkpair_same in Ex' as [[_ ->]|[_ ->]]; rewrite E2; apply in_or_app; right; [left; auto|].
  right. rewrite E3. apply in_or_app; cbn; auto.
Qed.

(** Two lower endpoints in a list without repetition: one comes first. *)
Lemma first_of (l : list pt) x y : NoDup l -> In x l -> In y l -> x <> y ->
  (exists l1 l2 l3, l = l1 ++ x :: l2 ++ y :: l3) \/ (exists l1 l2 l3, l = l1 ++ y :: l2 ++ x :: l3).
Proof.
  intros ND Hx Hy Ne. apply in_split in Hx as (l1 & l2 & ->). apply in_app_iff in Hy as [Hy|[Hy|Hy]].
  - apply in_split in Hy as (k1 & k2 & ->). right. exists k1, k2, l2. rewrite <- app_assoc. reflexivity.
  - congruence.
  - apply in_split in Hy as (k1 & k2 & ->). left. exists l1, k1, k2. reflexivity.
Qed.

Section Sweep.
  Variables (c : obj -> aabb) (i : nat) (os : list obj) (l : list pt).
  Hypothesis Hi : (i < 3)%nat.
  Hypothesis P : Permutation l (tags os).
  Hypothesis S : StronglySorted (by_key (pval c i)) l.
  Hypothesis ND : NoDup os.
  Hypothesis NT : forall a b, In a os -> In b os -> low c i a <> high c i b.
  Hypothesis NE : forall a, In a os -> nonempty (c a).

  Let ND' : NoDup l.
  Proof. eapply Permutation_NoDup; [symmetry; exact P|]. apply tags_NoDup; auto. Qed.
  Let inl a b : In (a, b) l <-> In a os.
  Proof. rewrite P. apply tags_In. Qed.
  Let ov a b : overlap (c a) (c b) = true -> low c i a <= high c i b /\ low c i b <= high c i a.
  Proof. intros H. rewrite overlap_coord in H. apply H; auto. Qed.

  Lemma sweep_eq : p_sweep c None l = contrib c l.
  Proof using All.
    apply sweep_contrib. intros l1 a l2 E. destruct (p_inner c a l2) as [|x r] eqn:Ei; auto. exfalso.
    assert (Hx : In x (p_inner c a l2)) by (rewrite Ei; left; auto).
    apply p_inner_In in Hx as (k1 & b & k2 & E2 & _ & Nb & Ho & _).
    assert (Sl := S). rewrite E, E2 in Sl. apply ss_app in Sl as (_ & S2 & _). apply ss_cons in S2 as [_ S2].
    specialize (S2 (b, false) ltac:(apply in_or_app; cbn; auto)). apply ov in Ho.
    change (pval c i (a, true)) with (high c i a) in S2. change (pval c i (b, false)) with (low c i b) in S2.
    assert (In a os) by (apply (inl a true); rewrite E; apply in_or_app; cbn; auto).
    assert (In b os) by (apply (inl b false); rewrite E, E2; apply in_or_app; right; right; apply in_or_app; cbn; auto).
    assert (low c i b <> high c i a) by auto. lia.
  Qed.
  Lemma sweep_spec : NoDup (p_sweep c None l) /\ forall a b, In (a, b) (p_sweep c None l) <->
    (a < b)%nat /\ In a os /\ In b os /\ overlap (c a) (c b) = true.
  Proof using All.
    rewrite sweep_eq. split; [apply contrib_NoDup; auto|]. intros a b. rewrite contrib_In. split.
    - intros (l1 & x & l2 & E & H). apply p_inner_In in H as (k1 & y & k2 & E2 & _ & Ny & Ho & Em).
      assert (In x os) by (apply (inl x false); rewrite E; apply in_or_app; cbn; auto).
      assert (In y os) by (apply (inl y false); rewrite E, E2; apply in_or_app; right; right; apply in_or_app; cbn; auto).
      pose proof (mkpair_lt y x Ny) as L. destruct (mkpair_cases y x) as [M|M]; rewrite M in *; cbn in L; injection Em as -> ->;
        repeat split; auto. rewrite overlap_sym; auto.
    - intros (L & Ha & Hb & Ho).
      assert (G : forall x y l1 l2 l3, In x os -> In y os -> x <> y -> overlap (c y) (c x) = true ->
        l = l1 ++ (x, false) :: l2 ++ (y, false) :: l3 ->
        exists l1 a0 l2, l = l1 ++ (a0, false) :: l2 /\ In (mkpair y x) (p_inner c a0 l2)).
      { intros x y l1 l2 l3 Hx Hy Nxy Hxy E. exists l1, x, (l2 ++ (y, false) :: l3). split; auto. apply p_inner_In.
        exists l2, y, l3. split; auto. split; [|auto]. intros [e eb] He Ee. cbn in Ee. subst e.
        assert (ND2 := ND'). rewrite E in ND2. destruct eb.
        - assert (Sl := S). rewrite E in Sl. apply ss_app in Sl as (_ & S2 & _). apply ss_cons in S2 as [S2 _].
          apply ss_app in S2 as (_ & _ & S3). specialize (S3 (x, true) (y, false) He (or_introl eq_refl)).
          change (pval c i (x, true)) with (high c i x) in S3. change (pval c i (y, false)) with (low c i y) in S3.
          apply ov in Hxy. assert (low c i y <> high c i x) by auto. lia.
        - apply NoDup_remove_2 in ND2. apply ND2. apply in_or_app; right. apply in_or_app; auto. }
      assert (Nab : (a, false) <> (b, false)) by (intros E; injection E; lia).
      replace (a, b) with (mkpair a b) by (unfold mkpair; destruct (Nat.ltb_spec a b); auto; lia).
      destruct (first_of l (a, false) (b, false) ND' (proj2 (inl a false) Ha) (proj2 (inl b false) Hb) Nab)
        as [(l1 & l2 & l3 & E)|(l1 & l2 & l3 & E)].
      + rewrite mkpair_sym. apply (G a b l1 l2 l3); auto; [lia|]. rewrite overlap_sym; auto.
      + apply (G b a l1 l2 l3); auto. lia.
  Qed.
End Sweep.

(** Without the restriction on ties the sweep still reports only overlapping pairs. *)
Lemma p_sweep_sound c l : forall prev x, In x (p_sweep c prev l) ->
  exists a b s t, In (a, s) l /\ In (b, t) l /\ b <> a /\ overlap (c b) (c a) = true /\ x = mkpair b a.
Proof.
  induction l as [|[e eb] l IH]; intros prev x; cbn [p_sweep fst snd]; [intros []|].
  assert (G : forall p, In x (p_sweep c p l) -> exists a b s t, In (a, s) ((e, eb) :: l) /\ In (b, t) ((e, eb) :: l) /\
    b <> a /\ overlap (c b) (c a) = true /\ x = mkpair b a).
  { intros p H. destruct (IH p x H) as (a & b & s & t & Ha & Hb & H'). exists a, b, s, t. cbn. auto. }
  match goal with |- In x (if ?d then _ else _) -> _ => destruct d end; [|apply G].
  intros H. apply in_app_iff in H as [H|H]; [|eapply G; eauto].
  apply p_inner_In in H as (l1 & b & l2 & -> & _ & Nb & Ho & ->). exists e, b, eb, false.
  split; [left; auto|]. split; [right; apply in_or_app; cbn; auto|]. auto.
Qed.
Lemma widest_lt scale : (widest scale < 3)%nat.
Proof. unfold widest. destruct (scale 0%nat <? scale 1%nat); match goal with |- context [if ?c then _ else _] => destruct c end; lia. Qed.

(** The lists built by the bulk branch. *)
Lemma p_bulk_lists srt box os s : psorts srt -> lists_ok (p_bulk srt box os s) os.
Proof.
  intros HS i Hi. unfold p_bulk. cbn [p_list p_cached]. cbv zeta. unfold p_bulk_list. cbv zeta. set (c := set_boxes box (p_cached s) os).
  destruct (HS (pval c 0) (tags os)) as [P0 S0]. set (l0 := srt (pval c 0) (tags os)) in *.
  destruct (HS (pval c 1) l0) as [P1 S1]. set (l1 := srt (pval c 1) l0) in *.
  destruct (HS (pval c 2) l1) as [P2 S2]. set (l2 := srt (pval c 2) l1) in *.
  destruct i as [|[|[|i]]]; [| | |lia]; split; auto.
  - exact (Permutation_trans P1 P0).
  - exact (Permutation_trans P2 (Permutation_trans P1 P0)).
Qed.

(** ** Reachable states *)
Lemma pinv_ext s regs k k' b : (forall o, k o = k' o) -> pinv s (PS regs k b) -> pinv s (PS regs k' b).
Proof.
  intros H (A1 & A2 & A3 & A4 & A5 & A6). repeat (split; auto).
  - cbn in *. intros o. rewrite <- H. auto.
  - cbn in *. intros o. rewrite <- H. auto.
Qed.
Lemma set_box_eq f o b : set_box f o b o = b.
Proof. unfold set_box. rewrite Nat.eqb_refl. auto. Qed.
Lemma set_box_ne f o b x : x <> o -> set_box f o b x = f x.
Proof. unfold set_box. intros H. destruct (Nat.eqb_spec x o); tauto. Qed.
Lemma p_register_inv s regs known box o : pinv s (PS regs known box) -> ~ In o regs ->
  pinv (p_register box o s) (PS (regs ++ [o]) (set_box known o (box o)) box).
Proof.
  intros (A1 & A2 & A3 & A4 & A5 & A6 & A7 & A8) No. cbn [ps_regs ps_known ps_box] in *.
  assert (B6 := p_register_lists box s o regs A3 No A6). assert (B7 := p_register_sound box s o regs No A6 A7).
  split; [cbn; rewrite A1; auto|]. split.
  { cbn. apply NoDup_snoc; auto. }
  split; [auto|]. split.
  { cbn. intros x. unfold set_box. destruct (Nat.eqb x o); auto. }
  split; [|auto]. cbn. intros x. unfold set_box. destruct (Nat.eqb x o); auto.
Qed.
Lemma mem_false o l : ~ In o l -> mem o l = false.
Proof. intros H. destruct (mem o l) eqn:E; auto. apply mem_In in E. tauto. Qed.
Lemma p_register_all_inv box os : forall s regs known, pinv s (PS regs known box) -> NoDup os ->
  (forall o, In o os -> ~ In o regs) ->
  pinv (fold_left (fun s o => p_register box o s) os s) (PS (regs ++ os) (set_boxes box known os) box).
Proof.
  induction os as [|o os IH]; intros s regs known I ND D; cbn [fold_left].
  - rewrite app_nil_r. exact I.
  - inversion_clear ND as [|? ? No ND']. replace (regs ++ o :: os) with ((regs ++ [o]) ++ os) by (rewrite <- app_assoc; auto).
    eapply pinv_ext; [|apply IH; [apply p_register_inv; [exact I|apply D; cbn; auto]|auto|]].
    + intros x. unfold set_boxes, set_box, mem. cbn [existsb].
      destruct (Nat.eqb_spec x o) as [->|]; cbn [orb]; [|auto]. destruct (existsb (Nat.eqb o) os); auto.
    + intros x Hx Hi. apply in_app_iff in Hi as [Hi|[<-|[]]]; [|auto]. apply (D x); cbn; auto.
Qed.
Lemma p_bulk_inv srt box os s regs known : psorts srt -> pinv s (PS regs known box) -> regs = [] -> NoDup os ->
  pinv (p_bulk srt box os s) (PS os (set_boxes box known os) box).
Proof.
  intros HS (A1 & A2 & A3 & A4 & A5 & A6 & A7 & A8) -> ND. cbn [ps_regs ps_known ps_box] in *.
  pose proof (p_bulk_lists srt box os s HS) as HL.
  split; auto. split; auto. split; auto. split.
  { intros x. cbn. unfold set_boxes. destruct (mem x os); auto. }
  split. { intros x. cbn. unfold set_boxes. destruct (mem x os); auto. }
  split; auto. split; [|auto].
  intros a b H. cbn [p_bulk p_pairs p_cached] in *. cbv zeta in *.
  set (c := set_boxes box (p_cached s) os) in *. set (k := p_bulk_axis srt c os) in H.
  assert (Pk : Permutation (p_bulk_list srt c os k) (tags os)) by (apply (HL k), widest_lt).
  apply p_sweep_sound in H as (x & y & s1 & t1 & Hx & Hy & Ny & Ho & E).
  rewrite Pk in Hx, Hy. apply tags_In in Hx, Hy. pose proof (mkpair_lt y x Ny) as L.
  destruct (mkpair_cases y x) as [M|M]; rewrite M in *; cbn in L; injection E as -> ->; cbn [ps_regs]; repeat split; auto.
  rewrite overlap_sym; auto.
Qed.
Lemma p_setup_inv s x : pinv s x -> pinv (p_setup s) x.
Proof.
  intros I. unfold p_setup. destruct (Nat.eqb (p_size s) 0); auto. destruct I as (A1 & A2 & A3 & A4 & A5 & A6 & A7 & A8).
  repeat (split; auto). cbn. apply widest_lt.
Qed.
Lemma no_lists c k : lists_ok (Sap (fun _ => []) [] [] c k) [] /\ pairs_sound (Sap (fun _ => []) [] [] c k) [].
Proof. split; [intros i _; split; constructor|intros a b []]. Qed.
Lemma p_step_inv srt op s x : psorts srt -> pinv s x -> p_legal x op ->
  exists s', p_step srt op (s, ps_box x) = Some (s', ps_box (ps_step x op)) /\ pinv s' (ps_step x op).
Proof.
  intros HS I HL. destruct x as [regs known box]. destruct op as [o b|o|os|o| |]; cbn [p_step ps_step ps_box p_legal ps_regs] in *.
  - exists s. split; auto. destruct I as (A1 & A2 & A3 & A4 & A5 & A6). repeat (split; auto).
    cbn in *. intros x. unfold set_box. destruct (Nat.eqb x o); auto.
  - eexists. split; [reflexivity|]. apply p_register_inv; auto.
  - eexists. split; [reflexivity|]. destruct HL as [ND D]. unfold p_registers. destruct os as [|o os].
    + rewrite app_nil_r. exact I.
    + destruct (Nat.eqb_spec (p_size s) 0) as [E|E]; [|apply p_register_all_inv; auto].
      unfold p_size in E. rewrite (proj1 I) in E. apply length_zero_iff_nil in E. cbn in E. rewrite E. cbn [app].
      eapply p_bulk_inv; eauto.
  - destruct HL.
  - eexists. split; [reflexivity|]. apply p_setup_inv; auto.
  - eexists. split; [reflexivity|]. destruct I as (A1 & A2 & A3 & A4 & A5 & A6 & A7 & A8).
    split; auto. split; [constructor|]. do 3 (split; [auto|]). destruct (no_lists (p_cached s) (p_axis s)). auto.
Qed.
Lemma p_init_inv box0 : (forall o, nonempty (box0 o)) -> pinv (p_init box0) (ps_init box0).
Proof.
  intros H. split; auto. split; [constructor|]. do 3 (split; [auto|]). destruct (no_lists box0 0). split; auto.
Qed.
Lemma p_run_inv srt ops : psorts srt -> forall s x, pinv s x -> p_legal_from x ops ->
  exists s', p_run srt ops (s, ps_box x) = Some (s', ps_box (fold_left ps_step ops x)) /\ pinv s' (fold_left ps_step ops x).
Proof.
  intros HS. induction ops as [|op ops IH]; intros s x I HL; cbn [p_run fold_left].
  - eauto.
  - destruct HL as [H1 H2]. destruct (p_step_inv srt op s x HS I H1) as (s' & -> & I'). apply (IH s' _ I' H2).
Qed.
Lemma p_reach srt ops box0 : psorts srt -> p_legal_history ops box0 ->
  exists s, p_run srt ops (p_init box0, box0) = Some (s, ps_box (p_spec ops box0)) /\ pinv s (p_spec ops box0).
Proof.
  intros HS [H0 HL]. apply (p_run_inv srt ops HS (p_init box0) (ps_init box0)); auto. apply p_init_inv; auto.
Qed.
Lemma p_reach' srt ops box0 s box : psorts srt -> p_legal_history ops box0 -> p_run srt ops (p_init box0, box0) = Some (s, box) ->
  box = ps_box (p_spec ops box0) /\ pinv s (p_spec ops box0).
Proof.
  intros HS HL HR. destruct (p_reach srt ops box0 HS HL) as (s' & E & I). rewrite HR in E. injection E as -> ->. auto.
Qed.

(** ** The collision candidates *)
Lemma lo_map_NoDup (l : list pt) (f : pt -> bool) : NoDup l -> NoDup (map fst (filter (fun e => negb (snd e) && f e) l)).
Proof.
  induction 1 as [|[e eb] l N ND IH]; cbn [filter map]; [constructor|]. destruct eb; cbn [snd negb andb]; auto.
  destruct (f (e, false)); auto. cbn [map fst]. constructor; auto. intros H. apply in_map_iff in H as ([e' eb] & E & H).
  apply filter_In in H as [H F]. cbn in E, F. subst e'. destruct eb; [discriminate|]. auto.
Qed.
Lemma p_candidates_spec s regs q : lists_ok s regs -> NoDup regs -> (p_axis s < 3)%nat ->
  NoDup (p_candidates s q) /\ forall a, In a (p_candidates s q) <->
    In a regs /\ coord (p_axis s) (bmin (p_cached s a)) <= coord (p_axis s) (bmax q) /\
    coord (p_axis s) (bmin q) <= coord (p_axis s) (bmax (p_cached s a)).
Proof.
  intros HL ND Ha. unfold p_candidates, p_prefix. set (i := p_axis s) in *. destruct (HL i Ha) as [P S].
  destruct (upper_bound_spec _ _ (coord i (bmax q)) S) as [-> _]. split.
  - apply lo_map_NoDup, NoDup_filter. eapply Permutation_NoDup; [symmetry; exact P|]. apply tags_NoDup; auto.
  - intros a. rewrite in_map_iff. split.
    + intros ([e eb] & E & H). cbn in E. subst e. rewrite !filter_In in H. destruct H as [[H F1] F2]. cbn [fst snd] in F2.
      destruct eb; [discriminate|]. cbn [negb andb] in F2. apply Z.leb_le in F1, F2. rewrite P in H. apply tags_In in H. auto.
    + intros (H & F1 & F2). exists (a, false). split; auto. rewrite !filter_In. cbn [fst snd negb andb].
      split; [split|apply Z.leb_le; auto]; [rewrite P; apply tags_In; auto|apply Z.leb_le; auto].
Qed.

(** ** When the pair list is complete *)

(** An object registered on its own is thick on x, begins no later on x than the registered ones,
    and none of them begins where it ends. *)
Definition tame_reg (x : pspec) (o : obj) : Prop :=
  low (ps_box x) 0 o < high (ps_box x) 0 o /\
  forall a, In a (ps_regs x) -> low (ps_box x) 0 o <= low (ps_known x) 0 a /\ low (ps_known x) 0 a <> high (ps_box x) 0 o.
Fixpoint tame_regs (x : pspec) (os : list obj) : Prop :=
  match os with [] => True | o :: r => tame_reg x o /\ tame_regs (ps_step x (PReg o)) r end.
(** Of the objects registered in bulk, none begins where one ends, on no axis. *)
Definition no_ties (box : obj -> aabb) (os : list obj) : Prop :=
  forall i a b, (i < 3)%nat -> In a os -> In b os -> low box i a <> high box i b.
Definition tame (x : pspec) (op : pop) : Prop :=
  match op with
  | PReg o => tame_reg x o
  | PRegs os => match ps_regs x with [] => no_ties (ps_box x) os | _ => tame_regs x os end
  | _ => True
  end.
Fixpoint tame_from (x : pspec) (ops : list pop) : Prop :=
  match ops with [] => True | op :: r => tame x op /\ tame_from (ps_step x op) r end.

(** How often a pair is in a list. *)
Definition times (p : obj * obj) (l : list (obj * obj)) : nat := length (filter (pair_eqb p) l).
Definition pcomplete (s : sap) (x : pspec) : Prop :=
  (forall a, In a (ps_regs x) -> low (ps_known x) 0 a < high (ps_known x) 0 a) /\
  (forall a b, (a < b)%nat -> In a (ps_regs x) -> In b (ps_regs x) -> overlap (ps_known x a) (ps_known x b) = true ->
     In (a, b) (p_pairs s)) /\
  (forall p, (times p (p_pairs s) <= 2)%nat).

Lemma pair_eqb_spec p q : reflect (p = q) (pair_eqb p q).
Proof.
  destruct p as [a b], q as [a' b']. unfold pair_eqb. cbn.
  destruct (Nat.eqb_spec a a') as [->|]; cbn; [|constructor; congruence].
  destruct (Nat.eqb_spec b b') as [->|]; constructor; congruence.
Qed.
Lemma times_app p l l' : times p (l ++ l') = (times p l + times p l')%nat.
Proof. unfold times. rewrite filter_app, app_length. auto. Qed.
Lemma times_0 p l : ~ In p l -> times p l = 0%nat.
Proof.
  intros H. unfold times. induction l as [|q l IH]; auto. cbn [filter]. destruct (pair_eqb_spec p q) as [->|N].
  - exfalso. apply H. left; auto.
  - apply IH. intros Hp. apply H. right; auto.
Qed.
Lemma times_NoDup p l : NoDup l -> (times p l <= 1)%nat.
Proof.
  intros ND. induction ND as [|q l N ND IH]; [cbn; lia|]. unfold times in *. cbn [filter]. destruct (pair_eqb_spec p q) as [->|]; auto.
  cbn. rewrite (times_0 q l N : length (filter (pair_eqb q) l) = 0%nat). lia.
Qed.
Lemma times_map p o (l : list pt) : NoDup l -> (times p (map (fun e => mkpair (fst e) o) l) <= 2)%nat.
Proof.
  intros ND. unfold times.
  destruct (in_dec (fun x y => reflect_dec _ _ (pair_eqb_spec x y)) p (map (fun e => mkpair (fst e) o) l)) as [H|H].
  2:{ pose proof (times_0 _ _ H) as E. unfold times in E. rewrite E. lia. }
  apply in_map_iff in H as ([a ab] & <- & _). cbn [fst].
  assert (E : filter (pair_eqb (mkpair a o)) (map (fun e : pt => mkpair (fst e) o) l) =
              map (fun e => mkpair (fst e) o) (filter (fun e => Nat.eqb a (fst e)) l)).
  { clear ND. induction l as [|[b bb] l IH]; auto. cbn [map filter fst].
    destruct (pair_eqb_spec (mkpair a o) (mkpair b o)) as [Em|Em].
    - apply mkpair_inj in Em. subst b. rewrite Nat.eqb_refl. cbn [map fst]. f_equal. apply IH.
    - destruct (Nat.eqb_spec a b) as [->|]; [tauto|apply IH]. }
  rewrite E, map_length. change 2%nat with (length [(a, false); (a, true)]). apply NoDup_incl_length; [apply NoDup_filter; auto|].
  intros [b [|]] Hb; apply filter_In in Hb as [_ Hb]; cbn in Hb; apply Nat.eqb_eq in Hb; subst b; cbn; auto.
Qed.

Lemma p_register_complete s regs known box o : pinv s (PS regs known box) -> pcomplete s (PS regs known box) ->
  ~ In o regs -> tame_reg (PS regs known box) o ->
  pcomplete (p_register box o s) (PS (regs ++ [o]) (set_box known o (box o)) box).
Proof.
  intros I (C1 & C2 & C3) No [T0 T]. cbn [ps_regs ps_known ps_box] in *. destruct I as (A1 & A2 & A3 & A4 & A5 & A6 & A7 & A8).
  cbn [ps_regs ps_known ps_box] in *.
  assert (Kr : forall a, In a regs -> set_box known o (box o) a = known a).
  { intros a Ha. apply set_box_ne. intros ->. tauto. }
  assert (Low : forall a, In a regs -> low (set_box known o (box o)) 0 a = low known 0 a /\ high (set_box known o (box o)) 0 a = high known 0 a).
  { intros a Ha. unfold low, high. rewrite Kr by auto. auto. }
  split; [|split]; cbn [ps_regs ps_known].
  - intros a Ha. apply in_app_iff in Ha as [Ha|[<-|[]]].
    + destruct (Low a Ha) as [-> ->]. auto.
    + unfold low, high in *. rewrite set_box_eq. auto.
  - intros a b L Ha Hb Ho. unfold p_register. cbn [p_pairs]. cbv zeta. apply in_or_app.
    set (c := set_box (p_cached s) o (box o)).
    assert (Ec : forall x, c x = set_box known o (box o) x).
    { intros x. unfold c, set_box. destruct (Nat.eqb x o); auto. }
    (* the new pairs: every registered object that overlaps the new one *)
    assert (New : forall x, In x regs -> overlap (c x) (c o) = true ->
      In (mkpair x o) (map (fun e => mkpair (fst e) o)
        (filter (fun e => negb (pt_eqb e (o, false)) && overlap (c (fst e)) (c o)) (p_walked_hi c 0 o (p_insert_lo c 0 o (p_list s 0%nat)))))).
    { intros x Hx Hov. apply in_map_iff. exists (x, false). split; auto. assert (Nx : x <> o) by (intros ->; tauto).
      apply filter_In. cbn [fst]. rewrite Hov. split.
      2:{ destruct (pt_eqb_spec (x, false) (o, false)) as [E|]; [injection E; tauto|auto]. }
      destruct (A6 0%nat ltac:(lia)) as [P S].
      assert (S' : StronglySorted (by_key (pval c 0)) (p_list s 0%nat)).
      { eapply StronglySorted_ext; [|exact S]. intros [y yb] Hy. apply pval_ext. cbn [fst]. rewrite P in Hy. apply tags_In in Hy.
        unfold c. rewrite set_box_ne; auto. intros ->; tauto. }
      assert (N' : ~ In (o, false) (p_list s 0%nat)) by (rewrite P, tags_In; auto).
      unfold p_insert_lo. pose proof (p_insert_sorted c 0 (low c 0 o) (o, false) _ eq_refl S') as SS.
      destruct (p_insert_split c 0 (low c 0 o) (o, false) (p_list s 0%nat)) as (l1 & l2 & E & E2 & H1 & _). rewrite E2 in SS |- *.
      assert (N1 : ~ In (o, false) l1) by (intros H; apply N'; rewrite E; apply in_or_app; auto).
      rewrite (p_walked_hi_eq c 0 o l1 l2 N1).
      assert (Fo : low c 0 o = low box 0 o /\ high c 0 o = high box 0 o).
      { unfold low, high, c. rewrite set_box_eq. auto. }
      assert (Fx : low c 0 x = low known 0 x /\ high c 0 x = high known 0 x).
      { unfold low, high. rewrite Ec, Kr by auto. auto. }
      destruct Fo as [Fo1 Fo2], Fx as [Fx1 Fx2]. destruct (T x Hx) as [T1 T2]. specialize (C1 x Hx).
      (* both endpoints of x come after that of o *)
      assert (In2 : forall t, In (x, t) l2).
      { intros t. assert (In (x, t) (p_list s 0%nat)) as Hi by (rewrite P; apply tags_In; auto). rewrite E in Hi.
        apply in_app_iff in Hi as [Hi|Hi]; auto. exfalso. specialize (H1 _ Hi). destruct t; unfold pval in H1; cbn [fst snd] in H1; lia. }
      apply ss_app in SS as (_ & SS & _). apply ss_cons in SS as [SS _].
      destruct (in_split _ _ (In2 false)) as (k1 & k2 & Ek). rewrite Ek in SS |- *.
      change ((o, false) :: k1 ++ (x, false) :: k2) with (((o, false) :: k1) ++ (x, false) :: k2).
      apply ss_app in SS as (S1 & S2 & S3). apply p_walked_In.
      - intros ->. assert (Hi := In2 true). rewrite Ek in Hi. apply in_app_iff in Hi as [Hi|[Hi|[]]]; [|discriminate].
        specialize (S3 _ (x, false) Hi (or_introl eq_refl)). unfold pval in S3. cbn [fst snd] in S3. lia.
      - assert (Hl : low c 0 x < high c 0 o).
        { rewrite overlap_coord in Hov. specialize (Hov 0%nat ltac:(lia)). unfold low, high in *. lia. }
        intros e He. apply in_app_iff in He as [[<-|He]|[<-|[]]].
        + unfold pval. cbn [fst snd]. lia.
        + specialize (S3 _ (x, false) He (or_introl eq_refl)). unfold pval at 2 in S3. cbn [fst snd] in S3. lia.
        + unfold pval. cbn [fst snd]. lia. }
    rewrite <- !Ec in Ho. apply in_app_iff in Ha as [Ha|[Ha|[]]]; apply in_app_iff in Hb as [Hb|[Hb|[]]].
    + left. rewrite (Ec a), (Ec b), (Kr a Ha), (Kr b Hb) in Ho. apply C2; auto.
    + subst b. right.
      assert (Em : mkpair a o = (a, o)) by (unfold mkpair; destruct (Nat.ltb_spec a o); auto; lia).
      pose proof (New a Ha Ho) as H. rewrite Em in H. exact H.
    + subst a. right.
      assert (Em : mkpair b o = (o, b)) by (unfold mkpair; destruct (Nat.ltb_spec b o); auto; lia).
      rewrite overlap_sym in Ho. pose proof (New b Hb Ho) as H. rewrite Em in H. exact H.
    + lia.
  - intros p. unfold p_register. cbn [p_pairs]. cbv zeta. rewrite times_app.
    match goal with |- (_ + times p (map _ ?f) <= 2)%nat => set (F := f) end.
    assert (NF : NoDup F).
    { unfold F. apply NoDup_filter. set (c := set_box (p_cached s) o (box o)). destruct (A6 0%nat ltac:(lia)) as [P _].
      assert (NL : NoDup (p_insert_lo c 0 o (p_list s 0%nat))).
      { unfold p_insert_lo. eapply Permutation_NoDup; [symmetry; apply p_insert_perm|]. constructor.
        - rewrite P, tags_In. auto.
        - eapply Permutation_NoDup; [symmetry; exact P|]. apply tags_NoDup; auto. }
      revert NL. generalize (p_insert_lo c 0 o (p_list s 0%nat)). intros l. induction l as [|e l IH]; intros NL; cbn [p_walked_hi]; auto.
      destruct (pt_eqb e (o, false)).
      - destruct (p_walked_prefix c 0 (high c 0 o) (e :: l)) as (l2 & E). rewrite E in NL. revert NL. generalize (p_walked c 0 (high c 0 o) (e :: l)).
        clear. intros l1. induction l1 as [|x l1 IH]; cbn; intros H; [constructor|]. inversion_clear H as [|? ? Hx Hl].
        constructor; auto. intros Hi. apply Hx, in_or_app; auto.
      - inversion_clear NL. auto. }
    destruct (in_dec (fun x y => reflect_dec _ _ (pair_eqb_spec x y)) p (p_pairs s)) as [Hp|Hp].
    + rewrite (times_0 p (map _ F)); [specialize (C3 p); lia|]. intros Hm. destruct p as [a b].
      destruct (A7 a b Hp) as (_ & Ha & Hb & _). apply in_map_iff in Hm as (e & Em & _).
      destruct (mkpair_cases (fst e) o) as [M|M]; rewrite M in Em; injection Em as <- <-; tauto.
    + rewrite (times_0 p (p_pairs s) Hp). apply (times_map p o F NF).
Qed.
Lemma pcomplete_ext s regs k k' b : (forall o, k o = k' o) -> pcomplete s (PS regs k b) -> pcomplete s (PS regs k' b).
Proof.
  intros H (C1 & C2 & C3). split; [|split; auto]; cbn [ps_regs ps_known] in *.
  - intros a Ha. unfold low, high in *. rewrite <- H. auto.
  - intros a c0. rewrite <- !H. auto.
Qed.
Lemma p_register_all_complete box os : forall s regs known, pinv s (PS regs known box) -> pcomplete s (PS regs known box) ->
  NoDup os -> (forall o, In o os -> ~ In o regs) -> tame_regs (PS regs known box) os ->
  pcomplete (fold_left (fun s o => p_register box o s) os s) (PS (regs ++ os) (set_boxes box known os) box).
Proof.
  induction os as [|o os IH]; intros s regs known I C ND D T; cbn [fold_left].
  - rewrite app_nil_r. exact C.
  - inversion_clear ND as [|? ? No ND']. replace (regs ++ o :: os) with ((regs ++ [o]) ++ os) by (rewrite <- app_assoc; auto).
    destruct T as [T1 T2]. cbn [ps_step] in T2.
    eapply pcomplete_ext; [|apply IH; [apply p_register_inv; [exact I|apply D; cbn; auto]| |auto| |exact T2]].
    + intros x. unfold set_boxes, set_box, mem. cbn [existsb].
      destruct (Nat.eqb_spec x o) as [->|]; cbn [orb]; [|auto]. destruct (existsb (Nat.eqb o) os); auto.
    + apply p_register_complete; auto. apply D; cbn; auto.
    + intros x Hx Hi. apply in_app_iff in Hi as [Hi|[<-|[]]]; [|auto]. apply (D x); cbn; auto.
Qed.
(** The pairs found in bulk. *)
Lemma p_bulk_pairs srt box os s : psorts srt -> (forall o, nonempty (box o)) -> NoDup os -> no_ties box os ->
  NoDup (p_pairs (p_bulk srt box os s)) /\ forall a b, In (a, b) (p_pairs (p_bulk srt box os s)) <->
    (a < b)%nat /\ In a os /\ In b os /\ overlap (box a) (box b) = true.
Proof.
  intros HS NE ND NT. pose proof (p_bulk_lists srt box os s HS) as HL. unfold p_bulk in *. cbn [p_pairs] in *. cbv zeta in *.
  set (c := set_boxes box (p_cached s) os) in *. set (k := p_bulk_axis srt c os).
  assert (Hk : (k < 3)%nat) by apply widest_lt. destruct (HL k Hk) as [Pk Sk]. cbn [p_list p_cached] in *.
  assert (Ec : forall a, In a os -> c a = box a).
  { intros a Ha. unfold c, set_boxes. apply mem_In in Ha. rewrite Ha. auto. }
  destruct (sweep_spec c k os _ Hk Pk Sk ND) as [N1 N2].
  - intros a b Ha Hb. unfold low, high. rewrite !Ec by auto. apply NT; auto.
  - intros a Ha. rewrite Ec; auto.
  - split; auto. intros a b. rewrite N2. split; intros (L & Ha & Hb & Ho); repeat split; auto; [rewrite !Ec in Ho|rewrite !Ec]; auto.
Qed.
Lemma p_step_complete srt op s x s' box' : psorts srt -> pinv s x -> pcomplete s x -> p_legal x op -> tame x op ->
  p_step srt op (s, ps_box x) = Some (s', box') -> pcomplete s' (ps_step x op).
Proof.
  intros HS I C HL T E. destruct x as [regs known box]. destruct op as [o b|o|os|o| |];
    cbn [p_step ps_step ps_box p_legal ps_regs tame] in *; try discriminate; injection E as <- <-; auto.
  - apply p_register_complete; auto.
  - destruct HL as [ND D]. unfold p_registers. destruct os as [|o os]; [rewrite app_nil_r; auto|].
    destruct (Nat.eqb_spec (p_size s) 0) as [E|E].
    + unfold p_size in E. rewrite (proj1 I) in E. apply length_zero_iff_nil in E. cbn in E. subst regs. cbn [app].
      destruct I as (_ & _ & A3 & _). cbn [ps_box] in A3. destruct (p_bulk_pairs srt box (o :: os) s HS A3 ND T) as [N1 N2].
      assert (Ec : forall a, In a (o :: os) -> set_boxes box known (o :: os) a = box a).
      { intros a Ha. unfold set_boxes. apply mem_In in Ha. rewrite Ha. auto. }
      split; [|split]; cbn [ps_regs ps_known].
      * intros a Ha. unfold low, high. rewrite Ec by auto. pose proof (T 0%nat a a ltac:(lia) Ha Ha) as Ha'.
        pose proof (nonempty_low box 0 a ltac:(lia) (A3 a)). unfold low, high in *. lia.
      * intros a b L Ha Hb. rewrite !Ec by auto. intros Ho. apply N2; auto.
      * intros p. pose proof (times_NoDup p _ N1). lia.
    + apply p_register_all_complete; auto. destruct regs; auto. exfalso. apply E. unfold p_size. rewrite (proj1 I). auto.
  - unfold p_setup. destruct (Nat.eqb (p_size s) 0); auto.
  - split; [intros a []|]. split; [intros a b _ []|intros p; cbn; lia].
Qed.
Lemma p_run_complete srt ops : psorts srt -> forall s x s' box', pinv s x -> pcomplete s x -> p_legal_from x ops -> tame_from x ops ->
  p_run srt ops (s, ps_box x) = Some (s', box') -> pcomplete s' (fold_left ps_step ops x).
Proof.
  intros HS. induction ops as [|op ops IH]; intros s x s' box' I C HL HT; cbn [p_run fold_left].
  - intros E. injection E as <- _. auto.
  - destruct HL as [H1 H2], HT as [T1 T2]. destruct (p_step_inv srt op s x HS I H1) as (s1 & E1 & I1). rewrite E1.
    intros E. eapply IH; eauto. eapply p_step_complete; eauto.
Qed.
