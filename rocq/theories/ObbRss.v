(** OBBRSS (include/fcl/math/bv/OBBRSS-inl.h), and translate, size and volume of RSS (include/fcl/math/bv/RSS-inl.h).
    The sums (OBBRSS-inl.h 76-102) are those of the two parts, see C61 for RSS and C42 for OBB; they are not repeated here. *)
From Coq Require Import Reals.
From Verif Require Import VecR Obb Motion Convert RectSeg.
Open Scope R_scope.

(** RSS::volume (401-405), RSS::size (408-412), translate(RSS) (1977-1983); translate(OBB) adds t to the centre *)
Definition rss_volume (b : rss) : R := rl0 b * rl1 b * 2 * rr b + 4 * PI * rr b * rr b * rr b.
Definition rss_size (b : rss) : R := sqrt (rl0 b * rl0 b + rl1 b * rl1 b) + 2 * rr b.
Definition rss_translate (b : rss) (t : v3) : rss := Rss (vadd (To b) t) (rax b) (rl0 b) (rl1 b) (rr b).
Definition obb_translate (b : obb) (t : v3) : obb := mkobb (ax b) (vadd (oc b) t) (ext b).

(** OBBRSS.h: both volumes *)
Record obbrss := ObbRss { o_box : obb; o_rss : rss }.
(** overlap (55-67), contain (70-74), distance (146-151) *)
Definition obbrss_overlap (a b : obbrss) : bool := obb_overlap (o_box a) (o_box b).
Definition obbrss_contain (a : obbrss) (p : v3) : bool := obb_contain (o_box a) p.
Definition obbrss_distance (a b : obbrss) : R := rss_distance (o_rss a) (o_rss b).
(** overlap(R0, T0, b1, b2) (154-160), distance(R0, T0, b1, b2) (163-171) *)
Definition obbrss_overlap_rt (X : tf) (a b : obbrss) : bool := obb_overlap_rt (tf_rot X) (tf_tr X) (o_box a) (o_box b).
Definition obbrss_distance_rt (X : tf) (a b : obbrss) : R := rss_distance_rt X (o_rss a) (o_rss b).
(** translate (174-181) *)
Definition obbrss_translate (a : obbrss) (t : v3) : obbrss := ObbRss (obb_translate (o_box a) t) (rss_translate (o_rss a) t).
