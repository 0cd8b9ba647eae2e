(** * Model of offset polygons, bisector lines, distance of parallel lines and common tangents of two circles *)

From Coq Require Import ZArith List Bool Arith.
From Verif Require Import Num M_LP M_Homogr M_Seg M_Circle M_Poly.
Import ListNotations.
Local Open Scope num_scope.

Section Offset.
  Context {T : Type} {N : Num T}.
  Implicit Types (p : pt T) (l : line T) (s : seg T) (pl : poly T) (pts : list (pt T)) (th : thrs T) (c : circle T).

  (** std::vector::at, which throws out of range. *)
  Definition at_ {A} (l : list A) (i : nat) : res A := match nth_error l i with Some x => Ok x | None => Throw end.

  (** ** getOffsetPoly, homog2d.hpp:6674-6762 *)

  (** Points added for one vertex, homog2d.hpp:6713-6751: [s1], [s2] the oriented sides before and after the
      vertex [p1], [split] the parameter _angleSplit (:6039-6042, false by default). *)
  Definition offsetVertex th (split : bool) (dist : T) p1 s1 (s2 : seg T) : res (list (pt T)) :=
    do (a1, b1) <- svParallelSegs th KOSeg s1 (nabs dist);
    do (a2, b2) <- svParallelSegs th KOSeg s2 (nabs dist);
    do li1 <- svLine th (if dist <? #0 then b1 else a1);
    do li2 <- svLine th (if dist <? #0 then b2 else a2);
    if isParallel th li1 li2 then Ok []
    else
      do q <- meet th li1 li2;
      if negb split || (svAngleO s1 s2 >? #0) || (dist <? #0) then Ok [q]
      else
        do so <- svNew th KOSeg p1 q;
        let cut := if dist <? svLength so then dist else svLength so in
        do pc <- svPointAt th so cut;
        do lo <- svLine th so;
        do oli <- getOrthogLine th lo pc;
        do q1 <- meet th oli li1;
        do q2 <- meet th oli li2;
        Ok (if ptEq th q1 q2 then [q1] else [q1; q2]).

  (** The do-while loop, homog2d.hpp:6709-6758, [n] steps left, [cur] the counter, [s1] the current side. *)
  Fixpoint offsetLoop th split dist pts (osegs : list (seg T)) (n cur : nat) s1 : res (list (pt T)) :=
    match n with
    | O => Ok []
    | S n' =>
        let next := if (cur =? length pts - 1)%nat then 0%nat else S cur in
        do p1 <- plPoint pts next;
        do s2 <- at_ osegs next;
        do v <- offsetVertex th split dist p1 s1 s2;
        do r <- offsetLoop th split dist pts osegs n' (S cur) s2;
        Ok (v ++ r)
    end.

  (** The function: result, and the object after the call (isSimple() fills the cache, p_normalizePoly()
      reorders the points).  All tests are made before any return.  The messages of failure are left out. *)
  Definition plOffset th (closed split : bool) pl (dist : T) : res (poly T * poly T) :=
    do (simple, pl1) <- plIsSimple th closed pl;
    if (nabs dist <? nullDistance th) || (length (plPts pl) <? 3)%nat || negb simple then Ok (plEmpty, pl1)
    else
      do pl2 <- plNormalize closed pl1;
      let pts := plPts pl2 in
      do osegs <- plSegs th closed KOSeg pts;
      do s1 <- at_ osegs 0%nat;
      do v <- offsetLoop th split dist pts osegs (length pts) 0%nat s1;
      do out <- plSet th v;
      Ok (out, pl2).

  (** ** getBisectorLines, homog2d.hpp:9984-10022: [seg1] goes from the vertex to the previous one. *)
  Fixpoint bisLoop th s1 (todo : list (pt T * pt T)) : res (list (line T)) :=
    match todo with
    | [] => Ok []
    | (p, q) :: r =>
        do s2 <- svNew th KOSeg p q;
        do l <- svLine th s1;
        do b <- getRotatedLine th l p (svAngleO s1 s2 / #2);
        do out <- bisLoop th (fst (svNeg s2)) r;
        Ok (b :: out)
    end.
  Definition plBisectorLines th (closed : bool) pts : res (list (line T)) :=
    match pts with
    | p0 :: p1 :: _ :: _ =>
        if closed
        then do s1 <- svNew th KOSeg p0 (last pts pt00); bisLoop th s1 (combine pts (tl pts ++ [p0]))
        else do s1 <- svNew th KOSeg p1 p0; bisLoop th s1 (combine (tl pts) (tl (tl pts)))
    | _ => Throw
    end.

  (** ** getParallelDistance, homog2d.hpp:10972-10995; the root of a negative number is [Undef]. *)
  Definition parallelDistance th l (m : line T) : res T :=
    if negb (isParallel th l m) then Throw
    else
      do a <- csqrt (la l * la m);
      do b <- csqrt (lb l * lb m);
      do d <- csqrt (a * a + b * b);
      cdiv (nabs (lc l - lc m)) d.

  (** ** getTanSegs, homog2d.hpp:10796-10856; asin outside [-1,1] is [Undef]. *)
  Definition casin (x : T) : res T := if (x <? - #1) || (#1 <? x) then Undef else Ok (nasin x).
  (** The point of [l] at distance [d] of [p] that is the closest to [o], :10831-10839. *)
  Definition nearestPoint th l p (d : T) (o : pt T) : res (pt T) :=
    do (a, b) <- getPoints th l p d;
    Ok (if distPP b o <? distPP a o then b else a).
  Definition tanSegs th c (d : circle T) : res (seg T * seg T) :=
    if cEq th c d then Throw
    else if nabs (cr c - cr d) <? nullDistance th
    then do s <- svNew th KSeg (cc c) (cc d); svParallelSegs th KSeg s (cr c)
    else
      let (cA, cB) := if cr c <? cr d then (d, c) else (c, d) in
      let h := distPP (cc cA) (cc cB) in
      do q <- cdiv (cr cA - cr cB) h;
      do theta <- casin q;
      let hcost := h * ncos theta in
      do l0 <- lineOf th (cc cA) (cc cB);
      do l1 <- getRotatedLine th l0 (cc cB) theta;
      do l2 <- getRotatedLine th l0 (cc cB) (- theta);
      do p1 <- nearestPoint th l1 (cc cB) hcost (cc cA);
      do p2 <- nearestPoint th l2 (cc cB) hcost (cc cA);
      do s1 <- svNew th KSeg p1 (cc cB);
      do s2 <- svNew th KSeg p2 (cc cB);
      do (a1, b1) <- svParallelSegs th KSeg s1 (cr cB);
      do da1 <- svDist a1 (cc cA); do db1 <- svDist b1 (cc cA);
      let r1 := if fst da1 <? fst db1 then b1 else a1 in
      do (a2, b2) <- svParallelSegs th KSeg s2 (cr cB);
      do db2 <- svDist b2 (cc cA); do da2 <- svDist a2 (cc cA);
      let r2 := if fst db2 <? fst da2 then a2 else b2 in
      Ok (r1, r2).
End Offset.
