(** * Model of segments (class SegVec) and of the line/circle intersection *)

From Coq Require Import ZArith List Bool.
From Verif Require Import Num M_LP.
Import ListNotations.
Local Open Scope num_scope.

(** SegVec, homog2d.hpp:4885 ([_ptS1], [_ptS2]).
    Simplification: the points are kept as Euclidean coordinates (a segment at infinity is not
    modelled). *)
Record seg (T : Type) : Type := mkSeg { sA : pt T; sB : pt T }.
Arguments mkSeg {T}. Arguments sA {T}. Arguments sB {T}.

(** The tag types typ::IsSegment / typ::IsOSeg. *)
Inductive skind := KSeg | KOSeg.

(** enum class PointSide, homog2d.hpp:4829. *)
Inductive pside := SideLeft | SideRight | SideNeither.

Section Seg.
  Context {T : Type} {N : Num T}.
  Implicit Types (p q r : pt T) (s : seg T) (l : line T) (th : thrs T) (k : skind).

  (** priv::fix_order on the two members. *)
  Definition segOrder s : seg T := let (a, b) := fixOrder (sA s) (sB s) in mkSeg a b.

  (** Default constructor, homog2d.hpp:4892. *)
  Definition svDefault : seg T := mkSeg (mkPt (#0) (#0)) (mkPt (#1) (#1)).

  (** Constructor from two points, homog2d.hpp:4900-4909. *)
  Definition svNew th k p q : res (seg T) :=
    if ptEq th p q then Throw
    else Ok (match k with KSeg => segOrder (mkSeg p q) | KOSeg => mkSeg p q end).

  (** Copy/conversion constructor, homog2d.hpp:4936-4947: [kFrom] is the kind of the source.  The
      order is fixed only if the source is a Segment.  OSegment(Segment) does not compile. *)
  Definition svConvert (kTo kFrom : skind) s : seg T :=
    match kFrom with KSeg => segOrder s | KOSeg => s end.

  (** Unary minus, homog2d.hpp:4955-4960: returned object, and operand after the call. *)
  Definition svNeg s : seg T * seg T := let s' := mkSeg (sB s) (sA s) in (s', s').

  (** set(p1,p2), homog2d.hpp:4964-4974: the check comes before the assignments. *)
  Definition svSet th k p q : res (seg T) := svNew th k p q.

  (** translate, homog2d.hpp:4996-5002.  Simplification: Euclidean coordinates (LPBase::translate
      never throws for a finite point, see [htranslate]). *)
  Definition ptTranslate p (dx dy : T) : pt T := mkPt (px p + dx) (py p + dy).
  Definition svTranslate s (dx dy : T) : seg T := mkSeg (ptTranslate (sA s) dx dy) (ptTranslate (sB s) dx dy).

  (** moveTo, homog2d.hpp:5022-5028. *)
  Definition svMoveTo s p : seg T :=
    let w := px (sB s) - px (sA s) in
    let h := py (sB s) - py (sA s) in
    mkSeg p (mkPt (px p + w) (py p + h)).

  (** length, homog2d.hpp:5051-5054. *)
  Definition svLength s : T := distPP (sA s) (sB s).

  (** getVector, homog2d.hpp:5064-5071. *)
  Definition svVector s : T * T := (px (sB s) - px (sA s), py (sB s) - py (sA s)).

  (** getLine, homog2d.hpp:5256-5262. *)
  Definition svLine th s : res (line T) := lineOf th (sA s) (sB s).

  (** getAngle(SegVec), homog2d.hpp:5081-5099: both oriented / otherwise. *)
  Definition svAngleO s (s2 : seg T) : T :=
    let (dx1, dy1) := svVector s in
    let (dx2, dy2) := svVector s2 in
    natan2 (dx1 * dy2 - dy1 * dx2) (dx1 * dx2 + dy1 * dy2).
  Definition svAngleL th s (s2 : seg T) : res T :=
    do l2 <- svLine th s2; do l1 <- svLine th s; Ok (lineAngle l2 l1).

  (** operator ==, homog2d.hpp:5113-5120; operator <, :5126-5129. *)
  Definition svEq th s (s2 : seg T) : bool :=
    if negb (ptEq th (sA s) (sA s2)) then false
    else if negb (ptEq th (sB s) (sB s2)) then false
    else true.
  Definition svLt s (s2 : seg T) : bool := ptLt (sA s) (sA s2).

  (** p_getOrthog, homog2d.hpp:5217-5231 (array indexes 0,1,2,3). *)
  Definition svOrthogPts s : list (pt T) :=
    let x1 := px (sA s) in let x2 := px (sB s) in
    let y1 := py (sA s) in let y2 := py (sB s) in
    let dx := x1 - x2 in let dy := y1 - y2 in
    [mkPt (x1 - dy) (y1 + dx); mkPt (x1 + dy) (y1 - dx); mkPt (x2 + dy) (y2 - dx); mkPt (x2 - dy) (y2 + dx)].

  (** getOrthogSegs, homog2d.hpp:5243-5252. *)
  Definition svOrthogSegs th s : res (list (seg T)) :=
    match svOrthogPts s with
    | [a; b; c; d] =>
        do s0 <- svNew th KSeg (sA s) a; do s1 <- svNew th KSeg (sA s) b;
        do s2 <- svNew th KSeg (sB s) c; do s3 <- svNew th KSeg (sB s) d;
        Ok [s0; s1; s2; s3]
    | _ => Undef
    end.

  (** getCenter, homog2d.hpp:5292-5298. *)
  Definition svCenter s : pt T :=
    mkPt ((px (sA s) + px (sB s)) / #2) ((py (sA s) + py (sB s)) / #2).

  (** getBisector, homog2d.hpp:5305-5309. *)
  Definition svBisector th s : res (line T) := do l <- svLine th s; getOrthogLine th l (svCenter s).

  (** split(), homog2d.hpp:5350-5357. *)
  Definition svSplit th k s : res (seg T * seg T) :=
    let m := svCenter s in
    do s1 <- svNew th k (sA s) m; do s2 <- svNew th k m (sB s); Ok (s1, s2).

  (** getPointAt, homog2d.hpp:5415-5430. *)
  Definition svPointAt th s (dist : T) : res (pt T) :=
    if dist <? #0 then Throw
    else
      do li <- svLine th s;
      do ppts <- getPoints th li (sA s) dist;
      Ok (if distPP (sB s) (fst ppts) <? distPP (sB s) (snd ppts) then fst ppts else snd ppts).

  (** split(dist), homog2d.hpp:5365-5382. *)
  Definition svSplitAt th s (dist : T) : res (seg T * seg T) :=
    if dist <=? #0 then Throw
    else if dist >=? svLength s then Throw
    else
      do p <- svPointAt th s dist;
      do s1 <- svNew th KOSeg (sA s) p; do s2 <- svNew th KOSeg p (sB s); Ok (s1, s2).

  (** detail::crossProductV, homog2d.hpp:9080-9102. *)
  Definition crossV s (s2 : seg T) : T :=
    let (dx1, dy1) := svVector s in
    let (dx2, dy2) := svVector s2 in
    dx1 * dy2 - dy1 * dx2.

  (** getPointSide, homog2d.hpp:5390-5408. *)
  Definition svPointSide th s p : res pside :=
    if ptEq th p (sA s) || ptEq th p (sB s) then Ok SideNeither
    else
      do other <- svNew th KOSeg (sA s) p;
      Ok (match nsign (crossV other s) with
          | 0%Z => SideNeither | Zneg _ => SideLeft | Zpos _ => SideRight end).

  (** getParallelSegs, homog2d.hpp:5442-5470. *)
  Definition svParallelSegs th k s (dist : T) : res (seg T * seg T) :=
    if dist <=? #0 then Throw
    else
      do l <- svLine th s;
      let (p1, p2) := getParallelLines l dist in
      do lo1 <- getOrthogLine th l (sA s);
      do lo2 <- getOrthogLine th l (sB s);
      do a1 <- meet th lo1 p1; do a2 <- meet th lo2 p1;
      do b1 <- meet th lo1 p2; do b2 <- meet th lo2 p2;
      do swap <- match k with
                 | KSeg => Ok false
                 | KOSeg => do sd <- svPointSide th s b1;
                            Ok (match sd with SideLeft => true | _ => false end)
                 end;
      if (swap : bool)
      then do s1 <- svNew th k b1 b2; do s2 <- svNew th k a1 a2; Ok (s1, s2)
      else do s1 <- svNew th k a1 a2; do s2 <- svNew th k b1 b2; Ok (s1, s2).

  (** distTo(pt,segDistCase), homog2d.hpp:5513-5563: distance and case. *)
  Definition svDist s p : res (T * Z) :=
    let x1 := px (sA s) in let y1 := py (sA s) in
    let x2 := px (sB s) in let y2 := py (sB s) in
    let a := px p - x1 in let b := py p - y1 in
    let c := x2 - x1 in let d := y2 - y1 in
    let dot := a * c + b * d in
    let len_sq := c * c + d * d in
    do param <- cdiv dot len_sq;
    let '(xx, yy, cs) :=
      if param <? #0 then (x1, y1, (-1)%Z)
      else if param >? #1 then (x2, y2, 1%Z)
      else (x1 + param * c, y1 + param * d, 0%Z) in
    let dx := px p - xx in let dy := py p - yy in
    Ok (nsqrt (dx * dx + dy * dy), cs).

  (** LPBase::impl_intersectsCircle, homog2d.hpp:9463-9505: None / the two points in order.
      Simplification: the divisions by sqrt(a2b2) and a2b2 are not guarded here; stored lines have
      a2b2 = 1 (see [lnorm]); theorems state it where needed. *)
  Definition lineCircle l p (radius : T) : option (pt T * pt T) :=
    let a := la l in let b := lb l in let c := lc l in
    let cp := px p * a + py p * b + c in
    let a2b2 := a * a + b * b in
    let d0 := nabs cp / nsqrt a2b2 in
    if radius <? d0 then None
    else
      let d2 := radius * radius - d0 * d0 in
      let xb := - a * cp / a2b2 in
      let yb := - b * cp / a2b2 in
      let m := nsqrt (d2 / a2b2) in
      let x1 := xb + m * b in let y1 := yb - m * a in
      let x2 := xb - m * b in let y2 := yb + m * a in
      Some (fixOrder (mkPt (x1 + px p) (y1 + py p)) (mkPt (x2 + px p) (y2 + py p))).

  (** Test made by the Circle_(center,radius) constructor, homog2d.hpp:3241-3250. *)
  Definition radiusOk th (noCheck : bool) (rad : T) : bool :=
    negb ((nabs rad <? nullDistance th) && negb noCheck) && negb (rad <? #0).

  (** getExtended, homog2d.hpp:5480-5499 (Segment only: for an OSegment the final conversion does
      not compile).  A failed assert is [Undef]. *)
  Definition svExtended th s : res (seg T) :=
    let sg := svConvert KSeg KSeg s in
    do li <- svLine th sg;
    let rad := svLength sg in
    if negb (radiusOk th false rad) then Throw
    else match lineCircle li (sA s) rad, lineCircle li (sB s) rad with
         | Some i1, Some i2 => svNew th KSeg (fst i1) (snd i2)
         | _, _ => Undef
         end.

  (** Segment/Segment intersection, homog2d.hpp:8209-8237. *)
  Definition segInterSeg th s (s2 : seg T) : res (option (pt T)) :=
    if svEq th s s2 then Ok None
    else
      do l1 <- svLine th s; do l2 <- svLine th s2;
      if isParallel th l1 l2 then Ok None
      else
        do pi <- meet th l1 l2;
        let dA1 := distPP (sA s) pi in
        let dA2 := distPP (sB s) pi in
        if nabs (dA1 + dA2 - svLength s) <? nullDistance th then
          let dB1 := distPP (sA s2) pi in
          let dB2 := distPP (sB s2) pi in
          if nabs (dB1 + dB2 - svLength s2) <? nullDistance th then Ok (Some pi) else Ok None
        else Ok None.

  (** Segment/Line intersection, homog2d.hpp:8248-8270. *)
  Definition segInterLine th s l : res (option (pt T)) :=
    do l2 <- svLine th s;
    if isParallel th l l2 then Ok None
    else
      do pi <- meet th l l2;
      let d1 := distPP (sA s) pi in
      let d2 := distPP (sB s) pi in
      if nabs (d1 + d2 - svLength s) <? nullDistance th then Ok (Some pi) else Ok None.

  (** Histories of a SegVec object; an operation that throws leaves it unchanged. *)
  Inductive sop :=
  | SSet (p q : pt T) | STranslate (dx dy : T) | SMoveTo (p : pt T).
  Definition segStep th k s (op : sop) : seg T :=
    match op with
    | SSet p q => match svSet th k p q with Ok s' => s' | _ => s end
    | STranslate dx dy => svTranslate s dx dy
    | SMoveTo p => svMoveTo s p
    end.
  Definition segRun th k s ops : seg T := fold_left (segStep th k) ops s.
End Seg.
Arguments sop T : clear implicits.
