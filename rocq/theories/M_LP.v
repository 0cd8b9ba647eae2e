(** * Model of points and lines (class LPBase and helpers) *)

From Coq Require Import ZArith List Bool.
From Verif Require Import Num.
Local Open Scope num_scope.

(** Euclidean view of a finite point: what getX()/getY() return (homog2d.hpp:4133-4142).
    Simplification: functions that only read getX()/getY() are modelled on this record; the
    stored triple is [hpt]. *)
Record pt (T : Type) : Type := mkPt { px : T; py : T }.
Arguments mkPt {T}. Arguments px {T}. Arguments py {T}.

(** Stored homogeneous triple of a Point2d_ ([_v], homog2d.hpp:4463). *)
Record hpt (T : Type) : Type := mkH { h0 : T; h1 : T; h2 : T }.
Arguments mkH {T}. Arguments h0 {T}. Arguments h1 {T}. Arguments h2 {T}.

(** Stored triple of a Line2d_ ([_v], homog2d.hpp:4463): a.x + b.y + c = 0. *)
Record line (T : Type) : Type := mkL { la : T; lb : T; lc : T }.
Arguments mkL {T}. Arguments la {T}. Arguments lb {T}. Arguments lc {T}.

Section LP.
  Context {T : Type} {N : Num T}.
  Implicit Types (p q r : pt T) (l : line T) (th : thrs T).

  (** LPBase::p_init_2 for points, homog2d.hpp:9118-9125: no normalisation in this constructor. *)
  Definition hOfPt p : hpt T := mkH (px p) (py p) (#1).

  (** getX(), getY(), homog2d.hpp:4133-4142.  A null third value gives inf/NaN: [Undef]. *)
  Definition ptOfH (h : hpt T) : res (pt T) :=
    if h2 h =? #0 then Undef else Ok (mkPt (h0 h / h2 h) (h1 h / h2 h)).

  (** LPBase::impl_normalize for points, homog2d.hpp:8813-8829. *)
  Definition pnorm th (h : hpt T) : res (hpt T) :=
    let h' := if h0 h <? #0 then mkH (- h0 h) (- h1 h) (- h2 h) else h in
    if (nabs (h2 h') <? nullDenom th)
       && ((h0 h' <? nullOrthogDistance th) && (nabs (h1 h') <? nullOrthogDistance th))
    then Throw else Ok h'.

  (** LPBase::set(x,y), homog2d.hpp:4214-4224. *)
  Definition hset2 th (x y : T) : res (hpt T) := pnorm th (mkH x y (#1)).

  (** LPBase::translate for points, homog2d.hpp:4146-4158. *)
  Definition htranslate th (h : hpt T) (dx dy : T) : res (hpt T) :=
    if h2 h =? #0 then Undef
    else pnorm th (mkH (h0 h / h2 h + dx) (h1 h / h2 h + dy) (#1)).

  (** LPBase::isInf, homog2d.hpp:4257-4263. *)
  Definition hIsInf th (h : hpt T) : bool := nabs (h2 h) <? nullDenom th.

  (** LPBase::impl_normalize for lines, homog2d.hpp:8777-8807: divide by hypot(a,b), make a
      positive, and when a is small make b positive by negating b and c (not a). *)
  Definition lnorm th l : res (line T) :=
    let sq := hypot (la l) (lb l) in
    if sq <=? dblEpsilon th then Throw
    else
      let l1 := mkL (la l / sq) (lb l / sq) (lc l / sq) in
      let l2 := if la l1 <? #0 then mkL (- la l1) (- lb l1) (- lc l1) else l1 in
      let l3 := if nabs (la l2) <? nullDenom th
                then if lb l2 <? #0 then mkL (la l2) (- lb l2) (- lc l2) else l2
                else l2 in
      Ok l3.

  (** Constructor from 3 values / set(v0,v1,v2), homog2d.hpp:3885-3901. *)
  Definition lineSet3 th (a b c : T) : res (line T) := lnorm th (mkL a b c).
  Definition pointSet3 th (a b c : T) : res (hpt T) := pnorm th (mkH a b c).

  (** LPBase::impl_init_or, homog2d.hpp:4554-4568 (horizontal / vertical line). *)
  Definition lineV (x : T) : line T := mkL (#1) (#0) (- x).
  Definition lineH (y : T) : line T := mkL (#0) (#1) (- y).

  (** detail::crossProduct, homog2d.hpp:9057-9075, point*point and line*line. *)
  Definition crossPP (u v : hpt T) : line T :=
    mkL (h1 u * h2 v - h2 u * h1 v) (h2 u * h0 v - h0 u * h2 v) (h0 u * h1 v - h1 u * h0 v).
  Definition crossLL (u v : line T) : hpt T :=
    mkH (lb u * lc v - lc u * lb v) (lc u * la v - la u * lc v) (la u * lb v - lb u * la v).

  (** LPBase::impl_distToPoint for points, homog2d.hpp:9140-9152. *)
  Definition distPP p q : T := hypot (px p - px q) (py p - py q).

  (** priv::sqDist, homog2d.hpp:3577-3582. *)
  Definition sqDist p q : T :=
    let dx := px p - px q in let dy := py p - py q in dx * dx + dy * dy.

  (** LPBase::impl_op_equal for points, homog2d.hpp:9023-9026. *)
  Definition ptEq th p q : bool := distPP p q <? nullDistance th.

  (** LPBase::operator <, homog2d.hpp:9032-9043. *)
  Definition ptLt p q : bool :=
    if px p <? px q then true
    else if px p >? px q then false
    else if py p <? py q then true
    else false.

  (** priv::fix_order, homog2d.hpp:3558-3562 (the pair after the call). *)
  Definition fixOrder p q : pt T * pt T := if negb (ptLt p q) then (q, p) else (p, q).

  (** priv::sign, homog2d.hpp:3567-3569. *)
  Definition nsign (x : T) : Z :=
    Z.sub (if #0 <? x then 1%Z else 0%Z) (if x <? #0 then 1%Z else 0%Z).

  (** operator*(Point2d_,Point2d_), homog2d.hpp:3668-3677, and the two-point line constructor
      :3839-3847 (same check, same normalisation), on stored triples. *)
  Definition lineOfH th (u v : hpt T) : res (line T) :=
    do p <- ptOfH u; do q <- ptOfH v;
    if ptEq th p q then Throw else lnorm th (crossPP u v).

  (** The same for points given by their coordinates (third value 1). *)
  Definition lineOf th p q : res (line T) :=
    if ptEq th p q then Throw else lnorm th (crossPP (hOfPt p) (hOfPt q)).

  (** LPBase::impl_distToPoint for lines, homog2d.hpp:9167-9179.
      Stored lines have (a,b) <> (0,0) (see [lnorm]); theorems state it where needed. *)
  Definition lineDist l p : T :=
    nabs (la l * px p + lb l * py p + lc l) / hypot (la l) (lb l).

  (** LPBase::getAngle, homog2d.hpp:9267-9291. *)
  Definition lineAngle l (m : line T) : T :=
    let res := la l * la m + lb l * lb m in
    let res := res / nsqrt ((la l * la l + lb l * lb l) * (la m * la m + lb m * lb m)) in
    let fres := nabs res in
    let fres := if fres >? #1 then #1 else fres in
    nacos fres.

  (** LPBase::isParallelTo, homog2d.hpp:9232-9239. *)
  Definition isParallel th l (m : line T) : bool := lineAngle l m <? nullAngleValue th.

  (** operator*(Line2d_,Line2d_), homog2d.hpp:9632-9642 (no normalisation of the result). *)
  Definition meetH th l (m : line T) : res (hpt T) :=
    if isParallel th l m then Throw else Ok (crossLL l m).
  (** Its Euclidean coordinates. *)
  Definition meet th l (m : line T) : res (pt T) := do h <- meetH th l m; ptOfH h.

  (** LPBase::intersects(Line2d_), homog2d.hpp:4289-4296: None when parallel. *)
  Definition lineInterLine th l (m : line T) : res (option (pt T)) :=
    if isParallel th l m then Ok None else do q <- ptOfH (crossLL l m); Ok (Some q).

  (** LPBase::impl_op_equal for lines, homog2d.hpp:9009-9018. *)
  Definition lineEq th l (m : line T) : bool :=
    if negb (isParallel th l m) then false
    else if nabs (lc l - lc m) >? nullDistance th then false else true.

  (** LPBase::getCoord, homog2d.hpp:8835-8850 ([true] = GivenCoord::X). *)
  Definition getCoord th l (givenX : bool) (other : T) : res T :=
    let denom := if givenX then lb l else la l in
    if nabs denom <? nullDenom th then Throw
    else if givenX then Ok ((- la l * other - lc l) / lb l)
         else Ok ((- lb l * other - lc l) / la l).

  (** LPBase::getPoint, homog2d.hpp:4075-4084. *)
  Definition getPoint th l (givenX : bool) (other : T) : res (pt T) :=
    do c <- getCoord th l givenX other;
    Ok (if givenX then mkPt other c else mkPt c other).

  (** priv::getPoints_B2, homog2d.hpp:3717-3734. *)
  Definition getPoints_B2 p (dist : T) l : pt T * pt T :=
    let coeff := dist / nsqrt (la l * la l + lb l * lb l) in
    let p1 := mkPt (px p - lb l * coeff) (py p + la l * coeff) in
    let p2 := mkPt (px p + lb l * coeff) (py p - la l * coeff) in
    fixOrder p1 p2.

  (** LPBase::getPoints(pt,dist), homog2d.hpp:8858-8874. *)
  Definition getPoints th l p (dist : T) : res (pt T * pt T) :=
    if lineDist l p >? nullDistance th then Throw else Ok (getPoints_B2 p dist l).

  (** priv::getOrthogonalLine_B2, homog2d.hpp:3740-3750 (3-value constructor normalises, then
      normalises again), and LPBase::getOrthogLine(pt) :8898-8913. *)
  Definition getOrthogLine th l p : res (line T) :=
    do o <- lineSet3 th (- lb l) (la l) (lb l * px p - la l * py p);
    lnorm th o.

  (** LPBase::getParallelLine, homog2d.hpp:8972-8980. *)
  Definition getParallelLine th l p : res (line T) :=
    lnorm th (mkL (la l) (lb l) (- la l * px p - lb l * py p)).

  (** LPBase::getParallelLines, homog2d.hpp:8988-8997 (no renormalisation). *)
  Definition getParallelLines l (dist : T) : line T * line T :=
    (mkL (la l) (lb l) (lc l + dist), mkL (la l) (lb l) (lc l - dist)).

  (** LPBase::getOrthogSegment, homog2d.hpp:8945-8965; the result is the OSegment (projection, p);
      its constructor throws when both points are equal (:4904). *)
  Definition getOrthogSegment th l p : res (pt T * pt T) :=
    let dist := lineDist l p in
    if dist <? nullDistance th then Throw
    else
      let (l1, l2) := getParallelLines l dist in
      let pl := if lineDist l2 p <? nullDistance th then l2 else l1 in
      do o <- getOrthogLine th pl p;
      do p2 <- meet th l o;
      if ptEq th p2 p then Throw else Ok (p2, p).

  (** Free function side(), homog2d.hpp:9833-9844.  Simplification: std::signbit(d) is d<0
      (the case d=0 is excluded by the test just before). *)
  Definition side th p l : Z :=
    let d := la l * px p + lb l * py p + lc l in
    if nabs d <? nullDistance th then 0%Z
    else if d <? #0 then (-1)%Z else 1%Z.

  (** priv::getLargestDistancePoints, homog2d.hpp:3616-3660.  The C++ swaps the pointed-to
      objects; the returned array is {*pA,*pB,*pM}. *)
  Definition getLargestDistancePoints p1 p2 p3 : pt T * pt T * pt T :=
    let d12 := sqDist p1 p2 in
    let d13 := sqDist p1 p3 in
    let d23 := sqDist p2 p3 in
    if d12 >? d13 then
      if d12 >? d23 then
        if d13 >? d23 then (p1, p2, p3) else (p2, p1, p3)
      else (p2, p3, p1)
    else
      if d13 >? d23 then
        if d12 >? d23 then (p1, p3, p2) else (p3, p1, p2)
      else (p3, p2, p1).

  (** areCollinear, homog2d.hpp:3687-3698. *)
  Definition areCollinear th p1 p2 p3 : res bool :=
    if ptEq th p1 p2 || ptEq th p2 p3 || ptEq th p1 p3 then Ok true
    else
      let '(a, b, m) := getLargestDistancePoints p1 p2 p3 in
      do li <- lineOf th a b;
      Ok (lineDist li m <? nullDistance th).
End LP.
