(** * Model of "is inside a polygon" *)

From Coq Require Import ZArith List Bool Arith.
From Verif Require Import Num M_LP M_Seg M_Circle M_Poly M_FRect.
Import ListNotations.
Local Open Scope num_scope.

Section Pip.
  Context {T : Type} {N : Num T}.
  Implicit Types (p q : pt T) (pts : list (pt T)) (s : seg T) (th : thrs T) (pl : poly T) (closed : bool) (c : circle T) (r : frect T).

  (** Number of elements for which a test that may throw holds (the loop of homog2d.hpp:9395-9400). *)
  Fixpoint countM {A} (f : A -> res bool) (l : list A) : res nat :=
    match l with
    | [] => Ok 0%nat
    | x :: t => do b <- f x; do n <- countM f t; Ok (if (b : bool) then S n else n)
    end.

  (** IntersectCommon::operator(), homog2d.hpp:2478-2481: whether there is an intersection. *)
  Definition hasInter th s (s2 : seg T) : res bool :=
    do it <- segInterSeg th s s2; Ok (match it with Some _ => true | None => false end).

  (** Loop of homog2d.hpp:9387-9392: is some vertex at less than nullDistance of the reference segment
      (LPBase::distTo(Segment_), :9194-9198, calls Segment_::distTo). *)
  Definition pipNear th pts s : res bool :=
    anyM (fun v => do (d, _) <- svDist s v; Ok (d <? nullDistance th)) pts.

  (** The for loop over the segments of the extended bounding box, homog2d.hpp:9382-9403: [inl b] when
      the function returns [b], [inr tooClose] at the end.  The flag is not reset between two turns. *)
  Fixpoint pipFor th p pts (segs bb : list (seg T)) (tooClose : bool) : res (bool + bool) :=
    match bb with
    | [] => Ok (inr tooClose)
    | s :: t =>
        do ref <- svNew th KSeg p (svCenter s);
        do tc <- (if tooClose then Ok true else pipNear th pts ref);
        if (tc : bool) then pipFor th p pts segs t true
        else do n <- countM (fun x => hasInter th x ref) segs; Ok (inl (Nat.odd n))
    end.

  (** Splitting of each segment of the bounding box, homog2d.hpp:9409-9416. *)
  Fixpoint pipSplit th (bb : list (seg T)) : res (list (seg T)) :=
    match bb with
    | [] => Ok []
    | s :: t => do (a, b) <- svSplit th KSeg s; do o <- pipSplit th t; Ok (a :: b :: o)
    end.

  (** The do-while loop, homog2d.hpp:9378-9421: [n] iterations are left (HOMOG2D_MAXITER_PIP is 5, :228). *)
  Fixpoint pipLoop th p pts (segs : list (seg T)) (n : nat) (bb : list (seg T)) : res bool :=
    match n with
    | O => Throw
    | S k =>
        do x <- pipFor th p pts segs bb false;
        match x with
        | inl b => Ok b
        | inr tc =>
            do bb' <- (if (tc : bool) && negb (k =? 0)%nat then pipSplit th bb else Ok bb);
            pipLoop th p pts segs k bb'
        end
    end.

  (** LPBase::impl_isInsidePoly for points, homog2d.hpp:9360-9423 (isInside(PolylineBase), :4398-4402):
      answer, and polygon after the call (isSimple() fills its cache). *)
  Definition ptInPoly th closed p pl : res (bool * poly T) :=
    do (sim, pl') <- plIsSimple th closed pl;
    if negb sim then Ok (false, pl')
    else
      do bbox <- plBB th (plPts pl);
      if negb (ptInRect p bbox) then Ok (false, pl')
      else
        do segs <- plSegs th closed KSeg (plPts pl);
        do near <- anyM (fun s => do l <- svLine th s; Ok (lineDist l p <? nullDistance th)) segs;
        if (near : bool) then Ok (false, pl')
        else
          do ext <- frExtended th bbox;
          do bb <- frSegs th ext;
          do b <- pipLoop th p (plPts pl) segs 5 bb;
          Ok (b, pl').
  (** The answer alone. *)
  Definition ptInPolyB th closed pl p : res bool := do (b, _) <- ptInPoly th closed p pl; Ok b.

  (** A loop that stops at the first [false] (as homog2d.hpp:3035-3037, 6627-6629). *)
  Fixpoint allM {A} (f : A -> res bool) (l : list A) : res bool :=
    match l with
    | [] => Ok true
    | x :: t => do b <- f x; if (b : bool) then allM f t else Ok false
    end.

  (** SegVec::isInside(CPolyline), homog2d.hpp:5180-5189, p_bothPtsAreInside, :5134-5141. *)
  Definition segInPoly th s pl : res bool :=
    do b <- allM (ptInPolyB th true pl) [sA s; sB s];
    if negb b then Ok false
    else
      do segs <- plSegs th true KSeg (plPts pl);
      do h <- anyM (fun x => hasInter th x s) segs;
      Ok (negb h).

  (** PolylineBase::intersects(Segment), homog2d.hpp:6572-6582, reduced to "is there an intersection". *)
  Definition plHitsSeg th closed pts s : res bool :=
    do segs <- plSegs th closed KSeg pts;
    do n <- countM (fun x => hasInter th x s) segs;
    Ok (negb (n =? 0)%nat).

  (** FRect::isInside(CPolyline), homog2d.hpp:3029-3039 (seg.intersects(poly) is poly.intersects(seg)). *)
  Definition frInPoly th r pl : res bool :=
    do rs <- frSegs th r;
    do h <- anyM (plHitsSeg th true (plPts pl)) rs;
    if (h : bool) then Ok false else allM (ptInPolyB th true pl) (fr4Pts r).

  (** PolylineBase::isInside for a circle, a rectangle or an ellipse, homog2d.hpp:6600-6609: [f] is the
      test of one point. *)
  Definition plInPrim (f : pt T -> bool) pts : bool :=
    match pts with [] => false | _ => forallb f pts end.

  (** PolylineBase::isInside(CPolyline), homog2d.hpp:6622-6633 ([closed]: kind of the inner polyline). *)
  Definition plInPoly th closed pts pl : res bool :=
    match pts with
    | [] => Ok false
    | _ =>
        do b <- allM (ptInPolyB th true pl) pts;
        if negb b then Ok false
        else
          do segs <- plSegs th closed KSeg pts;
          do n <- countM (plHitsSeg th true (plPts pl)) segs;
          Ok (n =? 0)%nat
    end.

  (** Circle_::isInside(PolylineBase), homog2d.hpp:5776-5789; PolylineBase::intersects(Circle), :6572-6582.
      The access to the first point comes after isSimple(), so the list is not empty. *)
  Definition cInPoly th closed c pl : res bool :=
    do (sim, _) <- plIsSimple th closed pl;
    if negb sim then Ok false
    else if ptInCircle (nth 0 (plPts pl) pt00) c then Ok false
    else
      do b <- ptInPolyB th closed pl (cc c);
      if negb b then Ok false
      else
        do segs <- plSegs th closed KSeg (plPts pl);
        do n <- countM (fun x => do v <- segCircle th x c; Ok (negb (length v =? 0)%nat)) segs;
        Ok (n =? 0)%nat.
End Pip.
