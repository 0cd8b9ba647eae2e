(** * Model of the products of a homography by segments, polylines, rectangles and containers *)

From Coq Require Import ZArith List Bool Arith.
From Verif Require Import Num M_LP M_Homogr M_Seg M_Poly M_FRect.
Import ListNotations.
Local Open Scope num_scope.

Section Map.
  Context {T : Type} {N : Num T}.
  Implicit Types (h : mat T) (p : pt T) (pts : list (pt T)) (th : thrs T).

  (** Homography times point, homog2d.hpp:9665-9673, then getX() and getY(), which the
      caller needs to compare or use the image: an image at infinity is [Undef]. *)
  Definition hPt h p : res (pt T) := ptOfH (matMulH h (hOfPt p)).
  (** Homography times segment, homog2d.hpp:9701-9709: the product is built with the kind of the operand,
      then converted to a Segment. *)
  Definition hSeg th h (k : skind) (s : seg T) : res (seg T) :=
    do a <- hPt h (sA s);
    do b <- hPt h (sB s);
    do r <- svNew th k a b;
    Ok (svConvert KSeg k r).
  (** Homography times polyline, homog2d.hpp:9712-9721: p_addPoint on an empty object, for each point. *)
  Definition hPoly th h pts : res (poly T) :=
    fold_left (fun r p => do pl <- r; do q <- hPt h p; plAddPoint th pl q) pts (Ok plEmpty).
  (** Homography times rectangle, homog2d.hpp:9724-9732. *)
  Definition hRect th h (r : frect T) : res (poly T) := hPoly th h (fr4Pts r).
  (** Homography times container of points, homog2d.hpp:9805-9817. *)
  Definition hPts h pts : res (list (pt T)) := mapM (hPt h) pts.
End Map.
