(** * Model of the construction of a square from four points *)

From Coq Require Import ZArith List Bool.
From Verif Require Import Num M_LP M_Seg M_Poly.
Import ListNotations.
Local Open Scope num_scope.

Section Square.
  Context {T : Type} {N : Num T}.
  Implicit Types (pts : list (pt T)) (pL pR pT pB : pt T) (th : thrs T).

  (** buildSquare (HOMOG2D_PRELIMINAR), homog2d.hpp:7193-7201: the segment between the left-most and
      the right-most point, the orthogonal to its line through the top-most point, and the two points
      of that line at the length of the segment from the top-most point. *)
  Definition bsCandidates th pL pR pT : res (pt T * pt T) :=
    do s1 <- svNew th KSeg pL pR;
    do l <- svLine th s1;
    do o <- getOrthogLine th l pT;
    getPoints th o pT (svLength s1).

  (** homog2d.hpp:7203-7208: the second point is taken only if it is closer to the left-most point. *)
  Definition bsGood pL (c : pt T * pt T) : pt T :=
    let d1 := distPP (fst c) pL in
    let d2 := distPP (snd c) pL in
    if d2 <? d1 then snd c else fst c.

  (** homog2d.hpp:7210-7232: the line of the chosen point and the bottom-most point, its orthogonals
      through the left-most and the right-most point, the line of the segment orthogonal to the left one
      and ending at the top-most point, and the four meets. *)
  Definition bsCorners th pL pR pT pB (g : pt T) : res (list (pt T)) :=
    do li0 <- lineOf th g pB;
    do liL <- getOrthogLine th li0 pL;
    do liR <- getOrthogLine th li0 pR;
    do resL <- meet th liL li0;
    do resR <- meet th liR li0;
    do sTop <- getOrthogSegment th liL pT;
    do liTop <- lineOf th (fst sTop) (snd sTop);
    do res3 <- meet th liL liTop;
    do res4 <- meet th liR liTop;
    Ok [resL; res3; res4; resR].

  (** The four collinearity checks, homog2d.hpp:7180-7187. *)
  Fixpoint noneTrue (l : list (res bool)) : res unit :=
    match l with
    | [] => Ok tt
    | r :: l' => do b <- r; if b then Throw else noneTrue l'
    end.

  (** buildSquare(container), homog2d.hpp:7171-7238: first member of the returned pair.
      Simplifications: the debug structure (second member) is left out; all coordinates have one type;
      the points met by two lines are used through their coordinates; getOrthogSegment returns its two
      points in a Segment, whose line does not depend on their order.
      The overload with four points (:7240-7255) is not modelled: it returns the whole pair as a
      polyline. *)
  Definition buildSquare th pts : res (poly T) :=
    match pts with
    | [p0; p1; p2; p3] =>
        do _ <- noneTrue [areCollinear th p0 p1 p2; areCollinear th p1 p2 p3; areCollinear th p1 p0 p3; areCollinear th p0 p2 p3];
        do eL <- extremePoint ltLm pts;
        do eR <- extremePoint ltRm pts;
        do eT <- extremePoint ltTm pts;
        do eB <- extremePoint ltBm pts;
        do c <- bsCandidates th (fst eL) (fst eR) (fst eT);
        do v <- bsCorners th (fst eL) (fst eR) (fst eT) (fst eB) (bsGood (fst eL) c);
        plSet th v
    | _ => Throw
    end.
End Square.
