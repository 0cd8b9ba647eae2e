(** * Model of the intersections of a polyline with lines, segments, rectangles, circles and polylines *)

From Coq Require Import ZArith List Bool.
From Verif Require Import Num M_LP M_Seg M_Circle M_Poly M_FRect.
Import ListNotations.

Section Inter.
  Context {T : Type} {N : Num T}.
  Implicit Types (th : thrs T) (p : pt T) (s : seg T) (pts : list (pt T)).

  (** IntersectM::get, homog2d.hpp:2609-2613: the points sorted with LPBase::operator < (std::sort, as an
      insertion sort: points that the comparison does not tell apart are the same). *)
  Fixpoint sortInsert p (l : list (pt T)) : list (pt T) :=
    match l with
    | [] => [p]
    | q :: r => if ptLt q p then q :: sortInsert p r else p :: l
    end.
  Definition interGet (l : list (pt T)) : list (pt T) := fold_right sortInsert [] l.

  (** PolylineBase::intersects, homog2d.hpp:6572-6582: [f] gives the points of one segment, as returned by
      inters.get(); IntersectM::add, :2598-2607. *)
  Definition plInter th closed pts (f : seg T -> res (list (pt T))) : res (list (pt T)) :=
    do segs <- plSegs th closed KSeg pts;
    do v <- mapM f segs;
    Ok (concat v).

  (** Inters_1 as a list of points. *)
  Definition inter1 (r : res (option (pt T))) : res (list (pt T)) :=
    do it <- r; Ok (match it with Some q => [q] | None => [] end).

  (** With a line: pseg.intersects( line ), homog2d.hpp:8248; LPBase::intersects(Polyline), :4343-4346. *)
  Definition plInterLine th closed pts (l : line T) : res (list (pt T)) :=
    plInter th closed pts (fun s => inter1 (segInterLine th s l)).
  (** With a segment, homog2d.hpp:8209; SegVec::intersects(Polyline), :5329-5332. *)
  Definition plInterSeg th closed pts (o : seg T) : res (list (pt T)) :=
    plInter th closed pts (fun s => inter1 (segInterSeg th s o)).
  (** With a rectangle, homog2d.hpp:5322-5325, 3153-3173; FRect::intersects(Polyline), :3064-3067. *)
  Definition plInterRect th closed pts (r : frect T) : res (list (pt T)) :=
    plInter th closed pts (fun s => do v <- frInterSeg th r s; Ok (interGet v)).
  (** With a circle, homog2d.hpp:8295-8351; Circle::intersects(Polyline), :3499-3502. *)
  Definition plInterCircle th closed pts (c : circle T) : res (list (pt T)) :=
    plInter th closed pts (fun s => do v <- segCircle th s c; Ok (interGet v)).
  (** With a polyline: pseg.intersects( other ) is other.intersects( pseg ), homog2d.hpp:5329-5332. *)
  Definition plInterPoly th closed pts closed2 pts2 : res (list (pt T)) :=
    plInter th closed pts (fun s => do v <- plInterSeg th closed2 pts2 s; Ok (interGet v)).
End Inter.
