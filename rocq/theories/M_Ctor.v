(** * Model of further constructors and setters of points and lines, and of the classes holding intersections *)

From Coq Require Import ZArith List Bool.
From Verif Require Import Num M_LP M_Seg M_FRect M_Inter.
Import ListNotations.
Local Open Scope num_scope.

Section Ctor.
  Context {T : Type} {N : Num T}.
  Implicit Types (th : thrs T) (p : pt T) (l : line T) (h : hpt T).

  (** Line constructor from one point (stored triple), homog2d.hpp:3869-3872, 4036-4045: no check. *)
  Definition lineOfPt th h : res (line T) := lnorm th (crossPP h (mkH (#0) (#0) (#1))).

  (** Line constructor from two numbers, homog2d.hpp:3875-3881, 9118-9135. *)
  Definition lineOf2 th (x y : T) : res (line T) :=
    do h <- pnorm th (mkH x y (#1)); lnorm th (crossPP (mkH (#0) (#0) (#1)) h).

  (** Line constructor from four numbers, homog2d.hpp:3904-3914. *)
  Definition lineOf4 th (x1 y1 x2 y2 : T) : res (line T) := lineOf th (mkPt x1 y1) (mkPt x2 y2).

  (** Constructors from an array or a vector, homog2d.hpp:3930-3965 (lines and points): arr[0], arr[1], arr[2] of a vector
      that is too short are undefined behaviour. *)
  Definition lineOfVec th (v : list T) : res (line T) :=
    match v with a :: b :: c :: _ => lineSet3 th a b c | _ => Undef end.
  Definition pointOfVec th (v : list T) : res (hpt T) :=
    match v with a :: b :: c :: _ => pointSet3 th a b c | _ => Undef end.

  (** Default constructors, homog2d.hpp:3968-3981. *)
  Definition lineDefault : line T := mkL (#1) (#0) (#0).
  Definition pointDefault : hpt T := mkH (#0) (#0) (#1).

  (** ** Setters, with the object after the call

      set(v0,v1,v2), homog2d.hpp:3891-3901: the values are stored, then normalised in place (:8777-8829); an exception of
      the normalisation leaves what is stored at that point.  The boolean: the call returned. *)
  Definition lineSetSt th (a b c : T) : bool * line T :=
    match lnorm th (mkL a b c) with Ok l => (true, l) | _ => (false, mkL a b c) end.
  Definition pointSetSt th (a b c : T) : bool * hpt T :=
    match pnorm th (mkH a b c) with
    | Ok h => (true, h)
    | _ => (false, if a <? #0 then mkH (- a) (- b) (- c) else mkH a b c)
    end.

  (** A history of a line object: set(a,b,c), whose exception is caught, and assignment of another line, homog2d.hpp:3891-3901
      and the implicit copy assignment. *)
  Inductive lop := LSet (a b c : T) | LAssign l.
  Definition lStep th (st : bool * line T) (op : lop) : bool * line T :=
    match op with LSet a b c => lineSetSt th a b c | LAssign m => (true, m) end.
  Definition lRun th (ops : list lop) : bool * line T := fold_left (lStep th) ops (true, lineDefault).
  (** The same for a point object, with set(x,y), homog2d.hpp:4214-4224. *)
  Inductive ptop := PtSet3 (a b c : T) | PtSet2 (x y : T) | PtAssign h.
  Definition ptStep th (st : bool * hpt T) (op : ptop) : bool * hpt T :=
    match op with PtSet3 a b c => pointSetSt th a b c | PtSet2 x y => pointSetSt th x y (#1) | PtAssign h => (true, h) end.
  Definition ptRun th (ops : list ptop) : bool * hpt T := fold_left (ptStep th) ops (true, pointDefault).

  (** distTo(point) of any stored line, homog2d.hpp:9167-9179: a null denominator gives inf or NaN, [Undef]. *)
  Definition lineDistU l p : res T := if hypot (la l) (lb l) =? #0 then Undef else Ok (lineDist l p).

  (** ** Intersection results *)

  (** Intersect<Inters_2>, homog2d.hpp:2528-2563: [None] when there is no intersection; get(), :2552-2558. *)
  Definition int2 : Type := option (pt T * pt T).
  Definition int2Get (i : int2) : res (pt T * pt T) := match i with Some pp => Ok pp | None => Throw end.
  Definition int2Size (i : int2) : nat := match i with Some _ => 2 | None => 0 end.
  (** Converting constructor, homog2d.hpp:2541-2548: it calls get() on the other object; [cvt]: conversion of a point. *)
  Definition int2Convert (cvt : pt T -> pt T) (i : int2) : res int2 :=
    do pp <- int2Get i; Ok (Some (cvt (fst pp), cvt (snd pp))).

  (** IntersectM, homog2d.hpp:2566-2613: converting constructor, size(), operator(). *)
  Definition intMConvert (cvt : pt T -> pt T) (v : list (pt T)) : list (pt T) := map cvt (interGet v).
  Definition intMSize (v : list (pt T)) : nat := length v.
  Definition intMBool (v : list (pt T)) : bool := match v with [] => false | _ => true end.

  (** ** FRect_::p_getPairSegs, homog2d.hpp:2985-2997 (points that are not at infinity). *)
  Definition frPairSegs th (r : frect T) : res (seg T * seg T) :=
    let q := mkPt (px (r1 r)) (py (r2 r)) in
    do a <- svNew th KSeg (r1 r) q; do b <- svNew th KSeg q (r2 r);
    Ok (if svLength a <? svLength b then (b, a) else (a, b)).
End Ctor.
