(** * Model of the run-time polymorphism by variants (CommonType_) *)

From Coq Require Import ZArith List Bool Arith.
From Verif Require Import Num M_LP M_Homogr M_Seg M_Circle M_Poly M_FRect M_Ellipse M_Map.
Import ListNotations.
Local Open Scope num_scope.

(** CommonType_, homog2d.hpp:414-424.  A point is kept with its three coordinates. *)
Inductive vobj (T : Type) : Type :=
| VSeg (s : seg T) | VOSeg (s : seg T) | VPoint (p : hpt T) | VLine (l : line T) | VCircle (c : circle T)
| VEll (e : ell T) | VRect (r : frect T) | VCPoly (pl : poly T) | VOPoly (pl : poly T).
Arguments VSeg {T}. Arguments VOSeg {T}. Arguments VPoint {T}. Arguments VLine {T}. Arguments VCircle {T}.
Arguments VEll {T}. Arguments VRect {T}. Arguments VCPoly {T}. Arguments VOPoly {T}.

(** enum class Type, homog2d.hpp:932. *)
Inductive vtype := TLine2d | TPoint2d | TSegment | TOSegment | TFRect | TCircle | TEllipse | TOPolyline | TCPolyline.

Section Variant.
  Context {T : Type} {N : Num T}.
  Implicit Types (v : vobj T) (th : thrs T) (o : hobj T).

  (** type(), homog2d.hpp:10193-10202 (fct::TypeFunct, :979-986), with the type() of each class: :2229-2232, 2670-2673,
      3188-3191, 4053-4059, 4876-4882, 6083-6089. *)
  Definition vType v : vtype :=
    match v with
    | VSeg _ => TSegment | VOSeg _ => TOSegment | VPoint _ => TPoint2d | VLine _ => TLine2d | VCircle _ => TCircle
    | VEll _ => TEllipse | VRect _ => TFRect | VCPoly _ => TCPolyline | VOPoly _ => TOPolyline
    end.
  (** size(), homog2d.hpp:10254-10264 (fct::SizeFunct, :1033-1040), with the size() of each class: :2320-2323, 2785-2788,
      3301-3304, 4061-4067, 5045-5048, 6215. *)
  Definition vSize v : nat :=
    match v with
    | VSeg _ | VOSeg _ => 2 | VPoint _ => 1 | VLine _ => 0 | VCircle _ => 1 | VEll _ => 1 | VRect _ => 4
    | VCPoly pl | VOPoly pl => length (plPts pl)
    end.
  (** length(), homog2d.hpp:10224-10235 (fct::LengthFunct, :1003-1010), with the length() of each class: :8618-8626, 2783,
      3313-3316, 4266-4274, 5051-5054, 7469-7479.  Simplification: the value only (the cache of a
      polyline is in [plLength]). *)
  Definition vLength th v : res T :=
    match v with
    | VSeg s | VOSeg s => Ok (svLength s)
    | VPoint _ => Ok (#0)
    | VLine _ => Throw
    | VCircle c => Ok (cLength c)
    | VEll e => ellLength th e
    | VRect r => Ok (frLength r)
    | VCPoly pl => do (x, _) <- plLength th true pl; Ok x
    | VOPoly pl => do (x, _) <- plLength th false pl; Ok x
    end.
  (** area(), homog2d.hpp:10239-10250 (fct::AreaFunct, :1018-1025), with the area() of each class: :2335-2339, 2782,
      3307-3310, 4277-4278, 5057-5060, 7485-7493.  Same simplification. *)
  Definition vArea th v : res T :=
    match v with
    | VSeg _ | VOSeg _ | VPoint _ | VLine _ => Ok (#0)
    | VCircle c => Ok (cArea c)
    | VEll e => ellArea th e
    | VRect r => Ok (frArea r)
    | VCPoly pl => do (x, _) <- plAreaOf th true pl; Ok x
    | VOPoly pl => do (x, _) <- plAreaOf th false pl; Ok x
    end.
  (** transform(), homog2d.hpp:10380-10388 (fct::TransformFunct, :1044-1060): the product, given the type of its
      result, and the homography afterwards (a line fills its cached matrix).  The product of an OSegment
      is a Segment (:9701-9709), that of a rectangle a CPolyline, that of a circle an Ellipse. *)
  Definition transform th o v : res (vobj T) * hobj T :=
    let h := hm o in
    match v with
    | VSeg s => (do r <- hSeg th h KSeg s; Ok (VSeg r), o)
    | VOSeg s => (do r <- hSeg th h KOSeg s; Ok (VSeg r), o)
    | VPoint p => (Ok (VPoint (hApplyPt o p)), o)
    | VLine l => let (r, o') := hApplyLine th o l in (do r <- r; Ok (VLine r), o')
    | VCircle c => (do e <- hCircle th h c; Ok (VEll e), o)
    | VEll e => (do e <- hEll th h e; Ok (VEll e), o)
    | VRect r => (do pl <- hRect th h r; Ok (VCPoly pl), o)
    | VCPoly pl => (do pl <- hPoly th h (plPts pl); Ok (VCPoly pl), o)
    | VOPoly pl => (do pl <- hPoly th h (plPts pl); Ok (VOPoly pl), o)
    end.
  (** The loop over a container shown in docs/homog2d_manual.md:2630-2633. *)
  Fixpoint transformAll th o (l : list (vobj T)) : res (list (vobj T)) * hobj T :=
    match l with
    | [] => (Ok [], o)
    | v :: r =>
        let (v', o1) := transform th o v in
        match v' with
        | Ok v' => let (r', o2) := transformAll th o1 r in (do r' <- r'; Ok (v' :: r'), o2)
        | Throw => (Throw, o1)
        | Undef => (Undef, o1)
        end
    end.
End Variant.
