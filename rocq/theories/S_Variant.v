(** * Specification of collections of objects of several types *)

From Coq Require Import Reals List.
From Verif Require Import Num M_LP M_Homogr M_Seg M_Circle M_Poly M_FRect M_Ellipse M_Variant S_Geom S_Poly S_Ellipse S_EllImage.
Import ListNotations.
Local Open Scope R_scope.

(** An object as the constructors build it: a symmetric matrix that describes an ellipse, corners in order,
    a positive radius, no cached value. *)
Definition validV (v : vobj R) : Prop :=
  match v with
  | VEll e => (m10 (em e) = m01 (em e) /\ m20 (em e) = m02 (em e) /\ m21 (em e) = m12 (em e)) /\ anEllipse (em e)
  | VRect r => px (r1 r) < px (r2 r) /\ py (r1 r) < py (r2 r)
  | VCircle c => 0 < cr c
  | VCPoly pl | VOPoly pl => pl = plFresh (plPts pl)
  | _ => True
  end.
(** Polygons: without crossing sides, as the library decides it. *)
Definition simpleV (th : thrs R) (v : vobj R) : Prop :=
  match v with VCPoly pl => val (plIsSimple th true pl) = Ok true | _ => True end.
(** Type of the image of an object. *)
Definition imageType (t : vtype) : vtype :=
  match t with TFRect => TCPolyline | TCircle => TEllipse | TOSegment => TSegment | _ => t end.
