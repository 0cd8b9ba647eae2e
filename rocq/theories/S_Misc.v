(** * Specification of searches in containers and of bounding boxes of objects *)

From Coq Require Import Reals List Bool.
From Verif Require Import Num M_LP M_Seg M_Circle M_Poly M_FRect M_Misc S_Geom S_Seg S_Circle S_Poly S_FRect.
Import ListNotations.
Local Open Scope R_scope.

(** The points of an object that decide its extent (for a polyline, its vertices); a line has none. *)
Definition onPrim (o : prim R) (p : pt R) : Prop :=
  match o with
  | OPoint a => p = a
  | OSegm s => onSeg (sA s) (sB s) p
  | OCirc c => edist (cc c) p <= cr c
  | ORect r => inR r p
  | OPoly _ l => In p l
  | OLine _ => False
  end.
(** The object is neither a line, nor an empty polyline, nor a circle of negative radius, nor a rectangle
    whose corners are exchanged. *)
Definition solid (o : prim R) : Prop :=
  match o with
  | OCirc c => 0 <= cr c
  | ORect r => px (r1 r) <= px (r2 r) /\ py (r1 r) <= py (r2 r)
  | OPoly _ l => l <> []
  | OLine _ => False
  | _ => True
  end.
(** [r] is the smallest rectangle that contains the set [P]. *)
Definition smallestBox (P : pt R -> Prop) (r : frect R) : Prop :=
  (forall p, P p -> inR r p) /\ forall o, (forall p, P p -> inR o p) -> forall p, inR r p -> inR o p.

(** Lists of runs: [pts] is made of runs of equal points, [out] is the list of the points of the runs. *)
Definition unruns (l : list (pt R * nat)) : list (pt R) := flat_map (fun x => repeat (fst x) (S (snd x))) l.

(** Any two points of the list are equal or at least nullDistance apart. *)
Definition exactDupes (th : thrs R) (pts : list (pt R)) : Prop :=
  forall p q, In p pts -> In q pts -> p = q \/ nullDistance th <= edist p q.
