(** * Specification of rectangles and of regions *)

From Coq Require Import Reals List Bool.
From Verif Require Import Num M_LP M_Poly M_FRect S_Geom S_Poly.
Import ListNotations.
Local Open Scope R_scope.

(** Thresholds used with rectangles (the test on the coordinates uses nullOrthogDistance, the others
    nullDistance); the default thresholds satisfy this. *)
Definition thr_rect (th : thrs R) : Prop :=
  thr_ok th /\ nullOrthogDistance th < nullDistance th /\ dblEpsilon th < nullDistance th.

(** A rectangle with positive width and height. *)
Definition wfR (r : frect R) : Prop := px (r1 r) < px (r2 r) /\ py (r1 r) < py (r2 r).
(** Closed, open and half-open regions of a rectangle. *)
Definition inR (r : frect R) (p : pt R) : Prop :=
  px (r1 r) <= px p <= px (r2 r) /\ py (r1 r) <= py p <= py (r2 r).
Definition inRO (r : frect R) (p : pt R) : Prop :=
  px (r1 r) < px p < px (r2 r) /\ py (r1 r) < py p < py (r2 r).
Definition inRH (r : frect R) (p : pt R) : Prop :=
  px (r1 r) <= px p < px (r2 r) /\ py (r1 r) <= py p < py (r2 r).
Definition areaR (r : frect R) : R := (px (r2 r) - px (r1 r)) * (py (r2 r) - py (r1 r)).
(** The interiors meet. *)
Definition overlap (r o : frect R) : Prop := exists p, inRO r p /\ inRO o p.

(** Two values are equal, or at least [d] apart. *)
Definition sep (d a b : R) : Prop := a = b \/ a + d <= b \/ b + d <= a.
(** All the coordinates of the two rectangles are pairwise separated. *)
Definition sepR (d : R) (r o : frect R) : Prop :=
  let xs := [px (r1 r); px (r2 r); px (r1 o); px (r2 o)] in
  let ys := [py (r1 r); py (r2 r); py (r1 o); py (r2 o)] in
  (forall a b, In a xs -> In b xs -> sep d a b) /\ (forall a b, In a ys -> In b ys -> sep d a b).

(** Even-odd rule: parity of the number of sides crossed by the half-line to the right of [q]. *)
Definition rayCross (q : pt R) (e : pt R * pt R) : bool :=
  let (a, b) := e in
  xorb (if Rlt_dec (py q) (py a) then true else false) (if Rlt_dec (py q) (py b) then true else false) &&
  (if Rlt_dec (px q) (px a + (py q - py a) / (py b - py a) * (px b - px a)) then true else false).
Definition evenOdd (pts : list (pt R)) (q : pt R) : bool :=
  fold_left (fun b e => xorb b (rayCross q e)) (cyc pts) false.

(** The box of a set of points: it contains them, and each of its four sides holds one of them. *)
Definition isBox (pts : list (pt R)) (r : frect R) : Prop :=
  (forall p, In p pts -> inR r p) /\
  (exists p, In p pts /\ px p = px (r1 r)) /\ (exists p, In p pts /\ px p = px (r2 r)) /\
  (exists p, In p pts /\ py p = py (r1 r)) /\ (exists p, In p pts /\ py p = py (r2 r)).

(** The rectangles accepted by the bounding box computation: width and height of at least
    nullOrthogDistance, diagonal of at least nullDistance. *)
Definition okR (th : thrs R) (r : frect R) : Prop :=
  nullOrthogDistance th <= px (r2 r) - px (r1 r) /\ nullOrthogDistance th <= py (r2 r) - py (r1 r) /\
  nullDistance th <= edist (r1 r) (r2 r).

(** Image of a point by a quarter turn, a half turn or a mirror. *)
Definition turned (k : rot) (p : pt R) : pt R :=
  match k with
  | RotCCW => mkPt (- py p) (px p) | RotCW => mkPt (py p) (- px p) | RotFull => mkPt (- px p) (- py p)
  | RotV => mkPt (- px p) (py p) | RotH => mkPt (px p) (- py p)
  end.
