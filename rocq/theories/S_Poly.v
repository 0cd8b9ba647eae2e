(** * Specification vocabulary: polygons and polygonal chains *)

From Coq Require Import Reals List Permutation.
From Verif Require Import Num M_LP M_Seg M_Poly S_Geom S_Seg.
Import ListNotations.
Local Open Scope R_scope.

(** Pairs of consecutive elements of a chain, and of a closed chain. *)
Definition chain {A} (l : list A) : list (A * A) := combine l (tl l).
Definition cyc {A} (l : list A) : list (A * A) :=
  match l with [] => [] | a :: r => combine l (r ++ [a]) end.
Definition sides {A} (closed : bool) (l : list A) : list (A * A) :=
  if closed then cyc l else chain l.

(** Sum of a function over a list. *)
Fixpoint sumOver {A} (f : A -> R) (l : list A) : R :=
  match l with [] => 0 | x :: r => f x + sumOver f r end.

(** Signed area of the triangle o, p, q times two, and of a polygon (fan of triangles around o). *)
Definition tri2 (o p q : pt R) : R := cross3 o p q.
Definition fanArea (o : pt R) (pts : list (pt R)) : R := sumOver (fun e => tri2 o (fst e) (snd e)) (cyc pts) / 2.

(** Affine maps. *)
Record aff : Type := mkA { aa : R; ab : R; ac : R; ad : R; ae : R; af : R }.
Definition affine (m : aff) (p : pt R) : pt R :=
  mkPt (aa m * px p + ab m * py p + ae m) (ac m * px p + ad m * py p + af m).
Definition affDet (m : aff) : R := aa m * ad m - ab m * ac m.

(** The same closed polygon: same vertices up to a cyclic shift, possibly reversed. *)
Definition shifted {A} (l m : list A) : Prop := exists u v, l = u ++ v /\ m = v ++ u.
Definition sameCycle {A} (l m : list A) : Prop := shifted l m \/ shifted (rev l) m.

(** p, q, r are three consecutive vertices of the closed polygon. *)
Definition triple (pts : list (pt R)) (p q r : pt R) : Prop := exists u v, pts ++ pts = u ++ p :: q :: r :: v.

(** A closed polygon has no spike: at no vertex do the two sides leave in the same direction. *)
Definition spikeAt (p q r : pt R) : Prop :=
  cross3 q p r = 0 /\ 0 < (px p - px q) * (px r - px q) + (py p - py q) * (py r - py q).
Definition noSpike (pts : list (pt R)) : Prop := forall p q r, triple pts p q r -> ~ spikeAt p q r.

(** Two sides of the closed polygon that have no common end: at least one side between them both ways. *)
Definition nonAdj {A} (l : list A) (e f : A * A) : Prop :=
  exists u v w, cyc l = u ++ e :: v ++ f :: w /\ v <> [] /\ w ++ u <> [].

(** Same points, one by one, up to the tolerance of the equality of points. *)
Definition near (th : thrs R) (a b : list (pt R)) : Prop := Forall2 (fun p q => edist p q < nullDistance th) a b.

(** Every side of the closed polygon is at least nullDistance long and its direction is outside the
    sign-fix zone of C04. *)
Definition okSides (th : thrs R) (pts : list (pt R)) : Prop :=
  forall e, In e (cyc pts) -> okSeg th (mkSeg (fst e) (snd e)) /\ dirOK th (fst e) (snd e).

(** Every side of the closed polygon is at least nullDistance long. *)
Definition wide (th : thrs R) (pts : list (pt R)) : Prop :=
  forall e, In e (cyc pts) -> okSeg th (mkSeg (fst e) (snd e)).

(** The value answered by a member function, without the object after the call. *)
Definition val {A B} (r : res (A * B)) : res A := bind r (fun x => Ok (fst x)).

(** The lines supporting two sides make an angle of at least nullAngleValue, and no end of one side is
    within nullDistance of an end of the other. *)
Definition transversal (th : thrs R) (e f : pt R * pt R) : Prop :=
  nullAngleValue th <=
    acos (Rabs ((px (snd e) - px (fst e)) * (px (snd f) - px (fst f)) + (py (snd e) - py (fst e)) * (py (snd f) - py (fst f))) /
          (edist (fst e) (snd e) * edist (fst f) (snd f))).
Definition endsApart (th : thrs R) (e f : pt R * pt R) : Prop :=
  forall p q, In p [fst e; snd e] -> In q [fst f; snd f] -> nullDistance th <= edist p q.

(** The calls other than translate and moveTo. *)
Definition noMove (op : plop R) : bool := match op with PTranslate _ _ | PMoveTo _ => false | _ => true end.
