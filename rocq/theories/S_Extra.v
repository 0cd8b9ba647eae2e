(** * Specifications for areas, lengths, translations and selections *)

From Coq Require Import Reals List.
From Verif Require Import Num M_LP S_Geom S_Seg S_Poly.
Import ListNotations.
Local Open Scope R_scope.

(** The regular polygon of n vertices at distance rad of o. *)
Definition ngon (o : pt R) (rad : R) (n : nat) : list (pt R) :=
  map (fun i => mkPt (px o + rad * cos (2 * PI * INR i / INR n)) (py o + rad * sin (2 * PI * INR i / INR n))) (seq 0 n).
(** Length of a closed polyline. *)
Definition perimeter (pts : list (pt R)) : R := sumOver (fun e => edist (fst e) (snd e)) (cyc pts).
(** l is what is left of m when the elements without P are removed (order and multiplicity kept). *)
Inductive picked {A} (P : A -> Prop) : list A -> list A -> Prop :=
| picked_nil : picked P [] []
| picked_keep x l m : P x -> picked P l m -> picked P (x :: l) (x :: m)
| picked_drop x l m : ~ P x -> picked P l m -> picked P l (x :: m).
