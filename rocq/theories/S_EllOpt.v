(** * Specification of the ellipses with cached parameters *)

From Coq Require Import Reals List.
From Verif Require Import Num M_LP S_Geom M_EllOpt.
Local Open Scope R_scope.

(** What a sequence of calls does to the centre; nothing changes the half-axes and the angle. *)
Definition centreStep (c : pt R) (a : oop R) : pt R :=
  match a with OTrans dx dy => mkPt (px c + dx) (py c + dy) | OMove x y => mkPt x y | OCmp | OGet => c end.
Definition centreAfter (ops : list (oop R)) (c : pt R) : pt R := fold_left centreStep ops c.
