(** * Specification of ellipses *)

From Coq Require Import Reals List Bool.
From Verif Require Import Num M_LP M_Homogr M_Ellipse S_Geom.
Local Open Scope R_scope.

(** Ellipse of centre (x0,y0), half-axes [a] and [b], the first axis making the angle [t] with the
    horizontal: the sum of the squares of the coordinates in the axes, divided by the half-axes.  It is
    1 on the ellipse, less than 1 inside. *)
Definition ellForm (x0 y0 a b t : R) (p : pt R) : R :=
  let dx := px p - x0 in let dy := py p - y0 in
  Rsqr ((dx * cos t + dy * sin t) / a) + Rsqr ((dy * cos t - dx * sin t) / b).

(** Value of the quadratic form of a 3x3 matrix on a homogeneous vector, and at a point. *)
Definition quadH (m : mat R) (h : hpt R) : R :=
  h0 h * (m00 m * h0 h + m01 m * h1 h + m02 m * h2 h) +
  h1 h * (m10 m * h0 h + m11 m * h1 h + m12 m * h2 h) +
  h2 h * (m20 m * h0 h + m21 m * h1 h + m22 m * h2 h).
Definition conic (m : mat R) (p : pt R) : R := quadH m (mkH (px p) (py p) 1).
