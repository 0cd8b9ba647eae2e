(** * Notions on binary64 numbers (specification side)

    Coq's primitive floats: IEEE 754 binary64, round to nearest even, a single NaN. *)

From Coq Require Import ZArith Floats.
From Verif Require Import Num M_LP M_Seg M_FRect.
Local Open Scope float_scope.

(** Neither infinite nor NaN. *)
Definition fin (x : float) : Prop := is_finite x = true.
(** Not NaN. *)
Definition num (x : float) : Prop := is_nan x = false.

(** The same number: identical, or two zeros (possibly of opposite signs). *)
Definition same (x y : float) : Prop := x = y \/ (is_zero x = true /\ is_zero y = true).

Definition finP (p : pt float) : Prop := fin (px p) /\ fin (py p).
Definition numP (p : pt float) : Prop := num (px p) /\ num (py p).
Definition sameP (p q : pt float) : Prop := same (px p) (px q) /\ same (py p) (py q).
Definition sameR (a b : frect float) : Prop := sameP (r1 a) (r1 b) /\ sameP (r2 a) (r2 b).
Definition sameL (k l : line float) : Prop := same (la k) (la l) /\ same (lb k) (lb l) /\ same (lc k) (lc l).

(** Two outcomes alike: both a result (related by [R]), both an exception, both undefined. *)
Definition alike {A} (R : A -> A -> Prop) (x y : res A) : Prop :=
  match x, y with Ok a, Ok b => R a b | Throw, Throw => True | Undef, Undef => True | _, _ => False end.
