(** * Elementary functions on binary64 floats (execution of the model only)

    These replace the C library functions called through the homog2d_* macros
    (homog2d.hpp:77-83) in the executable instance of the model.  They are
    polynomial approximations, accurate to about 1e-15, not bit exact. *)

From Coq Require Import ZArith Floats Uint63.
Local Open Scope float_scope.

Definition of_Z (z : Z) : float :=
  match z with
  | Z0 => 0
  | Zpos _ => PrimFloat.of_uint63 (Uint63.of_Z z)
  | Zneg p => - PrimFloat.of_uint63 (Uint63.of_Z (Zpos p))
  end.

Definition fpi : float := 0x1.921fb54442d18p1.

(* round to nearest integer for |x| < 2^51 *)
Definition fround (x : float) : float := (x + 0x1.8p52) - 0x1.8p52.

(* sin/cos Taylor sums on [-pi,pi] *)
Fixpoint taylor (n : nat) (k : float) (term x2 acc : float) : float :=
  match n with
  | O => acc
  | S n' => let term' := - term * x2 / (k * (k + 1)) in
            taylor n' (k + 2) term' x2 (acc + term')
  end.
Definition reduce (x : float) : float := x - fround (x / (2 * fpi)) * (2 * fpi).
Definition fsin (x : float) : float := let r := reduce x in taylor 16 2 r (r * r) r.
Definition fcos (x : float) : float := let r := reduce x in taylor 16 1 1 (r * r) 1.

Fixpoint atan_sum (n : nat) (k : float) (pw x2 acc : float) : float :=
  match n with
  | O => acc
  | S n' => let pw' := - pw * x2 in atan_sum n' (k + 2) pw' x2 (acc + pw' / k)
  end.
Definition half (x : float) : float := x / (1 + PrimFloat.sqrt (1 + x * x)).
Definition atan_small (x : float) : float :=
  let y := half (half x) in 4 * atan_sum 12 3 y (y * y) y.
Definition fatan (x : float) : float :=
  if (1 <? PrimFloat.abs x)
  then (if (0 <? x) then fpi / 2 - atan_small (1 / x) else - (fpi / 2) - atan_small (1 / x))
  else atan_small x.
Definition fatan2 (y x : float) : float :=
  if (0 <? x) then fatan (y / x)
  else if (x <? 0) then (if (0 <=? y) then fatan (y / x) + fpi else fatan (y / x) - fpi)
  else if (0 <? y) then fpi / 2 else if (y <? 0) then - (fpi / 2) else 0.
(* nan when x is out of [-1,1], as the C function *)
Definition facos (x : float) : float :=
  if (1 + x =? 0) then fpi else 2 * fatan (PrimFloat.sqrt ((1 - x) / (1 + x))).
Definition fasin (x : float) : float := fpi / 2 - facos x.
