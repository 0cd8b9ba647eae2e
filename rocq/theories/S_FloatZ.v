(** * Values of binary64 numbers (specification side) *)

From Coq Require Import Reals ZArith Floats List.
From Verif Require Import Num FloatFuns M_LP.
Local Open Scope R_scope.

(** The real number a finite double stands for: plus or minus m.2^e. *)
Definition toR (x : float) : R :=
  match Prim2SF x with
  | S754_finite s m e => (if s then -1 else 1) * IZR (Z.pos m) * powerRZ 2 e
  | _ => 0
  end.
Definition toRp (p : pt float) : pt R := mkPt (toR (px p)) (toR (py p)).

(** A pair of integers as a point with double coordinates, as a point of the plane. *)
Definition gpt (c : Z * Z) : pt float := mkPt (FloatFuns.of_Z (fst c)) (FloatFuns.of_Z (snd c)).
Definition rpt (c : Z * Z) : pt R := mkPt (IZR (fst c)) (IZR (snd c)).

(** Coordinates between -k and k. *)
Definition within (k : Z) (c : Z * Z) : Prop := (- k <= fst c <= k /\ - k <= snd c <= k)%Z.
