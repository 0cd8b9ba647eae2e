(** * Model of the text of numbers: operator << of std::ostream *)

From Coq Require Import String Ascii.
From Coq Require Import ZArith QArith List Bool.
Import ListNotations.
Local Open Scope Z_scope.

(** The drawing functions write coordinates with operator<<(double), homog2d.hpp:12044-12365, on a stream whose
    format is never changed: the format "%g" of the C library with 6 significant digits.  It is not part of the
    repository, and is modelled here from the C standard (7.21.6.1).  A finite floating-point value is a rational
    number: the functions work on [Q].  Rounding is to the nearest, ties to even.  Infinite values, NaN and minus
    zero (written "-0") are left out. *)

(** Number of decimal digits. *)
Fixpoint nbDigGo (fuel : nat) (n : Z) : Z :=
  match fuel with O => 1 | S f => if n <? 10 then 1 else 1 + nbDigGo f (n / 10) end.
Definition nbDig (n : Z) : Z := nbDigGo (Z.to_nat (Z.log2 n)) n.
(** The quotient a/b times ten to the power k, as a pair. *)
Definition shift10 (a b k : Z) : Z * Z := if 0 <=? k then (a * 10 ^ k, b) else (a, b * 10 ^ (- k)).
(** Exponent of the first significant digit of a/b (both positive). *)
Definition expo10 (a b : Z) : Z :=
  let e := nbDig a - nbDig b in
  let (c, d) := shift10 a b (- e) in
  if d <=? c then e else e - 1.
(** Nearest integer to a/b, ties to even. *)
Definition nearest (a b : Z) : Z :=
  let q := a / b in
  let r := a mod b in
  if 2 * r <? b then q else if b <? 2 * r then q + 1 else if Z.even q then q else q + 1.
(** The 6 significant digits, as an integer between 10^5 and 10^6 - 1, and the exponent of the first one. *)
Definition sig6 (a b : Z) : Z * Z :=
  let e := expo10 a b in
  let (c, d) := shift10 a b (5 - e) in
  let m := nearest c d in
  if m =? 10 ^ 6 then (10 ^ 5, e + 1) else (m, e).

(** Digits of a positive integer. *)
Definition digChar (d : Z) : ascii := ascii_of_nat (48 + Z.to_nat d).
Fixpoint digsGo (fuel : nat) (n : Z) (acc : list Z) : list Z :=
  match fuel with O => acc | S f => digsGo f (n / 10) (n mod 10 :: acc) end.
(** The last [k] digits. *)
Definition digs (k : nat) (n : Z) : list Z := digsGo k n [].
Fixpoint digText (l : list Z) : string := match l with [] => EmptyString | d :: r => String (digChar d) (digText r) end.
(** Without the zeros at the end. *)
Fixpoint strip (l : list Z) : list Z :=
  match l with
  | [] => []
  | d :: r => match strip r with [] => if d =? 0 then [] else [d] | s => d :: s end
  end.
(** Dot and decimals, if any. *)
Definition fracText (l : list Z) : string := match l with [] => EmptyString | _ => String "."%char (digText l) end.
(** Text of a non negative integer in base 10, with at least [k] digits. *)
Definition natText (k : nat) (n : Z) : string := digText (digs (Nat.max k (Z.to_nat (nbDig n))) n).
(** Text of the digits and exponent. *)
Definition sigText (m e : Z) : string :=
  let l := digs 6 m in
  if (-4 <=? e) && (e <? 6) then
    if 0 <=? e then
      let k := Z.to_nat (e + 1) in append (digText (firstn k l)) (fracText (strip (skipn k l)))
    else append "0" (fracText (repeat 0 (Z.to_nat (- e - 1)) ++ strip l))
  else
    append (digText (firstn 1 l))
      (append (fracText (strip (skipn 1 l))) (append "e" (append (if e <? 0 then "-" else "+") (natText 2 (Z.abs e))))).
Definition fmtPos (a b : Z) : string := let (m, e) := sig6 a b in sigText m e.
(** operator << (double). *)
Definition fmt (x : Q) : string :=
  match Qnum x with
  | Z0 => "0"
  | Zpos p => fmtPos (Zpos p) (Zpos (Qden x))
  | Zneg p => String "-"%char (fmtPos (Zpos p) (Zpos (Qden x)))
  end.
(** operator << (int), std::to_string(size_t). *)
Definition fmtInt (n : Z) : string := if n <? 0 then String "-"%char (natText 1 (- n)) else natText 1 n.
