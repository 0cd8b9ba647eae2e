(** * What a reader of the SVG file sees: elements, colours, positions of the texts *)

From Coq Require Import String Ascii.
From Coq Require Import ZArith Reals List Bool.
From Verif Require Import S_Xml.
Import ListNotations.
Local Open Scope string_scope.

(** All the elements of a document, with their attributes and content. *)
Fixpoint elems (x : xnode) : list (string * list (string * string) * list xnode) :=
  match x with XText _ => [] | XElem n a k => (n, a, k) :: flat_map elems k end.
(** Elements that can be filled. *)
Definition shapes : list string := ["circle"; "ellipse"; "rect"; "polygon"; "polyline"].
(** Texts of the class used for the indexes: their position and content. *)
Definition idxOf (e : string * list (string * string) * list xnode) : list (string * string * string) :=
  match e with
  | ("text", [("x", x); ("y", y); ("class", "txt1")], [XText t]) => [(x, y, t)]
  | _ => []
  end.
Definition idxTexts (x : xnode) : list (string * string * string) := flat_map idxOf (elems x).
(** [n] is [x] without its fractional part. *)
Definition isTrunc (x : R) (n : Z) : Prop :=
  ((0 <= x -> IZR n <= x < IZR n + 1) /\ (x <= 0 -> IZR n - 1 < x <= IZR n))%R.
(** Value of a number in base sixteen. *)
Definition hexDigit (c : ascii) : option Z :=
  let n := Z.of_nat (nat_of_ascii c) in
  if ((48 <=? n) && (n <=? 57))%Z then Some (n - 48)%Z
  else if ((97 <=? n) && (n <=? 102))%Z then Some (n - 87)%Z
  else if ((65 <=? n) && (n <=? 70))%Z then Some (n - 55)%Z else None.
Fixpoint hexRead (acc : Z) (s : string) : option Z :=
  match s with
  | "" => Some acc
  | String c r => match hexDigit c with Some d => hexRead (16 * acc + d) r | None => None end
  end.
