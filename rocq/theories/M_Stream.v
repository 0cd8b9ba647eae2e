(** * Model of the stream operators *)

From Coq Require Import String Ascii.
From Coq Require Import ZArith QArith List Bool.
From Verif Require Import M_Fmt.
Import ListNotations.
Local Open Scope string_scope.

(** What the stream operators read from the objects, homog2d.hpp:8359-8475, on a stream in its initial format.
    Simplifications: numbers are rational ([M_Fmt]); a point is either finite, with the values returned by getX and
    getY, or at infinity, with its three homogeneous coordinates (test isInf, :4257-4260); an ellipse is given by
    its parameters with the angle in degrees. *)
Inductive tpt (T : Type) : Type := TFin (x y : T) | TInf (a b c : T).
Arguments TFin {T}. Arguments TInf {T}.
Inductive tobj (T : Type) : Type :=
| TPt (p : tpt T)
| TLine (a b c : T)
| TSeg (oriented : bool) (p q : tpt T)
| TRect (p q : tpt T)
| TCircle (c : tpt T) (r : T)
| TPoly (closed : bool) (l : list (tpt T))
| TEllipse (x y deg a b : T)
| TInter2 (found : bool) (p q : tpt T)
| TMat (isHom : bool) (r1 r2 r3 : T * T * T).
Arguments TPt {T}. Arguments TLine {T}. Arguments TSeg {T}. Arguments TRect {T}. Arguments TCircle {T}. Arguments TPoly {T}.
Arguments TEllipse {T}. Arguments TInter2 {T}. Arguments TMat {T}.

Definition lf : string := String "010" "".

(** operator << of LPBase, homog2d.hpp:8363-8380. *)
Definition show3 (a b c : Q) : string := "[" ++ fmt a ++ "," ++ fmt b ++ "," ++ fmt c ++ "]".
Definition showPt (p : tpt Q) : string :=
  match p with TFin x y => "[" ++ fmt x ++ "," ++ fmt y ++ "]" | TInf a b c => show3 a b c end.
(** The points of a polyline, homog2d.hpp:8453-8454. *)
Fixpoint showPts (l : list (tpt Q)) : string := match l with [] => "" | p :: r => showPt p ++ "-" ++ showPts r end.
(** std::setw(6): spaces before a shorter text. *)
Fixpoint spaces (n : nat) : string := match n with O => "" | S k => " " ++ spaces k end.
Definition setw6 (s : string) : string := spaces (6 - String.length s) ++ s.
(** A row of a matrix, homog2d.hpp:1655-1661. *)
Definition showRow (r : Q * Q * Q) : string :=
  let '(a, b, c) := r in "| " ++ setw6 (fmt a) ++ " " ++ setw6 (fmt b) ++ " " ++ setw6 (fmt c) ++ " " ++ " |" ++ lf.

(** Stream operators: LPBase :8363-8380, SegVec :8431-8441, FRect_ :8413-8419, Circle_ :8421-8427, PolylineBase
    :8443-8457, Ellipse_ :8460-8467 with EllParams :2165-2173, Intersect<Inters_2> :2565-2571, Matrix_ :1652-1663
    and Hmatrix_ :2040-2045. *)
Definition showObj (o : tobj Q) : string :=
  match o with
  | TPt p => showPt p
  | TLine a b c => show3 a b c
  | TSeg oriented p q => showPt p ++ (if oriented then "=>" else "-") ++ showPt q
  | TRect p q => "pt1: " ++ showPt p ++ " pt2: " ++ showPt q
  | TCircle c r => "center: " ++ showPt c ++ ", radius=" ++ fmt r
  | TPoly closed l => (if closed then "C" else "O") ++ "Polyline: " ++ match l with [] => "empty" | _ => showPts l end
  | TEllipse x y deg a b => "EllParams: origin=" ++ fmt x ++ "," ++ fmt y ++ " angle=" ++ fmt deg ++ " a=" ++ fmt a ++ " b=" ++ fmt b ++ " "
  | TInter2 found p q => "bool=" ++ (if found then "1" else "0") ++ " p1:" ++ showPt p ++ " p2:" ++ showPt q
  | TMat isHom r1 r2 r3 => (if isHom then "Hmatrix:" ++ lf else "") ++ showRow r1 ++ showRow r2 ++ showRow r3
  end.
(** Stream operator of a container, homog2d.hpp:8384-8399. *)
Definition showAll (l : list (tobj Q)) : string :=
  "#=" ++ fmtInt (Z.of_nat (List.length l)) ++ lf ++ String.concat "" (map (fun o => showObj o ++ lf) l).
(** Stream operator of IntersectM, homog2d.hpp:2615-2621, with priv::printVector, :1189-1204: what is written to the
    stream given, and to the standard output. *)
Definition showInterM (l : list (tpt Q)) : string * string :=
  let n := fmtInt (Z.of_nat (List.length l)) in
  ("IntersectM: size=" ++ n ++ lf, "vector: " ++ " #=" ++ n ++ lf ++ showPts l ++ lf).
