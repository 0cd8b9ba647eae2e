(** * Specification of the stream operators: a reader of their texts *)

From Coq Require Import String Ascii.
From Coq Require Import Reals ZArith QArith List Bool.
From Verif Require Import Num M_Svg M_Stream S_SvgIn.
Import ListNotations.
Local Open Scope string_scope.

(** The text before the first character [c], and the text after it. *)
Fixpoint upTo (c : ascii) (s : string) : option (string * string) :=
  match s with
  | EmptyString => None
  | String d r => if Ascii.eqb d c then Some ("", r) else match upTo c r with Some (a, b) => Some (String d a, b) | None => None end
  end.
(** The text after a given beginning. *)
Fixpoint after (p s : string) : option string :=
  match p, s with
  | EmptyString, _ => Some s
  | String c p', String d s' => if Ascii.eqb c d then after p' s' else None
  | _, EmptyString => None
  end.
(** The fields separated by [c]. *)
Fixpoint fields (c : ascii) (s : string) : list string :=
  match s with
  | EmptyString => [""]
  | String d r => if Ascii.eqb d c then "" :: fields c r
                  else match fields c r with [] => [String d ""] | f :: l => String d f :: l end
  end.
(** Words: fields between spaces. *)
Definition words (s : string) : list string := filter (fun w => negb (String.eqb w "")) (fields " " s).

Notation "'got' p <- e ; f" := (match e with Some p => f | None => None end) (at level 200, p pattern, e at level 100, f at level 200).

Definition readPt (s : string) : option (tpt string * string) :=
  got s1 <- after "[" s;
  got (body, rest) <- upTo "]" s1;
  match fields "," body with
  | [x; y] => Some (TFin x y, rest)
  | [a; b; c] => Some (TInf a b c, rest)
  | _ => None
  end.
Fixpoint readPts (fuel : nat) (s : string) : option (list (tpt string)) :=
  match s, fuel with
  | EmptyString, _ => Some []
  | _, O => None
  | _, S f => got (p, r) <- readPt s; got r1 <- after "-" r; got l <- readPts f r1; Some (p :: l)
  end.
Definition onlyPt (x : option (tpt string * string)) : option (tpt string) :=
  match x with Some (p, "") => Some p | _ => None end.
Definition row3 (l : list string) : option (string * string * string) :=
  match l with [x1; a; b; c; x2] => if (String.eqb x1 "|" && String.eqb x2 "|")%bool then Some (a, b, c) else None | _ => None end.
Definition readRows (h : bool) (s : string) : option (tobj string) :=
  match fields "010" s with
  | [l1; l2; l3; ""] => got a <- row3 (words l1); got b <- row3 (words l2); got c <- row3 (words l3); Some (TMat h a b c)
  | _ => None
  end.
Definition readPoly (closed : bool) (s : string) : option (tobj string) :=
  if String.eqb s "empty" then Some (TPoly closed [])
  else got l <- readPts (String.length s) s; match l with [] => None | _ => Some (TPoly closed l) end.

(** A text; which kind of object, told by the first characters.  Three numbers in brackets are read as a point. *)
Definition readText (s : string) : option (tobj string) :=
  match after "pt1: " s with
  | Some s1 => got (p, s2) <- readPt s1; got s3 <- after " pt2: " s2; got q <- onlyPt (readPt s3); Some (TRect p q)
  | None => match after "center: " s with
  | Some s1 => got (c, s2) <- readPt s1; got s3 <- after ", radius=" s2; Some (TCircle c s3)
  | None => match after "CPolyline: " s with
  | Some s1 => readPoly true s1
  | None => match after "OPolyline: " s with
  | Some s1 => readPoly false s1
  | None => match after "EllParams: origin=" s with
  | Some s1 =>
      got (x, s2) <- upTo "," s1; got (y, s3) <- upTo " " s2; got s4 <- after "angle=" s3; got (d, s5) <- upTo " " s4;
      got s6 <- after "a=" s5; got (a, s7) <- upTo " " s6; got s8 <- after "b=" s7; got (b, s9) <- upTo " " s8;
      if String.eqb s9 "" then Some (TEllipse x y d a b) else None
  | None => match after "bool=" s with
  | Some s1 =>
      got (v, s2) <- upTo " " s1; got s3 <- after "p1:" s2; got (p, s4) <- readPt s3; got s5 <- after " p2:" s4; got q <- onlyPt (readPt s5);
      if String.eqb v "1" then Some (TInter2 true p q) else if String.eqb v "0" then Some (TInter2 false p q) else None
  | None => match after ("Hmatrix:" ++ lf) s with
  | Some s1 => readRows true s1
  | None => match after "|" s with
  | Some _ => readRows false s
  | None =>
      got (p, s1) <- readPt s;
      if String.eqb s1 "" then Some (TPt p)
      else match after "=>" s1 with
      | Some s2 => got q <- onlyPt (readPt s2); Some (TSeg true p q)
      | None => got s2 <- after "-" s1; got q <- onlyPt (readPt s2); Some (TSeg false p q)
      end
  end end end end end end end end.

(** The numbers of an object, and the object without them. *)
Definition ptNums {T} (p : tpt T) : list T := match p with TFin x y => [x; y] | TInf a b c => [a; b; c] end.
Definition nums {T} (o : tobj T) : list T :=
  match o with
  | TPt p => ptNums p
  | TLine a b c => [a; b; c]
  | TSeg _ p q | TRect p q | TInter2 _ p q => (ptNums p ++ ptNums q)%list
  | TCircle c r => (ptNums c ++ [r])%list
  | TPoly _ l => flat_map ptNums l
  | TEllipse x y d a b => [x; y; d; a; b]
  | TMat _ (a, b, c) (d, e, f) (g, h, i) => [a; b; c; d; e; f; g; h; i]
  end.
Definition ptMap {T U} (f : T -> U) (p : tpt T) : tpt U := match p with TFin x y => TFin (f x) (f y) | TInf a b c => TInf (f a) (f b) (f c) end.
Definition trMap {T U} (f : T -> U) (r : T * T * T) : U * U * U := let '(a, b, c) := r in (f a, f b, f c).
Definition objMap {T U} (f : T -> U) (o : tobj T) : tobj U :=
  match o with
  | TPt p => TPt (ptMap f p)
  | TLine a b c => TLine (f a) (f b) (f c)
  | TSeg k p q => TSeg k (ptMap f p) (ptMap f q)
  | TRect p q => TRect (ptMap f p) (ptMap f q)
  | TCircle c r => TCircle (ptMap f c) (f r)
  | TPoly k l => TPoly k (map (ptMap f) l)
  | TEllipse x y d a b => TEllipse (f x) (f y) (f d) (f a) (f b)
  | TInter2 k p q => TInter2 k (ptMap f p) (ptMap f q)
  | TMat k a b c => TMat k (trMap f a) (trMap f b) (trMap f c)
  end.
(** Kind, flags, number of points and kind of each point. *)
Definition shape {T} (o : tobj T) : tobj unit := objMap (fun _ => tt) o.
(** A line and a point at infinity are written alike. *)
Definition asPoint {T} (o : tobj T) : tobj T := match o with TLine a b c => TPt (TInf a b c) | _ => o end.

(** The number written in a text. *)
Definition number (s : string) : option R := match stod (N := RNum) s with Ok v => Some v | _ => None end.
(** [s] writes [o]: same shape, and each number is the one of the object to six significant digits. *)
Definition writes (t : tobj string) (o : tobj Q) : Prop :=
  shape t = shape o /\ Forall2 (fun s x => exists v, number s = Some v /\ closeTo6 v (Q2R x)) (nums t) (nums o).

(** The objects of a container: a count, then one object per line. *)
Fixpoint mapO {A B} (f : A -> option B) (l : list A) : option (list B) :=
  match l with [] => Some [] | a :: r => got b <- f a; got l' <- mapO f r; Some (b :: l') end.
Definition readAll (s : string) : option (string * list (tobj string)) :=
  got s1 <- after "#=" s;
  got (n, s2) <- upTo "010" s1;
  got l <- mapO readText (removelast (fields "010" s2));
  Some (n, l).
Definition oneLine {T} (o : tobj T) : Prop := match o with TMat _ _ _ _ => False | _ => True end.
