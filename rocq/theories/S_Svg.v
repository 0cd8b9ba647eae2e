(** * SVG path data, from the SVG recommendation and independently of the parser *)

From Coq Require Import String Ascii.
From Coq Require Import Reals List Bool Arith.
From Verif Require Import Num M_LP S_Geom.
Import ListNotations.
Local Open Scope R_scope.

(** ** Decimal numbers: an optional minus sign, digits, an optional dot and digits *)
Record num : Type := mkNum { nneg : bool; nint : list nat; nfrac : option (list nat) }.
Definition digitsOK (l : list nat) : Prop := Forall (fun d => (d < 10)%nat) l.
(** All digits are below ten, and there is at least one. *)
Definition numOK (n : num) : Prop :=
  digitsOK (nint n) /\ match nfrac n with None => nint n <> [] | Some f => digitsOK f /\ (nint n <> [] \/ f <> []) end.
(** Value. *)
Definition intVal (l : list nat) : R := fold_left (fun a d => 10 * a + INR d) l 0.
Fixpoint fracVal (l : list nat) : R := match l with [] => 0 | d :: r => (INR d + fracVal r) / 10 end.
Definition numVal (n : num) : R :=
  (if nneg n then -1 else 1) * (intVal (nint n) + match nfrac n with None => 0 | Some f => fracVal f end).
(** Text. *)
Definition digitText (d : nat) : ascii := ascii_of_nat (48 + d).
Fixpoint digitsText (l : list nat) : string := match l with [] => EmptyString | d :: r => String (digitText d) (digitsText r) end.
Definition numText (n : num) : string :=
  ((if nneg n then "-" else "") ++ digitsText (nint n) ++ match nfrac n with None => "" | Some f => "." ++ digitsText f end)%string.

(** ** Path commands; each carries one or more groups of arguments; [true] is "relative" *)
Inductive pcmd : Type :=
  | PMove (rel : bool) (l : list (num * num))
  | PLine (rel : bool) (l : list (num * num))
  | PHor (rel : bool) (l : list num)
  | PVer (rel : bool) (l : list num)
  | PClose (rel : bool).

(** Drawing state: subpaths completed (with "closed by Z"), points of the current one, current point,
    first point of the current subpath. *)
Record pen : Type := mkPen { pSubs : list (list (pt R) * bool); pHere : list (pt R); pAt : pt R; pHome : pt R }.
Definition penUp (s : pen) : list (list (pt R) * bool) := match pHere s with [] => pSubs s | l => pSubs s ++ [(l, false)] end.
Definition moveTo (s : pen) (p : pt R) : pen := mkPen (penUp s) [p] p p.
(** After a Z, a drawing command starts a new subpath at the first point of the previous one. *)
Definition lineTo (s : pen) (p : pt R) : pen :=
  mkPen (pSubs s) (match pHere s with [] => [pHome s; p] | l => l ++ [p] end) p (pHome s).
Definition closeTo (s : pen) : pen :=
  mkPen (pSubs s ++ [(match pHere s with [] => [pHome s] | l => l end, true)]) [] (pHome s) (pHome s).
Definition target (rel : bool) (s : pen) (a : num * num) : pt R :=
  if rel then mkPt (px (pAt s) + numVal (fst a)) (py (pAt s) + numVal (snd a)) else mkPt (numVal (fst a)) (numVal (snd a)).
Definition targetX (rel : bool) (s : pen) (a : num) : pt R := mkPt ((if rel then px (pAt s) else 0) + numVal a) (py (pAt s)).
Definition targetY (rel : bool) (s : pen) (a : num) : pt R := mkPt (px (pAt s)) ((if rel then py (pAt s) else 0) + numVal a).
Definition drawLines (rel : bool) (s : pen) (l : list (num * num)) : pen := fold_left (fun s a => lineTo s (target rel s a)) l s.
Definition draw (s : pen) (c : pcmd) : pen :=
  match c with
  | PMove rel [] => s
  | PMove rel (a :: l) => drawLines rel (moveTo s (target rel s a)) l
  | PLine rel l => drawLines rel s l
  | PHor rel l => fold_left (fun s a => lineTo s (targetX rel s a)) l s
  | PVer rel l => fold_left (fun s a => lineTo s (targetY rel s a)) l s
  | PClose _ => closeTo s
  end.
Definition pen0 : pen := mkPen [] [] (mkPt 0 0) (mkPt 0 0).
(** Subpaths drawn by a list of commands. *)
Definition subpaths (l : list pcmd) : list (list (pt R) * bool) := penUp (fold_left draw l pen0).

(** Every command but Z has at least one group of well formed arguments. *)
Definition pairOK (a : num * num) : Prop := numOK (fst a) /\ numOK (snd a).
Definition cmdOK (c : pcmd) : Prop :=
  match c with
  | PMove _ l | PLine _ l => l <> [] /\ Forall pairOK l
  | PHor _ l | PVer _ l => l <> [] /\ Forall numOK l
  | PClose _ => True
  end.
(** A path starts with a moveto. *)
Definition pathOK (l : list pcmd) : Prop := Forall cmdOK l /\ exists rel a r, l = PMove rel a :: r.
(** After each Z comes an absolute moveto, or the end. *)
Fixpoint resumes (l : list pcmd) : Prop :=
  match l with
  | PClose _ :: r => match r with [] => True | PMove false _ :: _ => resumes r | _ => False end
  | _ :: r => resumes r
  | [] => True
  end.
Definition isClose (c : pcmd) : bool := match c with PClose _ => true | _ => false end.

(** ** Text of a path: words, each preceded by separators (spaces and commas) *)
Inductive word : Type := WCmd (c : ascii) | WNum (n : num).
Definition letter (rel : bool) (up lo : ascii) : word := WCmd (if rel then lo else up).
Definition words (c : pcmd) : list word :=
  match c with
  | PMove rel l => letter rel "M" "m" :: flat_map (fun a => [WNum (fst a); WNum (snd a)]) l
  | PLine rel l => letter rel "L" "l" :: flat_map (fun a => [WNum (fst a); WNum (snd a)]) l
  | PHor rel l => letter rel "H" "h" :: map WNum l
  | PVer rel l => letter rel "V" "v" :: map WNum l
  | PClose rel => [letter rel "Z" "z"]
  end.
Definition wordText (w : word) : string := match w with WCmd c => String c EmptyString | WNum n => numText n end.
Inductive sepChar : Type := Space | Comma.
Definition sepText (l : list sepChar) : string :=
  fold_right (fun c s => String (match c with Space => " " | Comma => "," end)%char s) EmptyString l.
Fixpoint text (l : list (list sepChar * word)) : string :=
  match l with [] => EmptyString | (s, w) :: r => (sepText s ++ wordText w ++ text r)%string end.
(** Two numbers in a row are separated. *)
Fixpoint spaced (l : list (list sepChar * word)) : Prop :=
  match l with
  | (_, WNum _) :: (((s, WNum _) :: _) as r) => s <> [] /\ spaced r
  | _ :: r => spaced r
  | [] => True
  end.
(** [s] is a text of the path [l]. *)
Definition writes (l : list pcmd) (s : string) : Prop :=
  exists ws, map snd ws = flat_map words l /\ spaced ws /\ s = text ws.

(** Points of a list in order, without those closer than the threshold to the next one. *)
Inductive thinned (d : R) : list (pt R) -> list (pt R) -> Prop :=
  | thin_last p : thinned d [p] [p]
  | thin_keep p q r o : d <= edist p q -> thinned d (q :: r) o -> thinned d (p :: q :: r) (p :: o)
  | thin_drop p q r o : edist p q < d -> thinned d (q :: r) o -> thinned d (p :: q :: r) o.
(** Consecutive points are at least [d] apart. *)
Fixpoint apart (d : R) (l : list (pt R)) : Prop :=
  match l with p :: ((q :: _) as r) => d <= edist p q /\ apart d r | _ => True end.

(** ** Where a number, or the end of the text after separators, follows a Z *)
Definition sepOnly (s : string) : Prop := forall c, In c (list_ascii_of_string s) -> c = " "%char \/ c = ","%char.
Definition numChar (c : ascii) : Prop := (exists d, (d < 10)%nat /\ c = digitText d) \/ c = "."%char \/ c = "-"%char.
Definition valueAfterZ (s : string) : Prop :=
  exists a z b c, s = (a ++ String z (b ++ c))%string /\ (z = "Z"%char \/ z = "z"%char) /\ sepOnly b /\
    ((c = EmptyString /\ b <> EmptyString) \/ exists x r, c = String x r /\ numChar x).

(** ** Points written "x,y x,y ..." *)
Fixpoint pointsText (l : list (num * num)) : string :=
  match l with
  | [] => EmptyString
  | [a] => (numText (fst a) ++ "," ++ numText (snd a))%string
  | a :: r => (numText (fst a) ++ "," ++ numText (snd a) ++ " " ++ pointsText r)%string
  end.
Definition ptOf (a : num * num) : pt R := mkPt (numVal (fst a)) (numVal (snd a)).
