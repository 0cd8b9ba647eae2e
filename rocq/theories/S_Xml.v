(** * Well formed XML (XML 1.0), independently of the library: a reader that refuses what is not well formed *)

From Coq Require Import String Ascii List Bool Arith.
Import ListNotations.
Local Open Scope string_scope.

(** Elements with attributes and content, and character data. *)
Inductive xnode : Type :=
| XElem (name : string) (attrs : list (string * string)) (kids : list xnode)
| XText (s : string).

(** Characters: white space, first character of a name, other characters of a name (XML 1.0, 2.3; ASCII part). *)
Definition code (c : ascii) : nat := nat_of_ascii c.
Definition between (a b n : nat) : bool := (a <=? n)%nat && (n <=? b)%nat.
Definition isSpace (c : ascii) : bool := existsb (Ascii.eqb c) [" "; "009"; "010"; "013"]%char.
Definition isName0 (c : ascii) : bool :=
  between 65 90 (code c) || between 97 122 (code c) || existsb (Ascii.eqb c) ["_"; ":"]%char.
Definition isName (c : ascii) : bool := isName0 c || between 48 57 (code c) || existsb (Ascii.eqb c) ["-"; "."]%char.
(** Markup characters, forbidden in character data and in the value of an attribute.  References (&...;) are not
    read: a "&" is refused. *)
Definition isMarkup (c : ascii) : bool := existsb (Ascii.eqb c) ["<"; "&"]%char.
Fixpoint allS (f : ascii -> bool) (s : string) : bool := match s with EmptyString => true | String c r => f c && allS f r end.
Definition blank (s : string) : bool := allS isSpace s.
Definition snoc (s : string) (c : ascii) : string := s ++ String c "".

(** Where the reader is. *)
Inductive xmode : Type :=
| MText (acc : string)  (** character data *)
| MTag (acc : string)  (** after "<" *)
| MIn (name : string) (attrs : list (string * string))  (** in a tag, after white space *)
| MAft (name : string) (attrs : list (string * string))  (** in a tag, after the value of an attribute *)
| MAttr (name : string) (attrs : list (string * string)) (acc : string)  (** in the name of an attribute *)
| MEq (name : string) (attrs : list (string * string)) (a : string)  (** after "=" *)
| MVal (name : string) (attrs : list (string * string)) (a : string) (q : ascii) (acc : string)  (** between quotes *)
| MSlash (name : string) (attrs : list (string * string))  (** after the "/" of an empty element *)
| MClose (acc : string).  (** after "</" *)
(** Elements opened and not closed yet, each with the nodes before it (last first); nodes of the current one. *)
Record xstate : Type := mkX { xm : xmode; xstk : list (string * list (string * string) * list xnode); xkids : list xnode }.

Definition flush (acc : string) (kids : list xnode) : list xnode := if blank acc then kids else XText acc :: kids.
Definition openTag (st : xstate) name attrs : xstate := mkX (MText "") ((name, attrs, xkids st) :: xstk st) [].
Definition xstep (st : xstate) (c : ascii) : option xstate :=
  let go m := Some (mkX m (xstk st) (xkids st)) in
  match xm st with
  | MText acc =>
      if Ascii.eqb c "<" then Some (mkX (MTag "") (xstk st) (flush acc (xkids st)))
      else if isMarkup c then None else go (MText (snoc acc c))
  | MTag "" => if Ascii.eqb c "/" then go (MClose "") else if isName0 c then go (MTag (snoc "" c)) else None
  | MTag acc =>
      if isName c then go (MTag (snoc acc c))
      else if isSpace c then go (MIn acc [])
      else if Ascii.eqb c "/" then go (MSlash acc [])
      else if Ascii.eqb c ">" then Some (openTag st acc []) else None
  | MIn n l =>
      if isSpace c then go (MIn n l)
      else if isName0 c then go (MAttr n l (snoc "" c))
      else if Ascii.eqb c "/" then go (MSlash n l)
      else if Ascii.eqb c ">" then Some (openTag st n l) else None
  | MAft n l =>
      if isSpace c then go (MIn n l)
      else if Ascii.eqb c "/" then go (MSlash n l)
      else if Ascii.eqb c ">" then Some (openTag st n l) else None
  | MAttr n l a =>
      if isName c then go (MAttr n l (snoc a c))
      else if Ascii.eqb c "=" then if existsb (String.eqb a) (map fst l) then None else go (MEq n l a)
      else None
  | MEq n l a => if Ascii.eqb c """" || Ascii.eqb c "'" then go (MVal n l a c "") else None
  | MVal n l a q acc =>
      if Ascii.eqb c q then go (MAft n (l ++ [(a, acc)]))
      else if isMarkup c then None else go (MVal n l a q (snoc acc c))
  | MSlash n l => if Ascii.eqb c ">" then Some (mkX (MText "") (xstk st) (XElem n l [] :: xkids st)) else None
  | MClose acc =>
      if isName c then go (MClose (snoc acc c))
      else if Ascii.eqb c ">" then
        match xstk st with
        | (n, l, before) :: stk => if String.eqb acc n then Some (mkX (MText "") stk (XElem n l (rev (xkids st)) :: before)) else None
        | [] => None
        end
      else None
  end%char.
Fixpoint xrun (st : xstate) (s : string) : option xstate :=
  match s with EmptyString => Some st | String c r => match xstep st c with Some t => xrun t r | None => None end end.
(** A document: one element, with white space around it. *)
Definition xread (s : string) : option xnode :=
  match xrun (mkX (MText "") [] []) s with
  | Some (mkX (MText acc) [] [XElem n l k]) => if blank acc then Some (XElem n l k) else None
  | _ => None
  end.

(** Name of an attribute or element; value of an attribute written between double quotes. *)
Definition nameOK (s : string) : bool := match s with EmptyString => false | String c r => isName0 c && allS isName r end.
Definition valueOK (s : string) : bool := allS (fun c => negb (isMarkup c) && negb (Ascii.eqb c """")) s.
Definition textOK (s : string) : bool := allS (fun c => negb (isMarkup c)) s.
(** Attributes: names in the grammar and all different, values in the grammar. *)
Definition attrsOK (l : list (string * string)) : Prop :=
  NoDup (map fst l) /\ Forall (fun a => nameOK (fst a) = true /\ valueOK (snd a) = true) l.
