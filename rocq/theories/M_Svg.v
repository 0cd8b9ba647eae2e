(** * Model of the import of SVG strings *)

From Coq Require Import String Ascii.
From Coq Require Import ZArith List Bool Arith.
From Verif Require Import Num M_LP M_Homogr M_Poly M_Misc M_Ellipse.
Import ListNotations.
Local Open Scope num_scope.

(** Value of a decimal digit. *)
Definition digitVal (c : ascii) : option Z :=
  let n := nat_of_ascii c in if ((48 <=? n) && (n <=? 57))%nat then Some (Z.of_nat (n - 48)) else None.

(** isDigit, homog2d.hpp:12544-12548. *)
Definition isDigitC (c : ascii) : bool :=
  match digitVal c with Some _ => true | None => Ascii.eqb c "."%char || Ascii.eqb c "-"%char end.
(** svgPathCommandIsAllowed, homog2d.hpp:12550-12556. *)
Definition pathAllowed (c : ascii) : bool := existsb (Ascii.eqb c) ["M"; "L"; "H"; "V"; "Z"]%char.

(** tokenize, homog2d.hpp:12472-12484 (std::getline: no empty item after a final delimiter). *)
Fixpoint tokGo (delim : ascii) (cur : string) (s : string) : list string :=
  match s with
  | EmptyString => match cur with EmptyString => [] | _ => [cur] end
  | String c r => if Ascii.eqb c delim then cur :: tokGo delim EmptyString r else tokGo delim (cur ++ String c EmptyString) r
  end.
Definition tokenize (s : string) (delim : ascii) : list string := tokGo delim EmptyString s.

(** First loop of getNextElem, homog2d.hpp:12564-12565.  At the end of the string the code reads the
    terminating null character through the end iterator; the model takes it as "not a separator". *)
Fixpoint skipSep (s : string) : string :=
  match s with String c r => if Ascii.eqb c " "%char || Ascii.eqb c ","%char then skipSep r else s | EmptyString => s end.
(** Last loop of getNextElem, homog2d.hpp:12577-12581 (same remark). *)
Fixpoint takeDigits (s : string) : string * string :=
  match s with
  | String c r => if isDigitC c then let (a, b) := takeDigits r in (String c a, b) else (EmptyString, s)
  | EmptyString => (EmptyString, EmptyString)
  end.
(** getNextElem, homog2d.hpp:12559-12586: element, and rest of the string. *)
Definition getNextElem (s : string) : string * string :=
  match skipSep s with
  | EmptyString => (EmptyString, EmptyString)
  | String c r => if negb (isDigitC c) then (String c EmptyString, r) else takeDigits (String c r)
  end.

(** A path command, homog2d.hpp:12612-12632; initial values :12614-12616. *)
Record pathCmd : Type := mkCmd { cAbs : bool; cChar : ascii; cNb : nat }.
Definition cmd0 : pathCmd := mkCmd true "M"%char 2.
(** numberValues, homog2d.hpp:12590-12606 (at() throws if the key is missing). *)
Definition numberValues (c : ascii) : res nat :=
  if existsb (Ascii.eqb c) ["M"; "L"; "T"]%char then Ok 2%nat
  else if existsb (Ascii.eqb c) ["H"; "V"]%char then Ok 1%nat
  else if existsb (Ascii.eqb c) ["S"; "Q"]%char then Ok 4%nat
  else if Ascii.eqb c "C"%char then Ok 6%nat
  else if Ascii.eqb c "A"%char then Ok 7%nat
  else if Ascii.eqb c "Z"%char then Ok 0%nat
  else Throw.
(** isNewPolyline, homog2d.hpp:12626-12631. *)
Definition isNewPolyline (m : pathCmd) : bool := existsb (Ascii.eqb (cChar m)) ["m"; "M"; "z"; "Z"]%char.
Definition commands : list ascii := ["M"; "L"; "H"; "V"; "C"; "S"; "Q"; "T"; "A"; "Z"]%char.
(** getCommand, homog2d.hpp:12696-12736. *)
Definition getCommand (c : ascii) : res pathCmd :=
  if existsb (Ascii.eqb c) commands then do n <- numberValues c; Ok (mkCmd true c n)
  else
    let k := nat_of_ascii c in
    if ((97 <=? k) && (k <=? 122))%nat then
      let d := ascii_of_nat (k + 65 - 97) in
      if existsb (Ascii.eqb d) commands then do n <- numberValues d; Ok (mkCmd false d n) else Throw
    else Throw.

(** Leading digits of a string: digits read, and rest. *)
Fixpoint spanDigits (s : string) : list Z * string :=
  match s with
  | String c r => match digitVal c with Some d => let (a, b) := spanDigits r in (d :: a, b) | None => ([], s) end
  | EmptyString => ([], EmptyString)
  end.
(** Number written by a list of digits, base 10. *)
Definition digitsZ (l : list Z) : Z := fold_left (fun a d => 10 * a + d)%Z l 0%Z.

Section Svg.
  Context {T : Type} {N : Num T}.
  Implicit Types (pts : list (pt T)) (th : thrs T).

  (** Power of ten, as an exact quotient of integers. *)
  Definition scale10 (m e : Z) : T := if (0 <=? e)%Z then #(m * 10 ^ e) else #m / #(10 ^ (- e)).
  (** std::stod on an unsigned decimal number: mantissa digits, optional fraction, optional exponent; the
      longest valid prefix is read, the rest is ignored.  Without any digit: exception.  Overflow
      (std::out_of_range), "inf", "nan" and hexadecimal forms are not modelled ([Undef]). *)
  Definition stodU (neg : bool) (s : string) : res T :=
    let (ip, r) := spanDigits s in
    let '(fp, r2) := match r with String c q => if Ascii.eqb c "."%char then spanDigits q else ([], r) | EmptyString => ([], r) end in
    match ip ++ fp with
    | [] => match r with String c _ => if existsb (Ascii.eqb c) ["i"; "I"; "n"; "N"]%char then Undef else Throw | EmptyString => Throw end
    | ds =>
        let m := if neg then Z.opp (digitsZ ds) else digitsZ ds in
        let ex := match r2 with
                  | String c q =>
                      if existsb (Ascii.eqb c) ["e"; "E"]%char then
                        let '(sg, q2) := match q with
                                         | String d z => if Ascii.eqb d "-"%char then (true, z) else if Ascii.eqb d "+"%char then (false, z) else (false, q)
                                         | EmptyString => (false, q)
                                         end in
                        match spanDigits q2 with
                        | ([], _) => 0%Z
                        | (ed, _) => if (sg : bool) then Z.opp (digitsZ ed) else digitsZ ed
                        end
                      else 0%Z
                  | EmptyString => 0%Z
                  end in
        match ip, fp, r with
        | [0%Z], [], String c _ => if existsb (Ascii.eqb c) ["x"; "X"]%char then Undef else Ok (scale10 m ex)
        | _, _, _ => Ok (scale10 m (ex - Z.of_nat (length fp)))
        end
    end.
  (** std::stod: leading white space and sign. *)
  Fixpoint stod (s : string) : res T :=
    match s with
    | EmptyString => Throw
    | String c r =>
        if existsb (Ascii.eqb c) [" "; "009"; "010"; "011"; "012"; "013"]%char then stod r
        else if Ascii.eqb c "-"%char then stodU true r
        else if Ascii.eqb c "+"%char then stodU false r
        else stodU false s
    end.

  (** generateNewPoint, homog2d.hpp:12636-12694.  A failed assert is [Undef]. *)
  Definition generateNewPoint (m : pathCmd) (prev : pt T) (v : list T) : res (pt T) :=
    if existsb (Ascii.eqb (cChar m)) ["M"; "L"]%char then
      match v with
      | [x; y] => Ok (if cAbs m then mkPt x y else mkPt (px prev + x) (py prev + y))
      | _ => Undef
      end
    else if Ascii.eqb (cChar m) "H"%char then
      match v with [x] => Ok (if cAbs m then mkPt x (py prev) else mkPt (x + px prev) (py prev)) | _ => Undef end
    else if Ascii.eqb (cChar m) "V"%char then
      match v with [y] => Ok (if cAbs m then mkPt (px prev) y else mkPt (px prev) (y + py prev)) | _ => Undef end
    else Undef.

  (** State of parsePath, homog2d.hpp:12802-12806, 12760-12763: command, vectors before the last one, last
      vector, stored values, previous point ([vout] is [pDone ++ [pCur]] and [idx] is the last index). *)
  Record pstate : Type := mkPS { pMode : pathCmd; pDone : list (list (pt T)); pCur : list (pt T); pVals : list T; pPrev : pt T }.
  Definition ps0 : pstate := mkPS cmd0 [] [] [] pt00.
  (** SvgValuesBuffer::storeValues, homog2d.hpp:12770-12783. *)
  Definition storeValues (st : pstate) : res pstate :=
    if negb (length (pVals st) =? cNb (pMode st))%nat then Throw
    else
      do p <- generateNewPoint (pMode st) (pPrev st) (pVals st);
      Ok (mkPS (pMode st) (pDone st) (pCur st ++ [p]) [] p).
  (** One turn of the loop, homog2d.hpp:12818-12841, for the element [e]. *)
  Definition pathElem (e : string) (st : pstate) : res pstate :=
    let value :=
      do st1 <- (if (length (pVals st) =? cNb (pMode st))%nat then storeValues st else Ok st);
      do v <- stod e;
      Ok (mkPS (pMode st1) (pDone st1) (pCur st1) (pVals st1 ++ [v]) (pPrev st1)) in
    match e with
    | String c EmptyString =>
        if negb (isDigitC c) then
          do st1 <- (match pVals st with [] => Ok st | _ => storeValues st end);
          do m <- getCommand c;
          if negb (pathAllowed (cChar m)) then Throw
          else
            match isNewPolyline m, pCur st1 with
            | true, _ :: _ => Ok (mkPS m (pDone st1 ++ [pCur st1]) [] (pVals st1) (pPrev st1))
            | _, _ => Ok (mkPS m (pDone st1) (pCur st1) (pVals st1) (pPrev st1))
            end
        else value
    | _ => value
    end.
  (** The do-while loop, homog2d.hpp:12813-12843; the fuel is the length of the string (each turn reads at
      least one character). *)
  Fixpoint pathLoop (n : nat) (s : string) (st : pstate) : res pstate :=
    match n with
    | O => Undef
    | S k =>
        let (e, r) := getNextElem s in
        do st1 <- pathElem e st;
        match r with EmptyString => Ok st1 | _ => pathLoop k r st1 end
    end.
  (** End of parsePath, homog2d.hpp:12845-12858: vectors, and "closed" flag. *)
  Definition pathEnd th (st : pstate) : res (list (list (pt T)) * bool) :=
    do st1 <- (match pVals st with [] => Ok st | _ => storeValues st end);
    let purge v := match v with [] => Ok [] | _ => purgeDupes th v end in
    do vs <- mapM purge (pDone st1);
    do c <- purge (pCur st1);
    Ok (match c with [] => vs | _ => vs ++ [c] end, Ascii.eqb (cChar (pMode st1)) "Z"%char).
  (** parsePath, homog2d.hpp:12798-12859. *)
  Definition parsePath th (s : string) : res (list (list (pt T)) * bool) :=
    match s with
    | EmptyString => Throw
    | _ => do st <- pathLoop (String.length s) s ps0; pathEnd th st
    end.

  (** parsePoints, homog2d.hpp:12522-12541. *)
  Definition parsePoint (s : string) : res (pt T) :=
    match tokenize s ","%char with
    | [a; b] => do x <- stod a; do y <- stod b; Ok (mkPt x y)
    | _ => Throw
    end.
  Definition parsePoints (s : string) : res (list (pt T)) := mapM parsePoint (tokenize s " "%char).
  (** importSvgPoints on the value of the attribute, homog2d.hpp:12945-12956 (front() and back() of an
      empty vector are undefined). *)
  Definition dropLastIfFirst th pts : res (list (pt T)) :=
    match pts with
    | [] => Undef
    | p :: _ => Ok (if ptEq th p (last pts pt00) then removelast pts else pts)
    end.
  Definition importSvgPoints th (s : string) : res (list (pt T)) := do v <- parsePoints s; dropLastIfFirst th v.
  (** Visitor::VisitExit for a polygon or a polyline, homog2d.hpp:13009-13021 (same constructor). *)
  Definition svgPolygon th (s : string) : res (poly T) := do v <- importSvgPoints th s; plSet th v.
  (** Visitor::VisitExit for a path, homog2d.hpp:13023-13049: polylines stored before a possible
      exception, and their common kind.  The exception is caught and the rest of the path is ignored. *)
  Fixpoint svgStore th (l : list (list (pt T))) : res (list (poly T)) :=
    match l with
    | [] => Ok []
    | v :: r =>
        do w <- dropLastIfFirst th v;
        match plSet th w with
        | Ok p => do t <- svgStore th r; Ok (p :: t)
        | Throw => Ok []
        | Undef => Undef
        end
    end.
  Definition svgPath th (s : string) : res (list (bool * poly T)) :=
    match parsePath th s with
    | Ok (vs, closed) => do l <- svgStore th vs; Ok (map (fun p => (closed, p)) l)
    | Throw => Ok []
    | Undef => Undef
    end.
  (** getEllipseRotateAttr, homog2d.hpp:12486-12516: centre and angle in radians. *)
  Definition ellipseRotate (s : string) : res (pt T * T) :=
    match tokenize s "("%char with
    | [a; b] =>
        if String.eqb a "rotate"%string then
          match tokenize (String.substring 0 (String.length b - 1) b) ","%char with
          | [sa; sx; sy] => do an <- stod sa; do x <- stod sx; do y <- stod sy; Ok (mkPt x y, an * npi / #180)
          | _ => Throw
          end
        else Throw
    | _ => Throw
    end.
  (** Visitor::VisitExit for an ellipse, homog2d.hpp:13052-13064, from the values of the attributes. *)
  Definition svgEllipse th (x y rx ry : T) (transform : string) : res (ell T) :=
    do (c, a) <- ellipseRotate transform;
    do h1 <- hAddTranslation th hNew (- x) (- y);
    do h2 <- hAddRotation th h1 a;
    do h3 <- hAddTranslation th h2 x y;
    hEll th (hm h3) (ellNew x y rx ry (#0)).
End Svg.
