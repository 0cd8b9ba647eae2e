(** * Model of the drawing parameters (class img::DrawParams) *)

From Coq Require Import ZArith List Bool String Ascii.
From Verif Require Import Num.
Import ListNotations.
Local Open Scope Z_scope.

(** img::Color, homog2d.hpp:432-445 (three uint8_t). *)
Record color : Type := mkCol { colR : Z; colG : Z; colB : Z }.

(** DrawParams::Dp_values, homog2d.hpp:525-548.  The point style is the underlying uint8_t of enum PtStyle,
    :484-492 (0: Plus, 1: Times, 2: Star, 3: Diam, 4: Squ, 5: Dot). *)
Record dpv : Type := mkDp {
  dColor : color; dThick : Z; dPtSize : Z; dLineType : Z; dPtDelta : Z; dStyle : Z;
  dEnhance : bool; dShowPts : bool; dShowIdx : bool; dShowAng : bool; dFont : Z; dAttr : string
}.

(** The member initialisers, homog2d.hpp:527-538, and the default color, :434-436. *)
Definition dpFactory : dpv := mkDp (mkCol 80 80 80) 1 4 1 5 0 false false false false 20 EmptyString.

(** Conversion of the int argument given by the caller to uint8_t. *)
Definition u8 (z : Z) : Z := z mod 256.

(** nextPointStyle, homog2d.hpp:541-547. *)
Definition nextStyle (v : dpv) : Z := if dStyle v =? 5 then 0 else u8 (dStyle v + 1).

(** The member functions that set a value, homog2d.hpp:585-652.  A failed assert (:629) is [Undef]. *)
Inductive dset : Type :=
| DStyle (s : Z) | DSize (s : Z) | DThick (t : Z) | DColor (r g b : Z) | DSelect | DShowPts (b : bool)
| DFont (n : Z) | DShowIdx (b : bool) | DShowAng (b : bool) | DAttr (s : string).
Definition dSet (v : dpv) (o : dset) : res dpv :=
  let '(mkDp c t ps lt pd st en sp si sa fo at_) := v in
  match o with
  | DStyle s => if 5 <? u8 s then Throw else Ok (mkDp c t ps lt pd (u8 s) en sp si sa fo at_)
  | DSize s => if u8 s mod 2 =? 0 then Throw else Ok (mkDp c t (u8 s) lt (u8 s) st en sp si sa fo at_)
  | DThick n => Ok (mkDp c (u8 n) ps lt pd st en sp si sa fo at_)
  | DColor r g b => Ok (mkDp (mkCol (u8 r) (u8 g) (u8 b)) t ps lt pd st en sp si sa fo at_)
  | DSelect => Ok (mkDp c t ps lt pd st true sp si sa fo at_)
  | DShowPts b => Ok (mkDp c t ps lt pd st en b si sa fo at_)
  | DFont n => if 1 <? n then Ok (mkDp c t ps lt pd st en sp si sa n at_) else Undef
  | DShowIdx b => Ok (mkDp c t ps lt pd st en sp b sa fo at_)
  | DShowAng b => Ok (mkDp c t ps lt pd st en sp si b fo at_)
  | DAttr s => Ok (mkDp c t ps lt pd st en sp si sa fo s)
  end.

(** State of a program that uses several DrawParams objects: the static value of p_getDefault(),
    homog2d.hpp:566-570, and the objects, in order of construction. *)
Record dworld : Type := mkW { wDef : dpv; wObjs : list dpv }.
Definition wInit : dworld := mkW dpFactory [].

(** Operations: constructor (homog2d.hpp:573-576), a setter on object i, setDefault (:577-580) on object i,
    resetDefault (:581-584).  An exception is caught by the caller and leaves the object unchanged.  An
    operation on an object that does not exist does nothing. *)
Inductive dop : Type := ONew | OSet (i : nat) (o : dset) | OSetDef (i : nat) | OReset.
Fixpoint updNth {A} (l : list A) (i : nat) (f : A -> A) : list A :=
  match l, i with [], _ => [] | x :: r, O => f x :: r | x :: r, S k => x :: updNth r k f end.
Definition dApply (o : dset) (v : dpv) : dpv := match dSet v o with Ok w => w | _ => v end.
Definition wStep (w : dworld) (o : dop) : dworld :=
  match o with
  | ONew => mkW (wDef w) (wObjs w ++ [wDef w])
  | OSet i s => mkW (wDef w) (updNth (wObjs w) i (dApply s))
  | OSetDef i => match nth_error (wObjs w) i with Some v => mkW v (wObjs w) | None => w end
  | OReset => mkW dpFactory (wObjs w)
  end.
Definition wRun (w : dworld) (ops : list dop) : dworld := fold_left wStep ops w.

(** std::string::find("...") != npos, used by holdsFill, homog2d.hpp:675-681. *)
Fixpoint strPrefix (a s : string) : bool :=
  match a, s with
  | EmptyString, _ => true
  | String x a', String y s' => Ascii.eqb x y && strPrefix a' s'
  | _, _ => false
  end.
Fixpoint strFind (a s : string) : bool :=
  strPrefix a s || match s with EmptyString => false | String _ r => strFind a r end.
Definition holdsFill (v : dpv) : bool :=
  match dAttr v with EmptyString => false | s => strFind "fill=" s end.
(** getAttrString, homog2d.hpp:683-688. *)
Definition attrString (v : dpv) : string :=
  match dAttr v with EmptyString => EmptyString | s => append s " " end.
