(** * Model of the SVG import: from XML elements to objects (class svg::Visitor) *)

From Coq Require Import String Ascii.
From Coq Require Import ZArith List Bool.
From Verif Require Import Num M_LP M_Seg M_Circle M_Poly M_FRect M_Misc M_Ellipse M_Svg S_Xml.
Import ListNotations.

(** Objects stored by the visitor (CommonType_<double>, homog2d.hpp:12907-12911). *)
Inductive sobj (T : Type) : Type :=
| SoCircle (c : circle T)
| SoRect (r : frect T)
| SoSeg (s : seg T)
| SoPoly (closed : bool) (p : poly T)
| SoEll (e : ell T).
Arguments SoCircle {T}. Arguments SoRect {T}. Arguments SoSeg {T}. Arguments SoPoly {T}. Arguments SoEll {T}.

Section SvgIn.
  Context {T : Type} {N : Num T}.
  Implicit Types (th : thrs T).
  Local Open Scope num_scope.

  (** The XML is read by the library tinyxml2, which is not part of the repository: the reader of S_Xml.v stands
      for it.  Attribute of an element (XMLElement::Attribute). *)
  Fixpoint attrOf (name : string) (l : list (string * string)) : option string :=
    match l with [] => None | (a, v) :: r => if String.eqb a name then Some v else attrOf name r end.
  (** svgp::getAttribString, homog2d.hpp:12934-12942, and the conversion of its exception, :13071-13075. *)
  Definition getAttribString (name : string) (l : list (string * string)) : res string :=
    match attrOf name l with Some v => Ok v | None => Throw end.
  (** svgp::getAttribValue, homog2d.hpp:12918-12928.  QueryDoubleAttribute reads the number at the start of the
      value, as std::stod does. *)
  Definition getAttribValue (name : string) (l : list (string * string)) : res T :=
    do s <- getAttribString name l; stod s.

  (** Visitor::VisitExit, homog2d.hpp:12966-13078: objects added for an element.  [noCheck] is
      thr::doNotCheckRadius(). *)
  Definition visitExit th (noCheck : bool) (n : string) (l : list (string * string)) : res (list (sobj T)) :=
    if String.eqb n "circle" then
      do x <- getAttribValue "cx" l; do y <- getAttribValue "cy" l; do r <- getAttribValue "r" l;
      do c <- cNew th noCheck (mkPt x y) r; Ok [SoCircle c]
    else if String.eqb n "rect" then
      do x <- getAttribValue "x" l; do y <- getAttribValue "y" l; do w <- getAttribValue "width" l; do h <- getAttribValue "height" l;
      do r <- frSet4 th x y (x + w) (y + h); Ok [SoRect r]
    else if String.eqb n "line" then
      do x1 <- getAttribValue "x1" l; do y1 <- getAttribValue "y1" l; do x2 <- getAttribValue "x2" l; do y2 <- getAttribValue "y2" l;
      do s <- svNew th KSeg (mkPt x1 y1) (mkPt x2 y2); Ok [SoSeg s]
    else if String.eqb n "polygon" then
      do s <- getAttribString "points" l; do p <- svgPolygon th s; Ok [SoPoly true p]
    else if String.eqb n "polyline" then
      do s <- getAttribString "points" l; do p <- svgPolygon th s; Ok [SoPoly false p]
    else if String.eqb n "path" then
      do s <- getAttribString "d" l; do ps <- svgPath th s; Ok (map (fun c => SoPoly (fst c) (snd c)) ps)
    else if String.eqb n "ellipse" then
      do x <- getAttribValue "cx" l; do y <- getAttribValue "cy" l; do rx <- getAttribValue "rx" l; do ry <- getAttribValue "ry" l;
      do t <- getAttribString "transform" l; do e <- svgEllipse th x y rx ry t; Ok [SoEll e]
    else Ok [].
  (** XMLElement::Accept: the children first, then VisitExit.  An exception stops the visit. *)
  Fixpoint visit th (noCheck : bool) (x : xnode) : res (list (sobj T)) :=
    match x with
    | XText _ => Ok []
    | XElem n l k =>
        do a <- (fix go (k : list xnode) : res (list (sobj T)) :=
                   match k with [] => Ok [] | y :: r => do b <- visit th noCheck y; do c <- go r; Ok (b ++ c)%list end) k;
        do b <- visitExit th noCheck n l;
        Ok (a ++ b)%list
    end.
  (** XMLDocument::LoadFile, then doc.Accept( &visitor ); a file that is not well formed gives no object. *)
  Definition importSvg th (noCheck : bool) (s : string) : res (list (sobj T)) :=
    match xread s with Some x => visit th noCheck x | None => Throw end.

  (** getImgSize, homog2d.hpp:13093-13114, on the attributes of the root element. *)
  Fixpoint sizeGo (l : list (string * string)) (w h : T) : res (T * T) :=
    match l with
    | [] => if (w =? - #1) || (h =? - #1) then Throw else Ok (w, h)
    | (a, v) :: r =>
        do w2 <- (if String.eqb a "width" then stod v else Ok w);
        do h2 <- (if String.eqb a "height" then stod v else Ok h);
        sizeGo r w2 h2
    end.
  Definition getImgSize (x : xnode) : res (T * T) :=
    match x with XElem _ l _ => sizeGo l (- #1) (- #1) | XText _ => Throw end.
End SvgIn.
