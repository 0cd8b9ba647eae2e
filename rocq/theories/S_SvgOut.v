(** * The SVG document a drawing stands for: elements and attributes, independently of how the text is produced *)

From Coq Require Import String Ascii ZArith QArith List Bool.
From Verif Require Import Num M_Draw M_Fmt M_SvgOut S_Xml.
Import ListNotations.
Local Open Scope string_scope.

(** ** User-given attributes *)
(** Attributes written as a text: name="value", separated by a space. *)
Definition attrText (a : string * string) : string := fst a ++ "=""" ++ snd a ++ """".
Fixpoint joinAttrs (l : list (string * string)) : string :=
  match l with [] => "" | [a] => attrText a | a :: r => attrText a ++ " " ++ joinAttrs r end.
(** Names of the attributes written by the drawing functions themselves, but "fill". *)
Definition reserved : list string :=
  ["cx"; "cy"; "r"; "rx"; "ry"; "x"; "y"; "width"; "height"; "x1"; "y1"; "x2"; "y2"; "stroke"; "stroke-width"; "points"; "transform"].
(** The parameters hold the attributes [l]: well formed, with different names, none of them reserved. *)
Definition holdsAttrs (v : dpv) (l : list (string * string)) : Prop :=
  dAttr v = joinAttrs l /\ attrsOK l /\ forall a, In a (map fst l) -> ~ In a reserved.
Definition colorOK (c : color) : Prop := (0 <= colR c < 256 /\ 0 <= colG c < 256 /\ 0 <= colB c < 256)%Z.

(** ** Elements *)
Definition strokeAttrs (v : dpv) : list (string * string) := [("stroke", rgbText (dColor v)); ("stroke-width", fmtInt (dThick v))].
Definition fillAttrs (v : dpv) : list (string * string) := if holdsFill v then [] else [("fill", "none")].
Section Nodes.
  Variables (cols rows : Z) (v : dpv) (l : list (string * string)).
  Definition circleNode (c : qpt) (r : Q) : xnode :=
    XElem "circle" (([("cx", fmt (fst c)); ("cy", fmt (snd c)); ("r", fmt r)] ++ strokeAttrs v) ++ fillAttrs v ++ l ++ []) [].
  Definition rectNode (p : qpt) (w h : Q) : xnode :=
    XElem "rect" (([("x", fmt (fst p)); ("y", fmt (snd p)); ("width", fmt w); ("height", fmt h)] ++ strokeAttrs v) ++ fillAttrs v ++ l ++ []) [].
  Definition ellipseNode (c : qpt) (rx ry deg : Q) : xnode :=
    XElem "ellipse" (([("cx", fmt (fst c)); ("cy", fmt (snd c)); ("rx", fmt rx); ("ry", fmt ry)] ++ strokeAttrs v) ++ fillAttrs v ++ l ++
      [("transform", "rotate(" ++ fmt deg ++ "," ++ fmt (fst c) ++ "," ++ fmt (snd c) ++ ")")]) [].
  Definition lineNode (p q : qpt) : xnode :=
    XElem "line" ([("x1", fmt (fst p)); ("y1", fmt (snd p)); ("x2", fmt (fst q)); ("y2", fmt (snd q))] ++ strokeAttrs v ++ l) [].
  (** Marks: the segments of each style, and where they are. *)
  Definition markSegs (k : mark) (diag : bool) (p : qpt) : list (qpt * qpt) :=
    match markPts k (dPtDelta v) p with
    | [a; b; c; d] =>
        if diag then [qOrder a c; qOrder c b; qOrder b d; qOrder a d]
        else match k with KSquare => [qOrder a b; qOrder c b; qOrder c d; qOrder a d] | _ => [qOrder a b; qOrder c d] end
    | _ => []
    end.
  Definition markNodes (k : mark) (diag : bool) (p : qpt) : list xnode := map (fun s => lineNode (fst s) (snd s)) (markSegs k diag p).
  Definition inImage (p : qpt) : bool :=
    Qle_bool 0 (fst p) && negb (Qle_bool (inject_Z cols) (fst p)) && Qle_bool 0 (snd p) && negb (Qle_bool (inject_Z rows) (snd p)).
  Definition pointNodes (p : qpt) : list xnode :=
    if inImage p then
      match dStyle v with
      | 0 => markNodes KPlus false p
      | 1 => markNodes KTimes false p
      | 2 => (markNodes KPlus false p ++ markNodes KTimes false p)%list
      | 3 => markNodes KPlus true p
      | 4 => markNodes KSquare true p
      | 5 => [circleNode p (inject_Z (dPtSize v))]
      | _ => []
      end%Z
    else [].
  Definition segmentNode (p q : qpt) : xnode :=
    if dShowPts v then XElem "g" [] (lineNode p q :: (pointNodes p ++ pointNodes q))%list else lineNode p q.
  Definition polyNode (closed : bool) (pts : list qpt) : xnode :=
    XElem (if closed then "polygon" else "polyline") (strokeAttrs v ++ fillAttrs v ++ l ++ [("points", pointsAttr pts)]) [].
End Nodes.
Definition osegNode (v : dpv) (l : list (string * string)) (p q : qpt) (arrows : list (qpt * qpt)) : xnode :=
  XElem "g" [] (lineNode v l p q :: map (fun a => lineNode v [] (fst a) (snd a)) arrows).
Definition charData (t : string) : list xnode := if blank t then [] else [XText t].
Definition textElem (v : dpv) (t : string) (p : qpt) : xnode :=
  XElem "text" [("x", fmt (fst p)); ("y", fmt (snd p)); ("font-size", fmtInt (dFont v) ++ "px");
                ("fill", "#" ++ hex2 (colR (dColor v)) ++ hex2 (colG (dColor v)) ++ hex2 (colB (dColor v)))] (charData t).
Definition indexElem (i : nat) (p : qpt) : xnode :=
  XElem "text" [("x", fmtInt (qTrunc (fst p))); ("y", fmtInt (qTrunc (snd p))); ("class", "txt1")] [XText (fmtInt (Z.of_nat i))].
Fixpoint indexElems (i : nat) (l : list qpt) : list xnode := match l with [] => [] | p :: r => indexElem i p :: indexElems (S i) r end.
Definition angleElems (angles : list string) (l : list qpt) : list xnode := map (fun a => textElem dpFactory (fst a) (snd a)) (combine angles l).
Definition polyNodes (cols rows : Z) (v : dpv) (l : list (string * string)) (closed : bool) (pts : list qpt) (angles : list string) : list xnode :=
  let parts := (polyNode v l closed pts :: (if dShowIdx v then [XElem "g" [] (indexElems 0 pts)] else []) ++
    (if dShowPts v then [XElem "g" [] (flat_map (pointNodes cols rows v l) pts)] else []) ++
    (if dShowAng v then angleElems angles (tl pts) else []))%list in
  match pts with
  | [] | [_] => []
  | _ => if dShowIdx v || dShowPts v then [XElem "g" [] parts] else parts
  end.

(** ** Documents *)
(** A drawing with its parameters and the attributes they hold. *)
Record item : Type := mkItem { iPar : dpv; iAttrs : list (string * string); iDraw : drawing }.
Definition itemOK (i : item) : Prop :=
  holdsAttrs (iPar i) (iAttrs i) /\ colorOK (dColor (iPar i)) /\
  match iDraw i with DrText t _ => textOK t = true | DrPoly _ _ angles => Forall (fun t => textOK t = true) angles | _ => True end.
Definition itemNodes (cols rows : Z) (i : item) : list xnode :=
  let v := iPar i in
  let l := iAttrs i in
  match iDraw i with
  | DrCircle c r => [circleNode v l c r]
  | DrEllipse c rx ry deg => [ellipseNode v l c rx ry deg]
  | DrRect p w h => [rectNode v l p w h]
  | DrSegment p q => [segmentNode cols rows v l p q]
  | DrOSegment p q a => [osegNode v l p q a]
  | DrPoint p => pointNodes cols rows v l p
  | DrPoly closed pts angles => polyNodes cols rows v l closed pts angles
  | DrText t p => [textElem v t p]
  end.
Definition cssText : string := nl ++ ".txt1 { font: bold 12px sans-serif; };" ++ nl.
Definition svgRoot (cols rows : Z) (kids : list xnode) : xnode :=
  XElem "svg" [("version", "1.1"); ("width", fmtInt cols); ("height", fmtInt rows); ("style", "background-color:white;");
               ("xmlns", "http://www.w3.org/2000/svg")] (XElem "style" [] [XText cssText] :: kids).
