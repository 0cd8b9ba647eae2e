(** * Model of the SVG output: text added to the image by the drawing functions, and the file written *)

From Coq Require Import String Ascii.
From Coq Require Import ZArith QArith List Bool.
From Verif Require Import Num M_Draw M_Fmt.
Import ListNotations.
Local Open Scope string_scope.

(** Line break. *)
Definition nl : string := String "010" "".
(** Coordinates are the values returned by getX() and getY(), as rational numbers (every finite floating-point
    value is one).  Conversions to float of the points of a mark (homog2d.hpp:11757) are left out. *)
Definition qpt : Type := (Q * Q)%type.

(** DrawParams::getSvgRgbColor, homog2d.hpp:690-699. *)
Definition rgbText (c : color) : string :=
  "rgb(" ++ fmtInt (colR c) ++ "," ++ fmtInt (colG c) ++ "," ++ fmtInt (colB c) ++ ")".
(** "fill" attribute added by the drawing functions, homog2d.hpp:12084-12085, 12107-12108, 12131-12132, 12318-12319. *)
Definition fillText (v : dpv) : string := if holdsFill v then "" else "fill=""none"" ".
(** "stroke" and "stroke-width", homog2d.hpp:12081-12083, 12104-12106, 12128-12130, 12315-12317. *)
Definition strokeText (v : dpv) : string :=
  "stroke=""" ++ rgbText (dColor v) ++ """ stroke-width=""" ++ fmtInt (dThick v) ++ """ ".

(** Circle_::draw, homog2d.hpp:12072-12088. *)
Definition drawCircle (v : dpv) (c : qpt) (r : Q) : string :=
  "<circle cx=""" ++ fmt (fst c) ++ """ cy=""" ++ fmt (snd c) ++ """ r=""" ++ fmt r ++ """ " ++ strokeText v ++
  fillText v ++ attrString v ++ "/>" ++ nl.

(** Ellipse_::draw, homog2d.hpp:12092-12113, from the values of getCenter(), getMajMin() and angle()*180./M_PI. *)
Definition drawEllipse (v : dpv) (c : qpt) (rx ry deg : Q) : string :=
  "<ellipse cx=""" ++ fmt (fst c) ++ """ cy=""" ++ fmt (snd c) ++ """ rx=""" ++ fmt rx ++ """ ry=""" ++ fmt ry ++ """ " ++
  strokeText v ++ fillText v ++ attrString v ++
  "transform=""rotate(" ++ fmt deg ++ "," ++ fmt (fst c) ++ "," ++ fmt (snd c) ++ ")"" />" ++ nl.

(** FRect_::draw, homog2d.hpp:12117-12134, from the values of getPts().first, width() and height(). *)
Definition drawRect (v : dpv) (p : qpt) (w h : Q) : string :=
  "<rect x=""" ++ fmt (fst p) ++ """ y=""" ++ fmt (snd p) ++ """ width=""" ++ fmt w ++ """ height=""" ++ fmt h ++ """ " ++
  strokeText v ++ fillText v ++ attrString v ++ "/>" ++ nl.

(** priv::drawSvgSeg, homog2d.hpp:12140-12163. *)
Definition drawSvgSeg (v : dpv) (attr : string) (p q : qpt) : string :=
  "<line x1=""" ++ fmt (fst p) ++ """ y1=""" ++ fmt (snd p) ++ """ x2=""" ++ fmt (fst q) ++ """ y2=""" ++ fmt (snd q) ++ """ " ++
  strokeText v ++ attr ++ "/>" ++ nl.

(** DrawParams::showPoints, homog2d.hpp:617-621. *)
Definition hidePts (v : dpv) : dpv :=
  let '(mkDp c t ps lt pd st en _ si sa fo at_) := v in mkDp c t ps lt pd st en false si sa fo at_.

(** LPBase::operator < and priv::fix_order, homog2d.hpp:9032-9043, 3558-3562: order of the points of a segment. *)
Definition qLt (p q : qpt) : bool :=
  if negb (Qle_bool (fst q) (fst p)) then true
  else if negb (Qle_bool (fst p) (fst q)) then false
  else negb (Qle_bool (snd q) (snd p)).
Definition qOrder (p q : qpt) : qpt * qpt := if qLt p q then (p, q) else (q, p).

(** Segment without its points: SegVec::draw, homog2d.hpp:12184-12212, showPoints unset. *)
Definition drawBare (v : dpv) (p q : qpt) : string := drawSvgSeg v (attrString v) p q.

(** detail::drawPt, homog2d.hpp:11380-11440: the four points and the segments drawn.  std::round( 0.7 * delta )
    is computed on the exact product, rounded half up (in double precision the result is one less for
    delta = 45, 85, 165 and 175). *)
Inductive mark : Type := KPlus | KTimes | KSquare.
Definition qMove (p : qpt) (dx dy : Z) : qpt := (Qred (fst p + inject_Z dx)%Q, Qred (snd p + inject_Z dy)%Q).
Definition markPts (k : mark) (delta : Z) (p : qpt) : list qpt :=
  let d2 := ((7 * delta + 5) / 10)%Z in
  match k with
  | KTimes | KSquare => [qMove p (- d2) d2; qMove p d2 (- d2); qMove p d2 d2; qMove p (- d2) (- d2)]
  | KPlus => [qMove p (- delta) 0; qMove p delta 0; qMove p 0 (- delta); qMove p 0 delta]
  end.
Definition drawMark (v : dpv) (k : mark) (diag : bool) (p : qpt) : string :=
  match markPts k (dPtDelta v) p with
  | [a; b; c; d] =>
      let sg x y := let (s, t) := qOrder x y in drawBare (hidePts v) s t in
      if diag then sg a c ++ sg c b ++ sg b d ++ sg a d
      else match k with
           | KSquare => sg a b ++ sg c b ++ sg c d ++ sg a d
           | _ => sg a b ++ sg c d
           end
  | _ => ""
  end.

(** LPBase::impl_draw_LP for points, homog2d.hpp:11744-11789, on an image of size [cols] x [rows].  A point style
    that does not exist (homog2d.hpp:11787) draws nothing here. *)
Definition drawPoint (cols rows : Z) (v : dpv) (p : qpt) : string :=
  let out (x : Q) (n : Z) := negb (Qle_bool 0 x) || Qle_bool (inject_Z n) x in
  if out (fst p) cols || out (snd p) rows then ""
  else
    match dStyle v with
    | 0 => drawMark v KPlus false p
    | 1 => drawMark v KTimes false p
    | 2 => drawMark v KPlus false p ++ drawMark v KTimes false p
    | 3 => drawMark v KPlus true p
    | 4 => drawMark v KSquare true p
    | 5 => drawCircle v p (inject_Z (dPtSize v))
    | _ => ""
    end%Z.

(** SegVec::draw for a Segment, homog2d.hpp:12184-12212. *)
Definition drawSegment (cols rows : Z) (v : dpv) (p q : qpt) : string :=
  if dShowPts v then "<g>" ++ drawBare v p q ++ (drawPoint cols rows v p ++ drawPoint cols rows v q) ++ "</g>" ++ nl
  else drawBare v p q.
(** SegVec::draw for an OSegment, with the three segments [arrows] returned by getArrowSegments. *)
Definition drawOSegment (v : dpv) (p q : qpt) (arrows : list (qpt * qpt)) : string :=
  "<g>" ++ drawBare v p q ++ fold_right (fun a s => drawSvgSeg v "" (fst a) (snd a) ++ s) "" arrows ++ "</g>" ++ nl.

(** Conversion to int: truncation. *)
Definition qTrunc (x : Q) : Z := Z.quot (Qnum x) (Zpos (Qden x)).

(** Image::drawText, homog2d.hpp:12040-12054. *)
Definition hexChar (d : Z) : ascii := if (d <? 10)%Z then ascii_of_nat (48 + Z.to_nat d) else ascii_of_nat (87 + Z.to_nat d).
Definition hex2 (n : Z) : string := String (hexChar (n / 16)) (String (hexChar (n mod 16)) "").
Definition drawText (v : dpv) (txt : string) (p : qpt) : string :=
  "<text x=""" ++ fmt (fst p) ++ """ y=""" ++ fmt (snd p) ++ """ font-size=""" ++ fmtInt (dFont v) ++ "px"" fill=""#" ++
  hex2 (colR (dColor v)) ++ hex2 (colG (dColor v)) ++ hex2 (colB (dColor v)) ++ """>" ++ txt ++ "</text>" ++ nl.

(** Index of a point, homog2d.hpp:12334-12341. *)
Definition drawIndex (i : nat) (p : qpt) : string :=
  "<text x=""" ++ fmtInt (qTrunc (fst p)) ++ """ y=""" ++ fmtInt (qTrunc (snd p)) ++ """ class=""txt1"">" ++ fmtInt (Z.of_nat i) ++ "</text>" ++ nl.
Fixpoint drawIndexes (i : nat) (l : list qpt) : string :=
  match l with [] => "" | p :: r => drawIndex i p ++ drawIndexes (S i) r end.
Fixpoint pointsAttr (l : list qpt) : string :=
  match l with [] => "" | p :: r => fmt (fst p) ++ "," ++ fmt (snd p) ++ " " ++ pointsAttr r end.
Fixpoint drawPoints (cols rows : Z) (v : dpv) (l : list qpt) : string :=
  match l with [] => "" | p :: r => drawPoint cols rows v p ++ drawPoints cols rows v r end.
(** Texts of the angles, homog2d.hpp:12351-12366: [angles] are the texts made by std::to_string, for the
    oriented segments i and i+1; they are drawn at point i+1 with default parameters. *)
Fixpoint drawAngles (angles : list string) (l : list qpt) : string :=
  match angles, l with a :: s, p :: r => drawText dpFactory a p ++ drawAngles s r | _, _ => "" end.
(** PolylineBase::draw, homog2d.hpp:12297-12370. *)
Definition drawPoly (cols rows : Z) (v : dpv) (closed : bool) (l : list qpt) (angles : list string) : string :=
  if (length l <? 2)%nat then ""
  else
    let group := dShowIdx v || dShowPts v in
    (if group then "<g>" ++ nl else "") ++
    ("<" ++ (if closed then "polygon" else "polyline") ++ " " ++ strokeText v ++ fillText v ++ attrString v ++
     "points=""" ++ pointsAttr l ++ """/>" ++ nl) ++
    (if dShowIdx v then "<g>" ++ nl ++ drawIndexes 0 l ++ "</g>" ++ nl else "") ++
    (if dShowPts v then "<g>" ++ nl ++ drawPoints cols rows v l ++ "</g>" ++ nl else "") ++
    (if dShowAng v then drawAngles angles (tl l) else "") ++
    (if group then "</g>" ++ nl else "").

(** Drawing commands of a program. *)
Inductive drawing : Type :=
| DrCircle (c : qpt) (r : Q)
| DrEllipse (c : qpt) (rx ry deg : Q)
| DrRect (p : qpt) (w h : Q)
| DrSegment (p q : qpt)
| DrOSegment (p q : qpt) (arrows : list (qpt * qpt))
| DrPoint (p : qpt)
| DrPoly (closed : bool) (l : list qpt) (angles : list string)
| DrText (txt : string) (p : qpt).
Definition drawOne (cols rows : Z) (d : dpv * drawing) : string :=
  let v := fst d in
  match snd d with
  | DrCircle c r => drawCircle v c r
  | DrEllipse c rx ry deg => drawEllipse v c rx ry deg
  | DrRect p w h => drawRect v p w h
  | DrSegment p q => drawSegment cols rows v p q
  | DrOSegment p q a => drawOSegment v p q a
  | DrPoint p => drawPoint cols rows v p
  | DrPoly closed l a => drawPoly cols rows v closed l a
  | DrText t p => drawText v t p
  end.
Fixpoint drawAll (cols rows : Z) (l : list (dpv * drawing)) : string :=
  match l with [] => "" | d :: r => drawOne cols rows d ++ drawAll cols rows r end.
(** Image<SvgImage>::write and operator <<, homog2d.hpp:836-853, 12021-12034: text of the file. *)
Definition svgFile (cols rows : Z) (body : string) : string :=
  "<svg version=""1.1"" width=""" ++ fmtInt cols ++ """ height=""" ++ fmtInt rows ++
  """ style=""background-color:white;"" xmlns=""http://www.w3.org/2000/svg"">" ++ nl ++
  "<style>" ++ nl ++ ".txt1 { font: bold 12px sans-serif; };" ++ nl ++ "</style>" ++ nl ++
  body ++ "</svg>" ++ nl.
Definition drawFile (cols rows : Z) (l : list (dpv * drawing)) : string := svgFile cols rows (drawAll cols rows l).
