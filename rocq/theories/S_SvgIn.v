(** * What reading back a drawing should give *)

From Coq Require Import String Ascii.
From Coq Require Import Reals ZArith QArith Qreals List Bool.
From Verif Require Import Num M_LP M_Seg M_Circle M_Poly M_FRect M_Ellipse M_Draw M_SvgOut M_SvgIn S_Geom S_Svg S_Ellipse S_SvgOut.
Import ListNotations.
Local Open Scope R_scope.

(** [v] is [x] to six significant digits: relative error at most 5e-6, none when six digits are enough. *)
Definition sixDigits (x : R) : Prop := exists k j, (Z.abs k < 10 ^ 6)%Z /\ x = IZR k * powerRZ 10 j.
Definition closeTo6 (v x : R) : Prop := Rabs (v - x) <= 5 / 10 ^ 6 * Rabs x /\ (sixDigits x -> v = x).

Section Read.
  Variable rd : Q -> R.  (** the number read back for a coordinate *)
  Definition rdPt (p : qpt) : pt R := mkPt (rd (fst p)) (rd (snd p)).
  (** Drawings that are not decorated with marks, and whose numbers still make an object once read. *)
  Definition before (p q : pt R) : Prop := px p < px q \/ (px p = px q /\ py p < py q).
  Definition itemValid (th : thrs R) (i : item) : Prop :=
    match iDraw i with
    | DrCircle _ r => nullDistance th <= rd r
    | DrRect _ w h => nullOrthogDistance th <= rd w /\ nullOrthogDistance th <= rd h
    | DrSegment p q => dShowPts (iPar i) = false /\ before (rdPt p) (rdPt q) /\ nullDistance th <= edist (rdPt p) (rdPt q)
    | DrPoly _ pts _ => dShowPts (iPar i) = false /\ (2 <= length pts)%nat /\ apart (nullDistance th) (map rdPt pts) /\
        forall p q, hd_error pts = Some p -> hd_error (rev pts) = Some q -> nullDistance th <= edist (rdPt p) (rdPt q)
    | DrEllipse _ rx ry _ => 0 < rd ry <= rd rx
    | DrText _ _ => True
    | DrPoint _ | DrOSegment _ _ _ => False
    end.
  (** The objects read for a drawing. *)
  Definition itemReads (i : item) (o : list (sobj R)) : Prop :=
    match iDraw i with
    | DrCircle c r => o = [SoCircle (mkC (rdPt c) (rd r))]
    | DrRect p w h => o = [SoRect (mkR (rdPt p) (mkPt (rd (fst p) + rd w) (rd (snd p) + rd h)))]
    | DrSegment p q => o = [SoSeg (mkSeg (rdPt p) (rdPt q))]
    | DrPoly closed pts _ => o = [SoPoly closed (plFresh (map rdPt pts))]
    | DrEllipse c rx ry deg => exists e, o = [SoEll e] /\ forall p,
        conic (em e) p = rd rx * rd rx * (rd ry * rd ry) * (ellForm (rd (fst c)) (rd (snd c)) (rd rx) (rd ry) (rd deg * PI / 180) p - 1)
    | _ => o = []
    end.
End Read.
