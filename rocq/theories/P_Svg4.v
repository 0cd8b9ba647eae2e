(** * Proofs about the import of SVG strings: ellipses *)

From Coq Require Import String Ascii.
From Coq Require Import Reals ZArith List Bool Arith Lia Lra.
From Verif Require Import Num M_LP M_Homogr M_Poly M_Misc M_Svg S_Geom S_Homogr P_LP P_Homogr P_Homogr2 P_Homogr3 S_Svg P_Svg P_Svg3 S_Ellipse P_Ellipse P_Ellipse2 M_Ellipse.
Import ListNotations.
Local Open Scope R_scope.

(** The attribute "rotate(a,x,y)". *)
Definition rotateText (a x y : num) : string := ("rotate(" ++ numText a ++ "," ++ numText x ++ "," ++ numText y ++ ")")%string.
Lemma substring_all s t : String.substring 0 (String.length s) (s ++ t) = s.
Proof. induction s as [|c s IH]; [destruct t; reflexivity|]. cbn [append String.length substring]. now rewrite IH. Qed.
Lemma rotate_ok a x y : numOK a -> numOK x -> numOK y ->
  ellipseRotate (N := RNum) (rotateText a x y) = Ok (mkPt (numVal x) (numVal y), numVal a * PI / 180).
Proof.
  intros A X Y. unfold ellipseRotate, rotateText.
  set (b := (numText a ++ "," ++ numText x ++ "," ++ numText y)%string).
  assert (tokenize ("rotate(" ++ numText a ++ "," ++ numText x ++ "," ++ numText y ++ ")") "(" = ["rotate"%string; (b ++ ")")%string]) as ->.
  { replace ("rotate(" ++ numText a ++ "," ++ numText x ++ "," ++ numText y ++ ")")%string with ("rotate" ++ String "(" (b ++ ")"))%string
      by (unfold b; rewrite !sapp_assoc; reflexivity).
    unfold tokenize. rewrite tokGo_app by (cbn; intuition discriminate). cbn [append]. f_equal. rewrite tokGo_last; [reflexivity| |cbn [append]; destruct b; discriminate].
    unfold b. rewrite !las_app. intros I. repeat (apply in_app_or in I as [I|I]); try (revert I; apply num_no; auto; reflexivity); cbn in I; intuition discriminate. }
  rewrite String.eqb_refl, slen_app. replace (String.length b + String.length ")" - 1)%nat with (String.length b) by (cbn; lia). rewrite substring_all.
  unfold tokenize, b. cbn [append]. rewrite tokGo_app by (apply num_no; auto). rewrite tokGo_app by (apply num_no; auto).
  rewrite tokGo_last; [|apply num_no; auto|cbn [append]; now apply numText_ne]. cbn [append]. rewrite !stod_num by auto. reflexivity.
Qed.

(** The homography is the rotation about the centre. *)
Definition rotM (x y t : R) : mat R := mkM (cos t) (- sin t) (x - cos t * x + sin t * y) (sin t) (cos t) (y - sin t * x - cos t * y) 0 0 1.
Lemma rot_chain th x y t : thr_ok th -> exists h1 h2 h3, hAddTranslation th hNew (- x) (- y) = Ok h1 /\ hAddRotation th h1 t = Ok h2 /\
  hAddTranslation th h2 x y = Ok h3 /\ hm h3 = rotM x y t.
Proof.
  intros Hth. pose proof (thr_deno th Hth) as Hde.
  assert (K : forall g o, affine g -> affine (hm o) -> hmt o = None -> isNorm o = true ->
     (do y <- hMul th (mkHobj g true true None) o; Ok (hAssign o y)) = Ok (mkHobj (matMul g (hm o)) true true None)).
  { intros g o (A' & B' & C') (A & B & C) Hn Hi. unfold hMul, hNormalize; cbn [hm hmt].
    assert (E22 : m22 (matMul g (hm o)) = 1). { munf. rewrite A', B', C', C. ring. }
    destruct (matNormalize_ok th (matMul g (hm o)) Hth) as [E _]. { rewrite E22, Rabs_R1. lra. }
    rewrite E, E22. cbn [bind]. unfold hAssign; cbn [hm]. rewrite Hn, Hi. f_equal. f_equal.
    apply mat_eq; unfold scaleM, matMap; cbn [m00 m01 m02 m10 m11 m12 m20 m21 m22]; field. }
  assert (AM : forall g h, affine g -> affine h -> affine (matMul g h)).
  { intros g h (A' & B' & C') (A & B & C). repeat split; munf; rewrite A', B', C', ?A, ?B, ?C; ring. }
  unfold hAddTranslation, hAddRotation, hSetTranslation, hSetRotation.
  eexists _, _, _. split; [apply K; try reflexivity; apply affine_mk|].
  split; [apply K; try reflexivity; try apply affine_mk; cbn [hm]; apply AM; apply affine_mk|].
  split; [apply K; try reflexivity; try apply affine_mk; cbn [hm]; apply AM; [apply affine_mk|apply AM; apply affine_mk]|].
  cbn [hm]. unfold hNew, hInit, matEye, rotM; cbn [hm]. rnum. rewrite !matMul_affine. f_equal; ring.
Qed.
Theorem svgEllipse_rot th x y rx ry s c t : thr_ok th -> nullDeter th <= 1 -> 0 < ry <= rx -> ellipseRotate (N := RNum) s = Ok (c, t) ->
  exists e, svgEllipse (N := RNum) th x y rx ry s = Ok e /\
    forall p, conic (em e) p = rx * rx * (ry * ry) * (ellForm x y rx ry t p - 1).
Proof.
  intros Ht Hd H A. unfold svgEllipse. rewrite A. cbn [bind].
  destruct (rot_chain th x y t Ht) as (h1 & h2 & h3 & E1 & E2 & E3 & E4).
  change (- x)%num with (- x). change (- y)%num with (- y). rewrite E1. cbn [bind]. rewrite E2. cbn [bind]. rewrite E3. cbn [bind]. rewrite E4.
  pose proof (sc1 t) as SC.
  assert (exists e, hEll th (rotM x y t) (ellNew x y rx ry (nZ 0)) = Ok e) as (e & E).
  { unfold hEll, matInverse. change (@determ R RNum (rotM x y t)) with (det3 (rotM x y t)). rnum.
    assert (det3 (rotM x y t) = 1) as D. { unfold det3, rotM. cbn [m00 m01 m02 m10 m11 m12 m20 m21 m22]. transitivity (sin t * sin t + cos t * cos t); [ring|exact SC]. }
    rewrite D, Rabs_R1. destruct (Rltb 1 (nullDeter th)) eqn:X; [rclean; lra|]. eexists. reflexivity. }
  exists e. split; auto. intros p.
  set (q := mkPt (x + cos t * (px p - x) + sin t * (py p - y)) (y - sin t * (px p - x) + cos t * (py p - y))).
  assert (isImage (rotM x y t) q p) as I.
  { unfold isImage, rotM, q. cbn [m00 m01 m02 m10 m11 m12 m20 m21 m22 px py]. split; [lra|]. split.
    - replace (cos t * _ + _ + _) with ((sin t * sin t + cos t * cos t) * (px p - x) + x) by ring. rewrite SC. field.
    - replace (sin t * _ + _ + _) with ((sin t * sin t + cos t * cos t) * (py p - y) + y) by ring. rewrite SC. field. }
  destruct (hEll_conic th _ _ e q p Ht E I) as [_ C]. unfold rotM in C. cbn [m20 m21 m22] in C.
  replace ((0 * px q + 0 * py q + 1) * (0 * px q + 0 * py q + 1)) with 1 in C by ring. rewrite Rmult_1_l in C. rewrite C.
  rewrite ellNew_ge by lra. cbn [em]. rewrite conic_init by lra. f_equal. f_equal. unfold ellForm, q. cbn [px py]. change (nZ 0) with 0. rewrite cos_0, sin_0.
  f_equal; f_equal; f_equal; ring.
Qed.
Theorem svgEllipse_ok th x y rx ry a u v : thr_ok th -> nullDeter th <= 1 -> 0 < ry <= rx -> numOK a -> numOK u -> numOK v ->
  exists e, svgEllipse (N := RNum) th x y rx ry (rotateText a u v) = Ok e /\
    forall p, conic (em e) p = rx * rx * (ry * ry) * (ellForm x y rx ry (numVal a * PI / 180) p - 1).
Proof. intros Ht Hd H A U V. exact (svgEllipse_rot th x y rx ry _ _ _ Ht Hd H (rotate_ok a u v A U V)). Qed.
(** A half-axis along y longer than the one along x: they are exchanged. *)
Lemma svgEllipse_tall th x y rx ry s : 0 < rx < ry -> svgEllipse (N := RNum) th x y rx ry s = svgEllipse (N := RNum) th x y ry rx s.
Proof.
  intros H. unfold svgEllipse. assert (ellNew (N := RNum) x y rx ry (nZ 0) = ellNew (N := RNum) x y ry rx (nZ 0)) as ->; [|reflexivity].
  unfold ellNew. rnum. destruct (Rltb rx ry) eqn:E, (Rltb ry rx) eqn:F; auto; rclean; lra.
Qed.
