(** * Properties C225 to C227: results of binary64 computations that are exact or correctly rounded *)

From Coq Require Import Reals Lra ZArith Floats Bool Lia List.
From Verif Require Import Num FloatFuns M_LP M_Seg M_Circle M_Poly M_FRect S_Geom S_Poly P_Poly S_Float S_FloatZ S_FloatR P_Float P_FloatZ P_FloatZ2 P_FloatR P_FloatE P_FloatE2 P_FloatX C_FloatZ C_FloatR.
Import ListNotations.
Local Open Scope R_scope.

(** ** C225: centroid of a polygon with integer coordinates *)

(** The computed coordinates are the doubles nearest to the coordinates of the exact centroid [c], described as in C52:
    the mean of the triangles of a fan around any point [o], weighted by their signed areas. *)
Theorem C225_centroid : forall k (l : list (Z * Z)) (o : pt R), (2 <= k)%Z -> l <> [] -> Forall (within k) l -> (4 * (k * k * k) * Z.of_nat (length l) < 2 ^ 53)%Z ->
  let pts := map rpt l in let w := fun e => tri2 o (fst e) (snd e) in
  (sumOver w (cyc pts) = 0 <-> centroidCalc (N := FNum) (map gpt l) = Undef) /\
  (sumOver w (cyc pts) <> 0 -> exists f c, centroidCalc (N := FNum) (map gpt l) = Ok f /\ nearestD (px f) (px c) /\ nearestD (py f) (py c) /\
     px c * sumOver w (cyc pts) = sumOver (fun e => w e * ((px o + px (fst e) + px (snd e)) / 3)) (cyc pts) /\
     py c * sumOver w (cyc pts) = sumOver (fun e => w e * ((py o + py (fst e) + py (snd e)) / 3)) (cyc pts)).
Proof.
  intros k l o K Nl F L pts w. destruct (six_area k l K Nl F L) as (F6 & V6 & B6).
  assert (FA : sumOver w (cyc pts) = IZR (zArea l)).
  { pose proof (signedArea_fan o pts) as S. unfold pts in S at 1. rewrite area_r in S. unfold fanArea in S. fold w in S. lra. }
  assert (Ln : (1 <= length l)%nat) by (destruct l; [tauto|cbn [length]; lia]).
  destruct (cent_steps k l (length l) K F L Ln (seq 0 (length l)) 0%float 0%float 0 0) as [Rx Ry].
  { apply (rep_ofZ 0). unfold lim. lia. } { apply (rep_ofZ 0). unfold lim. lia. } { rewrite seq_length. lia. } { rewrite seq_length. lia. } { rewrite seq_length. lia. }
  assert (E : centroidCalc (N := FNum) (map gpt l) =
    let r := fold_left (fun c i => let p1 := nth i (map gpt l) (pt00 (N := FNum)) in let p2 := nth (nextIdx (length l) i) (map gpt l) (pt00 (N := FNum)) in
        let prod := (px p1 * py p2 - px p2 * py p1)%float in ((fst c + (px p1 + px p2) * prod)%float, (snd c + (py p1 + py p2) * prod)%float)) (seq 0 (length l)) (0%float, 0%float) in
    let d := (6 * signedArea (N := FNum) (map gpt l))%float in
    if (d =? 0)%float then Undef else Ok (mkPt (fst r / d)%float (snd r / d)%float)).
  { unfold centroidCalc. rewrite map_length. cbv zeta. cbn [nadd nsub nmul ndiv FNum]. change (@nZ _ FNum 0) with 0%float. change (@nZ _ FNum 6) with 6%float.
    destruct (fold_left _ _ _) as [x y]. unfold cdiv. cbn [fst snd neqb ndiv FNum]. change (@nZ _ FNum 0) with 0%float. destruct (_ =? 0)%float; reflexivity. }
  rewrite E. clear E. cbv zeta. set (r := fold_left _ _ _) in *. clearbody r. set (d := (6 * signedArea (N := FNum) (map gpt l))%float) in *. clearbody d. rewrite FA.
  destruct (Z.eq_dec (zArea l) 0) as [Z0|N0].
  - rewrite Z0 in *. rewrite (eqb_zero2 d F6 V6). split; [tauto|]. intro H. exfalso. apply H. reflexivity.
  - assert (Nd : toR d <> 0) by (rewrite V6; intro Q; apply (eq_IZR _ 0) in Q; lia). rewrite (eqb_zero d F6 Nd).
    split; [split; [intro Q; apply (eq_IZR _ 0) in Q; lia|discriminate]|]. intros _.
    pose proof (cent_r l N0) as C. pose proof (centroid_fan o pts _ C) as (_ & Cx & Cy). fold w in Cx, Cy. rewrite FA in Cx, Cy.
    eexists. eexists. split; [reflexivity|]. split; [|split; [|split; [exact Cx|exact Cy]]].
    all: cbn [px py].
    all: assert (Q : forall x z, rep x z -> (Z.abs z < lim)%Z -> nearestD (x / d)%float (IZR z / IZR (3 * zArea l))).
    1,3: intros x z Rz Bz; pose proof (div_rnd x d (rep_fin _ _ Rz) F6 Nd) as R; rewrite (rep_toR _ _ Rz), V6 in R; apply (rnd_nearest _ _ R);
      unfold Rdiv; rewrite Rabs_mult, <- abs_IZR, Rabs_inv, <- abs_IZR;
      (assert (A1 : 1 <= IZR (Z.abs (3 * zArea l))) by (apply IZR_le; lia)); (assert (A2 : / IZR (Z.abs (3 * zArea l)) <= 1) by (rewrite <- Rinv_1; apply Rinv_le_contravar; lra));
      (assert (A3 : 0 < / IZR (Z.abs (3 * zArea l))) by (apply Rinv_0_lt_compat; lra)); (assert (A4 : 0 <= IZR (Z.abs z)) by (apply IZR_le; lia));
      apply Rle_trans with (IZR (Z.abs z) * 1); [apply Rmult_le_compat_l; lra|]; rewrite Rmult_1_r; apply Rle_trans with (IZR (2 ^ 53)); [apply IZR_le; unfold lim in Bz; lia|];
      rewrite <- pw_Z by lia; change 53%Z with (Z.of_nat 53); rewrite pw_pow; apply Rle_pow; [lra|lia].
    all: apply Q; [assumption|].
    all: destruct (cent_size k l K F L) as [S1 S2]; assumption.
Qed.
Print Assumptions C225_centroid.
(** A triangle with vertices up to 1000: the exact centroid is (1000/3, 1999/3). *)
Example C225_ex : let l := [(0, 0); (1000, 999); (0, 1000)]%Z in (2 <= 1000)%Z /\ l <> [] /\ Forall (within 1000) l /\ (4 * (1000 * 1000 * 1000) * Z.of_nat (length l) < 2 ^ 53)%Z /\
  centroidCalc (N := FNum) (map gpt l) = Ok (mkPt 333.3333333333333%float 666.3333333333334%float).
Proof.
  cbv zeta. split; [lia|]. split; [discriminate|]. split; [repeat constructor; cbn; lia|]. split; [reflexivity|]. vm_compute. reflexivity.
Qed.

(** ** C226: middle points *)

Lemma away_1020 x : away x -> x = 0 \/ / 2 ^ 1020 <= Rabs x.
Proof. intros [A|A]; [now left|right]. apply Rle_trans with (2 := A). apply pinv. lia. Qed.
Lemma sum_1000 x y : Rabs x <= 2 ^ 500 -> Rabs y <= 2 ^ 500 -> Rabs (x + y) <= 2 ^ 1000.
Proof.
  intros A B. pose proof (Rabs_triang x y) as T. assert (K : 2 * 2 ^ 500 <= 2 ^ 1000). { rewrite (tech_pow_Rmult 2 500). apply Rle_pow; [lra|lia]. } lra.
Qed.
Lemma near_between r x y : nearestD r ((toR x + toR y) / 2) -> fin x -> Rmin (toR x) (toR y) <= toR r <= Rmax (toR x) (toR y).
Proof.
  intros [_ N] Fx. specialize (N x Fx). unfold Rmin, Rmax. destruct (Rle_dec _ _); revert N; unfold Rabs; destruct (Rcase_abs _), (Rcase_abs _); lra.
Qed.

(** getCenter() of a segment and of a rectangle: each coordinate is the double nearest to the exact middle, and lies
    between the ones of the ends. *)
Theorem C226_segment : forall s : seg float, moderate (sA s) -> moderate (sB s) ->
  away (toR (px (sA s)) + toR (px (sB s))) -> away (toR (py (sA s)) + toR (py (sB s))) ->
  let m := svCenter (N := FNum) s in
  nearestD (px m) ((toR (px (sA s)) + toR (px (sB s))) / 2) /\ nearestD (py m) ((toR (py (sA s)) + toR (py (sB s))) / 2) /\
  Rmin (toR (px (sA s))) (toR (px (sB s))) <= toR (px m) <= Rmax (toR (px (sA s))) (toR (px (sB s))) /\
  Rmin (toR (py (sA s))) (toR (py (sB s))) <= toR (py m) <= Rmax (toR (py (sA s))) (toR (py (sB s))).
Proof.
  intros [[x1 y1] [x2 y2]] [[Fx1 Fy1] [Bx1 By1]] [[Fx2 Fy2] [Bx2 By2]] Ax Ay. cbn [sA sB px py] in *. unfold svCenter. cbn [sA sB px py]. cbv zeta. cbn [px py nadd ndiv FNum]. change (@nZ _ FNum 2) with 2%float.
  pose proof (mean_near x1 x2 Fx1 Fx2 (sum_1000 _ _ Bx1 Bx2) (away_1020 _ Ax)) as X. pose proof (mean_near y1 y2 Fy1 Fy2 (sum_1000 _ _ By1 By2) (away_1020 _ Ay)) as Y.
  split; [exact X|]. split; [exact Y|]. split; [exact (near_between _ _ _ X Fx1)|exact (near_between _ _ _ Y Fy1)].
Qed.
Print Assumptions C226_segment.
Theorem C226_rect : forall r : frect float, moderate (r1 r) -> moderate (r2 r) ->
  away (toR (px (r1 r)) + toR (px (r2 r))) -> away (toR (py (r1 r)) + toR (py (r2 r))) ->
  let m := frGetCenter (N := FNum) r in
  nearestD (px m) ((toR (px (r1 r)) + toR (px (r2 r))) / 2) /\ nearestD (py m) ((toR (py (r1 r)) + toR (py (r2 r))) / 2) /\
  toRp m = toRp (svCenter (N := FNum) (mkSeg (r1 r) (r2 r))).
Proof.
  intros [[x1 y1] [x2 y2]] [[Fx1 Fy1] [Bx1 By1]] [[Fx2 Fy2] [Bx2 By2]] Ax Ay. cbn [r1 r2 px py] in *. unfold frGetCenter, svCenter. cbn [r1 r2 sA sB px py]. cbv zeta. cbn [px py nadd nmul ndiv FNum]. change (@nZ _ FNum 2) with 2%float. change (@nZ _ FNum 1) with 1%float.
  destruct (mean_near2 x1 x2 Fx1 Fx2 (sum_1000 _ _ Bx1 Bx2) (away_1020 _ Ax)) as [X X2]. destruct (mean_near2 y1 y2 Fy1 Fy2 (sum_1000 _ _ By1 By2) (away_1020 _ Ay)) as [Y Y2].
  split; [exact X|]. split; [exact Y|]. unfold toRp. cbn [px py]. now rewrite X2, Y2.
Qed.
Print Assumptions C226_rect.
(** The exact sum of 9007199254740991 and 9007199254740992 is not a double. *)
Example C226_ex : let s := mkSeg (mkPt 9007199254740991%float 3%float) (mkPt 9007199254740992%float 10%float) in
  svCenter (N := FNum) s = mkPt 9007199254740992%float 6.5%float /\ moderate (sA s) /\ moderate (sB s) /\ away (toR (px (sA s)) + toR (px (sB s))) /\ away (toR (py (sA s)) + toR (py (sB s))).
Proof.
  cbv zeta. cbn [sA sB px py]. split; [vm_compute; reflexivity|].
  assert (V : forall x z, rep x z -> toR x = IZR z) by (intros x z H; exact (rep_toR x z H)).
  assert (A : toR 9007199254740991%float = 9007199254740991) by (apply V; apply (rep_ofZ 9007199254740991); unfold lim; lia). assert (B : toR 3%float = 3) by (apply V; apply (rep_ofZ 3); unfold lim; lia).
  assert (D : toR 10%float = 10) by (apply V; apply (rep_ofZ 10); unfold lim; lia). assert (C : toR 9007199254740992%float = 9007199254740992).
  { unfold toR. change (Prim2SF 9007199254740992%float) with (S754_finite false 4503599627370496 1). change (1 * 4503599627370496 * (2 * 1) = 9007199254740992). lra. }
  assert (K : 10000000000000000 <= 2 ^ 500). { apply Rle_trans with (2 ^ 54); [rewrite pow_IZR; apply IZR_le; vm_compute; discriminate|apply Rle_pow; [lra|lia]]. } assert (K2 : / 2 ^ 500 <= 1) by apply pow_inv_1.
  split; [|split; [|split]].
  - split; [split; reflexivity|]. cbn [px py]. rewrite A, B. split; rewrite Rabs_right; lra.
  - split; [split; reflexivity|]. cbn [px py]. rewrite C, D. split; rewrite Rabs_right; lra.
  - right. rewrite A, C, Rabs_right; lra.
  - right. rewrite B, D, Rabs_right; lra.
Qed.

(** ** C227: widths and heights without rounding error *)

(** When the coordinates of the two corners are positive and neither is more than twice the other, width and height are
    exact, and the area is rounded once. *)
Theorem C227_exact : forall r : frect float, moderate (r1 r) -> moderate (r2 r) ->
  let x1 := toR (px (r1 r)) in let y1 := toR (py (r1 r)) in let x2 := toR (px (r2 r)) in let y2 := toR (py (r2 r)) in
  (0 < x1 <= x2 -> x2 <= 2 * x1 -> fin (frWidth (N := FNum) r) /\ toR (frWidth (N := FNum) r) = x2 - x1) /\
  (0 < y1 <= y2 -> y2 <= 2 * y1 -> fin (frHeight (N := FNum) r) /\ toR (frHeight (N := FNum) r) = y2 - y1) /\
  (0 < x1 <= x2 -> x2 <= 2 * x1 -> 0 < y1 <= y2 -> y2 <= 2 * y1 -> nearestD (frArea (N := FNum) r) ((x2 - x1) * (y2 - y1))).
Proof.
  intros r [[Fx1 Fy1] [Bx1 By1]] [[Fx2 Fy2] [Bx2 By2]] x1 y1 x2 y2.
  assert (W : 0 < x1 <= x2 -> x2 <= 2 * x1 -> fin (frWidth (N := FNum) r) /\ toR (frWidth (N := FNum) r) = x2 - x1) by (intros P Q; unfold frWidth; cbn [nsub FNum]; apply sterbenz; [assumption|assumption|fold x1 x2; lra]).
  assert (H : 0 < y1 <= y2 -> y2 <= 2 * y1 -> fin (frHeight (N := FNum) r) /\ toR (frHeight (N := FNum) r) = y2 - y1) by (intros P Q; unfold frHeight; cbn [nsub FNum]; apply sterbenz; [assumption|assumption|fold y1 y2; lra]).
  split; [exact W|]. split; [exact H|]. intros P1 P2 P3 P4. destruct (W P1 P2) as [Fw Vw], (H P3 P4) as [Fh Vh]. unfold frArea. cbn [nmul FNum].
  pose proof (mul_rnd _ _ Fh Fw) as R. rewrite Vw, Vh in R. rewrite (Rmult_comm (x2 - x1)). apply (rnd_nearest _ _ R). fold x1 in Bx1. fold x2 in Bx2. fold y1 in By1. fold y2 in By2. rewrite Rabs_right in Bx2, By2 by lra.
  rewrite Rabs_right by (apply Rle_ge, Rmult_le_pos; lra). apply Rle_trans with (2 ^ 500 * 2 ^ 500); [apply Rmult_le_compat; lra|]. rewrite <- pow_add. apply Rle_pow; [lra|lia].
Qed.
Print Assumptions C227_exact.
(** 0.3 - 0.2 in doubles: the exact difference of the two doubles, not of 0.3 and 0.2. *)
Example C227_ex : let r := mkR (mkPt 0.2%float 5%float) (mkPt 0.3%float 7%float) in frWidth (N := FNum) r = 0.09999999999999998%float /\ 0 < toR (px (r1 r)) <= toR (px (r2 r)) /\ toR (px (r2 r)) <= 2 * toR (px (r1 r)).
Proof.
  cbv zeta. cbn [r1 r2 px py]. split; [vm_compute; reflexivity|]. unfold toR. change (Prim2SF 0.2%float) with (S754_finite false 7205759403792794 (-55)). change (Prim2SF 0.3%float) with (S754_finite false 5404319552844595 (-54)).
  cbv beta iota. replace (powerRZ 2 (-54)) with (2 * powerRZ 2 (-55)). { pose proof (pw_pos (-55)) as Q. unfold pw in Q. set (u := powerRZ 2 (-55)) in *. clearbody u. lra. }
  change (-54)%Z with (1 + -55)%Z. rewrite powerRZ_add by lra. change (powerRZ 2 1) with (2 * 1). ring.
Qed.
