(** * Properties C187 to C191: what holds bit for bit in binary64

    The model functions at [FNum]: Coq's primitive binary64 floats.  std::hypot is replaced by
    sqrt(x*x+y*y) (see [hypot] in Num.v), the only operation here that is not IEEE exact. *)

From Coq Require Import ZArith Floats Bool List.
From Verif Require Import Num M_LP M_Seg M_Poly M_FRect M_Homogr M_Map S_Float P_Float.
Import ListNotations.
Local Open Scope float_scope.
Local Existing Instance FNum.

Ltac fnum := cbn [nadd nsub nmul ndiv nopp nabs nsqrt nltb nleb neqb FNum].

(** ** C187: comparisons and distances do not depend on the order of the operands *)

(** For all doubles, including infinities and NaN; the results are identical. *)
Theorem C187_points : forall (th : thrs float) (p q : pt float),
  distPP p q = distPP q p /\ sqDist p q = sqDist q p /\ ptEq th p q = ptEq th q p /\ shareCoord th p q = shareCoord th q p.
Proof.
  intros th p q. assert (D : distPP p q = distPP q p) by (unfold distPP, hypot; fnum; now rewrite (fsub_sq (px p)), (fsub_sq (py p))).
  split; [exact D|]. split; [unfold sqDist; fnum; now rewrite (fsub_sq (px p)), (fsub_sq (py p))|].
  split; [unfold ptEq; now rewrite D|]. unfold shareCoord. fnum. now rewrite (fsub_abs (px p)), (fsub_abs (py p)).
Qed.
Print Assumptions C187_points.

Theorem C187_lines : forall (th : thrs float) (l m : line float),
  lineAngle l m = lineAngle m l /\ isParallel th l m = isParallel th m l /\ lineEq th l m = lineEq th m l.
Proof.
  intros th l m. assert (A : lineAngle l m = lineAngle m l).
  { unfold lineAngle. fnum. rewrite (fmul_comm (la l) (la m)), (fmul_comm (lb l) (lb m)), (fmul_comm (la l * la l + lb l * lb l)). reflexivity. }
  assert (B : isParallel th l m = isParallel th m l) by (unfold isParallel; now rewrite A).
  split; [exact A|]. split; [exact B|]. unfold lineEq. rewrite B. fnum. now rewrite (fsub_abs (lc l)).
Qed.
Print Assumptions C187_lines.

Theorem C187_segments : forall (th : thrs float) (s t : seg float),
  svEq th s t = svEq th t s /\ svLength (mkSeg (sB s) (sA s)) = svLength s.
Proof.
  intros th s t. destruct (C187_points th (sA s) (sA t)) as (_ & _ & A & _), (C187_points th (sB s) (sB t)) as (_ & _ & B & _).
  split; [unfold svEq; now rewrite A, B|]. unfold svLength. cbn [sA sB]. now destruct (C187_points th (sB s) (sA s)).
Qed.
Print Assumptions C187_segments.

(** Rounded values: neither distance is exact, and both are the same double. *)
Example C187_ex : let p := mkPt 0.1 0.2 in let q := mkPt (-3.7) 1e17 in
  (px p - px q =? px q - px p) = false /\ (distPP p q =? distPP q p) = true /\
  (distPP (mkPt 0.1 0.2) (mkPt 0.3 0.7) =? distPP (mkPt 0.3 0.7) (mkPt 0.1 0.2)) = true.
Proof. vm_compute. auto. Qed.

(** ** C188: order of points and of the ends of a segment *)

Lemma ptLt_val (p q : pt float) : numP p -> numP q ->
  (ptLt p q = true <-> (val (sf (px p)) < val (sf (px q)))%Z \/ (val (sf (px p)) = val (sf (px q)) /\ (val (sf (py p)) < val (sf (py q))))%Z).
Proof.
  intros [A B] [C D]. unfold ptLt. fnum. rewrite !ltb_val by assumption.
  destruct (Z.ltb_spec (val (sf (px p))) (val (sf (px q)))); [intuition auto|].
  destruct (Z.ltb_spec (val (sf (px q))) (val (sf (px p)))); [intuition (try discriminate; exfalso; Lia.lia)|].
  destruct (Z.ltb_spec (val (sf (py p))) (val (sf (py q)))); intuition (try discriminate; try (exfalso; Lia.lia); try Lia.lia).
Qed.

(** A strict weak order on the points without NaN (what std::sort and std::min_element need), and two points
    that are not ordered have the same coordinates. *)
Theorem C188_order : forall p q r : pt float, numP p -> numP q -> numP r ->
  ptLt p p = false /\
  (ptLt p q = true -> ptLt q r = true -> ptLt p r = true) /\
  (ptLt p q = false -> ptLt q p = false -> sameP p q) /\
  (ptLt p q = false -> ptLt q p = false -> ptLt q r = false -> ptLt r q = false -> ptLt p r = false).
Proof.
  intros p q r Np Nq Nr.
  pose proof (ptLt_val p p Np Np) as PP. pose proof (ptLt_val p q Np Nq) as PQ. pose proof (ptLt_val q p Nq Np) as QP.
  pose proof (ptLt_val q r Nq Nr) as QR. pose proof (ptLt_val r q Nr Nq) as RQ. pose proof (ptLt_val p r Np Nr) as PR.
  assert (S : ptLt p q = false -> ptLt q p = false -> val (sf (px p)) = val (sf (px q)) /\ val (sf (py p)) = val (sf (py q))).
  { intros A B. rewrite <- not_true_iff_false, PQ in A. rewrite <- not_true_iff_false, QP in B. Lia.lia. }
  assert (S' : ptLt q r = false -> ptLt r q = false -> val (sf (px q)) = val (sf (px r)) /\ val (sf (py q)) = val (sf (py r))).
  { intros A B. rewrite <- not_true_iff_false, QR in A. rewrite <- not_true_iff_false, RQ in B. Lia.lia. }
  split; [rewrite <- not_true_iff_false, PP; Lia.lia|]. split; [rewrite PQ, QR, PR; Lia.lia|]. split.
  - intros A B. destruct (S A B), Np, Nq. split; now apply val_inj.
  - intros A B C D. destruct (S A B), (S' C D). rewrite <- not_true_iff_false, PR. Lia.lia.
Qed.
Print Assumptions C188_order.

Lemma sameP_eq th p q : (0 <? nullDistance th) = true -> finP p -> sameP p q -> ptEq th p q = true.
Proof.
  intros T [Fx Fy] [Sx Sy]. unfold ptEq, distPP, hypot. fnum.
  destruct (sub_same _ _ Fx Sx) as [s Hs], (sub_same _ _ Fy Sy) as [t Ht].
  rewrite (sq_zero _ _ Hs), (sq_zero _ _ Ht). exact T.
Qed.

(** A segment does not depend on the order of the points it is built from, bit for bit; its ends are stored in order. *)
Theorem C188_segment : forall (th : thrs float) (p q : pt float), (0 <? nullDistance th) = true -> finP p -> finP q ->
  svNew th KSeg p q = svNew th KSeg q p /\
  (forall s, svNew th KSeg p q = Ok s -> ptLt (sA s) (sB s) = true).
Proof.
  intros th p q T Fp Fq. destruct (C187_points th p q) as (_ & _ & Eq & _).
  assert (Np : numP p) by (destruct Fp; split; now apply fin_num). assert (Nq : numP q) by (destruct Fq; split; now apply fin_num).
  unfold svNew, segOrder, fixOrder. rewrite <- Eq. destruct (ptEq th p q) eqn:G; [split; [reflexivity|discriminate]|].
  cbn [sA sB]. destruct (C188_order p q p Np Nq Np) as (I & _ & S & _).
  pose proof (ptLt_val p q Np Nq) as A. pose proof (ptLt_val q p Nq Np) as B.
  destruct (ptLt p q) eqn:L, (ptLt q p) eqn:M; cbn [negb].
  - exfalso. apply proj1 in A, B. specialize (A eq_refl). specialize (B eq_refl). Lia.lia.
  - split; [reflexivity|]. intros s [= <-]. exact L.
  - split; [reflexivity|]. intros s [= <-]. exact M.
  - exfalso. rewrite (sameP_eq th p q T Fp (S eq_refl eq_refl)) in G. discriminate.
Qed.
Print Assumptions C188_segment.

Example C188_ex : svNew thr0 KSeg (mkPt 0.3 2) (mkPt (0.1 + 0.2) 1) = Ok (mkSeg (mkPt 0.3 2) (mkPt (0.1 + 0.2) 1)) /\
  svNew thr0 KSeg (mkPt (0.1 + 0.2) 1) (mkPt 0.3 2) = Ok (mkSeg (mkPt 0.3 2) (mkPt (0.1 + 0.2) 1)) /\
  (0 <? nullDistance (thr0 (N := FNum))) = true /\ finP (mkPt 0.3 2) /\ finP (mkPt (0.1 + 0.2) 1).
Proof. vm_compute. repeat split; auto. Qed.

(** ** C189: with a NaN coordinate the order of points is not a strict weak order *)

(** No constructor rejects NaN; std::sort, used by [sortPoints] and the hull, then has undefined behaviour. *)
Theorem C189_nan_refuted : exists p q r : pt float,
  ptLt p q = false /\ ptLt q p = false /\ ptLt q r = false /\ ptLt r q = false /\ ptLt p r = true.
Proof. exists (mkPt 0 0), (mkPt nan 0), (mkPt 1 0). vm_compute. auto. Qed.
Print Assumptions C189_nan_refuted.
Theorem C189_segment_refuted : exists p q : pt float, ptEq thr0 p q = false /\
  (exists s t, svNew thr0 KSeg p q = Ok s /\ svNew thr0 KSeg q p = Ok t /\ is_nan (px (sA s)) = false /\ is_nan (px (sA t)) = true).
Proof.
  exists (mkPt nan 0), (mkPt 0 0). split; [vm_compute; reflexivity|].
  exists (mkSeg (mkPt 0 0) (mkPt nan 0)), (mkSeg (mkPt nan 0) (mkPt 0 0)). vm_compute. auto.
Qed.
Print Assumptions C189_segment_refuted.

(** ** C190: flat rectangles *)

Lemma min_val (x y : float) : num x -> num y -> num (nmin x y) /\ val (sf (nmin x y)) = Z.min (val (sf x)) (val (sf y)).
Proof. intros A B. unfold nmin. fnum. rewrite ltb_val by assumption. destruct (Z.ltb_spec (val (sf y)) (val (sf x))); split; try assumption; Lia.lia. Qed.
Lemma max_val (x y : float) : num x -> num y -> num (nmax x y) /\ val (sf (nmax x y)) = Z.max (val (sf x)) (val (sf y)).
Proof. intros A B. unfold nmax. fnum. rewrite ltb_val by assumption. destruct (Z.ltb_spec (val (sf x)) (val (sf y))); split; try assumption; Lia.lia. Qed.
Lemma min_fin (x y : float) : fin x -> fin y -> fin (nmin x y).
Proof. intros. unfold nmin. now destruct (nltb y x). Qed.
Lemma max_fin (x y : float) : fin x -> fin y -> fin (nmax x y).
Proof. intros. unfold nmax. now destruct (nltb x y). Qed.

(** Built from two opposite corners in any order, or from the other two: the same rectangle. *)
Theorem C190_corners : forall (th : thrs float) (x1 y1 x2 y2 : float), num x1 -> num y1 -> num x2 -> num y2 ->
  alike sameR (frSet th (mkPt x1 y1) (mkPt x2 y2)) (frSet th (mkPt x2 y2) (mkPt x1 y1)) /\
  alike sameR (frSet th (mkPt x1 y1) (mkPt x2 y2)) (frSet th (mkPt x1 y2) (mkPt x2 y1)).
Proof.
  intros th x1 y1 x2 y2 A B C D.
  assert (mn : forall x y, num x -> num y -> same (nmin x y) (nmin y x)).
  { intros x y X Y. destruct (min_val x y X Y), (min_val y x Y X). apply val_inj; try assumption. Lia.lia. }
  assert (mx : forall x y, num x -> num y -> same (nmax x y) (nmax y x)).
  { intros x y X Y. destruct (max_val x y X Y), (max_val y x Y X). apply val_inj; try assumption. Lia.lia. }
  unfold frSet, shareCoord. fnum. cbn [px py].
  rewrite (fsub_abs x2 x1), (fsub_abs y2 y1).
  destruct ((abs (x1 - x2) <? nullOrthogDistance th) || (abs (y1 - y2) <? nullOrthogDistance th))%bool; split; try exact I; repeat split; cbn; auto using same_refl.
Qed.
Print Assumptions C190_corners.

(** The first corner is the lower one, both dimensions are numbers not below zero. *)
Theorem C190_ordered : forall (th : thrs float) (p q : pt float) r, finP p -> finP q -> frSet th p q = Ok r ->
  (px (r1 r) <=? px (r2 r)) = true /\ (py (r1 r) <=? py (r2 r)) = true /\
  (0 <=? frWidth r) = true /\ (0 <=? frHeight r) = true.
Proof.
  intros th p q r [Px Py] [Qx Qy]. unfold frSet. destruct (shareCoord th p q); [discriminate|]. intros [= <-].
  assert (K : forall x y, fin x -> fin y -> (nmin x y <=? nmax x y) = true).
  { intros x y X Y. destruct (min_val x y) as [a b], (max_val x y) as [c d]; try (now apply fin_num).
    rewrite leb_val by assumption. apply Z.leb_le. Lia.lia. }
  unfold frWidth, frHeight. fnum. cbn [r1 r2 px py]. repeat split; auto using sub_ge, min_fin, max_fin.
Qed.
Print Assumptions C190_ordered.

Example C190_ex : frSet thr0 (mkPt 0.3 2) (mkPt (0.1 - 0.2) 1.1) = Ok (mkR (mkPt (0.1 - 0.2) 1.1) (mkPt 0.3 2)) /\
  finP (mkPt 0.3 2) /\ finP (mkPt (0.1 - 0.2) 1.1).
Proof. vm_compute. repeat split; auto. Qed.

(** Down to the sign of a zero: corners (0,1) and (-0,...) would keep the first zero.  The order matters there only. *)
Example C190_ex_zero : nmin 0 (-0) = 0 /\ nmin (-0) 0 = -0 /\ same 0 (-0).
Proof. repeat split; try (vm_compute; reflexivity). right. vm_compute. auto. Qed.

(** ** C191: translations, scalings and the identity, as homographies *)

Lemma hpt_one (a b : float) : ptOfH (mkH a b 1) = Ok (mkPt a b).
Proof. unfold ptOfH. fnum. cbn [h0 h1 h2]. change (1 =? nZ 0) with false. now rewrite !div_one. Qed.

Lemma zero_mul x : fin x -> is_zero (0 * x) = true.
Proof. intro. now apply mul_zero_l. Qed.

(** The third value of the image is exactly 1. *)
Lemma third_one x y : fin x -> fin y -> 0 * x + 0 * y + 1 * 1 = 1.
Proof.
  intros X Y. change (1 * 1) with 1. pose proof (zero_mul x X) as A. pose proof (zero_mul y Y) as B.
  assert (S : same (0 * x + 0 * y + 1) 1).
  { rewrite (fadd_comm _ 1). apply same_trans with (1 + 0 * x); [|now apply add_zero_r]. apply add_same; [apply same_refl|now apply add_zero_r]. }
  destruct S as [S|[_ S]]; [exact S|discriminate S].
Qed.

(** The image by the translation homography is the point moved by translate(), one rounding per coordinate. *)
Theorem C191_translation : forall (o : hobj float) (tx ty : float) (p : pt float), finP p ->
  alike sameP (hPt (hm (hSetTranslation o tx ty)) p) (Ok (ptTranslate p tx ty)).
Proof.
  intros o tx ty [x y] [X Y]. cbn [px py] in X, Y. unfold hPt, matMulH, hOfPt, hSetTranslation. cbn [hm m00 m01 m02 m10 m11 m12 m20 m21 m22 h0 h1 h2 px py].
  fnum. change (nZ 0) with 0. change (nZ 1) with 1. rewrite third_one by assumption. rewrite hpt_one. cbn [alike].
  rewrite !mul_one, !one_mul. unfold ptTranslate, sameP. fnum. cbn [px py]. split.
  - apply add_same; [|apply same_refl]. apply add_zero_r. now apply zero_mul.
  - apply add_same; [|apply same_refl]. rewrite fadd_comm. apply add_zero_r. now apply zero_mul.
Qed.
Print Assumptions C191_translation.

(** The image by the scaling homography: the rounded products. *)
Theorem C191_scale : forall (o : hobj float) (kx ky : float) (p : pt float), finP p ->
  alike sameP (hPt (hm (hSetScale o kx ky)) p) (Ok (mkPt (kx * px p) (ky * py p))).
Proof.
  intros o kx ky [x y] [X Y]. cbn [px py] in X, Y. unfold hPt, matMulH, hOfPt, hSetScale. cbn [hm m00 m01 m02 m10 m11 m12 m20 m21 m22 h0 h1 h2 px py].
  fnum. change (nZ 0) with 0. change (nZ 1) with 1. rewrite third_one by assumption. rewrite hpt_one. cbn [alike].
  change (0 * 1) with 0. unfold sameP. cbn [px py]. split.
  - apply same_trans with (kx * x + 0 * y); [now apply add_zero_r|]. apply add_zero_r. now apply zero_mul.
  - apply same_trans with (0 * x + ky * y); [now apply add_zero_r|]. rewrite fadd_comm. apply add_zero_r. now apply zero_mul.
Qed.
Print Assumptions C191_scale.

(** The default homography maps every point to itself. *)
Theorem C191_identity : forall p : pt float, finP p -> alike sameP (hPt (hm hNew) p) (Ok p).
Proof.
  intros p F. pose proof (C191_scale hNew 1 1 p F) as H. change (hm (hSetScale hNew 1 1)) with (hm (hNew (N := FNum))) in H.
  destruct p as [x y]. rewrite !one_mul in H. exact H.
Qed.
Print Assumptions C191_identity.

(** An infinite coordinate is not kept: 0 times infinity is NaN. *)
Example C191_ex : hPt (hm (hSetTranslation hNew 0.1 0.2)) (mkPt 0.2 1e300) = Ok (mkPt (0.2 + 0.1) 1e300) /\
  (0.2 + 0.1 =? 0.3) = false /\ finP (mkPt 0.2 1e300) /\
  (exists q, hPt (hm (hNew (N := FNum))) (mkPt infinity 0) = Ok q /\ is_nan (py q) = true).
Proof. vm_compute. repeat split; auto. eexists. split; reflexivity. Qed.
