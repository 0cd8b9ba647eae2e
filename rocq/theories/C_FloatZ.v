(** * Properties C192 to C195: binary64 results against exact values

    The model functions at [FNum] (Coq's primitive binary64 floats; std::hypot is sqrt(x*x+y*y), see
    [hypot] in Num.v) compared with the real numbers the doubles stand for ([toR], S_FloatZ.v). *)

From Coq Require Import Reals Lra ZArith Floats Bool Lia List.
From Verif Require Import Num FloatFuns M_LP M_Seg M_Circle M_Poly M_FRect M_Hull M_Misc S_Geom S_Poly S_Hull P_LP P_Poly P_Poly3 S_Float S_FloatZ P_Float P_FloatZ P_FloatZ2 C_Poly C_Hull.
Import ListNotations.
Local Open Scope Z_scope.

(** ** C192: rounding errors are not covered by the thresholds *)

Local Open Scope float_scope.
Definition wP : pt float := mkPt 3700 7100.
Definition wQ : pt float := mkPt 3701.3 7102.9.

(** Full statement: with the default thresholds, the two points a line is built from are on the line.  In
    binary64 the computed distance of the first one is not below [nullDistance]. *)
Theorem C192_line_refuted : exists p q l, finP p /\ finP q /\ ptEq (N := FNum) (thr0 (N := FNum)) p q = false /\ lineOf (N := FNum) (thr0 (N := FNum)) p q = Ok l /\
  (lineDist (N := FNum) l p <? nullDistance (thr0 (N := FNum))) = false.
Proof.
  exists wP, wQ. destruct (lineOf (N := FNum) (thr0 (N := FNum)) wP wQ) as [l| |] eqn:E; [|vm_compute in E; discriminate|vm_compute in E; discriminate]. exists l.
  split; [split; reflexivity|]. split; [split; reflexivity|]. split; [reflexivity|]. split; [reflexivity|].
  change (match Ok l with Ok l => (lineDist (N := FNum) l wP <? nullDistance (thr0 (N := FNum))) = false | _ => False end). rewrite <- E. vm_compute. reflexivity.
Qed.
Print Assumptions C192_line_refuted.

(** Therefore getPointAt throws on a valid segment, with a distance smaller than its length, *)
Theorem C192_point_refuted : exists s d, finP (sA s) /\ finP (sB s) /\ svNew (N := FNum) (thr0 (N := FNum)) KOSeg (sA s) (sB s) = Ok s /\
  (0 <? d) = true /\ (d <? svLength (N := FNum) s) = true /\ svPointAt (N := FNum) (thr0 (N := FNum)) s d = Throw.
Proof.
  exists (mkSeg wP wQ), 1. split; [split; reflexivity|]. split; [split; reflexivity|]. vm_compute. auto.
Qed.
Print Assumptions C192_point_refuted.

(** and the middle of a segment is said not to be aligned with its ends. *)
Theorem C192_middle_refuted : exists s, finP (sA s) /\ finP (sB s) /\ svNew (N := FNum) (thr0 (N := FNum)) KSeg (sA s) (sB s) = Ok s /\
  areCollinear (N := FNum) (thr0 (N := FNum)) (sA s) (sB s) (svCenter (N := FNum) s) = Ok false.
Proof. exists (mkSeg wP wQ). split; [split; reflexivity|]. split; [split; reflexivity|]. vm_compute. auto. Qed.
Print Assumptions C192_middle_refuted.

Local Close Scope float_scope.

(** ** C193: convex hull of integer points, computed in binary64 *)

(** Integer coordinates of absolute value below 2^25: what the double computation returns is the exact
    hull of the points.  ([noTie]: no two other points are aligned with the pivot.) *)
Theorem C193_hull : forall l : list (Z * Z), (4 <= length l)%nat -> NoDup l -> Forall (within 33554431) l -> noTie (map rpt l) ->
  Forall (fun c => finP (gpt c) /\ toRp (gpt c) = rpt c) l /\
  exists h, hullPts (N := FNum) (map gpt l) = Ok (map gpt h) /\ isHull (map rpt l) (map rpt h) /\ isPivot (map rpt l) (hd pt00 (map rpt h)).
Proof.
  intros l L Nd F NT. split.
  { apply Forall_impl with (2 := F). intros c W. pose proof (gpt_x c W) as X. pose proof (gpt_y c W) as Y.
    split; [split; [exact (rep_fin _ _ X)|exact (rep_fin _ _ Y)]|]. unfold toRp, rpt. now rewrite (rep_toR _ _ X), (rep_toR _ _ Y). }
  assert (Inj : forall a b, rpt a = rpt b -> a = b).
  { intros [a b] [c d] H. unfold rpt in H. cbn [fst snd] in H. injection H as H1 H2. apply eq_IZR in H1. apply eq_IZR in H2. congruence. }
  destruct (C100_hull (map rpt l)) as (b & Hb & H1 & H2).
  - now rewrite map_length.
  - apply FinFun.Injective_map_NoDup; [exact Inj|assumption].
  - assumption.
  - apply sep_int. intros p I. apply in_map_iff in I. destruct I as ([a c] & <- & _). now exists a, c.
  - pose proof (hull_same l F) as S. rewrite Hb in S. destruct (hullPts (N := FNum) (map gpt l)) as [a| |]; [|destruct S|destruct S].
    destruct S as (h & -> & ->). exists h. auto.
Qed.
Print Assumptions C193_hull.

Definition grid5 : list (Z * Z) := [(4, 5); (2, 2); (1, 4); (0, 0); (5, 1)].
Example C193_ex : (4 <= length grid5)%nat /\ NoDup grid5 /\ Forall (within 33554431) grid5 /\ map rpt grid5 = hull5 /\
  hullPts (N := FNum) (map gpt grid5) = Ok (map gpt [(0, 0); (5, 1); (4, 5); (1, 4)]).
Proof.
  split; [cbn; lia|]. split; [repeat constructor; cbn; intuition congruence|]. split; [repeat constructor; cbn; lia|]. split; [reflexivity|]. vm_compute. reflexivity.
Qed.

(** ** C194: areas, turns and squared distances of integer points *)

(** The shoelace sum in doubles is the exact area, whatever the order of the rounded additions. *)
Theorem C194_area : forall k (l : list (Z * Z)) (o : pt R), 0 <= k < 2 ^ 53 -> Forall (within k) l -> 2 * k * k * Z.of_nat (length l) < 2 ^ 53 ->
  fin (signedArea (N := FNum) (map gpt l)) /\ toR (signedArea (N := FNum) (map gpt l)) = fanArea o (map rpt l).
Proof.
  intros k l o K F L. destruct (area_g k l K F L) as [A B]. split; [exact A|]. now rewrite B, <- signedArea_fan, area_r.
Qed.
Print Assumptions C194_area.
Example C194_ex_area : 2 * 1000000 * 1000000 * Z.of_nat (length [(0, 0); (1000000, 1); (999999, 1000000)]) < 2 ^ 53 /\
  signedArea (N := FNum) (map gpt [(0, 0); (1000000, 1); (999999, 1000000)]) = 499999500000.5%float.
Proof. split; [reflexivity|vm_compute; reflexivity]. Qed.

(** Convexity: the loop of isConvex in doubles takes the exact decision. *)
Theorem C194_convex : forall l : list (Z * Z), (2 <= length l)%nat -> Forall (within 33554431) l ->
  (convexLoop (N := FNum) (map gpt l) 0 (seq 0 (length l)) = true <->
   (forall p q r, triple (map rpt l) p q r -> (0 < cross3 p q r)%R) \/ (forall p q r, triple (map rpt l) p q r -> (cross3 p q r <= 0)%R)).
Proof.
  intros l L F. rewrite (convex_same l F). rewrite <- convex_turns by now rewrite map_length. now rewrite map_length.
Qed.
Print Assumptions C194_convex.
(** A very flat turn: the products are near 10^15 and their difference is 1. *)
Example C194_ex_convex : let l := [(0, 0); (33554430, 33554429); (33554431, 33554430); (0, 33554431)] in
  Forall (within 33554431) l /\ zCross l 1 = 1 /\ convexLoop (N := FNum) (map gpt l) 0 (seq 0 (length l)) = true.
Proof. cbv zeta. split; [repeat constructor; cbn; lia|]. split; vm_compute; reflexivity. Qed.

(** ** C195: results that depend on comparisons only *)

(** For all finite doubles.  A point is in a rectangle exactly if its coordinates are between. *)
Theorem C195_inside : forall (p : pt float) (r : frect float), finP p -> finP (r1 r) -> finP (r2 r) ->
  (ptInRect (N := FNum) p r = true <-> (toR (px (r1 r)) < toR (px p) < toR (px (r2 r)) /\ toR (py (r1 r)) < toR (py p) < toR (py (r2 r)))%R).
Proof.
  intros p r [A B] [C D] [G H]. unfold ptInRect. cbn [nltb FNum].
  rewrite <- !toR_lt by assumption.
  destruct (px (r1 r) <? px p)%float, (px p <? px (r2 r))%float, (py (r1 r) <? py p)%float, (py p <? py (r2 r))%float; cbn; intuition congruence.
Qed.
Print Assumptions C195_inside.

(** The corners of the bounding box of a container of points: no point is outside, every side is reached. *)
Theorem C195_box : forall th (pts : list (pt float)) a b, Forall finP pts -> bbPoints (N := FNum) th pts = Ok (a, b) ->
  finP a /\ finP b /\
  (forall q, In q pts -> (toR (px a) <= toR (px q) <= toR (px b) /\ toR (py a) <= toR (py q) <= toR (py b))%R) /\
  (exists q, In q pts /\ px a = px q) /\ (exists q, In q pts /\ px b = px q) /\ (exists q, In q pts /\ py a = py q) /\ (exists q, In q pts /\ py b = py q).
Proof.
  intros th pts a b F H. destruct pts as [|p r]; [discriminate|]. unfold bbPoints in H.
  destruct (_ <? _)%num in H; [discriminate|]. destruct (shareCoord _ _ _) in H; [discriminate|]. injection H as <- <-. cbn [px py].
  inversion F as [|? ? [Px Py] Fr]. subst.
  assert (Fx : Forall (fun q => fin (px q)) r) by (apply Forall_impl with (2 := Fr); now intros ? []).
  assert (Fy : Forall (fun q => fin (py q)) r) by (apply Forall_impl with (2 := Fr); now intros ? []).
  destruct (minOf_toR px r (px p) Px Fx) as (A1 & A2 & A3 & A4), (minOf_toR py r (py p) Py Fy) as (B1 & B2 & B3 & B4).
  destruct (maxOf_toR px r (px p) Px Fx) as (C1 & C2 & C3 & C4), (maxOf_toR py r (py p) Py Fy) as (D1 & D2 & D3 & D4).
  rewrite Forall_forall in A3, B3, C3, D3.
  split; [split; assumption|]. split; [split; assumption|].
  split. { intros q [<-|I]; [split; split; assumption|]. split; split; [apply (A3 q I)|apply (C3 q I)|apply (B3 q I)|apply (D3 q I)]. }
  assert (X : forall (f : pt float -> float) v, (v = f p \/ exists q, In q r /\ v = f q) -> exists q, In q (p :: r) /\ v = f q).
  { intros f v [->|(q & I & ->)]; [exists p; split; [now left|reflexivity]|exists q; split; [now right|reflexivity]]. }
  split; [exact (X px _ A4)|]. split; [exact (X px _ C4)|]. split; [exact (X py _ B4)|exact (X py _ D4)].
Qed.
Print Assumptions C195_box.

(** The four extreme points. *)
Lemma ext_pick (ltF : pt float -> pt float -> bool) (ltR : pt R -> pt R -> bool) (pts : list (pt float)) i :
  (forall p q, finP p -> finP q -> ltR (toRp p) (toRp q) = ltF p q) -> pts <> [] -> Forall finP pts ->
  extremePoint (N := RNum) ltR (map toRp pts) = Ok (nth i (map toRp pts) pt00, i) -> (i < length pts)%nat ->
  extremePoint (N := FNum) ltF pts = Ok (nth i pts (pt00 (N := FNum)), i) /\ nth i (map toRp pts) pt00 = toRp (nth i pts (pt00 (N := FNum))).
Proof.
  intros H Nn F E I. pose proof (minElem_map toRp ltR ltF finP H pts F) as M.
  unfold extremePoint in *. destruct pts as [|p r]; [congruence|]. assert (E2 : minElem ltR (map toRp (p :: r)) = i) by (injection E; intros X _; exact X). rewrite M in E2. rewrite E2.
  split; [reflexivity|]. rewrite nth_indep with (d' := toRp (pt00 (N := FNum))) by now rewrite map_length. apply map_nth.
Qed.
Lemma ltb_R x y : fin x -> fin y -> Rltb (toR x) (toR y) = (x <? y)%float.
Proof.
  intros A B. pose proof (toR_lt x y A B) as H. pose proof (Rltb_spec (toR x) (toR y)) as K. destruct (Rltb (toR x) (toR y)), (x <? y)%float; intuition congruence.
Qed.
Lemma ltBm_R p q : finP p -> finP q -> ltBm (N := RNum) (toRp p) (toRp q) = ltBm (N := FNum) p q.
Proof. intros [A B] [C D]. unfold ltBm, toRp. cbn [px py nltb FNum RNum]. now rewrite !ltb_R. Qed.
Lemma ltTm_R p q : finP p -> finP q -> ltTm (N := RNum) (toRp p) (toRp q) = ltTm (N := FNum) p q.
Proof. intros [A B] [C D]. unfold ltTm, toRp. cbn [px py nltb FNum RNum]. now rewrite !ltb_R. Qed.
Lemma ltLm_R p q : finP p -> finP q -> ltLm (N := RNum) (toRp p) (toRp q) = ltLm (N := FNum) p q.
Proof. intros [A B] [C D]. unfold ltLm, toRp. cbn [px py nltb FNum RNum]. now rewrite !ltb_R. Qed.
Lemma ltRm_R p q : finP p -> finP q -> ltRm (N := RNum) (toRp p) (toRp q) = ltRm (N := FNum) p q.
Proof. intros [A B] [C D]. unfold ltRm, toRp. cbn [px py nltb FNum RNum]. now rewrite !ltb_R. Qed.
Theorem C195_extreme : forall pts : list (pt float), pts <> [] -> Forall finP pts ->
  (exists i, (i < length pts)%nat /\ extremePoint (N := FNum) (ltBm (N := FNum)) pts = Ok (nth i pts (pt00 (N := FNum)), i) /\ let p := nth i pts (pt00 (N := FNum)) in
     forall q, In q pts -> (toR (py p) < toR (py q) \/ (toR (py q) = toR (py p) /\ toR (px p) <= toR (px q)))%R) /\
  (exists i, (i < length pts)%nat /\ extremePoint (N := FNum) (ltTm (N := FNum)) pts = Ok (nth i pts (pt00 (N := FNum)), i) /\ let p := nth i pts (pt00 (N := FNum)) in
     forall q, In q pts -> (toR (py q) < toR (py p) \/ (toR (py q) = toR (py p) /\ toR (px p) <= toR (px q)))%R) /\
  (exists i, (i < length pts)%nat /\ extremePoint (N := FNum) (ltLm (N := FNum)) pts = Ok (nth i pts (pt00 (N := FNum)), i) /\ let p := nth i pts (pt00 (N := FNum)) in
     forall q, In q pts -> (toR (px p) < toR (px q) \/ (toR (px q) = toR (px p) /\ toR (py p) <= toR (py q)))%R) /\
  (exists i, (i < length pts)%nat /\ extremePoint (N := FNum) (ltRm (N := FNum)) pts = Ok (nth i pts (pt00 (N := FNum)), i) /\ let p := nth i pts (pt00 (N := FNum)) in
     forall q, In q pts -> (toR (px q) < toR (px p) \/ (toR (px q) = toR (px p) /\ toR (py p) <= toR (py q)))%R).
Proof.
  intros pts Nn F. assert (Nm : map toRp pts <> []) by (destruct pts; [congruence|discriminate]).
  destruct (C79_extreme (map toRp pts) Nm) as ((i1 & E1 & [J1 _] & H1) & (i2 & E2 & [J2 _] & H2) & (i3 & E3 & [J3 _] & H3) & (i4 & E4 & [J4 _] & H4)).
  rewrite map_length in J1, J2, J3, J4.
  repeat match goal with |- _ /\ _ => split end.
  - exists i1. split; [exact J1|]. destruct (ext_pick (ltBm (N := FNum)) (ltBm (N := RNum)) pts i1 ltBm_R Nn F E1 J1) as [X Y].
    split; [exact X|]. cbv zeta. intros q I. specialize (H1 (toRp q) (in_map _ _ _ I)). rewrite Y in H1. exact H1.
  - exists i2. split; [exact J2|]. destruct (ext_pick (ltTm (N := FNum)) (ltTm (N := RNum)) pts i2 ltTm_R Nn F E2 J2) as [X Y].
    split; [exact X|]. cbv zeta. intros q I. specialize (H2 (toRp q) (in_map _ _ _ I)). rewrite Y in H2. exact H2.
  - exists i3. split; [exact J3|]. destruct (ext_pick (ltLm (N := FNum)) (ltLm (N := RNum)) pts i3 ltLm_R Nn F E3 J3) as [X Y].
    split; [exact X|]. cbv zeta. intros q I. specialize (H3 (toRp q) (in_map _ _ _ I)). rewrite Y in H3. exact H3.
  - exists i4. split; [exact J4|]. destruct (ext_pick (ltRm (N := FNum)) (ltRm (N := RNum)) pts i4 ltRm_R Nn F E4 J4) as [X Y].
    split; [exact X|]. cbv zeta. intros q I. specialize (H4 (toRp q) (in_map _ _ _ I)). rewrite Y in H4. exact H4.
Qed.
Print Assumptions C195_extreme.

Local Open Scope float_scope.
Example C195_ex : let pts := [mkPt 0.1 7; mkPt (-2.5) 1e-3; mkPt 1e300 (-4)] in
  Forall finP pts /\ bbPoints (N := FNum) (thr0 (N := FNum)) pts = Ok (mkPt (-2.5) (-4), mkPt 1e300 7) /\
  extremePoint (N := FNum) (ltBm (N := FNum)) pts = Ok (mkPt 1e300 (-4), 2%nat) /\
  ptInRect (N := FNum) (mkPt 0.1 1e-3) (mkR (mkPt (-2.5) (-4)) (mkPt 1e300 7)) = true.
Proof. cbv zeta. split; [repeat constructor|]. vm_compute. auto. Qed.
