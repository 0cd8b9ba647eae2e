(** * Properties C36-C41, C73-C75: flat rectangles *)

From Coq Require Import Reals ZArith List Bool Lra Lia.
From Verif Require Import Num M_LP M_Seg M_Circle M_Poly M_FRect S_Geom S_Seg S_Circle S_Poly S_FRect P_LP P_LP2 P_Seg P_BB P_Grid P_Grid2 P_Grid3 P_FRect P_FRect2.
Import ListNotations.
Local Open Scope R_scope.

(** Two rectangles in general position, used in the examples: 3x2 and 3x4, common part 2x1. *)
Definition ra : frect R := mkR (mkPt 0 0) (mkPt 3 2).
Definition rb : frect R := mkR (mkPt 1 1) (mkPt 4 5).
Lemma rab_ok : wfR ra /\ wfR rb /\ sepR (nullDistance thr0) ra rb /\ overlap ra rb.
Proof.
  split; [unfold wfR; cbn; lra|]. split; [unfold wfR; cbn; lra|]. split.
  - assert (nullDistance (thr0 (T := R)) <= 1) by apply thr0_dist.
    split; intros a b; cbn [ra rb r1 r2 px py In]; intros A B;
      repeat (destruct A as [<-|A]; [repeat (destruct B as [<-|B]; [unfold sep; lra|]); destruct B|]); destruct A.
  - exists (mkPt 2 (3 / 2)). unfold inRO. cbn. lra.
Qed.

(** ** C36 *)
Theorem C36_corners : forall th p q, thr_ok th ->
  nullOrthogDistance th <= Rabs (px p - px q) -> nullOrthogDistance th <= Rabs (py p - py q) ->
  exists r, frSet th p q = Ok r /\ frSet th q p = Ok r /\
    frSet th (mkPt (px p) (py q)) (mkPt (px q) (py p)) = Ok r /\ frSet th (mkPt (px q) (py p)) (mkPt (px p) (py q)) = Ok r /\
    wfR r /\ isBox [p; q] r /\ frWidth r = Rabs (px p - px q) /\ frHeight r = Rabs (py p - py q).
Proof.
  intros th p q Ht A B. pose proof (thr_orth _ Ht) as O.
  assert (A' : nullOrthogDistance th <= Rabs (px q - px p)) by (rewrite Rabs_minus_sym; auto).
  assert (B' : nullOrthogDistance th <= Rabs (py q - py p)) by (rewrite Rabs_minus_sym; auto).
  rewrite !frSet_ok by (cbn [px py]; auto). cbn [px py].
  rewrite (Rmin_comm (px q) (px p)), (Rmin_comm (py q) (py p)), (Rmax_comm (px q) (px p)), (Rmax_comm (py q) (py p)).
  eexists. do 4 (split; [reflexivity|]).
  unfold wfR, isBox, inR, frWidth, frHeight. cbn [r1 r2 px py In]. rnum.
  unfold Rmin, Rmax, Rabs in *.
  destruct (Rle_dec (px p) (px q)), (Rle_dec (py p) (py q)), (Rcase_abs (px p - px q)), (Rcase_abs (py p - py q)); try lra;
    (split; [lra|]); (split; [|lra]); (split; [intros x [<-|[<-|[]]]; lra|]);
    repeat split; first [exists p; split; [now left|lra] | exists q; split; [now right; left|lra]].
Qed.
Theorem C36_rejected : forall th p q,
  Rabs (px p - px q) < nullOrthogDistance th \/ Rabs (py p - py q) < nullOrthogDistance th -> frSet th p q = Throw.
Proof. exact frSet_throw. Qed.
Theorem C36_from_center : forall th p w h, thr_ok th -> nullOrthogDistance th <= w -> nullOrthogDistance th <= h ->
  exists r, frCenter th p w h = Ok r /\ frGetCenter r = p /\ frWidth r = w /\ frHeight r = h.
Proof. exact frCenter_spec. Qed.
(** From the top-left and bottom-right corners. *)
Example C36_ex : frSet thr0 (mkPt 0 2) (mkPt 3 0) = Ok ra.
Proof.
  rewrite frSet_ok; cbn [px py]; unfold thr0; cbn [nullOrthogDistance]; rnum;
    [|unfold Rabs; destruct (Rcase_abs _); lra|unfold Rabs; destruct (Rcase_abs _); lra].
  unfold Rmin, Rmax. repeat destruct (Rle_dec _ _); try lra. reflexivity.
Qed.

(** ** C37 *)
Theorem C37_intersect_area : forall th r o, thr_rect th -> wfR r -> wfR o -> sepR (nullDistance th) r o ->
  exists x, intersectArea th r o = Ok x /\ intersectArea th o r = Ok x /\
    (x = None <-> ~ overlap r o) /\
    (forall z, x = Some z -> wfR z /\ (forall p, inR z p <-> inR r p /\ inR o p)).
Proof.
  intros th r o Ht Wr Wo S. destruct (intersectArea_spec th r o Ht Wr Wo S) as (x & A & B & C).
  exists x. split; [auto|]. split; [auto|]. destruct x as [z|].
  - destruct C as (Wz & Iz & Oz). split.
    + split; [discriminate|]. intros H. exfalso. apply H. eexists. apply Oz, wf_mid, Wz.
    + intros z' [= <-]. auto.
  - split; [tauto|]. discriminate.
Qed.
Example C37_ex : exists z, intersectArea thr0 ra rb = Ok (Some z) /\ z = mkR (mkPt 1 1) (mkPt 3 2).
Proof.
  destruct rab_ok as (Wa & Wb & S & O). destruct (C37_intersect_area thr0 ra rb thr0_rect Wa Wb S) as (x & A & _ & N & Z).
  destruct x as [z|]; [|exfalso; now apply N]. exists z. split; [auto|]. destruct (Z z eq_refl) as [Wz Iz].
  apply inR_eq; auto; [unfold wfR; cbn; lra|]. intros p. rewrite Iz. unfold inR, ra, rb. cbn. lra.
Qed.

(** ** C38 *)
Theorem C38_union_area : forall th r o, thr_rect th -> wfR r -> wfR o -> sepR (nullDistance th) r o -> overlap r o ->
  exists u z pl, unionArea th r o = Ok u /\ intersectArea th r o = Ok (Some z) /\
    plAreaOf th true u = Ok (areaR r + areaR o - areaR z, pl) /\
    (forall q, evenOdd (plPts u) q = true <-> inRH r q \/ inRH o q).
Proof. exact unionArea_spec. Qed.
(** The union of [ra] and [rb] has area 6 + 12 - 2 and contains the corner cells of both. *)
Example C38_ex : exists u pl, unionArea thr0 ra rb = Ok u /\ plAreaOf thr0 true u = Ok (16, pl) /\
  evenOdd (plPts u) (mkPt (1 / 2) (1 / 2)) = true /\ evenOdd (plPts u) (mkPt (1 / 2) (5 / 2)) = false.
Proof.
  destruct rab_ok as (Wa & Wb & S & O). destruct (C38_union_area thr0 ra rb thr0_rect Wa Wb S O) as (u & z & pl & U & I & A & E).
  destruct C37_ex as (z' & I' & ->). rewrite I in I'. apply Ok_inj in I'. injection I' as ->.
  exists u, pl. split; [auto|]. split; [rewrite A; unfold areaR, ra, rb; cbn [r1 r2 px py]; do 2 f_equal; lra|].
  split; [apply E; left; unfold inRH, ra; cbn; lra|].
  apply not_true_is_false. rewrite E. unfold inRH, ra, rb. cbn. lra.
Qed.

(** ** C39 *)
Theorem C39_iou : forall th r o, thr_rect th -> wfR r -> wfR o -> sepR (nullDistance th) r o ->
  exists v, iou th r o = Ok v /\ iou th o r = Ok v /\ 0 <= v <= 1 /\ (v = 1 <-> r = o) /\ (v = 0 <-> ~ overlap r o).
Proof. exact iou_spec. Qed.
Theorem C39_iou_value : forall th r o, thr_rect th -> wfR r -> wfR o -> sepR (nullDistance th) r o -> overlap r o ->
  exists z, (forall p, inR z p <-> inR r p /\ inR o p) /\ iou th r o = Ok (areaR z / (areaR r + areaR o - areaR z)).
Proof.
  intros th r o Ht Wr Wo S O. destruct (iou_overlap th r o Ht Wr Wo S O) as (z & _ & _ & Iz & V & _). eauto.
Qed.
Example C39_ex : iou thr0 ra rb = Ok (1 / 8).
Proof.
  destruct rab_ok as (Wa & Wb & S & O). destruct (iou_overlap thr0 ra rb thr0_rect Wa Wb S O) as (z & I & _ & _ & V & _).
  destruct C37_ex as (z' & I' & ->). rewrite I in I'. apply Ok_inj in I'. injection I' as ->.
  rewrite V. f_equal. unfold areaR, ra, rb. cbn [r1 r2 px py]. field.
Qed.

(** ** C40 *)
Theorem C40_rotation_laws : forall th r, thr_ok th -> okR th r ->
  let twice a b := do x <- frRotate th r a; frRotate th x b in
  twice RotCCW RotCW = Ok r /\ twice RotCW RotCCW = Ok r /\ twice RotFull RotFull = Ok r /\ twice RotV RotV = Ok r /\ twice RotH RotH = Ok r /\
  (do a <- frRotate th r RotCCW; do b <- frRotate th a RotCCW; do c <- frRotate th b RotCCW; frRotate th c RotCCW) = Ok r.
Proof.
  intros th r Ht Ho twice. unfold twice. rewrite !frRotate_eq by auto. cbn [bind].
  rewrite !frRotate_eq by (auto using rectRot_ok). cbn [bind]. rewrite !frRotate_eq by (auto using rectRot_ok). cbn [bind].
  rewrite !frRotate_eq by (auto using rectRot_ok). destruct (rectRot_inv r) as (A & B & C & D & E & F & G).
  rewrite A, B, C, D, E, F.
  destruct (rectRot_inv (rectRot RotFull r)) as (_ & _ & _ & _ & _ & F' & _). rewrite F', C. repeat split; reflexivity.
Qed.
Theorem C40_rotation_region : forall th r k, thr_ok th -> okR th r ->
  exists x, frRotate th r k = Ok x /\ okR th x /\ (forall p, inR r p <-> inR x (turned k p)).
Proof.
  intros th r k Ht Ho. exists (rectRot k r). split; [now apply frRotate_eq|]. split; [now apply rectRot_ok|]. apply rectRot_in.
Qed.
(** Around a reference point. *)
Theorem C40_rotation_at : forall th r k c, thr_ok th -> okR th r ->
  exists x, frRotateAt th r k c = Ok x /\
    (forall p, inR r p <-> inR x (ptTranslate (turned k (ptTranslate p (- px c) (- py c))) (px c) (py c))).
Proof.
  intros th r k c Ht Ho. eexists. split; [now apply frRotateAt_eq|]. intros p.
  assert (forall s dx dy q, inR s q <-> inR (frTranslate s dx dy) (ptTranslate q dx dy)) as T.
  { intros s dx dy q. unfold inR, frTranslate, ptTranslate. cbn [r1 r2 px py]. rnum. lra. }
  rewrite (T r (- px c) (- py c) p), (rectRot_in k), <- T. reflexivity.
Qed.
Theorem C40_translate : forall r dx dy,
  frWidth (frTranslate r dx dy) = frWidth r /\ frHeight (frTranslate r dx dy) = frHeight r /\
  frArea (frTranslate r dx dy) = frArea r /\ frLength (frTranslate r dx dy) = frLength r /\
  frGetCenter (frTranslate r dx dy) = ptTranslate (frGetCenter r) dx dy /\
  (forall p, inR r p <-> inR (frTranslate r dx dy) (mkPt (px p + dx) (py p + dy))).
Proof.
  intros r dx dy. unfold frWidth, frHeight, frArea, frLength, frHeight, frWidth, frGetCenter, frTranslate, ptTranslate, inR.
  cbn [r1 r2 px py]. rnum. do 4 (split; [ring|]). split; [f_equal; field|]. intros p. cbn. lra.
Qed.
Example C40_ex : okR thr0 ra /\ frRotate thr0 ra RotCCW = Ok (mkR (mkPt (-2) 0) (mkPt (-0) 3)).
Proof.
  assert (okR thr0 ra) as O.
  { unfold okR, ra, thr0. cbn [r1 r2 px py nullOrthogDistance nullDistance]. rnum. split; [lra|]. split; [lra|].
    destruct (P_Circle.edist_coord (mkPt 0 0) (mkPt 3 2)) as [A _]. cbn [px py] in A.
    unfold Rabs in A. destruct (Rcase_abs _); lra. }
  split; [auto|]. rewrite frRotate_eq by (auto using thr0_ok). reflexivity.
Qed.

(** ** C41 *)
Theorem C41_bounding_circle : forall th r, thr_ok th -> wfR r -> 2 * nullDistance th <= edist (r1 r) (r2 r) ->
  exists c, frBoundingCircle th r = Ok c /\ cc c = frGetCenter r /\ cr c = edist (r1 r) (r2 r) / 2 /\
    (forall p, In p (fr4Pts r) -> onEdge c p) /\ (forall p, inR r p -> inDisc c p).
Proof. exact frBounding_spec. Qed.
Theorem C41_inscribed_circle : forall th r, thr_ok th ->
  nullDistance th <= px (r2 r) - px (r1 r) -> nullDistance th <= py (r2 r) - py (r1 r) ->
  exists c, frInscribedCircle th r = Ok c /\ cc c = frGetCenter r /\
    (forall p, inDisc c p -> inR r p) /\
    (* no larger circle with this center is in the rectangle: it touches the nearest sides *)
    (forall rho, (forall p, inDisc (mkC (cc c) rho) p -> inR r p) -> rho <= cr c).
Proof.
  intros th r Ht W H. pose proof (thr_dist _ Ht) as D.
  destruct (frInscribed_spec th r Ht W H) as (c & A & B & C & E). exists c. do 3 (split; [auto|]).
  intros rho G. rewrite C. destruct (Rle_dec rho 0) as [N|N].
  { assert (0 < Rmin (frWidth r) (frHeight r)) by (apply Rmin_pos; unfold frWidth, frHeight; rnum; lra). lra. }
  rewrite B in G.
  pose proof (G (mkPt (px (frGetCenter r) + rho) (py (frGetCenter r)))) as G1.
  pose proof (G (mkPt (px (frGetCenter r)) (py (frGetCenter r) + rho))) as G2. unfold inDisc, inR in G1, G2. cbn [cc cr px py] in G1, G2.
  rewrite (edist_h_gen (frGetCenter r)) in G1. rewrite (edist_v_gen (frGetCenter r)) in G2.
  rewrite Rabs_left1 in G1, G2 by lra. unfold frGetCenter in G1, G2. cbn [px py] in G1, G2.
  unfold frWidth, frHeight. rnum. unfold Rmin. destruct (Rle_dec _ _); lra.
Qed.
Example C41_ex : exists b c, frBoundingCircle thr0 ra = Ok b /\ frInscribedCircle thr0 ra = Ok c /\ cc c = mkPt (3 / 2) 1 /\ cr c = 1.
Proof.
  assert (nullDistance (thr0 (T := R)) <= 1 / 10) as Hd by (unfold thr0; cbn [nullDistance]; rnum; lra).
  destruct (C41_bounding_circle thr0 ra thr0_ok) as (b & B & _).
  { apply rab_ok. }
  { destruct (P_Circle.edist_coord (r1 ra) (r2 ra)) as [A _]. cbn [ra r1 r2 px py] in *. unfold Rabs in A. destruct (Rcase_abs _); lra. }
  destruct (frInscribed_spec thr0 ra thr0_ok) as (c & C & C1 & C2 & _); [cbn; lra|cbn; lra|].
  exists b, c. split; [auto|]. split; [auto|]. rewrite C1, C2. unfold frGetCenter, frWidth, frHeight, ra. cbn [r1 r2 px py]. rnum.
  split; [f_equal; field|]. unfold Rmin. destruct (Rle_dec _ _); lra.
Qed.

(** ** C73: rectangles that touch without a common interior.  Full statement:
    [forall th r o, thr_rect th -> wfR r -> wfR o -> sepR (nullDistance th) r o -> (exists p, inR r p /\ inR o p) ->
       exists u pl, unionArea th r o = Ok u /\
         plAreaOf th true u = Ok (areaR r + areaR o - (area of the common region), pl)]
    It holds when the interiors meet (C38); it fails for rectangles that only share a part of an edge
    (read outside of the 4x4 table) or a corner (self-crossing polygon of area 0). *)
Theorem C73_refuted : exists r o, wfR r /\ wfR o /\ sepR (nullDistance thr0) r o /\ (exists p, inR r p /\ inR o p) /\
  unionArea thr0 r o = Undef.
Proof.
  exists (mkR (mkPt 0 0) (mkPt 1 1)), (mkR (mkPt 0 1) (mkPt 1 2)).
  split; [unfold wfR; cbn; lra|]. split; [unfold wfR; cbn; lra|]. split.
  - assert (nullDistance (thr0 (T := R)) <= 1) by apply thr0_dist.
    split; intros a b; cbn [r1 r2 px py In]; intros A B;
      repeat (destruct A as [<-|A]; [repeat (destruct B as [<-|B]; [unfold sep; lra|]); destruct B|]); destruct A.
  - split; [exists (mkPt 0 1); unfold inR; cbn; lra|]. exact union_touch_undef.
Qed.
Theorem C73_corner_refuted : exists r o u pl, wfR r /\ wfR o /\ sepR (nullDistance thr0) r o /\ (exists p, inR r p /\ inR o p) /\
  unionArea thr0 r o = Ok u /\ plAreaOf thr0 true u = Ok (0, pl) /\ areaR r = 1 /\ areaR o = 1.
Proof.
  destruct union_corner as (u & pl & U & A).
  exists (mkR (mkPt 0 0) (mkPt 1 1)), (mkR (mkPt 1 1) (mkPt 2 2)), u, pl.
  split; [unfold wfR; cbn; lra|]. split; [unfold wfR; cbn; lra|]. split.
  - assert (nullDistance (thr0 (T := R)) <= 1) by apply thr0_dist.
    split; intros a b; cbn [r1 r2 px py In]; intros E F;
      repeat (destruct E as [<-|E]; [repeat (destruct F as [<-|F]; [unfold sep; lra|]); destruct F|]); destruct E.
  - split; [exists (mkPt 1 1); unfold inR; cbn; lra|]. split; [auto|]. split; [auto|]. unfold areaR. cbn. lra.
Qed.

(** ** C74 *)
Theorem C74_rect_inside : forall r o, wfR r -> (frInRect r o = true <-> forall p, inR r p -> inRO o p).
Proof. exact frInRect_spec. Qed.
Theorem C74_point_inside : forall p r, ptInRect p r = true <-> inRO r p.
Proof. exact ptInRect_spec. Qed.
Theorem C74_order : forall r o x, wfR r -> wfR o -> frInRect r o = true ->
  frInRect o r = false /\ (frInRect o x = true -> frInRect r x = true).
Proof.
  intros r o x Wr Wo H. rewrite frInRect_spec in H by auto. split.
  - apply not_true_is_false. rewrite frInRect_spec by auto. intros G.
    assert (inR r (r1 r)) as I by (unfold inR, wfR in *; lra). apply H in I.
    assert (inR o (r1 o)) as J by (unfold inR, wfR in *; lra). apply G in J. unfold inRO in *. lra.
  - rewrite !frInRect_spec by auto. intros G p I. apply G. apply H in I. unfold inR, inRO in *. lra.
Qed.
Example C74_ex : frInRect (mkR (mkPt 1 1) (mkPt 2 (3 / 2))) ra = true /\ frInRect rb ra = false.
Proof.
  split.
  - apply frInRect_spec; [unfold wfR; cbn; lra|]. intros p. unfold inR, inRO, ra. cbn. lra.
  - apply not_true_is_false. rewrite frInRect_spec by apply rab_ok. intros H. specialize (H (mkPt 4 5)). unfold inR, inRO, ra, rb in H. cbn in H. lra.
Qed.

(** ** C75 *)
Theorem C75_extended : forall th r, thr_ok th -> okR th r -> exists x, frExtended th r = Ok x /\
  frGetCenter x = frGetCenter r /\ frWidth x = 3 * frWidth r /\ frHeight x = 3 * frHeight r.
Proof. exact frExtended_spec. Qed.
Theorem C75_diagonals : forall th r, thr_ok th -> okR th r -> exists a b, frDiagonals th r = Ok (a, b) /\
  svCenter a = frGetCenter r /\ svCenter b = frGetCenter r /\ svLength a = svLength b /\
  svLength a * svLength a = frWidth r * frWidth r + frHeight r * frHeight r.
Proof. exact frDiagonals_spec. Qed.
Example C75_ex : exists x, frExtended thr0 ra = Ok x /\ frWidth x = 9 /\ frHeight x = 6.
Proof.
  destruct (C75_extended thr0 ra thr0_ok (proj1 C40_ex)) as (x & A & _ & B & C). exists x. split; [auto|].
  rewrite B, C. unfold frWidth, frHeight, ra. cbn [r1 r2 px py]. rnum. lra.
Qed.

Print Assumptions C36_corners.
Print Assumptions C36_rejected.
Print Assumptions C36_from_center.
Print Assumptions C37_intersect_area.
Print Assumptions C38_union_area.
Print Assumptions C39_iou.
Print Assumptions C39_iou_value.
Print Assumptions C40_rotation_laws.
Print Assumptions C40_rotation_region.
Print Assumptions C40_rotation_at.
Print Assumptions C40_translate.
Print Assumptions C41_bounding_circle.
Print Assumptions C41_inscribed_circle.
Print Assumptions C73_refuted.
Print Assumptions C73_corner_refuted.
Print Assumptions C74_rect_inside.
Print Assumptions C74_point_inside.
Print Assumptions C74_order.
Print Assumptions C75_extended.
Print Assumptions C75_diagonals.
