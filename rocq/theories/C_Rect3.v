(** * C173-C174: segments, polylines and rectangles against a rectangle *)

From Coq Require Import Reals Lra Psatz List Lia Bool.
From Verif Require Import Num M_LP M_Homogr M_Seg M_Circle M_Poly M_FRect M_Inter S_Geom S_Seg S_Circle S_Poly S_FRect S_Rect2 S_Inter S_Rect3
  P_LP P_LP2 P_LP4 P_LP5 P_Seg P_Seg2 P_Grid P_FRect P_FRect2 P_Poly7 P_Rect2 P_Inter P_Rect3 P_Rect4 C_Rect2.
Import ListNotations.
Local Open Scope R_scope.

(** ** C173: segment and polyline against rectangle *)
Theorem C173_segment th r s : thr_ok th -> bigR th r -> okSeg th s -> dirOK th (sA s) (sB s) -> genPosR th r (sA s) (sB s) ->
  exists out, frInterSeg th r s = Ok out /\ NoDup out /\ (length out <= 2)%nat /\ forall q, In q out <-> segHas s q /\ onBorder r q.
Proof. exact (frInterSeg_exact th r s). Qed.
Theorem C173_polyline th closed pts r : thr_ok th -> bigR th r -> okPoly th closed pts ->
  (forall e, In e (sides closed pts) -> genPosR th r (fst e) (snd e)) ->
  exists out, plInterRect th closed pts r = Ok out /\ forall q, In q out <-> onPoly closed pts q /\ onBorder r q.
Proof. exact (plInterRect_exact th closed pts r). Qed.
(** A segment with one end inside and the other outside meets the border. *)
Theorem C173_crossing th r s : thr_ok th -> bigR th r -> okSeg th s -> dirOK th (sA s) (sB s) -> genPosR th r (sA s) (sB s) ->
  inRO r (sA s) -> ~ inR r (sB s) -> exists q, frInterSeg th r s = Ok [q] /\ segHas s q /\ onBorder r q.
Proof.
  intros Ht G Os Ds GP IA IB. assert (wfR r) as W by (pose proof (thr_dist th Ht); destruct G as [[] _]; split; lra).
  destruct (frInterSeg_exact th r s Ht G Os Ds GP) as (out & E & N & L & H). 
  assert (AT : forall t, px (along (sA s) (sB s) t) = px (sA s) + t * (px (sB s) - px (sA s)) /\ py (along (sA s) (sB s) t) = py (sA s) + t * (py (sB s) - py (sA s))) by (intros t; split; reflexivity).
  set (a := sA s) in *. set (b := sB s) in *.
  (* strictly between an inside point and a point of the rectangle: inside *)
  assert (IN : forall t u, 0 <= t < u -> inR r (along a b u) -> inRO r (along a b t)).
  { intros t u T [U1 U2]. destruct IA as [A1 A2]. destruct (AT t) as [X Y], (AT u) as [X' Y']. unfold inRO. rewrite X, Y. rewrite X' in U1. rewrite Y' in U2.
    assert (forall lo hi p d, lo < p < hi -> lo <= p + u * d <= hi -> lo < p + t * d < hi) as K.
    2: { split; apply K; auto. }
    intros lo hi p d P Q. destruct (Rle_dec 0 d); split; nra. }
  assert (UNIQ : forall q q', segHas s q /\ onBorder r q -> segHas s q' /\ onBorder r q' -> q = q').
  { intros q q' [S B] [S' B']. unfold segHas in *. fold a b in S, S'. apply onSeg_along in S, S'. destruct S as (t & T & ->), S' as (u & U & ->).
    assert (NB : forall p, inRO r p -> ~ onBorder r p) by (intros p [P1 P2] [_ Q]; lra).
    destruct (Rtotal_order t u) as [C|[->|C]]; auto; exfalso.
    - apply (NB (along a b t)); auto. apply (IN t u); [lra|]. apply B'.
    - apply (NB (along a b u)); auto. apply (IN u t); [lra|]. apply B. }
  assert (EX : exists q, segHas s q /\ onBorder r q).
  { (* the last parameter at which all four conditions hold *)
    assert (EXIT : forall (lo p d : R), 0 < p - lo -> exists t, 0 < t /\ (lo <= p + t * d) /\ (forall u, 0 <= u <= t -> lo <= p + u * d) /\ (p + t * d = lo \/ 1 <= t)).
    { intros lo p d P. destruct (Rlt_dec d 0) as [D|D].
      - exists ((p - lo) / (- d)). assert (0 < (p - lo) / - d) as Q by (apply Rdiv_lt_0_compat; lra).
        assert ((p - lo) / - d * d = - (p - lo)) as Q' by (field; lra). split; [exact Q|]. split; [lra|]. split; [intros u U; nra|left; lra].
      - exists 1. split; [lra|]. split; [nra|]. split; [intros u U; nra|lra]. }
    destruct IA as [A1 A2].
    destruct (EXIT (px (r1 r)) (px a) (px b - px a)) as (t1 & P1 & _ & F1 & O1); [lra|].
    destruct (EXIT (- px (r2 r)) (- px a) (- (px b - px a))) as (t2 & P2 & _ & F2 & O2); [lra|].
    destruct (EXIT (py (r1 r)) (py a) (py b - py a)) as (t3 & P3 & _ & F3 & O3); [lra|].
    destruct (EXIT (- py (r2 r)) (- py a) (- (py b - py a))) as (t4 & P4 & _ & F4 & O4); [lra|].
    set (t := Rmin (Rmin t1 t2) (Rmin t3 t4)).
    assert (0 < t /\ t <= t1 /\ t <= t2 /\ t <= t3 /\ t <= t4 /\ (t = t1 \/ t = t2 \/ t = t3 \/ t = t4)) as (T0 & T1 & T2 & T3 & T4 & TE).
    { unfold t, Rmin. repeat destruct (Rle_dec _ _); repeat split; try lra; auto. }
    assert (forall u, 0 <= u <= t -> inR r (along a b u)) as INT.
    { intros u U. destruct (AT u) as [X Y]. specialize (F1 u ltac:(lra)). specialize (F2 u ltac:(lra)). specialize (F3 u ltac:(lra)). specialize (F4 u ltac:(lra)). unfold inR. rewrite X, Y. lra. }
    assert (t < 1) as TL.
    { destruct (Rlt_dec t 1); auto. exfalso. apply IB. replace b with (along a b 1); [apply INT; lra|]. destruct (AT 1) as [X Y]. apply pt_eq; lra. }
    exists (along a b t). split; [apply onSeg_along; exists t; split; [lra|reflexivity]|]. split; [apply INT; lra|]. destruct (AT t) as [-> ->].
    destruct TE as [TE|[TE|[TE|TE]]]; rewrite TE in *; [destruct O1|destruct O2|destruct O3|destruct O4]; lra. }
  destruct EX as (q & Q). exists q. split; auto. assert (In q out) as I by (now apply H).
  assert (out = [q]) as <-; [|exact E]. destruct out as [|x [|y out]]; [destruct I|destruct I as [->|[]]; reflexivity|exfalso].
  assert (x = y) as -> by (apply UNIQ; apply H; cbn; auto). inversion N. apply H2. now left.
Qed.

(** ** C174: two rectangles *)
Theorem C174_exact th r o : thr_ok th -> bigR th r -> bigR th o -> apartR (nullDistance th) r o ->
  exists out, frInterRect th r o = Ok out /\ frInterRect th o r = Ok out /\ (forall q, In q out <-> onBorder r q /\ onBorder o q) /\
    (length out = 0 \/ length out = 2 \/ length out = 4)%nat.
Proof.
  intros Ht Gr Go A. pose proof (thr_dist th Ht) as T0. assert (wfR r) as Wr by (destruct Gr as [[] _]; split; lra). assert (wfR o) as Wo by (destruct Go as [[] _]; split; lra).
  destruct (frInterRect_exact th r o Ht Gr Go A) as (u & E & Iu & Hu). destruct (frInterRect_exact th o r Ht Go Gr (apart_sym _ _ _ A)) as (v & F & Iv & Hv).
  exists u. split; auto. split; [|split; [exact Hu|exact (rect_count r o _ u Wr Wo T0 A Iu Hu)]].
  rewrite F. f_equal. apply incr_unique; auto. intros q. rewrite Hu, Hv. tauto.
Qed.

(** ** Examples *)
(** The rectangle (0,0)-(4,3), the segment from (1,-1) to (5,2): they meet at (7/3,0) and (4,5/4). *)
Definition s34 : seg R := mkSeg (mkPt 1 (-1)) (mkPt 5 2).
Lemma s34_len : edist (mkPt 1 (-1)) (mkPt 5 2) = 5.
Proof. apply edist_val; cbn; lra. Qed.
Lemma s34_gen : genPosR thr0 r43 (sA s34) (sB s34).
Proof.
  pose proof thr0_small as (T & _). intros e. rewrite rectSides. unfold s34, r43. cbn [sA sB r1 r2 px py In].
  intros [<-|[<-|[<-|[<-|[]]]]]; unfold genPos, transversal, onOrOff, cross3; cbn [fst snd px py]; rewrite ?edist_v, ?edist_h, s34_len, angle0.
  all: split; [right; apply acos_big; [lra|]; match goal with |- context [Rabs ?a / (Rabs ?b * 5)] =>
    first [replace (Rabs a / (Rabs b * 5)) with (3 / 5) by (replace (Rabs a) with 9 by (unfold Rabs; destruct (Rcase_abs _); lra); replace (Rabs b) with 3 by (unfold Rabs; destruct (Rcase_abs _); lra); field)
          |replace (Rabs a / (Rabs b * 5)) with (4 / 5) by (replace (Rabs a) with 16 by (unfold Rabs; destruct (Rcase_abs _); lra); replace (Rabs b) with 4 by (unfold Rabs; destruct (Rcase_abs _); lra); field)] end; lra|].
  all: split; [intros p [->| ->]; right; cbn [px py]; unfold Rabs; destruct (Rcase_abs _); lra|].
  all: split; [intros p [->| ->]; right; cbn [px py]; unfold Rabs; repeat destruct (Rcase_abs _); lra|lra].
Qed.
Example C173_ex : exists out, frInterSeg thr0 r43 s34 = Ok out /\ (length out <= 2)%nat /\ In (mkPt (7 / 3) 0) out /\ In (mkPt 4 (5 / 4)) out.
Proof.
  pose proof thr0_small as (T & T').
  destruct (C173_segment thr0 r43 s34 thr0_ok r43_big) as (out & E & _ & L & H).
  - split; cbn [sA sB s34]; rewrite ?s34_len; lra.
  - apply dirOK_eval. right. cbn [sA sB s34]. rewrite s34_len. cbn [py]. rewrite Rabs_left; lra.
  - exact s34_gen.
  - exists out. split; auto. split; auto. unfold segHas, onSeg, onBorder, inR in H. cbn [sA sB s34 px py r43 r1 r2] in H.
    split; apply H; cbn [px py]; (split; [|lra]); [exists (1 / 3)|exists (3 / 4)]; lra.
Qed.
Example C173_polyline_ex : exists out, plInterRect thr0 false [mkPt 1 (-1); mkPt 5 2] r43 = Ok out /\ In (mkPt (7 / 3) 0) out /\ In (mkPt 4 (5 / 4)) out /\ ~ In (mkPt 0 0) out.
Proof.
  pose proof thr0_small as (T & T').
  destruct (C173_polyline thr0 false [mkPt 1 (-1); mkPt 5 2] r43 thr0_ok r43_big) as (out & E & H).
  - intros e [<-|[]]. cbn [fst snd]. split; [split; cbn [sA sB]; rewrite ?s34_len; lra|]. apply dirOK_eval. right. rewrite s34_len. cbn [py]. rewrite Rabs_left; lra.
  - intros e [<-|[]]. exact s34_gen.
  - exists out. split; auto. split; [|split].
    + apply H. split; [exists (mkPt 1 (-1), mkPt 5 2); split; [now left|exists (1 / 3); cbn; lra]|unfold onBorder, inR; cbn; lra].
    + apply H. split; [exists (mkPt 1 (-1), mkPt 5 2); split; [now left|exists (3 / 4); cbn; lra]|unfold onBorder, inR; cbn; lra].
    + intros I. apply H in I. destruct I as [(e & [<-|[]] & t & _ & X & Y) _]. cbn in X, Y. lra.
Qed.
(** From the inside point (1,1) to the outside point (5,4): the only common point is (11/3,3). *)
Example C173_crossing_ex : frInterSeg thr0 r43 (mkSeg (mkPt 1 1) (mkPt 5 4)) = Ok [mkPt (11 / 3) 3].
Proof.
  pose proof thr0_small as (T & T'). assert (L : edist (mkPt 1 1) (mkPt 5 4) = 5) by (apply edist_val; cbn; lra).
  destruct (C173_crossing thr0 r43 (mkSeg (mkPt 1 1) (mkPt 5 4)) thr0_ok r43_big) as (q & E & S & B).
  - split; cbn [sA sB]; rewrite ?L; lra.
  - apply dirOK_eval. right. cbn [sA sB]. rewrite L. cbn [py]. rewrite Rabs_left; lra.
  - intros e. rewrite rectSides. unfold r43. cbn [sA sB r1 r2 px py In].
    intros [<-|[<-|[<-|[<-|[]]]]]; unfold genPos, transversal, onOrOff, cross3; cbn [fst snd px py]; rewrite ?edist_v, ?edist_h, L, angle0.
    all: split; [right; apply acos_big; [lra|]; match goal with |- context [Rabs ?a / (Rabs ?b * 5)] =>
    first [replace (Rabs a / (Rabs b * 5)) with (3 / 5) by (replace (Rabs a) with 9 by (unfold Rabs; destruct (Rcase_abs _); lra); replace (Rabs b) with 3 by (unfold Rabs; destruct (Rcase_abs _); lra); field)
          |replace (Rabs a / (Rabs b * 5)) with (4 / 5) by (replace (Rabs a) with 16 by (unfold Rabs; destruct (Rcase_abs _); lra); replace (Rabs b) with 4 by (unfold Rabs; destruct (Rcase_abs _); lra); field)] end; lra|].
    all: split; [intros p [->| ->]; right; cbn [px py]; unfold Rabs; destruct (Rcase_abs _); lra|].
    all: split; [intros p [->| ->]; right; cbn [px py]; unfold Rabs; repeat destruct (Rcase_abs _); lra|lra].
  - unfold inRO. cbn. lra.
  - unfold inR. cbn. lra.
  - rewrite E. repeat f_equal. destruct S as (t & Ht & X & Y). cbn [sA sB px py] in X, Y. destruct B as [[B1 B2] B3]. cbn [r43 r1 r2 px py] in *. apply pt_eq; cbn [px py]; lra.
Qed.
(** The rectangles (0,0)-(4,3) and (1,1)-(6,5). *)
Example C174_ex : exists out, frInterRect thr0 r43 (mkR (mkPt 1 1) (mkPt 6 5)) = Ok out /\ In (mkPt 4 1) out /\ In (mkPt 1 3) out /\ ~ In (mkPt 4 3) out.
Proof.
  pose proof thr0_small as (T & T').
  destruct (C174_exact thr0 r43 (mkR (mkPt 1 1) (mkPt 6 5)) thr0_ok r43_big) as (out & E & _ & H & _).
  - unfold bigR. cbn. lra.
  - split; intros a b I J; cbn in I, J; repeat destruct I as [<-|I]; try destruct I; repeat destruct J as [<-|J]; try destruct J; unfold Rabs; destruct (Rcase_abs _); lra.
  - exists out. split; auto. split; [|split]; [apply H; unfold onBorder, inR; cbn; lra|apply H; unfold onBorder, inR; cbn; lra|].
    intros I. apply H in I. unfold onBorder, inR in I. cbn in I. lra.
Qed.
Print Assumptions C173_segment. Print Assumptions C173_polyline. Print Assumptions C173_crossing. Print Assumptions C174_exact.
