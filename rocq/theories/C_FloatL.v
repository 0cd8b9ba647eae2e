(** * Properties C202 and C203: lines built from two points, and points along a segment, in binary64

    The model functions at [FNum] against the exact line through the real points the doubles stand for.  std::hypot is
    sqrt(x*x+y*y) (see [hypot] in Num.v). *)

From Coq Require Import Reals Lra ZArith Floats Bool Lia List.
From Verif Require Import Num FloatFuns M_LP M_Seg S_Geom S_Seg S_Float S_FloatZ S_FloatR S_FloatL P_Float P_FloatZ P_FloatZ2 P_FloatR P_FloatE P_FloatE2 P_FloatL P_FloatL2 P_FloatL3 C_Float C_FloatR.
Import ListNotations.
Local Open Scope R_scope.

(** The construction succeeds, and every distance to the line is right up to [lineErr]. *)
Theorem C202_distance : forall th p q M, M <= 2 ^ 100 -> inBox M p -> inBox M q -> notTinyP p q -> thrF th -> clearSlope th p q ->
  ptEq (N := FNum) th p q = false -> 0 < edist (toRp p) (toRp q) ->
  exists l, lineOf (N := FNum) th p q = Ok l /\ forall r, inBox M r ->
    fin (lineDist (N := FNum) l r) /\ Rabs (toR (lineDist (N := FNum) l r) - distLine (toRp p) (toRp q) (toRp r)) <= lineErr M (edist (toRp p) (toRp q)).
Proof.
  intros th p q M HM Ip Iq T Th Hs Ne PD. destruct (lineOf_f th p q M HM Ip Iq T Th Hs Ne PD) as (l & El & Il). exists l. split; [exact El|]. intros r Ir. now apply lineDist_of.
Qed.
Print Assumptions C202_distance.

Lemma dist_ends p q : distLine p q p = 0 /\ distLine p q q = 0.
Proof.
  unfold distLine, cross3, Rdiv. split; (match goal with |- Rabs ?x * _ = 0 => replace x with 0 by ring end); now rewrite Rabs_R0, Rmult_0_l.
Qed.

(** Positive part of C192: the two points are on the line, *)
Theorem C202_ends : forall th p q M, M <= 2 ^ 100 -> inBox M p -> inBox M q -> notTinyP p q -> thrF th -> clearSlope th p q ->
  ptEq (N := FNum) th p q = false -> 0 < edist (toRp p) (toRp q) -> lineErr M (edist (toRp p) (toRp q)) < toR (nullDistance th) ->
  exists l, lineOf (N := FNum) th p q = Ok l /\ (lineDist (N := FNum) l p <? nullDistance th)%float = true /\ (lineDist (N := FNum) l q <? nullDistance th)%float = true.
Proof.
  intros th p q M HM Ip Iq T Th Hs Ne PD L. destruct (C202_distance th p q M HM Ip Iq T Th Hs Ne PD) as (l & El & D). exists l. split; [exact El|].
  destruct (dist_ends (toRp p) (toRp q)) as [Zp Zq]. destruct Th as (Fd & _). destruct (D p Ip) as [Fp Ep]. destruct (D q Iq) as [Fq Eq]. rewrite Zp in Ep. rewrite Zq in Eq.
  split; (apply toR_lt; [assumption|assumption|]); [revert Ep|revert Eq]; unfold Rabs; destruct (Rcase_abs _); lra.
Qed.
Print Assumptions C202_ends.


Lemma lineErr_mono M d D : 0 <= M -> 0 < d <= D -> lineErr M D <= lineErr M d.
Proof.
  intros HM [Pd H]. unfold lineErr. pose proof ulp1_pos. apply Rmult_le_compat_r; [lra|]. assert (/ D <= / d) by (apply Rinv_le_contravar; lra).
  assert (M * M / D <= M * M / d) by (apply Rmult_le_compat_l; [nra|assumption]). lra.
Qed.
Lemma pair_dist th M d p q : M <= 2 ^ 100 -> thrF th -> linePair th M d p q -> ptEq (N := FNum) th p q = false ->
  exists l, lineOf (N := FNum) th p q = Ok l /\ forall r, inBox M r -> fin (lineDist (N := FNum) l r) /\ Rabs (toR (lineDist (N := FNum) l r) - distLine (toRp p) (toRp q) (toRp r)) <= lineErr M d.
Proof.
  intros HM Th (Ip & Iq & T & Hs & Hd) Ne. destruct (C202_distance th p q M HM Ip Iq T Th Hs Ne ltac:(lra)) as (l & El & D). exists l. split; [exact El|]. intros r Ir. destruct (D r Ir) as [F E]. split; [exact F|].
  apply Rle_trans with (1 := E). apply lineErr_mono; [|exact Hd]. destruct Ip as [_ [B _]]. apply Rle_trans with (2 := B). apply Rabs_pos.
Qed.

(** areCollinear() takes the right decision on points that are nearly aligned or clearly not. *)
Theorem C202_collinear : forall th M d a b c, M <= 2 ^ 100 -> thrF th ->
  (forall p q, In p [a; b; c] -> In q [a; b; c] -> p <> q -> linePair th M d p q) -> a <> b -> b <> c -> a <> c ->
  ((forall p q r, In p [a; b; c] -> In q [a; b; c] -> In r [a; b; c] -> p <> q -> q <> r -> p <> r -> distLine (toRp p) (toRp q) (toRp r) + lineErr M d < toR (nullDistance th)) ->
   areCollinear (N := FNum) th a b c = Ok true) /\
  ((forall p q r, In p [a; b; c] -> In q [a; b; c] -> In r [a; b; c] -> p <> q -> q <> r -> p <> r -> toR (nullDistance th) + lineErr M d <= distLine (toRp p) (toRp q) (toRp r)) ->
   ptEq (N := FNum) th a b = false -> ptEq (N := FNum) th b c = false -> ptEq (N := FNum) th a c = false -> areCollinear (N := FNum) th a b c = Ok false).
Proof.
  intros th M d a b c HM Th HP Nab Nbc Nac.
  assert (Sym : forall p q, ptEq (N := FNum) th p q = ptEq (N := FNum) th q p) by (intros p q; apply C187_points).
  assert (G : ptEq (N := FNum) th a b = false -> ptEq (N := FNum) th b c = false -> ptEq (N := FNum) th a c = false ->
    exists p q r, In p [a; b; c] /\ In q [a; b; c] /\ In r [a; b; c] /\ p <> q /\ q <> r /\ p <> r /\ exists v, areCollinear (N := FNum) th a b c = Ok (v <? nullDistance th)%float /\ fin v /\ Rabs (toR v - distLine (toRp p) (toRp q) (toRp r)) <= lineErr M d).
  { intros E1 E2 E3. unfold areCollinear. rewrite E1, E2, E3. cbn [orb].
    assert (H : exists p q r, getLargestDistancePoints (N := FNum) a b c = (p, q, r) /\ In p [a; b; c] /\ In q [a; b; c] /\ In r [a; b; c] /\ p <> q /\ q <> r /\ p <> r /\ ptEq (N := FNum) th p q = false).
    { assert (E4 := E1). rewrite Sym in E4. assert (E5 := E2). rewrite Sym in E5. assert (E6 := E3). rewrite Sym in E6.
      unfold getLargestDistancePoints. repeat (match goal with |- context [if ?x then _ else _] => destruct x end);
        do 3 eexists; (split; [reflexivity|]); cbn [In]; repeat split; auto. }
    destruct H as (p & q & r & -> & Ip & Iq & Ir & N1 & N2 & N3 & Ne). exists p, q, r. do 6 (split; [assumption|]).
    destruct (pair_dist th M d p q HM Th (HP p q Ip Iq N1) Ne) as (l & El & Dl). rewrite El. cbn [bind]. exists (lineDist (N := FNum) l r). split; [reflexivity|]. apply Dl. now apply (HP r q Ir Iq); auto. }
  destruct Th as (Fn & _). split.
  - intro H. destruct (ptEq (N := FNum) th a b) eqn:E1; [unfold areCollinear; now rewrite E1|]. destruct (ptEq (N := FNum) th b c) eqn:E2; [unfold areCollinear; rewrite E1, E2; reflexivity|].
    destruct (ptEq (N := FNum) th a c) eqn:E3; [unfold areCollinear; rewrite E1, E2, E3; reflexivity|]. destruct (G eq_refl eq_refl eq_refl) as (p & q & r & Ip & Iq & Ir & N1 & N2 & N3 & v & -> & Fv & Ev).
    f_equal. apply toR_lt; [assumption|assumption|]. specialize (H p q r Ip Iq Ir N1 N2 N3). revert Ev. unfold Rabs. destruct (Rcase_abs _); lra.
  - intros H E1 E2 E3. destruct (G E1 E2 E3) as (p & q & r & Ip & Iq & Ir & N1 & N2 & N3 & v & -> & Fv & Ev).
    f_equal. apply toR_ge; [assumption|assumption|]. specialize (H p q r Ip Iq Ir N1 N2 N3). revert Ev. unfold Rabs. destruct (Rcase_abs _); lra.
Qed.
Print Assumptions C202_collinear.


(** ** Points along a segment *)

(** getPointAt() does not throw and returns the wanted point up to 512 units of 2^-53 of the size of the coordinates. *)
Theorem C203_point_at : forall th s d M, M <= 2 ^ 100 -> inBox M (sA s) -> inBox M (sB s) -> notTinyP (sA s) (sB s) -> thrF th -> clearSlope th (sA s) (sB s) ->
  ptEq (N := FNum) th (sA s) (sB s) = false -> 0 < edist (toRp (sA s)) (toRp (sB s)) -> 512 * ulp1 * M <= edist (toRp (sA s)) (toRp (sB s)) ->
  lineErr M (edist (toRp (sA s)) (toRp (sB s))) < toR (nullDistance th) -> fin d -> 0 <= toR d <= 3 * M ->
  exists r, svPointAt (N := FNum) th s d = Ok r /\ finP r /\ edist (toRp r) (along (toRp (sA s)) (toRp (sB s)) (toR d / edist (toRp (sA s)) (toRp (sB s)))) <= 512 * ulp1 * M.
Proof. intros. now apply pointAt_f. Qed.
Print Assumptions C203_point_at.

(** ** Examples: integer points *)

Lemma nullD_toR : fin (nullDistance (thr0 (N := FNum))) /\ 9 / 100000000000 <= toR (nullDistance (thr0 (N := FNum))) <= 11 / 100000000000.
Proof.
  split; [reflexivity|]. unfold toR.
  assert (E : Prim2SF (nullDistance (thr0 (N := FNum))) = S754_finite false 7737125245533627 (-86)) by (vm_compute; reflexivity). rewrite E. fold (pw (-86)).
  assert (K : pw (-86) = / 77371252455336267181195264) by (change (-86)%Z with (- Z.of_nat 86)%Z; rewrite pw_npow; f_equal; rewrite pow_IZR; reflexivity). rewrite K. lra.
Qed.
Lemma eps_toR : fin (dblEpsilon (thr0 (N := FNum))) /\ toR (dblEpsilon (thr0 (N := FNum))) = / 4503599627370496.
Proof.
  split; [reflexivity|]. unfold toR.
  assert (E : Prim2SF (dblEpsilon (thr0 (N := FNum))) = S754_finite false 4503599627370496 (-104)) by (vm_compute; reflexivity). rewrite E. fold (pw (-104)).
  assert (K : pw (-104) = / 20282409603651670423947251286016) by (change (-104)%Z with (- Z.of_nat 104)%Z; rewrite pw_npow; f_equal; rewrite pow_IZR; reflexivity). rewrite K. lra.
Qed.
Lemma thrF_0 : thrF (thr0 (N := FNum)).
Proof. destruct nullD_toR as [F1 B]. destruct eps_toR as [F2 E]. split; [exact F1|]. split; [exact F2|]. split; [reflexivity|]. rewrite E. lra. Qed.

Lemma int_edist a b e : (0 <= e)%Z -> ((fst a - fst b) * (fst a - fst b) + (snd a - snd b) * (snd a - snd b) = e * e)%Z -> edist (rpt a) (rpt b) = IZR e.
Proof.
  intros He H. unfold edist, rpt. cbn [px py]. unfold Rsqr. rewrite <- !minus_IZR, <- !mult_IZR, <- plus_IZR, H, mult_IZR. apply sqrt_square. now apply IZR_le.
Qed.
Lemma int_pair a b e d M : within M a -> within M b -> (0 < M <= 1000)%Z -> (0 < d <= e)%Z -> (e <= 10000)%Z ->
  ((fst a - fst b) * (fst a - fst b) + (snd a - snd b) * (snd a - snd b) = e * e)%Z -> linePair (thr0 (N := FNum)) (IZR M) (IZR d) (gpt a) (gpt b).
Proof.
  intros Wa Wb HM Hd He E. assert (L : (1000 < lim)%Z) by reflexivity.
  assert (Ra : toRp (gpt a) = rpt a) by (destruct Wa; unfold toRp, gpt, rpt; cbn [px py]; rewrite !int_toR by lia; reflexivity).
  assert (Rb : toRp (gpt b) = rpt b) by (destruct Wb; unfold toRp, gpt, rpt; cbn [px py]; rewrite !int_toR by lia; reflexivity).
  assert (I : forall c, within M c -> inBox (IZR M) (gpt c)).
  { intros c [A B]. split; [split; apply int_fin; cbn [px py]; lia|]. unfold gpt. cbn [px py]. rewrite !int_toR by lia. rewrite <- !abs_IZR. split; apply IZR_le; lia. }
  assert (N : forall j k, (- M <= j <= M)%Z -> (- M <= k <= M)%Z -> notTiny (toR (FloatFuns.of_Z j) - toR (FloatFuns.of_Z k))).
  { intros j k Hj Hk. rewrite !int_toR by lia. rewrite <- minus_IZR. destruct (Z.eq_dec j k) as [->|D]; [left; now rewrite Z.sub_diag|right]. rewrite <- abs_IZR.
    apply Rle_trans with 1; [|apply IZR_le; lia]. rewrite <- Rinv_1. apply Rinv_le_contravar; [lra|]. apply pow_R1_Rle. lra. }
  destruct Wa as [Wa1 Wa2]. destruct Wb as [Wb1 Wb2].
  split; [apply I; now split|]. split; [apply I; now split|]. split; [split; apply N; assumption|].
  unfold clearSlope. rewrite Ra, Rb. rewrite (int_edist a b e) by (assumption || lia).
  split; [|split; [apply IZR_lt; lia|apply IZR_le; lia]]. unfold gpt. cbn [py]. rewrite !int_toR by lia. destruct (Z.eq_dec (snd a) (snd b)) as [->|D]; [now left|right].
  rewrite <- minus_IZR, <- abs_IZR. apply Rle_trans with 1; [|apply IZR_le; lia]. 
  destruct nullD_toR as [_ B]. change (nullDenom (thr0 (N := FNum))) with (nullDistance (thr0 (N := FNum))). rewrite ulp1_val. apply IZR_le in He. apply Rle_trans with (/ 10000 * IZR e); [|lra].
  apply Rmult_le_compat_r; [apply IZR_le; lia|lra].
Qed.

Definition la0 : pt float := gpt (0, 0)%Z.
Definition la1 : pt float := gpt (12, 16)%Z.
Definition la2 : pt float := gpt (18, 24)%Z.
Definition la3 : pt float := gpt (12, 0)%Z.
Lemma gpt_rpt c : within 1000 c -> toRp (gpt c) = rpt c.
Proof. assert (L : (1000 < lim)%Z) by reflexivity. intros [A B]. unfold toRp, gpt, rpt. cbn [px py]. rewrite !int_toR by lia. reflexivity. Qed.
Ltac zval := match goal with |- context [IZR (?a - ?b)] => let v := eval vm_compute in (a - b)%Z in change (a - b)%Z with v end.
Ltac wi := split; cbn; lia.

Example C202_ex_ends : linePair (thr0 (N := FNum)) 24 20 la0 la1 /\ ptEq (N := FNum) (thr0 (N := FNum)) la0 la1 = false /\ lineErr 24 20 < toR (nullDistance (thr0 (N := FNum))).
Proof.
  split; [apply (int_pair (0, 0)%Z (12, 16)%Z 20 20 24); try wi; try lia; reflexivity|]. split; [vm_compute; reflexivity|]. destruct nullD_toR. unfold lineErr. rewrite ulp1_val. lra.
Qed.
Lemma pairs3 (P : pt float -> pt float -> Prop) a b c : (forall p q, P p q -> P q p) -> P a b -> P b c -> P a c -> forall p q, In p [a; b; c] -> In q [a; b; c] -> p <> q -> P p q.
Proof. intros S H1 H2 H3 p q Hp Hq N. destruct Hp as [<-|[<-|[<-|[]]]], Hq as [<-|[<-|[<-|[]]]]; auto; now elim N. Qed.

Lemma distinctZ a b : within 1000 a -> within 1000 b -> rpt a <> rpt b -> gpt a <> gpt b.
Proof. intros A B N E. apply N. now rewrite <- !gpt_rpt, E by assumption. Qed.
Lemma slope_sym th p q : clearSlope th p q -> clearSlope th q p.
Proof. unfold clearSlope. rewrite (P_LP.edist_sym (toRp q)), (Rabs_minus_sym (toR (py q))). intros [H|H]; [now left|now right]. Qed.
Lemma pair_sym th M d p q : linePair th M d p q -> linePair th M d q p.
Proof.
  intros (A & B & [C1 C2] & D & E). split; [exact B|]. split; [exact A|]. unfold notTinyP, notTiny in *. rewrite (P_LP.edist_sym (toRp q)). split; [|split; [now apply slope_sym|exact E]].
  rewrite (Rabs_minus_sym (toR (px q))), (Rabs_minus_sym (toR (py q))). split; [destruct C1; [left; lra|now right]|destruct C2; [left; lra|now right]].
Qed.
Lemma dl_sym p q r : distLine q p r = distLine p q r.
Proof. unfold distLine. rewrite (P_LP.edist_sym q p). f_equal. rewrite <- Rabs_Ropp. f_equal. unfold cross3. ring. Qed.
(** All the orders of three points from three of them. *)
Lemma all3 (P : R -> Prop) a b c : P (distLine (toRp a) (toRp b) (toRp c)) -> P (distLine (toRp b) (toRp c) (toRp a)) -> P (distLine (toRp a) (toRp c) (toRp b)) ->
  forall p q r, In p [a; b; c] -> In q [a; b; c] -> In r [a; b; c] -> p <> q -> q <> r -> p <> r -> P (distLine (toRp p) (toRp q) (toRp r)).
Proof.
  intros H1 H2 H3 p q r Hp Hq Hr N1 N2 N3. destruct Hp as [<-|[<-|[<-|[]]]], Hq as [<-|[<-|[<-|[]]]], Hr as [<-|[<-|[<-|[]]]]; try assumption; try (rewrite dl_sym; assumption); try (now elim N1); try (now elim N2); now elim N3.
Qed.
Lemma dl_int a b c e : within 1000 a -> within 1000 b -> within 1000 c -> (0 < e)%Z -> ((fst a - fst b) * (fst a - fst b) + (snd a - snd b) * (snd a - snd b) = e * e)%Z ->
  distLine (toRp (gpt a)) (toRp (gpt b)) (toRp (gpt c)) = Rabs (IZR ((fst b - fst a) * (snd c - snd a) - (snd b - snd a) * (fst c - fst a))) / IZR e.
Proof.
  intros A B C He E. rewrite !gpt_rpt by assumption. unfold distLine. rewrite (int_edist a b e) by (assumption || lia). do 2 f_equal. unfold cross3, rpt. cbn [px py]. now rewrite !minus_IZR, !mult_IZR, !minus_IZR.
Qed.

(** Aligned: (0,0), (12,16), (18,24). *)
Example C202_ex_aligned : areCollinear (N := FNum) (thr0 (N := FNum)) la0 la1 la2 = Ok true.
Proof.
  destruct nullD_toR as [_ B].
  apply (C202_collinear (thr0 (N := FNum)) 24 10 la0 la1 la2 ltac:(apply Rle_trans with (2 ^ 5); [lra|apply pw2_le; lia]) thrF_0);
    try (apply distinctZ; [wi|wi|]; unfold rpt; cbn [fst snd]; intro E; injection E; intros; lra).
  - apply pairs3; [intros p q; apply pair_sym|apply (int_pair (0, 0)%Z (12, 16)%Z 20 10 24)|apply (int_pair (12, 16)%Z (18, 24)%Z 10 10 24)|apply (int_pair (0, 0)%Z (18, 24)%Z 30 10 24)]; try wi; try lia; reflexivity.
  - unfold la0, la1, la2. set (N0 := toR (nullDistance _)) in *. clearbody N0. apply (all3 (fun x => x + lineErr 24 10 < N0));
      [rewrite (dl_int (0, 0)%Z (12, 16)%Z (18, 24)%Z 20)|rewrite (dl_int (12, 16)%Z (18, 24)%Z (0, 0)%Z 10)|rewrite (dl_int (0, 0)%Z (18, 24)%Z (12, 16)%Z 30)]; try wi; try lia; try reflexivity; zval; rewrite Rabs_R0; unfold lineErr; rewrite ulp1_val; lra.
Qed.
(** Not aligned: (0,0), (12,16), (12,0). *)
Example C202_ex_not_aligned : areCollinear (N := FNum) (thr0 (N := FNum)) la0 la1 la3 = Ok false.
Proof.
  destruct nullD_toR as [_ B].
  apply (C202_collinear (thr0 (N := FNum)) 24 10 la0 la1 la3 ltac:(apply Rle_trans with (2 ^ 5); [lra|apply pw2_le; lia]) thrF_0);
    try (apply distinctZ; [wi|wi|]; unfold rpt; cbn [fst snd]; intro E; injection E; intros; lra); try (match goal with |- ptEq _ _ _ = false => idtac end; vm_compute; reflexivity).
  - apply pairs3; [intros p q; apply pair_sym|apply (int_pair (0, 0)%Z (12, 16)%Z 20 10 24)|apply (int_pair (12, 16)%Z (12, 0)%Z 16 10 24)|apply (int_pair (0, 0)%Z (12, 0)%Z 12 10 24)]; try wi; try lia; reflexivity.
  - unfold la0, la1, la3. set (N0 := toR (nullDistance _)) in *. clearbody N0. apply (all3 (fun x => N0 + lineErr 24 10 <= x));
      [rewrite (dl_int (0, 0)%Z (12, 16)%Z (12, 0)%Z 20)|rewrite (dl_int (12, 16)%Z (12, 0)%Z (0, 0)%Z 16)|rewrite (dl_int (0, 0)%Z (12, 0)%Z (12, 16)%Z 12)]; try wi; try lia; try reflexivity; zval; rewrite <- abs_IZR; cbn [Z.abs]; unfold lineErr; rewrite ulp1_val; lra.
Qed.

(** The point at distance 5 from (0,0) towards (12,16) is (3,4), up to 2e-12. *)
Example C203_ex : exists r, svPointAt (N := FNum) (thr0 (N := FNum)) (mkSeg la0 la1) (FloatFuns.of_Z 5) = Ok r /\ edist (toRp r) (mkPt 3 4) <= 2 / 10 ^ 12.
Proof.
  destruct C202_ex_ends as ((I0 & I1 & T & Hs & _) & Ne & Le). assert (L5 : (5 < lim)%Z) by reflexivity.
  assert (E : edist (toRp la0) (toRp la1) = 20) by (unfold la0, la1; rewrite !gpt_rpt by wi; apply int_edist; [lia|reflexivity]).
  destruct (C203_point_at (thr0 (N := FNum)) (mkSeg la0 la1) (FloatFuns.of_Z 5) 24) as (r & Er & _ & Dr); cbn [sA sB]; rewrite ?E; try assumption; try (rewrite ulp1_val; lra); try lra; try apply thrF_0; try reflexivity.
  - rewrite int_toR by (cbn; lia). lra.
  - exists r. split; [exact Er|]. cbn [sA sB] in Dr. rewrite E, int_toR in Dr by (cbn; lia). unfold la0, la1 in Dr. rewrite !gpt_rpt in Dr by wi.
    replace (along _ _ _) with (mkPt 3 4) in Dr by (unfold along, rpt; cbn [px py fst snd]; f_equal; lra). apply Rle_trans with (1 := Dr). rewrite ulp1_val. rewrite pow_IZR. change (10 ^ Z.of_nat 12)%Z with 1000000000000%Z. lra.
Qed.
