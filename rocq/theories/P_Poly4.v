(** * Polylines: simple polygons *)

From Coq Require Import Reals Lra Lia List Bool Arith ZArith Permutation.
From Verif Require Import Num M_LP M_Seg M_Poly S_Geom S_Seg S_Poly P_LP P_LP2 P_LP3 P_LP4 P_Seg P_Seg2 P_Seg3 P_Poly P_Poly2 P_Poly3.
Import ListNotations.
Local Open Scope R_scope.

(** The Segment object of a side. *)
Definition sd (e : pt R * pt R) : seg R := segOrder (mkSeg (fst e) (snd e)).
Definition meets (th : thrs R) (e f : pt R * pt R) : Prop := exists p, segInterSeg th (sd e) (sd f) = Ok (Some p).
Definition hit (th : thrs R) (e f : pt R * pt R) : bool :=
  match segInterSeg th (sd f) (sd e) with Ok (Some _) => true | _ => false end.

Lemma sd_cases e : sd e = mkSeg (fst e) (snd e) \/ sd e = mkSeg (snd e) (fst e).
Proof. unfold sd, segOrder, fixOrder. cbn [sA sB]. destruct (negb _); auto. Qed.
Lemma sd_ok th e : okSeg th (mkSeg (fst e) (snd e)) -> okSeg th (sd e).
Proof. unfold okSeg. intros [A B]. destruct (sd_cases e) as [->| ->]; cbn [sA sB] in *; auto. rewrite edist_sym. auto. Qed.
Lemma sd_swap e : sd (snd e, fst e) = sd e.
Proof. unfold sd, segOrder. cbn [sA sB fst snd]. now rewrite fixOrder_sym. Qed.
Lemma segInterSeg_total th s s' : thr_ok th -> okSeg th s -> okSeg th s' -> exists r, segInterSeg th s s' = Ok r.
Proof.
  intros Hth Hs Hs'. unfold segInterSeg. destruct (svEq th s s'); eauto.
  destruct (svLine_ok th s Hth Hs) as (l & El). destruct (svLine_ok th s' Hth Hs') as (l' & El').
  rewrite El, El'. cbn [bind].
  destruct (lineOf_proper th _ _ _ Hth El) as [U1 _]. destruct (lineOf_proper th _ _ _ Hth El') as [U2 _].
  destruct (isParallel th l l') eqn:P; eauto.
  destruct (meet_total th l l' Hth (unit_proper _ U1) (unit_proper _ U2) P) as (q & Em). rewrite Em. cbn [bind].
  destruct (_ <? _)%num; eauto. destruct (_ <? _)%num; eauto.
Qed.
Lemma hit_spec th e f : thr_ok th -> okSeg th (mkSeg (fst e) (snd e)) -> okSeg th (mkSeg (fst f) (snd f)) ->
  segInterSeg th (sd f) (sd e) = segInterSeg th (sd e) (sd f) /\ (hit th e f = true <-> meets th e f).
Proof.
  intros Hth He Hf. assert (segInterSeg th (sd f) (sd e) = segInterSeg th (sd e) (sd f)) as S by (apply segInterSeg_sym; auto using sd_ok).
  split; auto. unfold hit, meets. rewrite S. destruct (segInterSeg th (sd e) (sd f)) as [[p|]| |]; split; intros H; eauto; try discriminate; destruct H as (q & H); discriminate.
Qed.
Lemma meets_sym th e f : thr_ok th -> okSeg th (mkSeg (fst e) (snd e)) -> okSeg th (mkSeg (fst f) (snd f)) -> meets th e f -> meets th f e.
Proof. intros Hth He Hf [p H]. destruct (hit_spec th e f Hth He Hf) as [S _]. exists p. congruence. Qed.

Lemma anyM_ok {A} (f : A -> res bool) g l : (forall x, In x l -> f x = Ok (g x)) -> anyM f l = Ok (existsb g l).
Proof.
  induction l as [|x l IH]; intros H; [reflexivity|]. cbn. rewrite H by (now left). cbn. destruct (g x); auto. apply IH. intros; apply H; now right.
Qed.

Definition simpleB th (pts : list (pt R)) : bool :=
  let n := length pts in
  negb (existsb (fun i => existsb (fun j => hit th (nth i (cyc pts) (pt00, pt00)) (nth j (cyc pts) (pt00, pt00)))
                                  (seq (i + 2) ((if (i =? 0)%nat then (n - 1)%nat else n) - (i + 2)))) (seq 0 n)).
Lemma simpleCalc_eq th pts : thr_ok th -> (3 <= length pts)%nat -> wide th pts -> simpleCalc th pts = Ok (simpleB th pts).
Proof.
  intros Hth L W. unfold simpleCalc, simpleB.
  assert (plNbSegs true pts = length pts) as N. { unfold plNbSegs. destruct (Nat.ltb_spec (length pts) 2); [lia|reflexivity]. }
  assert (forall i, (i < length pts)%nat -> plSegment th true KSeg pts i = Ok (sd (nth i (cyc pts) (pt00, pt00))) /\
            okSeg th (mkSeg (fst (nth i (cyc pts) (pt00, pt00))) (snd (nth i (cyc pts) (pt00, pt00))))) as G.
  { intros i Hi. rewrite plSegment_eq by lia. cbn [sides]. assert (In (nth i (cyc pts) (pt00, pt00)) (cyc pts)) as I by (apply nth_In; now rewrite cyc_length).
    split; [|now apply W]. cbn zeta. rewrite svNew_ok_any; [reflexivity|]. apply (W _ I). }
  rewrite N.
  rewrite (anyM_ok _ (fun i => existsb (fun j => hit th (nth i (cyc pts) (pt00, pt00)) (nth j (cyc pts) (pt00, pt00)))
                                  (seq (i + 2) ((if (i =? 0)%nat then (length pts - 1)%nat else length pts) - (i + 2))))); [reflexivity|].
  intros i Hi. apply in_seq in Hi. destruct (G i) as [E Oi]; [lia|]. rewrite E. cbn [bind]. apply anyM_ok.
  intros j Hj. apply in_seq in Hj. assert (j < length pts)%nat as Hj' by (destruct (i =? 0)%nat; lia).
  destruct (G j Hj') as [E' Oj]. rewrite E'. cbn [bind].
  destruct (segInterSeg_total th (sd (nth j (cyc pts) (pt00, pt00))) (sd (nth i (cyc pts) (pt00, pt00))) Hth) as (r & Er); auto using sd_ok.
  unfold hit. rewrite Er. cbn [bind]. destruct r; reflexivity.
Qed.

Lemma split2 {A} (l : list A) d i j : (i < j < length l)%nat ->
  exists u v w, l = u ++ nth i l d :: v ++ nth j l d :: w /\ length u = i /\ length v = (j - i - 1)%nat /\ length w = (length l - 1 - j)%nat.
Proof.
  intros [H1 H2]. assert (i < length l)%nat as H3 by lia. destruct (nth_split l d H3) as (u & r & E & Lu).
  assert (length l = i + 1 + length r)%nat as EL by (rewrite E, app_length; cbn [length]; lia).
  assert (j - i - 1 < length r)%nat as H4 by lia. destruct (nth_split r d H4) as (v & w & E' & Lv).
  assert (nth j l d = nth (j - i - 1) r d) as EN.
  { rewrite E, app_nth2 by lia. replace (j - length u)%nat with (S (j - i - 1)) by lia. reflexivity. }
  exists u, v, w. rewrite EN, <- E', <- E. repeat split; auto.
  assert (length r = length v + 1 + length w)%nat by (rewrite E', app_length; cbn [length]; lia). lia.
Qed.
Lemma simpleB_spec th pts : (3 <= length pts)%nat ->
  simpleB th pts = false <-> exists e f, nonAdj pts e f /\ hit th e f = true.
Proof.
  intros L. unfold simpleB. set (n := length pts). rewrite negb_false_iff, existsb_exists. split.
  - intros (i & Hi & H). apply existsb_exists in H. destruct H as (j & Hj & H). apply in_seq in Hi. apply in_seq in Hj.
    assert (i < j < n)%nat as IJ by (destruct (i =? 0)%nat; lia).
    destruct (split2 (cyc pts) (pt00, pt00) i j) as (u & v & w & E & Lu & Lv & Lw); [rewrite cyc_length; exact IJ|].
    exists (nth i (cyc pts) (pt00, pt00)), (nth j (cyc pts) (pt00, pt00)). split; auto. exists u, v, w. split; [exact E|].
    rewrite cyc_length in Lw. fold n in Lw.
    assert (forall (l : list (pt R * pt R)), (0 < length l)%nat -> l <> []) as NE by (intros l X ->; cbn in X; lia).
    split; apply NE; [lia|]. rewrite app_length. destruct (Nat.eqb_spec i 0); lia.
  - intros (e & f & (u & v & w & E & NV & NW) & H).
    assert (length v <> 0)%nat by (destruct v; [congruence|discriminate]).
    assert (length w + length u <> 0)%nat by (rewrite <- app_length; destruct (w ++ u); [congruence|discriminate]).
    assert (n = length u + 1 + length v + 1 + length w)%nat as EL by (unfold n; rewrite <- (cyc_length pts), E, app_length; cbn [length]; rewrite app_length; cbn [length]; lia).
    exists (length u). split; [apply in_seq; lia|]. apply existsb_exists. exists (length u + 1 + length v)%nat. split.
    + apply in_seq. destruct (Nat.eqb_spec (length u) 0); lia.
    + rewrite E. rewrite (app_nth2 u), (app_nth2 u) by lia. rewrite Nat.sub_diag.
      replace (length u + 1 + length v - length u)%nat with (S (length v)) by lia. cbn [nth]. rewrite app_nth2, Nat.sub_diag by lia. exact H.
Qed.

Lemma nonAdj_in {A} (l : list A) e f : nonAdj l e f -> In e (cyc l) /\ In f (cyc l).
Proof.
  intros (u & v & w & E & _). rewrite E. split; apply in_or_app; right; [now left|]. right. apply in_or_app. right. now left.
Qed.
Lemma nonAdj_step {A} (a : A) l e f : nonAdj (a :: l) e f -> nonAdj (l ++ [a]) e f \/ nonAdj (l ++ [a]) f e.
Proof.
  intros (u & v & w & E & NV & NW). destruct (cyc_step a l) as (x & t & E1 & E2). rewrite E1 in E. destruct u as [|y u].
  - cbn [app] in E. injection E as -> ->. right. exists v, w, []. rewrite E2, <- app_assoc. cbn [app]. rewrite app_nil_r in NW. auto.
  - cbn [app] in E. injection E as -> ->. left. exists u, v, (w ++ [y]). rewrite E2, <- !app_assoc. cbn [app]. rewrite <- app_assoc. split; [reflexivity|]. split; auto.
Qed.
Lemma nonAdj_shift {A} (l m : list A) e f : shifted l m -> nonAdj l e f -> nonAdj m e f \/ nonAdj m f e.
Proof.
  intros (u & v & -> & ->). revert v e f. induction u as [|a u IH]; intros v e f H.
  - rewrite app_nil_r. auto.
  - cbn [app] in H. apply nonAdj_step in H. rewrite <- app_assoc in H.
    replace (v ++ a :: u) with ((v ++ [a]) ++ u) by (now rewrite <- app_assoc).
    destruct H as [H|H]; apply IH in H; tauto.
Qed.
Lemma nonAdj_rev {A} (l : list A) e f : nonAdj l e f ->
  nonAdj (rev l) (snd e, fst e) (snd f, fst f) \/ nonAdj (rev l) (snd f, fst f) (snd e, fst e).
Proof.
  destruct l as [|a r]; [intros (u & v & w & E & _); cbn in E; destruct u; discriminate|].
  intros (u & v & w & E & NV & NW).
  assert (shifted (rev (r ++ [a])) (rev (a :: r))) as S. { exists [a], (rev r). rewrite rev_app_distr. auto. }
  assert (cyc (rev (r ++ [a])) = rev (map (fun x => (snd x, fst x)) (cyc (a :: r)))) as C.
  { rewrite rev_app_distr. cbn [rev app]. rewrite !cyc_cons, combine_swap.
    replace (a :: rev r) with (rev (r ++ [a])) by (now rewrite rev_app_distr).
    change (rev r ++ [a]) with (rev (a :: r)). apply combine_rev. rewrite app_length. cbn [length]. lia. }
  apply (nonAdj_shift _ _ (snd f, fst f) (snd e, fst e)) in S; [tauto|].
  exists (map (fun x => (snd x, fst x)) (rev w)), (map (fun x => (snd x, fst x)) (rev v)), (map (fun x => (snd x, fst x)) (rev u)).
  split; [|split].
  - rewrite C, E. rewrite <- !map_rev. rewrite rev_app_distr. cbn [rev]. rewrite rev_app_distr. cbn [rev]. rewrite <- !app_assoc.
    rewrite map_app. cbn [map app]. rewrite map_app. cbn [map app]. reflexivity.
  - intros X. apply NV. apply map_eq_nil in X. rewrite <- (rev_involutive v), X. reflexivity.
  - intros X. apply app_eq_nil in X. destruct X as [X Y]. apply map_eq_nil in X. apply map_eq_nil in Y. apply NW.
    rewrite <- (rev_involutive w), <- (rev_involutive u), X, Y. reflexivity.
Qed.

Lemma wide_perm th (l m : list (pt R)) : (forall e, In e (cyc m) -> In e (cyc l) \/ In (snd e, fst e) (cyc l)) -> wide th l -> wide th m.
Proof.
  intros H W e He. destruct (H e He) as [I|I]; [now apply W|]. specialize (W _ I). unfold okSeg in *. cbn [fst snd sA sB] in *. now rewrite (edist_sym (fst e) (snd e)).
Qed.
Lemma wide_cycle th l m : sameCycle l m -> wide th l -> wide th m.
Proof.
  intros S. apply wide_perm. intros e He. destruct S as [S|S].
  - left. eapply Permutation_in; [apply Permutation_sym, cyc_shift; exact S|auto].
  - right. apply (Permutation_in e (Permutation_sym (cyc_shift _ _ S))) in He. apply (Permutation_in e (cyc_rev l)) in He.
    apply in_map_iff in He. destruct He as ([x y] & <- & I). exact I.
Qed.
Lemma sameCycle_len {A} (l m : list A) : sameCycle l m -> length l = length m.
Proof. intros [S|S]; apply shifted_len in S; [|rewrite rev_length in S]; auto. Qed.
Lemma simple_spec th pts : thr_ok th -> (3 <= length pts)%nat -> wide th pts ->
  simpleCalc th pts = Ok false <-> exists e f, nonAdj pts e f /\ meets th e f.
Proof.
  intros Hth L W. rewrite simpleCalc_eq by auto. split.
  - intros H. apply Ok_inj in H. apply simpleB_spec in H; auto. destruct H as (e & f & NA & H). exists e, f. split; auto.
    destruct (nonAdj_in _ _ _ NA). apply hit_spec; auto.
  - intros (e & f & NA & H). f_equal. apply simpleB_spec; auto. exists e, f. split; auto. destruct (nonAdj_in _ _ _ NA). apply hit_spec; auto.
Qed.
Lemma simple_cycle1 th l m : thr_ok th -> (3 <= length l)%nat -> wide th l -> sameCycle l m ->
  simpleCalc th l = Ok false -> simpleCalc th m = Ok false.
Proof.
  intros Hth L W S H. pose proof (wide_cycle _ _ _ S W) as W'. pose proof (sameCycle_len _ _ S) as EL.
  apply simple_spec in H; auto. apply simple_spec; [auto|lia|auto|]. destruct H as (e & f & NA & M).
  destruct (nonAdj_in _ _ _ NA) as [Ie If].
  assert (forall x y, nonAdj m x y \/ nonAdj m y x -> meets th x y -> okSeg th (mkSeg (fst x) (snd x)) -> okSeg th (mkSeg (fst y) (snd y)) ->
            exists e f, nonAdj m e f /\ meets th e f) as G.
  { intros x y [N|N] MM O1 O2; [exists x, y; auto|]. exists y, x. split; auto. apply meets_sym; auto. }
  destruct S as [S|S].
  - apply (G e f); auto. now apply (nonAdj_shift l m).
  - assert (meets th (snd e, fst e) (snd f, fst f)) as M' by (unfold meets; now rewrite !sd_swap).
    assert (okSeg th (mkSeg (fst (snd e, fst e)) (snd (snd e, fst e)))) as O1. { specialize (W e Ie). unfold okSeg in *. cbn [fst snd sA sB] in *. now rewrite (edist_sym (snd e) (fst e)). }
    assert (okSeg th (mkSeg (fst (snd f, fst f)) (snd (snd f, fst f)))) as O2. { specialize (W f If). unfold okSeg in *. cbn [fst snd sA sB] in *. now rewrite (edist_sym (snd f) (fst f)). }
    destruct (nonAdj_rev _ _ _ NA) as [N|N]; apply (nonAdj_shift _ _ _ _ S) in N; [apply (G (snd e, fst e) (snd f, fst f)); auto|apply (G (snd e, fst e) (snd f, fst f)); tauto].
Qed.
Lemma sameCycle_sym {A} (l m : list A) : sameCycle l m -> sameCycle m l.
Proof.
  intros [S|S]; [left; now apply shifted_sym|right]. destruct S as (u & v & E & ->). exists (rev u), (rev v). rewrite rev_app_distr. split; auto.
  rewrite <- (rev_involutive l), E. apply rev_app_distr.
Qed.
Lemma simple_cycle th l m : thr_ok th -> (3 <= length l)%nat -> wide th l -> sameCycle l m -> simpleCalc th m = simpleCalc th l.
Proof.
  intros Hth L W S. pose proof (wide_cycle _ _ _ S W) as W'. pose proof (sameCycle_len _ _ S) as EL.
  assert (A := simple_cycle1 th l m Hth L W S). assert (B := simple_cycle1 th m l Hth ltac:(lia) W' (sameCycle_sym _ _ S)).
  rewrite !simpleCalc_eq in * by (auto; lia). destruct (simpleB th l), (simpleB th m); auto; symmetry; auto.
Qed.

(** ** Translation *)
Definition smv (s : seg R) x y : seg R := mkSeg (moved (sA s) x y) (moved (sB s) x y).
Lemma lnorm_c th a b c c' l l' : lnorm th (mkL a b c) = Ok l -> lnorm th (mkL a b c') = Ok l' -> la l' = la l /\ lb l' = lb l.
Proof.
  unfold lnorm. cbn [la lb lc]. destruct (_ <=? _)%num; [discriminate|]. intros H H'. apply Ok_inj in H. apply Ok_inj in H'. subst l l'.
  destruct (a / hypot a b <? #0)%num; cbn [la lb lc]; destruct (_ <? nullDenom th)%num; cbn [la lb lc]; auto; destruct (_ <? #0)%num; auto.
Qed.
Lemma svLine_moved th s x y l : thr_ok th -> okSeg th s -> dirOK th (sA s) (sB s) -> svLine th s = Ok l ->
  svLine th (smv s x y) = Ok (mkL (la l) (lb l) (lc l - la l * x - lb l * y)).
Proof.
  intros Hth O D E. destruct (svLine_ok th (smv s x y) Hth) as (l' & E').
  { unfold okSeg, smv in *. cbn [sA sB]. now rewrite !edist_moved. }
  assert (dirOK th (sA (smv s x y)) (sB (smv s x y))) as D'.
  { unfold dirOK, smv in *. cbn [sA sB]. rewrite edist_moved. unfold moved; cbn [px py].
    replace (py (sA s) + y - (py (sB s) + y)) with (py (sA s) - py (sB s)) by ring. destruct D; [left; lra|right; auto]. }
  pose proof (lineOf_inv _ _ _ _ E) as [_ I]. pose proof (lineOf_inv _ _ _ _ E') as [_ I'].
  unfold smv, moved in I'. cbn [sA sB px py] in I'.
  replace (py (sA s) + y - (py (sB s) + y)) with (py (sA s) - py (sB s)) in I' by ring.
  replace (px (sB s) + x - (px (sA s) + x)) with (px (sB s) - px (sA s)) in I' by ring.
  destruct (lnorm_c _ _ _ _ _ _ _ I I') as [A B].
  destruct (lineOf_on th _ _ _ Hth E D) as [P _]. destruct (lineOf_on th _ _ _ Hth E' D') as [P' _].
  rewrite E'. f_equal. destruct l' as [a b c]. cbn [la lb] in *. f_equal; auto.
  unfold onL, smv, moved in *. cbn [la lb lc sA sB px py] in *. subst a b. lra.
Qed.
Lemma svEq_moved th s s' x y : svEq th (smv s x y) (smv s' x y) = svEq th s s'.
Proof. unfold svEq, smv, ptEq. cbn [sA sB]. rewrite !distPP_edist, !edist_moved. reflexivity. Qed.
Lemma segInterSeg_moved th s s' x y : thr_ok th -> okSeg th s -> okSeg th s' -> dirOK th (sA s) (sB s) -> dirOK th (sA s') (sB s') ->
  segInterSeg th (smv s x y) (smv s' x y) = bind (segInterSeg th s s') (fun r => Ok (option_map (fun p => moved p x y) r)).
Proof.
  intros Hth O O' D D'. unfold segInterSeg. rewrite svEq_moved. destruct (svEq th s s'); [reflexivity|].
  destruct (svLine_ok th s Hth O) as (l & El). destruct (svLine_ok th s' Hth O') as (l' & El').
  rewrite (svLine_moved th s x y l), (svLine_moved th s' x y l') by auto. rewrite El, El'. cbn [bind].
  destruct (lineOf_proper th _ _ _ Hth El) as [U1 _]. destruct (lineOf_proper th _ _ _ Hth El') as [U2 _].
  match goal with |- context [isParallel th ?a ?b] => change (isParallel th a b) with (isParallel th l l') end.
  destruct (isParallel th l l') eqn:P; [reflexivity|].
  destruct (meet_total th l l' Hth (unit_proper _ U1) (unit_proper _ U2) P) as (q & Em). rewrite Em. cbn [bind].
  destruct (meet_on th l l' q Hth (unit_proper _ U1) (unit_proper _ U2) Em) as [O1 O2].
  set (m := mkL (la l) (lb l) _). set (m' := mkL (la l') (lb l') _).
  assert (proper m) as Pm by exact (unit_proper _ U1). assert (proper m') as Pm' by exact (unit_proper _ U2).
  destruct (meet_total th m m' Hth Pm Pm' P) as (q' & Em'). rewrite Em'. cbn [bind].
  assert (moved q x y = q') as <-.
  { apply (meet_unique th m m' q'); auto; unfold onL, m, m', moved in *; cbn [la lb lc px py]; lra. }
  unfold svLength. rewrite !distPP_edist. cbn [smv sA sB]. rewrite !edist_moved.
  destruct (_ <? _)%num; [|reflexivity]. destruct (_ <? _)%num; reflexivity.
Qed.
Lemma sd_moved e x y : sd (moved (fst e) x y, moved (snd e) x y) = smv (sd e) x y.
Proof.
  unfold sd, segOrder, fixOrder. cbn [sA sB fst snd].
  assert (ptLt (moved (fst e) x y) (moved (snd e) x y) = ptLt (fst e) (snd e)) as ->.
  { apply eq_true_iff_eq. rewrite !ptLt_spec. unfold lexlt, moved. cbn [px py]. split; intros [H|[H H']]; [left|right|left|right]; lra. }
  destruct (negb _); reflexivity.
Qed.
Lemma dirOK_sym th p q : dirOK th p q -> dirOK th q p.
Proof. unfold dirOK. rewrite (edist_sym q p), (Rabs_minus_sym (py q)). intuition. Qed.
Lemma sd_dirOK th e : dirOK th (fst e) (snd e) -> dirOK th (sA (sd e)) (sB (sd e)).
Proof. intros D. destruct (sd_cases e) as [->| ->]; cbn [sA sB]; auto using dirOK_sym. Qed.
Lemma simple_moved th pts x y : thr_ok th -> (3 <= length pts)%nat -> wide th pts -> (forall e, In e (cyc pts) -> dirOK th (fst e) (snd e)) ->
  simpleCalc th (map (fun p => moved p x y) pts) = simpleCalc th pts.
Proof.
  intros Hth L W D.
  assert (wide th (map (fun p => moved p x y) pts)) as W'.
  { intros e He. rewrite cyc_map in He. apply in_map_iff in He. destruct He as (f & <- & If). specialize (W f If). unfold okSeg in *. cbn [fst snd sA sB] in *. now rewrite !edist_moved. }
  rewrite !simpleCalc_eq by (auto; now rewrite map_length). f_equal.
  unfold simpleB. rewrite map_length, cyc_map. f_equal.
  assert (forall (A : Type) (f g : A -> bool) l, (forall a, In a l -> f a = g a) -> existsb f l = existsb g l) as EX.
  { intros A f g l. induction l as [|a l IH]; intros H; [reflexivity|]. cbn. rewrite H by (now left). rewrite IH; auto. intros; apply H; now right. }
  apply EX. intros i Hi. apply EX. intros j Hj. apply in_seq in Hi. apply in_seq in Hj.
  assert (j < length pts)%nat as Hj' by (destruct (i =? 0)%nat; lia).
  assert (forall k, (k < length pts)%nat -> nth k (map (fun e => (moved (fst e) x y, moved (snd e) x y)) (cyc pts)) (pt00, pt00) =
            (moved (fst (nth k (cyc pts) (pt00, pt00))) x y, moved (snd (nth k (cyc pts) (pt00, pt00))) x y)) as NT.
  { intros k Hk. rewrite (nth_indep _ _ ((fun e => (moved (fst e) x y, moved (snd e) x y)) (pt00, pt00))) by (rewrite map_length, cyc_length; auto).
    apply (map_nth (fun e => (moved (fst e) x y, moved (snd e) x y))). }
  rewrite !NT by lia. unfold hit. rewrite !sd_moved.
  assert (forall k, (k < length pts)%nat -> In (nth k (cyc pts) (pt00, pt00)) (cyc pts)) as IN by (intros; apply nth_In; now rewrite cyc_length).
  rewrite segInterSeg_moved; auto using sd_ok, sd_dirOK; try (apply sd_ok, W, IN; lia); try (apply sd_dirOK, D, IN; lia).
  destruct (segInterSeg th _ _) as [[p|]| |]; reflexivity.
Qed.
