(** * Lines and circles against the border of a rectangle *)

From Coq Require Import Reals Lra Psatz List Lia Bool.
From Verif Require Import Num M_LP M_Homogr M_Seg M_Circle M_FRect S_Geom S_Seg S_Circle S_FRect P_LP P_LP2 P_LP4 P_Seg P_Seg2 P_Seg3 P_Seg4 P_Circle3 P_BB P_Grid P_Grid2 P_Grid3 P_FRect P_FRect2 P_Poly7 S_Rect2.
Import ListNotations.
Local Open Scope R_scope.

(** ** One side *)
Lemma para_common l l' q A : proper l' -> paraL l l' -> onL l q -> onL l' q -> onL l' A -> onL l A.
Proof.
  unfold paraL, onL. intros P E O O' OA.
  assert (la l' * (la l * (px A - px q) + lb l * (py A - py q)) = 0) as E1.
  { transitivity (la l * (la l' * (px A - px q) + lb l' * (py A - py q)) - (la l * lb l' - lb l * la l') * (py A - py q)); [ring|]. rewrite E.
    replace (la l' * (px A - px q) + lb l' * (py A - py q)) with 0 by lra. ring. }
  assert (lb l' * (la l * (px A - px q) + lb l * (py A - py q)) = 0) as E2.
  { transitivity (lb l * (la l' * (px A - px q) + lb l' * (py A - py q)) + (la l * lb l' - lb l * la l') * (px A - px q)); [ring|]. rewrite E.
    replace (la l' * (px A - px q) + lb l' * (py A - py q)) with 0 by lra. ring. }
  apply Rmult_integral in E1. apply Rmult_integral in E2. destruct P as [P|P]; lra.
Qed.
Lemma nonpara_common l l' p q : la l * lb l' - lb l * la l' <> 0 -> onL l p -> onL l q -> onL l' p -> onL l' q -> p = q.
Proof.
  unfold onL. intros N A B C D. assert ((la l * lb l' - lb l * la l') * (px p - px q) = 0) as E1.
  { transitivity (lb l' * (la l * (px p - px q) + lb l * (py p - py q)) - lb l * (la l' * (px p - px q) + lb l' * (py p - py q))); [ring|].
    replace (la l * (px p - px q) + lb l * (py p - py q)) with 0 by lra. replace (la l' * (px p - px q) + lb l' * (py p - py q)) with 0 by lra. ring. }
  assert ((la l * lb l' - lb l * la l') * (py p - py q) = 0) as E2.
  { transitivity (la l * (la l' * (px p - px q) + lb l' * (py p - py q)) - la l' * (la l * (px p - px q) + lb l * (py p - py q))); [ring|].
    replace (la l * (px p - px q) + lb l * (py p - py q)) with 0 by lra. replace (la l' * (px p - px q) + lb l' * (py p - py q)) with 0 by lra. ring. }
  apply Rmult_integral in E1. apply Rmult_integral in E2. apply pt_eq; lra.
Qed.
Lemma edist_along A B s t : edist (along A B s) (along A B t) = Rabs (s - t) * edist A B.
Proof.
  unfold edist, along, Rsqr. cbn [px py].
  replace (_ + _) with ((s - t) * (s - t) * ((px A - px B) * (px A - px B) + (py A - py B) * (py A - py B))) by ring.
  rewrite sqrt_mult; [|apply Rle_0_sqr|apply Rplus_le_le_0_compat; apply Rle_0_sqr]. f_equal. exact (sqrt_Rsqr_abs (s - t)).
Qed.

Lemma side_meet th s l l' : thr_ok th -> unitL l -> okSeg th s -> dirOK th (sA s) (sB s) -> svLine th s = Ok l' ->
  (paraL l l' \/ isParallel th l l' = false) ->
  (forall e, e = sA s \/ e = sB s -> onL l e \/ nullDistance th <= Rabs (la l * px e + lb l * py e + lc l)) ->
  ~ (onL l (sA s) /\ onL l (sB s)) ->
  exists it, segInterLine th s l = Ok it /\ forall q, it = Some q <-> onL l q /\ segHas s q.
Proof.
  intros Ht U Ok1 D E PR CL NC. pose proof (thr_dist th Ht) as T0.
  assert (onL l' (sA s) /\ onL l' (sB s)) as [OA OB] by (eapply lineOf_on; eauto).
  destruct (lineOf_proper th _ _ _ Ht E) as [U' _].
  destruct (isParallel th l l') eqn:EP.
  - destruct PR as [PR|PR]; [|discriminate]. exists None. split; [unfold segInterLine; rewrite E; cbn [bind]; now rewrite EP|].
    intros q. split; [discriminate|]. intros [O S]. exfalso. apply NC. pose proof (seg_on_line th s l' q Ht E D S) as O'.
    split; eapply (para_common l l' q); eauto using unit_proper.
  - clear PR. pose proof (notParallel_cross th l l' Ht (unit_proper _ U) (unit_proper _ U') EP) as NP.
    destruct (meet_total th l l' Ht (unit_proper _ U) (unit_proper _ U') EP) as (m & Em).
    assert (exists it, segInterLine th s l = Ok it) as (it & Ei).
    { unfold segInterLine. rewrite E. cbn [bind]. rewrite EP, Em. cbn [bind]. destruct (_ <? _)%num; eauto. }
    exists it. split; auto. intros q. split.
    + intros ->. destruct (segInterLine_sound th s l q Ht U D Ei) as (O & C & x & Sx & Dx). split; auto.
      assert (sA s <> sB s) as NE. { intros EE. destruct Ok1 as [L _]. rewrite EE, edist_refl in L. lra. }
      destruct (line_param _ _ _ NE C) as (t & ->). apply onSeg_along in Sx. destruct Sx as (u & Hu & ->). rewrite edist_along in Dx.
      assert (0 < edist (sA s) (sB s)) as LP by (destruct Ok1; lra).
      destruct (Rlt_dec t 0) as [Tn|Tn]; [|destruct (Rlt_dec 1 t) as [Tp|Tp]].
      * exfalso. assert (edist (sA s) (along (sA s) (sB s) t) < nullDistance th) as DA.
        { rewrite <- (along_0 (sA s) (sB s)) at 1. rewrite edist_along. apply Rle_lt_trans with (Rabs (t - u) * edist (sA s) (sB s)); [|lra].
          apply Rmult_le_compat_r; [lra|]. rewrite Rabs_right by lra. rewrite Rabs_left by lra. lra. }
        assert (onL l (sA s)) as OlA.
        { destruct (CL (sA s) (or_introl eq_refl)) as [|F]; auto. exfalso. pose proof (lineDist_lower l (sA s) _ (unit_proper _ U) O) as LD. rewrite lineDist_unit in LD by auto. lra. }
        assert (onL l' (along (sA s) (sB s) t)) as O'. { unfold onL, along in *. cbn [px py]. 
          replace (la l' * (px (sA s) + t * (px (sB s) - px (sA s))) + lb l' * (py (sA s) + t * (py (sB s) - py (sA s))) + lc l')
          with ((1 - t) * (la l' * px (sA s) + lb l' * py (sA s) + lc l') + t * (la l' * px (sB s) + lb l' * py (sB s) + lc l')) by ring. rewrite OA, OB. ring. }
        pose proof (nonpara_common l l' _ _ NP OlA O OA O') as EQ. 
        assert (edist (along (sA s) (sB s) 0) (along (sA s) (sB s) t) = 0) as Z by (rewrite along_0, <- EQ; apply edist_refl).
        rewrite edist_along, Rabs_right in Z by lra. apply Rmult_integral in Z. lra.
      * exfalso. assert (edist (sB s) (along (sA s) (sB s) t) < nullDistance th) as DA.
        { rewrite <- (along_1 (sA s) (sB s)) at 1. rewrite edist_along. apply Rle_lt_trans with (Rabs (t - u) * edist (sA s) (sB s)); [|lra].
          apply Rmult_le_compat_r; [lra|]. rewrite Rabs_left by lra. rewrite Rabs_right by lra. lra. }
        assert (onL l (sB s)) as OlA.
        { destruct (CL (sB s) (or_intror eq_refl)) as [|F]; auto. exfalso. pose proof (lineDist_lower l (sB s) _ (unit_proper _ U) O) as LD. rewrite lineDist_unit in LD by auto. lra. }
        assert (onL l' (along (sA s) (sB s) t)) as O'. { unfold onL, along in *. cbn [px py]. 
          replace (la l' * (px (sA s) + t * (px (sB s) - px (sA s))) + lb l' * (py (sA s) + t * (py (sB s) - py (sA s))) + lc l')
          with ((1 - t) * (la l' * px (sA s) + lb l' * py (sA s) + lc l') + t * (la l' * px (sB s) + lb l' * py (sB s) + lc l')) by ring. rewrite OA, OB. ring. }
        pose proof (nonpara_common l l' _ _ NP OlA O OB O') as EQ. 
        assert (edist (along (sA s) (sB s) 1) (along (sA s) (sB s) t) = 0) as Z by (rewrite along_1, <- EQ; apply edist_refl).
        rewrite edist_along, Rabs_left in Z by lra. apply Rmult_integral in Z. lra.
      * apply onSeg_along. exists t. split; [lra|auto].
    + intros [O S]. pose proof (segInterLine_complete th s q l l' Ht U D E EP S O) as C. congruence.
Qed.

(** ** The loop over the sides *)
Lemma lineLoop th l segs (P : seg R -> pt R -> Prop) : thr_ok th ->
  (forall s, In s segs -> exists it, segInterLine th s l = Ok it /\ forall q, it = Some q <-> P s q) ->
  (forall a b q, (exists s, In s segs /\ P s a) -> (exists s, In s segs /\ P s b) -> (exists s, In s segs /\ P s q) -> a <> b -> q = a \/ q = b) ->
  (forall s a e, In s segs -> (e = sA s \/ e = sB s) -> (exists s, In s segs /\ P s a) -> edist a e < nullDistance th -> a = e) ->
  forall rest fin out, segs = fin ++ rest -> (length out <= 1)%nat ->
  (forall s q, In s rest -> P s q -> (exists s', In s' fin /\ P s' q) -> q = sA s \/ q = sB s) ->
  (forall m s m', rest = m ++ s :: m' -> forall s' q, In s' m -> P s' q -> P s q -> q = sA s \/ q = sB s) ->
  (forall q, In q out <-> exists s, In s fin /\ P s q) ->
  exists out', frInterLineLoop th rest l out = Ok out' /\ NoDup out' /\ (length out' <= 2)%nat /\ forall q, In q out' <-> exists s, In s segs /\ P s q.
Proof.
  intros Ht H1 H2 H3. induction rest as [|rs rest IH]; intros fin out ES L1 HF HM HO.
  - exists out. cbn. rewrite app_nil_r in ES. subst segs. repeat split; auto.
    + destruct out as [|a [|]]; [constructor|constructor; [auto|constructor]|cbn in L1; lia].
    + apply HO.
    + apply HO.
  - cbn [frInterLineLoop]. assert (In rs segs) as Irs by (rewrite ES; apply in_app_iff; right; now left).
    destruct (H1 rs Irs) as (it & Ei & Hit). rewrite Ei. cbn [bind].
    assert (HF' : forall s q, In s rest -> P s q -> (exists s', In s' (fin ++ [rs]) /\ P s' q) -> q = sA s \/ q = sB s).
    { intros s q Is Ps (s' & Is' & Ps'). apply in_app_iff in Is'. destruct Is' as [Is'|[<-|[]]]; [apply HF; eauto; now right|].
      apply in_split in Is. destruct Is as (m & m' & ->). apply (HM (rs :: m) s m' eq_refl rs q); auto. now left. }
    assert (HM' : forall m s m', rest = m ++ s :: m' -> forall s' q, In s' m -> P s' q -> P s q -> q = sA s \/ q = sB s).
    { intros m s m' -> s' q I. apply (HM (rs :: m) s m' eq_refl s' q). now right. }
    assert (ES' : segs = (fin ++ [rs]) ++ rest) by (rewrite ES, <- app_assoc; reflexivity).
    destruct it as [p|].
    2: { apply (IH (fin ++ [rs]) out); auto. intros q. rewrite HO. split; intros (s & I & Ps).
         - exists s. rewrite in_app_iff. auto.
         - apply in_app_iff in I. destruct I as [I|[<-|[]]]; [eauto|]. apply Hit in Ps. discriminate. }
    assert (P rs p) as Pp by (now apply Hit). assert (Hp : forall q, P rs q -> q = p) by (intros q Q; apply Hit in Q; congruence).
    assert (incl fin segs) as IF by (intros x X; rewrite ES, in_app_iff; auto).
    destruct out as [|a [|]]; [| |cbn in L1; lia].
    + cbn [app length Nat.eqb]. apply (IH (fin ++ [rs]) [p]); auto. intros q. split.
      * intros [<-|[]]. exists rs. rewrite in_app_iff. cbn. auto.
      * intros (s & I & Ps). apply in_app_iff in I. destruct I as [I|[<-|[]]]; [|left; symmetry; auto]. exfalso. apply (proj2 (HO q)). eauto.
    + assert (exists s, In s fin /\ P s a) as (s0 & I0 & P0) by (apply HO; now left).
      destruct ((ptEq th p (sA rs) || ptEq th p (sB rs)) && ptEq th a p) eqn:EB; cbn [negb].
      * apply andb_true_iff in EB. destruct EB as [B1 B2]. cbn [length Nat.eqb]. apply (IH (fin ++ [rs]) [a]); auto.
        assert (a = p) as EA.
        { apply orb_true_iff in B1. assert (exists e, (e = sA rs \/ e = sB rs) /\ ptEq th p e = true) as (e & Ee & Q) by (destruct B1; eauto).
          apply ptEq_spec in Q. apply ptEq_spec in B2. 
          assert (p = e) by (apply (H3 rs p e); eauto). subst e. apply (H3 rs a p); eauto. }
        intros q. split.
        -- intros I. apply HO in I. destruct I as (s & I & Ps). exists s. rewrite in_app_iff. auto.
        -- intros (s & I & Ps). apply in_app_iff in I. destruct I as [I|[<-|[]]]; [apply HO; eauto|]. left. rewrite (Hp q Ps). auto.
      * assert (a <> p) as NA.
        { intros ->. assert (p = sA rs \/ p = sB rs) as [Q|Q] by (apply HF; eauto; now left); 
          rewrite (proj2 (ptEq_spec th p p)) in EB by (rewrite edist_refl; apply thr_dist; auto).
          - rewrite <- Q in EB. rewrite (proj2 (ptEq_spec th p p)) in EB by (rewrite edist_refl; apply thr_dist; auto). discriminate.
          - rewrite <- Q in EB. rewrite (proj2 (ptEq_spec th p p)) in EB by (rewrite edist_refl; apply thr_dist; auto). rewrite orb_true_r in EB. discriminate. }
        cbn [app length Nat.eqb]. exists [a; p]. split; auto. split; [|split; [cbn; lia|]].
        -- constructor; [intros [E|[]]; congruence|constructor; [auto|constructor]].
        -- intros q. split.
           ++ intros [<-|[<-|[]]]; eauto.
           ++ intros Q. destruct (H2 a p q) as [->| ->]; cbn; auto; eauto.
Qed.

(** ** The rectangle *)
Lemma onSeg_v a b e q : b < e -> (onSeg (mkPt a b) (mkPt a e) q <-> px q = a /\ b <= py q <= e).
Proof.
  intros L. unfold onSeg. cbn [px py]. split.
  - intros (t & Ht & X & Y). split; [lra|]. nra.
  - intros [X Y]. exists ((py q - b) / (e - b)). split; [|split; [lra|field; lra]].
    split; [apply Rmult_le_pos; [lra|left; apply Rinv_0_lt_compat; lra]|].
    apply Rmult_le_reg_r with (e - b); [lra|]. unfold Rdiv. rewrite Rmult_assoc, Rinv_l by lra. lra.
Qed.
Lemma onSeg_h a b e q : b < e -> (onSeg (mkPt b a) (mkPt e a) q <-> py q = a /\ b <= px q <= e).
Proof.
  intros L. unfold onSeg. cbn [px py]. split.
  - intros (t & Ht & X & Y). split; [lra|]. nra.
  - intros [X Y]. exists ((px q - b) / (e - b)). split; [|split; [field; lra|lra]].
    split; [apply Rmult_le_pos; [lra|left; apply Rinv_0_lt_compat; lra]|].
    apply Rmult_le_reg_r with (e - b); [lra|]. unfold Rdiv. rewrite Rmult_assoc, Rinv_l by lra. lra.
Qed.
Lemma sides_inv r s : In s (sidesOf r) ->
  (exists x, (x = px (r1 r) \/ x = px (r2 r)) /\ s = mkSeg (mkPt x (py (r1 r))) (mkPt x (py (r2 r)))) \/
  (exists y, (y = py (r1 r) \/ y = py (r2 r)) /\ s = mkSeg (mkPt (px (r1 r)) y) (mkPt (px (r2 r)) y)).
Proof.
  destruct r as [[a b] [c d]]. unfold sidesOf. cbn [r1 r2 px py In]. intros [<-|[<-|[<-|[<-|[]]]]]; [left|right|left|right]; eexists; (split; [|reflexivity]); auto.
Qed.
Lemma side_has r s q : wfR r -> In s (sidesOf r) -> segHas s q -> onBorder r q.
Proof.
  intros [W1 W2] I H. unfold onBorder, inR. apply sides_inv in I. destruct I as [(x & X & ->)|(y & Y & ->)]; unfold segHas in H; cbn [sA sB] in H.
  - apply onSeg_v in H; auto. destruct H as [-> H]. destruct X as [->| ->]; repeat split; try lra; auto.
  - apply onSeg_h in H; auto. destruct H as [-> H]. destruct Y as [->| ->]; repeat split; try lra; auto.
Qed.
Lemma border_side r q : wfR r -> onBorder r q -> exists s, In s (sidesOf r) /\ segHas s q.
Proof.
  intros [W1 W2] [[H1 H2] H]. destruct r as [[a b] [c d]]. unfold sidesOf. cbn [r1 r2 px py] in *.
  destruct H as [H|[H|[H|H]]].
  - eexists. split; [left; reflexivity|]. unfold segHas. cbn [sA sB]. apply onSeg_v; auto.
  - eexists. split; [right; right; left; reflexivity|]. unfold segHas. cbn [sA sB]. apply onSeg_v; auto.
  - eexists. split; [right; right; right; left; reflexivity|]. unfold segHas. cbn [sA sB]. apply onSeg_h; auto.
  - eexists. split; [right; left; reflexivity|]. unfold segHas. cbn [sA sB]. apply onSeg_h; auto.
Qed.
Lemma side_corner r s e : In s (sidesOf r) -> (e = sA s \/ e = sB s) -> isCorner r e.
Proof.
  intros I E. apply sides_inv in I. unfold isCorner. destruct I as [(x & X & ->)|(y & Y & ->)]; cbn [sA sB] in E; destruct E as [->| ->]; cbn [px py]; auto.
Qed.

(** Two different points of a side on the line: the line contains the side. *)
Lemma two_on l p q x : onL l p -> onL l q -> p <> q -> cross3 p q x = 0 -> onL l x.
Proof.
  unfold onL, cross3. intros A B N C.
  assert ((px q - px p) * (la l * px x + lb l * py x + lc l) = 0) as E1.
  { transitivity ((px q - px p) * (la l * px p + lb l * py p + lc l) + (px x - px p) * ((la l * px q + lb l * py q + lc l) - (la l * px p + lb l * py p + lc l)) + lb l * ((px q - px p) * (py x - py p) - (py q - py p) * (px x - px p))); [ring|].
    rewrite A, B, C. ring. }
  assert ((py q - py p) * (la l * px x + lb l * py x + lc l) = 0) as E2.
  { transitivity ((py q - py p) * (la l * px p + lb l * py p + lc l) + (py x - py p) * ((la l * px q + lb l * py q + lc l) - (la l * px p + lb l * py p + lc l)) - la l * ((px q - px p) * (py x - py p) - (py q - py p) * (px x - px p))); [ring|].
    rewrite A, B, C. ring. }
  apply Rmult_integral in E1. apply Rmult_integral in E2. destruct E1 as [E1|]; auto. destruct E2 as [E2|]; auto. exfalso. apply N. apply pt_eq; lra.
Qed.
Lemma noSide_v r l a b : wfR r -> noSide r l -> onL l a -> onL l b -> px a = px b -> (px a = px (r1 r) \/ px a = px (r2 r)) -> a = b.
Proof.
  intros [W1 W2] N A B E C. destruct (Req_dec (py a) (py b)) as [Y|Y]; [apply pt_eq; auto|]. exfalso.
  assert (forall y, onL l (mkPt (px a) y)) as O.
  { intros y. apply (two_on l a b); auto; [intros ->; auto|]. unfold cross3. cbn [px py]. rewrite E. ring. }
  destruct (N (mkPt (px a) (py (r1 r))) (mkPt (px a) (py (r2 r)))) as [F _]; auto; try (unfold isCorner; cbn [px py]; tauto).
  injection. lra.
Qed.
Lemma noSide_h r l a b : wfR r -> noSide r l -> onL l a -> onL l b -> py a = py b -> (py a = py (r1 r) \/ py a = py (r2 r)) -> a = b.
Proof.
  intros [W1 W2] N A B E C. destruct (Req_dec (px a) (px b)) as [Y|Y]; [apply pt_eq; auto|]. exfalso.
  assert (forall y, onL l (mkPt y (py a))) as O.
  { intros y. apply (two_on l a b); auto; [intros ->; auto|]. unfold cross3. cbn [px py]. rewrite E. ring. }
  destruct (N (mkPt (px (r1 r)) (py a)) (mkPt (px (r2 r)) (py a))) as [_ F]; auto; try (unfold isCorner; cbn [px py]; tauto).
  injection. lra.
Qed.

(** A middle point on the border. *)
Lemma middle r l a b m t : wfR r -> noSide r l -> onL l a -> onL l b -> onL l m -> onBorder r a -> onBorder r b -> onBorder r m ->
  0 < t < 1 -> px m = px a + t * (px b - px a) -> py m = py a + t * (py b - py a) -> a = b.
Proof.
  intros W N Oa Ob Om [[A1 A2] _] [[B1 B2] _] [_ M] T X Y. 
  assert ((1 - t) * (px a - px (r1 r)) + t * (px b - px (r1 r)) = px m - px (r1 r)) as E1 by (rewrite X; ring).
  assert ((1 - t) * (px (r2 r) - px a) + t * (px (r2 r) - px b) = px (r2 r) - px m) as E2 by (rewrite X; ring).
  assert ((1 - t) * (py a - py (r1 r)) + t * (py b - py (r1 r)) = py m - py (r1 r)) as E3 by (rewrite Y; ring).
  assert ((1 - t) * (py (r2 r) - py a) + t * (py (r2 r) - py b) = py (r2 r) - py m) as E4 by (rewrite Y; ring).
  assert (Z : forall u v, 0 <= u -> 0 <= v -> (1 - t) * u + t * v = 0 -> u = 0 /\ v = 0) by (intros u v; nra).
  destruct M as [M|[M|[M|M]]].
  - destruct (Z (px a - px (r1 r)) (px b - px (r1 r))); try lra. apply (noSide_v r l); auto; lra.
  - destruct (Z (px (r2 r) - px a) (px (r2 r) - px b)); try lra. apply (noSide_v r l); auto; lra.
  - destruct (Z (py a - py (r1 r)) (py b - py (r1 r))); try lra. apply (noSide_h r l); auto; lra.
  - destruct (Z (py (r2 r) - py a) (py (r2 r) - py b)); try lra. apply (noSide_h r l); auto; lra.
Qed.
Lemma border_two r l a b q : wfR r -> noSide r l -> proper l -> onL l a -> onL l b -> onL l q -> onBorder r a -> onBorder r b -> onBorder r q ->
  a <> b -> q = a \/ q = b.
Proof.
  intros W N P Oa Ob Oq Ba Bb Bq NE.
  assert (cross3 a b q = 0) as C.
  { unfold cross3, onL in *. destruct P as [P|P].
    - apply Rmult_eq_reg_l with (la l); auto. transitivity ((py q - py a) * (la l * (px b - px a) + lb l * (py b - py a)) - (py b - py a) * (la l * (px q - px a) + lb l * (py q - py a))); [ring|].
      replace (la l * (px b - px a) + lb l * (py b - py a)) with 0 by lra. replace (la l * (px q - px a) + lb l * (py q - py a)) with 0 by lra. ring.
    - apply Rmult_eq_reg_l with (lb l); auto. transitivity ((px b - px a) * (la l * (px q - px a) + lb l * (py q - py a)) - (px q - px a) * (la l * (px b - px a) + lb l * (py b - py a))); [ring|].
      replace (la l * (px b - px a) + lb l * (py b - py a)) with 0 by lra. replace (la l * (px q - px a) + lb l * (py q - py a)) with 0 by lra. ring. }
  destruct (line_param a b q NE C) as (t & E).
  assert (px q = px a + t * (px b - px a)) as X by (rewrite E; reflexivity). assert (py q = py a + t * (py b - py a)) as Y by (rewrite E; reflexivity).
  destruct (Req_dec t 0) as [->|T0]; [left; apply pt_eq; lra|]. destruct (Req_dec t 1) as [->|T1]; [right; apply pt_eq; lra|].
  exfalso. destruct (Rlt_dec t 0) as [L|L]; [|destruct (Rlt_dec 1 t) as [L'|L']].
  - (* a between q and b *) assert (q = b) as EQ; [|rewrite EQ in X, Y; apply NE; assert ((1 - t) * (px b - px a) = 0) as Z1 by lra; assert ((1 - t) * (py b - py a) = 0) as Z2 by lra; apply Rmult_integral in Z1; apply Rmult_integral in Z2; apply pt_eq; lra].
    apply (middle r l q b a (- t / (1 - t))); auto.
    + split; [apply Rdiv_lt_0_compat; lra|]. apply Rmult_lt_reg_r with (1 - t); [lra|]. unfold Rdiv. rewrite Rmult_assoc, Rinv_l by lra. lra.
    + rewrite X. field. lra.
    + rewrite Y. field. lra.
  - assert (a = q) as EQ; [|rewrite <- EQ in X, Y; apply NE; assert (t * (px b - px a) = 0) as Z1 by lra; assert (t * (py b - py a) = 0) as Z2 by lra; apply Rmult_integral in Z1; apply Rmult_integral in Z2; apply pt_eq; lra].
    apply (middle r l a q b (1 / t)); auto.
    + split; [apply Rdiv_lt_0_compat; lra|]. apply Rmult_lt_reg_r with t; [lra|]. unfold Rdiv. rewrite Rmult_assoc, Rinv_l by lra. lra.
    + rewrite X. field. lra.
    + rewrite Y. field. lra.
  - apply NE. apply (middle r l a b q t); auto. lra.
Qed.

(** A border point of the line next to a corner is the corner. *)
Lemma near_corner th r l a e : thr_ok th -> bigR th r -> unitL l -> cornerClear th r l -> noSide r l -> isCorner r e ->
  onL l a -> onBorder r a -> edist a e < nullDistance th -> a = e.
Proof.
  intros Ht [[G1 G2] _] U CC N Ce Oa Ba D. pose proof (thr_dist th Ht) as T0. assert (wfR r) as W by (split; lra).
  assert (onL l e) as Oe.
  { destruct (CC e Ce) as [|F]; auto. exfalso. pose proof (lineDist_lower l e a (unit_proper _ U) Oa) as LD. rewrite lineDist_unit, edist_sym in LD by auto. lra. }
  pose proof (edist_ge_x a e) as DX. pose proof (edist_ge_y a e) as DY. destruct Ba as [[A1 A2] A3]. destruct Ce as [C1 C2].
  assert (Rabs (px a - px e) < nullDistance th) as DX' by lra. assert (Rabs (py a - py e) < nullDistance th) as DY' by lra. clear DX DY D. apply Rabs_def2 in DX', DY'.
  destruct A3 as [A|[A|[A|A]]].
  - apply (noSide_v r l); auto. destruct C1; lra.
  - apply (noSide_v r l); auto. destruct C1; lra.
  - apply (noSide_h r l); auto. destruct C2; lra.
  - apply (noSide_h r l); auto. destruct C2; lra.
Qed.

Lemma cosL_unit l m : unitL l -> unitL m -> cosL l m = Rabs (la l * la m + lb l * lb m).
Proof.
  intros U V. unfold cosL, unitL in *. rewrite U, V. replace (1 * 1) with 1 by ring. rewrite sqrt_1. f_equal. field.
Qed.
Lemma side_line th r s l : thr_ok th -> bigR th r -> unitL l -> axisClear th l -> In s (sidesOf r) -> okSeg th s /\ dirOK th (sA s) (sB s) /\
  exists l', svLine th s = Ok l' /\ (paraL l l' \/ isParallel th l l' = false).
Proof.
  intros Ht [[G1 G2] [G3 G4]] U [X1 X2] I. pose proof (thr_dist th Ht) as T0. pose proof (thr_deps th Ht) as T1. pose proof (thr_deno th Ht) as T2.
  assert (okSeg th s /\ dirOK th (sA s) (sB s)) as [Os Ds].
  { unfold okSeg, dirOK. apply sides_inv in I. destruct I as [(x & X & ->)|(y & Y & ->)]; cbn [sA sB px py].
    - rewrite edist_v, Rabs_left by lra. split; [lra|]. right. nra.
    - rewrite edist_h, Rabs_left by lra. split; [lra|]. now left. }
  split; auto. split; auto. destruct (svLine_ok th s Ht Os) as (l' & E). exists l'. split; auto.
  destruct (lineOf_on th _ _ _ Ht E Ds) as [OA OB]. destruct (lineOf_proper th _ _ _ Ht E) as [U' _].
  assert (HP : isParallel th l l' = Rltb (acos (cosL l l')) (nullAngleValue th)).
  { unfold isParallel. rewrite lineAngle_acos by auto using unit_proper. reflexivity. }
  rewrite HP, cosL_unit by auto. unfold onL, unitL, paraL in *. clear HP.
  apply sides_inv in I. destruct I as [(x & X & ->)|(y & Y & ->)]; cbn [sA sB px py] in OA, OB.
  - assert (lb l' = 0) as Z by (apply Rmult_eq_reg_r with (py (r2 r) - py (r1 r)); lra). rewrite Z in *.
    destruct X2 as [X2|X2]; [left; rewrite X2; ring|right]. apply Rltb_false. rewrite Rmult_0_r, Rplus_0_r, Rabs_mult.
    assert (Rabs (la l') = 1) as -> by (rewrite <- (Rabs_R1); apply Rsqr_eq_abs_0; unfold Rsqr; lra). rewrite Rmult_1_r. exact X2.
  - assert (la l' = 0) as Z by (apply Rmult_eq_reg_r with (px (r2 r) - px (r1 r)); lra). rewrite Z in *.
    destruct X1 as [X1|X1]; [left; rewrite X1; ring|right]. apply Rltb_false. rewrite Rmult_0_r, Rplus_0_l, Rabs_mult.
    assert (Rabs (lb l') = 1) as -> by (rewrite <- (Rabs_R1); apply Rsqr_eq_abs_0; unfold Rsqr; lra). rewrite Rmult_1_r. exact X1.
Qed.

Lemma sides_share r m s m' s' q : wfR r -> sidesOf r = m ++ s :: m' -> In s' m -> segHas s' q -> segHas s q -> q = sA s \/ q = sB s.
Proof.
  intros [W1 W2] E I H' H. destruct r as [[a b] [c d]]. unfold sidesOf in E. cbn [r1 r2 px py] in *. unfold segHas in *.
  destruct m as [|s0 m]; [destruct I|]. injection E as E0 E. destruct m as [|s1 m]; [|injection E as E1 E; destruct m as [|s2 m]; [|injection E as E2 E; destruct m as [|s3 m]; [|injection E as _ E; destruct m; discriminate]]].
  - injection E as <- _. cbn [sA sB]. destruct I as [<-|[]]. rewrite <- E0 in H'. cbn [sA sB] in *. apply onSeg_v in H'; auto. apply onSeg_h in H; auto. left. apply pt_eq; cbn; lra.
  - injection E as <- _. cbn [sA sB]. cbn [sA sB] in H. apply onSeg_v in H; auto. destruct I as [<-|[<-|[]]].
    + rewrite <- E0 in H'. cbn [sA sB] in H'. apply onSeg_v in H'; auto. lra.
    + rewrite <- E1 in H'. cbn [sA sB] in H'. apply onSeg_h in H'; auto. right. apply pt_eq; cbn; lra.
  - injection E as <- _. cbn [sA sB]. cbn [sA sB] in H. apply onSeg_h in H; auto. destruct I as [<-|[<-|[<-|[]]]].
    + rewrite <- E0 in H'. cbn [sA sB] in H'. apply onSeg_v in H'; auto. left. apply pt_eq; cbn; lra.
    + rewrite <- E1 in H'. cbn [sA sB] in H'. apply onSeg_h in H'; auto. lra.
    + rewrite <- E2 in H'. cbn [sA sB] in H'. apply onSeg_v in H'; auto. right. apply pt_eq; cbn; lra.
Qed.

Theorem frInterLine_exact th r l : thr_ok th -> bigR th r -> unitL l -> axisClear th l -> cornerClear th r l -> noSide r l ->
  exists out, frInterLine th r l = Ok out /\ NoDup out /\ (length out <= 2)%nat /\ forall q, In q out <-> onL l q /\ onBorder r q.
Proof.
  intros Ht G U A C N. pose proof (thr_dist th Ht) as T0. assert (wfR r) as W by (destruct G as [[] _]; split; lra).
  unfold frInterLine. rewrite frSegs_eq by (destruct G as [[] _]; auto). cbn [bind].
  set (P := fun s q => onL l q /\ segHas s q).
  assert (HB : forall q, (exists s, In s (sidesOf r) /\ P s q) <-> onL l q /\ onBorder r q).
  { intros q. split.
    - intros (s & I & O & H). split; auto. eapply side_has; eauto.
    - intros [O B]. destruct (border_side r q W B) as (s & I & H). exists s. split; auto. split; auto. }
  destruct (lineLoop th l (sidesOf r) P Ht) with (rest := sidesOf r) (fin := @nil (seg R)) (out := @nil (pt R)) as (out & E & ND & L & H).
  - intros s I. destruct (side_line th r s l Ht G U A I) as (Os & Ds & l' & E & PR). apply (side_meet th s l l'); auto.
    + intros e He. apply C. eapply side_corner; eauto.
    + intros [OA OB]. destruct (N (sA s) (sB s)) as [F1 F2]; auto; try (eapply side_corner; eauto).
      * intros EE. destruct Os as [Q _]. rewrite EE, edist_refl in Q. lra.
      * apply sides_inv in I. destruct I as [(x & X & ->)|(y & Y & ->)]; cbn [sA sB px py] in *; auto.
  - intros a b q Ha Hb Hq. apply HB in Ha, Hb, Hq. apply (border_two r l); try tauto. apply unit_proper, U.
  - intros s a e I He Ha. apply HB in Ha. destruct Ha. apply (near_corner th r l); auto. eapply side_corner; eauto.
  - reflexivity.
  - cbn. lia.
  - intros s q _ _ (s' & [] & _).
  - intros m s m' E s' q I [_ H1] [_ H2]. eapply sides_share; eauto.
  - intros q. split; [intros []|intros (s & [] & _)].
  - exists out. split; auto. split; auto. split; auto. intros q. rewrite H. apply HB.
Qed.

(** ** Circles *)
Lemma setInsert_in p l q : In q (setInsert p l) <-> q = p \/ In q l.
Proof.
  induction l as [|x l IH]; [cbn; intuition|]. cbn [setInsert]. destruct (ptLt p x) eqn:E1; [cbn; intuition|].
  destruct (ptLt x p) eqn:E2; [cbn [In]; rewrite IH; intuition|].
  apply ptLt_false in E1, E2. unfold lexlt in *. assert (p = x) as -> by (apply pt_eq; destruct (Rtotal_order (px p) (px x)) as [|[]]; destruct (Rtotal_order (py p) (py x)) as [|[]]; try lra; exfalso; tauto).
  cbn. intuition.
Qed.
Lemma fold_insert_in v acc q : In q (fold_left (fun a p => setInsert p a) v acc) <-> In q v \/ In q acc.
Proof. revert acc. induction v as [|x v IH]; intros acc; cbn [fold_left In]; [tauto|]. rewrite IH, setInsert_in. intuition. Qed.

Lemma setInsert_incr p l : incrL l -> incrL (setInsert p l).
Proof.
  induction l as [|x l IH]; intros H; [cbn; tauto|]. cbn [setInsert]. destruct (ptLt p x) eqn:E1.
  - apply ptLt_spec in E1. split; auto. destruct H as [H _]. intros b [<-|I]; auto. eapply lexlt_trans; eauto.
  - destruct (ptLt x p) eqn:E2; auto. apply ptLt_spec in E2. destruct H as [H H']. split; auto.
    intros b I. apply setInsert_in in I. destruct I as [->|I]; auto.
Qed.
Lemma fold_incr v acc : incrL acc -> incrL (fold_left (fun a p => setInsert p a) v acc).
Proof. revert acc. induction v as [|x v IH]; intros acc H; cbn [fold_left]; auto. apply IH. now apply setInsert_incr. Qed.
Lemma segCircle_two th s (c : circle R) v : segCircle th s c = Ok v -> (length v <= 2)%nat.
Proof.
  unfold segCircle. intros H. destruct (ptLabel th (sA s) c), (ptLabel th (sB s) c);
  try (injection H as <-; cbn; lia); apply bind_ok in H; destruct H as (l & _ & H);
  destruct (lineCircle _ _ _) as [[p1 p2]|]; try (injection H as <-; cbn; lia);
  match type of H with (if ?b then _ else _) = _ => destruct b end; injection H as <-; cbn; lia.
Qed.
Lemma circLoop th (c : circle R) (P : seg R -> pt R -> Prop) segs acc :
  (forall s, In s segs -> exists v, segCircle th s c = Ok v /\ forall q, In q v <-> P s q) -> incrL acc ->
  exists out, frInterCircLoop th segs c acc = Ok out /\ incrL out /\ forall q, In q out <-> In q acc \/ exists s, In s segs /\ P s q.
Proof.
  revert acc. induction segs as [|s segs IH]; intros acc H Ha.
  - exists acc. cbn. split; auto. split; auto. intros q. split; auto. intros [|(s & [] & _)]; auto.
  - cbn [frInterCircLoop]. destruct (H s (or_introl eq_refl)) as (v & E & Hv). rewrite E. cbn [bind].
    rewrite firstn_all2 by (eapply segCircle_two; eauto).
    destruct (IH (fold_left (fun a p => setInsert p a) v acc)) as (out & Eo & Io & Ho); [intros; apply H; now right|now apply fold_incr|].
    exists out. split; auto. split; auto. intros q. rewrite Ho, fold_insert_in, Hv. split.
    + intros [[A|A]|(s' & I & A)]; auto; right; eexists; (split; [|exact A]); cbn; auto.
    + intros [A|(s' & [<-|I] & A)]; auto. right. eauto.
Qed.
Theorem frInterCircle_exact th r c : thr_ok th -> bigR th r -> 0 <= cr c -> (forall e, isCorner r e -> far th c e) ->
  exists out, frInterCircle th r c = Ok out /\ incrL out /\ forall q, In q out <-> onEdge c q /\ onBorder r q.
Proof.
  intros Ht G Rc F. pose proof (thr_dist th Ht) as T0. assert (wfR r) as W by (destruct G as [[] _]; split; lra).
  unfold frInterCircle. rewrite frSegs_eq by (destruct G as [[] _]; auto). cbn [bind].
  destruct (circLoop th c (fun s q => segHas s q /\ onEdge c q) (sidesOf r) []) as (out & E & Io & Ho).
  - intros s I. assert (okSeg th s /\ dirOK th (sA s) (sB s)) as (Os & Ds).
    { destruct (side_line th r s (mkL 1 0 0) Ht G) as (? & ? & _); auto; [unfold unitL; cbn; ring|].
      unfold axisClear. cbn [la lb]. split; [right; rewrite Rabs_R0, acos_0; pose proof (thr_angl th Ht); lra|now left]. }
    destruct (segCircle_ok th s c Ht Os) as (v & Ev). exists v. split; auto. intros q. apply (segCircle_exact th); auto; apply F; eapply side_corner; eauto.
  - exact Logic.I.
  - exists out. split; auto. split; auto. intros q. rewrite Ho. split.
    + intros [[]|(s & I & H & H')]. split; auto. eapply side_has; eauto.
    + intros [H B]. right. destruct (border_side r q W B) as (s & I & H'). eauto.
Qed.

(** ** Lines that contain a side *)
Lemma parallel_none th s l l' : svLine th s = Ok l' -> isParallel th l l' = true -> segInterLine th s l = Ok None.
Proof. intros E P. unfold segInterLine. rewrite E. cbn [bind]. now rewrite P. Qed.
Lemma sides_lines th r s : thr_ok th -> bigR th r -> In s (sidesOf r) -> exists l', svLine th s = Ok l' /\ unitL l' /\
  (px (sA s) = px (sB s) -> lb l' = 0) /\ (py (sA s) = py (sB s) -> la l' = 0).
Proof.
  intros Ht G I. pose proof (thr_angl th Ht) as TA. pose proof (thr_dist th Ht) as T0.
  destruct (side_line th r s (mkL 1 0 0) Ht G) as (Os & Ds & l' & E & _); auto; [unfold unitL; cbn; ring| |].
  { unfold axisClear. cbn [la lb]. split; [right; rewrite Rabs_R0, acos_0; lra|now left]. }
  exists l'. split; auto. destruct (lineOf_on th _ _ _ Ht E Ds) as [OA OB]. destruct (lineOf_proper th _ _ _ Ht E) as [U' _]. split; auto.
  destruct G as [[G1 G2] _]. unfold onL in *. apply sides_inv in I. destruct I as [(x & X & ->)|(y & Y & ->)]; cbn [sA sB px py] in *; split; intros Q; try lra.
  - apply Rmult_eq_reg_r with (py (r2 r) - py (r1 r)); lra.
  - apply Rmult_eq_reg_r with (px (r2 r) - px (r1 r)); lra.
Qed.
Lemma frInterLine_hside th r l y : thr_ok th -> bigR th r -> unitL l -> la l = 0 -> (y = py (r1 r) \/ y = py (r2 r)) -> onL l (mkPt 0 y) ->
  frInterLine th r l = Ok [mkPt (px (r1 r)) y; mkPt (px (r2 r)) y].
Proof.
  intros Ht G U L0 Y O. pose proof (thr_dist th Ht) as T0. pose proof (thr_angl th Ht) as TA.
  assert (axisClear th l) as AC. { split; [now left|]. right. rewrite L0, Rabs_R0, acos_0. lra. }
  assert (lb l <> 0) as LB by (unfold unitL in U; intros Z; rewrite L0, Z in U; lra).
  assert (ON : forall p, onL l p <-> py p = y).
  { intros p. unfold onL in *. cbn [px py] in O. rewrite L0 in *. split; [intros Q; apply Rmult_eq_reg_l with (lb l); auto; lra|intros ->; lra]. }
  assert (forall s, In s (sidesOf r) -> py (sA s) = py (sB s) -> segInterLine th s l = Ok None) as HH.
  { intros s I E. destruct (sides_lines th r s Ht G I) as (l' & El & U' & _ & Z). apply (parallel_none th s l l' El).
    apply isParallel_para; auto using unit_proper. unfold paraL. rewrite L0, Z by auto. ring. }
  assert (forall s x, In s (sidesOf r) -> px (sA s) = x -> px (sB s) = x -> segHas s (mkPt x y) -> segInterLine th s l = Ok (Some (mkPt x y))) as HV.
  { intros s x I Xa Xb H. destruct (side_line th r s l Ht G U AC I) as (Os & Ds & l' & El & PR). apply (segInterLine_complete th s (mkPt x y) l l'); auto.
    - destruct PR as [PR|PR]; auto. exfalso. destruct (sides_lines th r s Ht G I) as (l'' & El' & U' & Z & _). assert (l'' = l') by congruence. subst l''.
      unfold paraL, unitL in *. rewrite L0, Z in PR by congruence. rewrite Z in U' by congruence. assert (lb l * la l' = 0) as Q by lra. apply Rmult_integral in Q. destruct Q as [Q|Q]; [auto|]. rewrite Q in U'. lra.
    - apply ON. reflexivity. }
  assert (wfR r) as [W1 W2] by (destruct G as [[] _]; split; lra).
  unfold frInterLine. rewrite frSegs_eq by (destruct G as [[] _]; auto). cbn [bind]. destruct r as [[a b] [c d]]. unfold sidesOf in *. cbn [r1 r2 px py In frInterLineLoop] in *.
  rewrite (HV _ a) by (cbn; auto; apply onSeg_v; cbn; auto; lra). cbn [bind app length Nat.eqb frInterLineLoop].
  rewrite HH by (cbn; auto). cbn [bind].
  rewrite (HV _ c) by (cbn; auto; apply onSeg_v; cbn; auto; lra). cbn [bind].
  rewrite (proj2 (ptEq_false th (mkPt a y) (mkPt c y))); [rewrite andb_false_r; reflexivity|].
  rewrite edist_h, Rabs_left by lra. destruct G as [[G1 _] _]. cbn in G1. lra.
Qed.
Lemma frInterLine_vside th r l x : thr_ok th -> bigR th r -> unitL l -> lb l = 0 -> (x = px (r1 r) \/ x = px (r2 r)) -> onL l (mkPt x 0) ->
  frInterLine th r l = Ok [mkPt x (py (r2 r)); mkPt x (py (r1 r))].
Proof.
  intros Ht G U L0 Y O. pose proof (thr_dist th Ht) as T0. pose proof (thr_angl th Ht) as TA.
  assert (axisClear th l) as AC. { split; [|now left]. right. rewrite L0, Rabs_R0, acos_0. lra. }
  assert (la l <> 0) as LB by (unfold unitL in U; intros Z; rewrite L0, Z in U; lra).
  assert (ON : forall p, onL l p <-> px p = x).
  { intros p. unfold onL in *. cbn [px py] in O. rewrite L0 in *. split; [intros Q; apply Rmult_eq_reg_l with (la l); auto; lra|intros ->; lra]. }
  assert (forall s, In s (sidesOf r) -> px (sA s) = px (sB s) -> segInterLine th s l = Ok None) as HH.
  { intros s I E. destruct (sides_lines th r s Ht G I) as (l' & El & U' & Z & _). apply (parallel_none th s l l' El).
    apply isParallel_para; auto using unit_proper. unfold paraL. rewrite L0, Z by auto. ring. }
  assert (forall s y, In s (sidesOf r) -> py (sA s) = y -> py (sB s) = y -> segHas s (mkPt x y) -> segInterLine th s l = Ok (Some (mkPt x y))) as HV.
  { intros s y I Xa Xb H. destruct (side_line th r s l Ht G U AC I) as (Os & Ds & l' & El & PR). apply (segInterLine_complete th s (mkPt x y) l l'); auto.
    - destruct PR as [PR|PR]; auto. exfalso. destruct (sides_lines th r s Ht G I) as (l'' & El' & U' & _ & Z). assert (l'' = l') by congruence. subst l''.
      unfold paraL, unitL in *. rewrite L0, Z in PR by congruence. rewrite Z in U' by congruence. assert (la l * lb l' = 0) as Q by lra. apply Rmult_integral in Q. destruct Q as [Q|Q]; [auto|]. rewrite Q in U'. lra.
    - apply ON. reflexivity. }
  assert (wfR r) as [W1 W2] by (destruct G as [[] _]; split; lra).
  unfold frInterLine. rewrite frSegs_eq by (destruct G as [[] _]; auto). cbn [bind]. destruct r as [[a b] [c d]]. unfold sidesOf in *. cbn [r1 r2 px py In frInterLineLoop] in *.
  rewrite HH by (cbn; auto). cbn [bind].
  rewrite (HV _ d) by (cbn; auto; apply onSeg_h; cbn; auto; lra). cbn [bind app length Nat.eqb frInterLineLoop].
  rewrite HH by (cbn; auto). cbn [bind].
  rewrite (HV _ b) by (cbn; auto 6; apply onSeg_h; cbn; auto; lra). cbn [bind].
  rewrite (proj2 (ptEq_false th (mkPt x d) (mkPt x b))); [rewrite andb_false_r; reflexivity|].
  rewrite edist_v, Rabs_right by lra. destruct G as [[_ G1] _]. cbn in G1. lra.
Qed.
