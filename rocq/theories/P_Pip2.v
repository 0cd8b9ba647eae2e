(** * The point-in-polygon function and the parity of crossings *)

From Coq Require Import Reals Lra Lia List Bool Arith.
From Verif Require Import Num M_LP M_Seg M_Circle M_Poly M_FRect M_Pip S_Geom S_Seg S_Poly S_FRect S_Pip P_LP P_LP2 P_LP3 P_LP4 P_Seg P_Seg2 P_Seg3 P_BB P_FRect P_FRect2 P_Poly P_Poly2 P_Poly4 P_Poly7 P_Parity P_Pip.
Import ListNotations.
Local Open Scope R_scope.

(** ** Angle of two segments *)
Lemma notpar_cross th s s' l l' : thr_ok th -> dirOK th (sA s) (sB s) -> dirOK th (sA s') (sB s') -> svLine th s = Ok l -> svLine th s' = Ok l' ->
  sin (nullAngleValue th) * (edist (sA s) (sB s) * edist (sA s') (sB s')) <=
    Rabs ((px (sB s) - px (sA s)) * (py (sB s') - py (sA s')) - (py (sB s) - py (sA s)) * (px (sB s') - px (sA s'))) ->
  isParallel th l l' = false.
Proof.
  intros Ht D D' L L' H. destruct (lineOf_scaled th _ _ _ Ht L D) as (k & Hk & Ek & ->). destruct (lineOf_scaled th _ _ _ Ht L' D') as (k' & Hk' & Ek' & ->).
  pose proof (rawL_unit k _ _ Ek) as U. pose proof (rawL_unit k' _ _ Ek') as U'. set (m := scaleL k (rawL (sA s) (sB s))) in *. set (m' := scaleL k' (rawL (sA s') (sB s'))) in *.
  unfold isParallel. apply Rltb_false. rewrite lineAngle_acos by (apply unit_proper; auto). pose proof (cosL_range m m' (unit_proper _ U) (unit_proper _ U')) as Rg. pose proof (cosL_sq m m' (unit_proper _ U) (unit_proper _ U')) as Sq.
  pose proof (thr_angl th Ht) as [T0 T1]. destruct (Rle_lt_dec (nullAngleValue th) (acos (cosL m m'))) as [|C]; auto. exfalso.
  assert (cos (nullAngleValue th) < cosL m m') as C'. { rewrite <- (cos_acos (cosL m m')) by lra. pose proof (acos_bound (cosL m m')). apply cos_decreasing_1; lra. }
  assert (0 < cos (nullAngleValue th)) as CP by (apply cos_gt_0; lra). assert (0 < sin (nullAngleValue th)) as SP by (apply sin_gt_0; lra).
  pose proof (sin2_cos2 (nullAngleValue th)) as SC. unfold Rsqr in SC. unfold unitL in U, U'. rewrite U, U' in Sq.
  assert ((la m * la m' + lb m * lb m') * (la m * la m' + lb m * lb m') + (la m * lb m' - lb m * la m') * (la m * lb m' - lb m * la m') = 1) as Id.
  { transitivity ((la m * la m + lb m * lb m) * (la m' * la m' + lb m' * lb m')); [ring|rewrite U, U'; ring]. }
  assert (Rabs (la m * lb m' - lb m * la m') = Rabs k * Rabs k' * Rabs ((px (sB s) - px (sA s)) * (py (sB s') - py (sA s')) - (py (sB s) - py (sA s)) * (px (sB s') - px (sA s')))) as EX.
  { rewrite <- !Rabs_mult. f_equal. unfold m, m', scaleL, rawL. cbn [la lb]. ring. }
  assert (sin (nullAngleValue th) <= Rabs (la m * lb m' - lb m * la m')) as G.
  { rewrite EX. apply (Rmult_le_compat_l (Rabs k * Rabs k')) in H; [|apply Rmult_le_pos; apply Rabs_pos].
    replace (Rabs k * Rabs k' * (sin (nullAngleValue th) * (edist (sA s) (sB s) * edist (sA s') (sB s')))) with (sin (nullAngleValue th) * ((Rabs k * edist (sA s) (sB s)) * (Rabs k' * edist (sA s') (sB s')))) in H by ring.
    rewrite Ek, Ek' in H. lra. }
  set (X := la m * lb m' - lb m * la m') in *. assert (X * X = Rabs X * Rabs X) as XX by (rewrite <- Rabs_mult, Rabs_right; [auto|nra]). nra.
Qed.

(** ** Distance to a point of a segment *)
Lemma edist_mix p a b t : 0 <= t <= 1 -> edist p (along a b t) <= edist p a \/ edist p (along a b t) <= edist p b.
Proof.
  intros Ht. destruct (Rle_lt_dec (edist p (along a b t)) (edist p a)) as [|Ha]; auto. destruct (Rle_lt_dec (edist p (along a b t)) (edist p b)) as [|Hb]; auto. exfalso.
  pose proof (edist_pos p a). pose proof (edist_pos p b). pose proof (edist_sq p a) as Sa. pose proof (edist_sq p b) as Sb. pose proof (edist_sq p (along a b t)) as St.
  assert (edist p a * edist p a < edist p (along a b t) * edist p (along a b t)) as K1 by nra. assert (edist p b * edist p b < edist p (along a b t) * edist p (along a b t)) as K2 by nra.
  rewrite Sa in K1. rewrite Sb in K2. rewrite St in K1, K2. unfold along in K1, K2. cbn [px py] in K1, K2.
  set (u := px p - px a) in *. set (v := py p - py a) in *. set (w := px b - px a) in *. set (z := py b - py a) in *.
  replace (px p - (px a + t * w)) with (u - t * w) in K1, K2 by (unfold u; ring). replace (py p - (py a + t * z)) with (v - t * z) in K1, K2 by (unfold v; ring).
  replace (px p - px b) with (u - w) in K2 by (unfold u, w; ring). replace (py p - py b) with (v - z) in K2 by (unfold v, z; ring).
  assert ((1 - t) * (u * u + v * v) + t * ((u - w) * (u - w) + (v - z) * (v - z)) < (u - t * w) * (u - t * w) + (v - t * z) * (v - t * z)) as K.
  { destruct (Req_dec t 0) as [->|]; [nra|]. destruct (Req_dec t 1) as [->|]; [nra|].
    apply (Rmult_lt_compat_l (1 - t)) in K1; [|lra]. apply (Rmult_lt_compat_l t) in K2; [|lra]. lra. }
  assert (0 <= t * (1 - t) * (w * w + z * z)) by (apply Rmult_le_pos; nra). nra.
Qed.
Lemma far_end a b q d : a <> b -> cross3 a b q = 0 -> (exists x, onSeg a b x /\ edist q x < d) -> onSeg a b q \/ edist q a < d \/ edist q b < d.
Proof.
  intros N C (x & Hx & Dx). destruct (line_param a b q N C) as (t & ->). apply onSeg_along in Hx. destruct Hx as (u & Hu & ->).
  assert (edist (along a b t) (along a b u) = Rabs (t - u) * edist a b) as E.
  { unfold edist at 1. unfold along. cbn [px py]. rewrite <- (Rabs_right (edist a b)) by (apply Rle_ge, edist_pos). rewrite <- Rabs_mult, <- sqrt_Rsqr_abs. f_equal.
    unfold Rsqr. replace ((t - u) * edist a b * ((t - u) * edist a b)) with ((t - u) * (t - u) * (edist a b * edist a b)) by ring. rewrite edist_sq. ring. }
  rewrite E in Dx. pose proof (edist_neq a b N) as L.
  destruct (Rlt_dec t 0) as [T|T]; [|destruct (Rlt_dec 1 t) as [T'|T']].
  - right. left. rewrite edist_sym, edist_along. rewrite Rabs_left in Dx by lra. rewrite Rabs_left by lra. nra.
  - right. right. rewrite edist_sym, edist_along2. rewrite Rabs_right in Dx by lra. rewrite Rabs_left by lra. nra.
  - left. apply onSeg_along. exists t. split; auto. lra.
Qed.
Lemma line_far a b p q : a <> b -> cross3 a b q = 0 -> Rabs (cross3 a b p) <= edist p q * edist a b.
Proof.
  intros N C. destruct (line_param a b q N C) as (t & ->). set (q := along a b t).
  replace (cross3 a b p) with ((py b - py a) * (px q - px p) + - (px b - px a) * (py q - py p)) by (unfold q, cross3, along; cbn [px py]; ring).
  eapply Rle_trans; [apply cauchy|]. rewrite Rmult_comm. apply Req_le. f_equal.
  - rewrite edist_sym, edist_hypot. reflexivity.
  - rewrite edist_hypot. replace (- (px b - px a)) with (- (px b - px a)) by auto. unfold hypot. rnum. f_equal. ring.
Qed.

(** ** The test made for one side *)
Definition sideOf (s : seg R) (e : pt R * pt R) : Prop := s = mkSeg (fst e) (snd e) \/ s = mkSeg (snd e) (fst e).
Lemma sideOf_sd e : sideOf (sd e) e.
Proof. apply sd_cases. Qed.
Lemma sideOf_ok th s e : sideOf s e -> okSeg th (mkSeg (fst e) (snd e)) -> okSeg th s.
Proof. unfold okSeg. intros [->| ->] [A B]; cbn [sA sB] in *; auto. rewrite edist_sym. auto. Qed.
Lemma sideOf_dir th s e : sideOf s e -> dirOK th (fst e) (snd e) -> dirOK th (sA s) (sB s).
Proof. intros [->| ->]; cbn [sA sB]; auto. apply dirOK_sym. Qed.
Lemma sideOf_has s e x : sideOf s e -> (segHas s x <-> onSeg (fst e) (snd e) x).
Proof. unfold segHas. intros [->| ->]; cbn [sA sB]; [tauto|apply onSeg_sym]. Qed.
Lemma sideOf_len s e : sideOf s e -> edist (sA s) (sB s) = edist (fst e) (snd e).
Proof. intros [->| ->]; cbn [sA sB]; auto. apply edist_sym. Qed.
Lemma sideOf_cross s e x : sideOf s e -> (cross3 (sA s) (sB s) x = 0 <-> cross3 (fst e) (snd e) x = 0).
Proof. intros [->| ->]; cbn [sA sB]; [tauto|]. rewrite (cross_swap (fst e) (snd e)). lra. Qed.

Lemma side_test th s ref e p r : thr_ok th -> sideOf s e -> sideOf ref (p, r) -> okSeg th (mkSeg (fst e) (snd e)) -> dirOK th (fst e) (snd e) ->
  okSeg th (mkSeg p r) -> dirOK th p r ->
  nullDistance th * edist (fst e) (snd e) <= Rabs (cross3 (fst e) (snd e) p) ->
  (forall v, v = fst e \/ v = snd e -> sin (nullAngleValue th) * (edist p v * edist (fst e) (snd e)) <= Rabs (cross3 (fst e) (snd e) p)) ->
  (forall v x, v = fst e \/ v = snd e -> onSeg p r x -> nullDistance th <= edist v x) ->
  (forall x, onSeg (fst e) (snd e) x -> nullDistance th <= edist r x) ->
  exists b, hasInter th s ref = Ok b /\ (b = true <-> meetsSide p r e).
Proof.
  intros Ht Hs Hr Oe De Or Dr Pf Pa Vf Rf. destruct e as [a b]. cbn [fst snd] in *. pose proof (thr_dist th Ht) as TD.
  assert (okSeg th s) as Os by (eapply sideOf_ok; eauto). assert (okSeg th ref) as Orf by (eapply sideOf_ok; eauto).
  assert (dirOK th (sA s) (sB s)) as Ds by (eapply (sideOf_dir th s (a, b)); eauto). assert (dirOK th (sA ref) (sB ref)) as Drf by (eapply (sideOf_dir th ref (p, r)); eauto).
  assert (a <> b) as Nab by (intros ->; destruct Oe as [Oe _]; cbn [sA sB] in Oe; rewrite edist_refl in Oe; lra).
  assert (p <> r) as Npr by (intros ->; destruct Or as [Or _]; cbn [sA sB] in Or; rewrite edist_refl in Or; lra).
  pose proof (edist_neq a b Nab) as Lab. pose proof (edist_neq p r Npr) as Lpr.
  assert (forall q, cross3 a b q = 0 -> nullDistance th <= edist p q) as PL. { intros q Z. pose proof (line_far a b p q Nab Z). apply (Rmult_le_reg_r (edist a b)); lra. }
  destruct (segInterSeg_total th s ref Ht Os Orf) as (it & It). unfold hasInter. rewrite It. cbn [bind]. eexists. split; [reflexivity|]. unfold meetsSide. cbn [fst snd]. split.
  - destruct it as [q|]; [|discriminate]. intros _. destruct (segInterSeg_sound th s ref q Ht Ds Drf It) as (X & Y & Z1 & Z2).
    apply (sideOf_cross s (a, b)) in Z1; auto. apply (sideOf_cross ref (p, r)) in Z2; auto. cbn [fst snd] in Z1, Z2.
    assert (exists x, onSeg a b x /\ edist q x < nullDistance th / 2) as X' by (destruct X as (x & X1 & X2); exists x; split; auto; apply (sideOf_has s (a, b)) in X1; auto).
    assert (exists x, onSeg p r x /\ edist q x < nullDistance th / 2) as Y' by (destruct Y as (x & X1 & X2); exists x; split; auto; apply (sideOf_has ref (p, r)) in X1; auto).
    exists q. split.
    + destruct (far_end a b q _ Nab Z1 X') as [|[F|F]]; auto; exfalso; destruct Y' as (y & Y1 & Y2).
      * pose proof (Vf a y (or_introl eq_refl) Y1). pose proof (edist_triang a q y). rewrite (edist_sym a q) in *. lra.
      * pose proof (Vf b y (or_intror eq_refl) Y1). pose proof (edist_triang b q y). rewrite (edist_sym b q) in *. lra.
    + destruct (far_end p r q _ Npr Z2 Y') as [|[F|F]]; auto; exfalso.
      * pose proof (PL q Z1). rewrite edist_sym in F. lra.
      * destruct X' as (x & X1 & X2). pose proof (Rf x X1). pose proof (edist_triang r q x). rewrite (edist_sym r q) in *. lra.
  - intros (q & Q1 & Q2). destruct (svLine_ok th s Ht Os) as (l & El). destruct (svLine_ok th ref Ht Orf) as (l' & El').
    assert (isParallel th l l' = false) as NP.
    { apply (notpar_cross th s ref l l'); auto. rewrite (sideOf_len s (a, b)), (sideOf_len ref (p, r)) by auto. cbn [fst snd].
      assert (Rabs ((px (sB s) - px (sA s)) * (py (sB ref) - py (sA ref)) - (py (sB s) - py (sA s)) * (px (sB ref) - px (sA ref))) = Rabs ((px b - px a) * (py r - py p) - (py b - py a) * (px r - px p))) as ->.
      { destruct Hs as [->| ->], Hr as [->| ->]; cbn [sA sB fst snd]; auto.
        - rewrite <- Rabs_Ropp. f_equal. ring.
        - rewrite <- Rabs_Ropp. f_equal. ring.
        - f_equal. ring. }
      set (W := (px b - px a) * (py r - py p) - (py b - py a) * (px r - px p)).
      apply onSeg_along in Q1. destruct Q1 as (t & Ht' & ->). apply onSeg_along in Q2. destruct Q2 as (u & Hu & E).
      assert (cross3 a b p = - u * W) as EA.
      { assert (cross3 a b (along p r u) = 0) as Z by (rewrite <- E; unfold cross3, along; cbn [px py]; ring). transitivity (cross3 a b (along p r u) - u * W); [unfold W, cross3, along; cbn [px py]; ring|lra]. }
      assert (edist p (along a b t) = u * edist p r) as EQ by (rewrite E, edist_along, Rabs_right; lra).
      assert (sin (nullAngleValue th) * (u * edist p r * edist a b) <= u * Rabs W) as K.
      { rewrite <- EQ. replace (u * Rabs W) with (Rabs (cross3 a b p)) by (rewrite EA, Rabs_mult, Rabs_Ropp, (Rabs_right u); lra).
        assert (0 < sin (nullAngleValue th)) as SP by (pose proof (thr_angl th Ht); apply sin_gt_0; lra).
        destruct (edist_mix p a b t Ht') as [M|M]; [eapply Rle_trans; [|apply (Pa a); auto]|eapply Rle_trans; [|apply (Pa b); auto]]; (apply Rmult_le_compat_l; [lra|]; apply Rmult_le_compat_r; [lra|exact M]). }
      assert (0 < u) as Pu. { destruct (Req_dec u 0) as [Z|]; [|lra]. rewrite Z in EQ. pose proof (PL (along a b t) ltac:(unfold cross3, along; cbn [px py]; ring)). lra. }
      apply (Rmult_le_reg_l u); auto. lra. }
    assert (svEq th s ref = false) as NE.
    { destruct (svEq th s ref) eqn:E; auto. exfalso. unfold svEq in E. destruct (ptEq th (sA s) (sA ref)) eqn:E1; [|discriminate]. destruct (ptEq th (sB s) (sB ref)) eqn:E2; [|discriminate].
      apply ptEq_spec in E1. apply ptEq_spec in E2. pose proof (PL a ltac:(unfold cross3; ring)). pose proof (PL b ltac:(unfold cross3; ring)).
      destruct Hs as [->| ->], Hr as [->| ->]; cbn [sA sB fst snd] in *; rewrite ?(edist_sym a p), ?(edist_sym b p) in *; lra. }
    rewrite (segInterSeg_complete th s ref q l l' Ht Ds Drf El El' NP NE) in It by (apply (sideOf_has s (a, b)) || apply (sideOf_has ref (p, r)); auto).
    injection It as <-. reflexivity.
Qed.

(** ** The loops *)
Lemma countM_ok {A} (f : A -> res bool) g l : (forall x, In x l -> f x = Ok (g x)) -> countM f l = Ok (length (filter g l)).
Proof.
  induction l as [|x l IH]; intros H; [reflexivity|]. cbn. rewrite H by (now left). cbn. rewrite IH by (intros; apply H; now right). cbn. now destruct (g x).
Qed.
Lemma countM_map {A B} (f : B -> res bool) (h : A -> B) g l : (forall x, In x l -> f (h x) = Ok (g x)) -> countM f (map h l) = Ok (length (filter g l)).
Proof.
  induction l as [|x l IH]; intros H; [reflexivity|]. cbn. rewrite H by (now left). cbn. rewrite IH by (intros; apply H; now right). cbn. now destruct (g x).
Qed.
Lemma pipNear_ok th pts s : sA s <> sB s -> exists b, pipNear th pts s = Ok b /\ (b = false <-> forall v x, In v pts -> segHas s x -> nullDistance th <= edist v x).
Proof.
  intros N. unfold pipNear. induction pts as [|v pts IH].
  - exists false. split; [reflexivity|]. split; auto. intros _ v x [].
  - destruct IH as (b & E & IH). cbn [anyM]. destruct (svDist_spec s v N) as (d & c & x & Ed & Hx & Dx & Mx & _). rewrite Ed. cbn [bind]. rnum.
    destruct (Rltb d (nullDistance th)) eqn:L.
    + apply Rltb_spec in L. exists true. split; [reflexivity|]. split; [discriminate|]. intros K. specialize (K v x (or_introl eq_refl) Hx). lra.
    + apply Rltb_false in L. exists b. split; [exact E|]. rewrite IH. split.
      * intros K u y [<-|I] Hy; [|now apply K]. specialize (Mx y Hy). lra.
      * intros K u y I Hy. apply K; auto. now right.
Qed.
Lemma pipFor_flag th p pts segs bb x : pipFor th p pts segs bb true = Ok x -> x = inr true.
Proof.
  induction bb as [|s bb IH]; cbn [pipFor]; [intros E; now apply Ok_inj in E|]. intros E. apply bind_ok in E. destruct E as (ref & _ & E). cbn [bind] in E. auto.
Qed.
Lemma pipFor_inl th p pts segs s t b : pipFor th p pts segs (s :: t) false = Ok (inl b) ->
  exists ref n, svNew th KSeg p (svCenter s) = Ok ref /\ pipNear th pts ref = Ok false /\ countM (fun x => hasInter th x ref) segs = Ok n /\ b = Nat.odd n.
Proof.
  cbn [pipFor]. intros E. apply bind_ok in E. destruct E as (ref & Er & E). apply bind_ok in E. destruct E as (tc & Et & E). destruct tc.
  - apply pipFor_flag in E. discriminate.
  - apply bind_ok in E. destruct E as (n & En & E). apply Ok_inj in E. injection E as <-. eauto 7.
Qed.
(** The part of the head of the list of segments after [k] turns. *)
Fixpoint halfOf (k : nat) (s : seg R) : seg R := match k with O => s | S j => halfOf j (mkSeg (sA s) (svCenter s)) end.
Lemma pipSplit_head th s t bb : thr_ok th -> lexlt (sA s) (sB s) -> pipSplit th (s :: t) = Ok bb -> exists t', bb = mkSeg (sA s) (svCenter s) :: t' /\ lexlt (sA s) (svCenter s).
Proof.
  intros Ht L E. cbn [pipSplit] in E. apply bind_ok in E. destruct E as ([a b] & Es & E). cbn [bind] in E. apply bind_ok in E. destruct E as (o & _ & E). apply Ok_inj in E. subst bb.
  destruct (Rle_lt_dec (nullDistance th) (svLength s / 2)) as [G|G].
  - rewrite svSplit_ok in Es by auto. apply Ok_inj in Es. injection Es as <- <-. rewrite svCenter_along. eexists. split; [reflexivity|].
    unfold lexlt, along in *. cbn [px py]. lra.
  - apply (proj2 (svSplit_throw th KSeg s)) in G. rewrite G in Es. discriminate.
Qed.
Lemma pipLoop_inv th p pts segs n s t b : thr_ok th -> lexlt (sA s) (sB s) -> pipLoop th p pts segs n (s :: t) = Ok b ->
  exists k ref m, (k < n)%nat /\ svNew th KSeg p (svCenter (halfOf k s)) = Ok ref /\ pipNear th pts ref = Ok false /\ countM (fun x => hasInter th x ref) segs = Ok m /\ b = Nat.odd m.
Proof.
  intros Ht. revert s t. induction n as [|n IH]; intros s t L; cbn [pipLoop]; [discriminate|]. intros E. apply bind_ok in E. destruct E as (x & Ef & E). destruct x as [b'|tc].
  - apply Ok_inj in E. subst b'. apply pipFor_inl in Ef. destruct Ef as (ref & m & Er & En & Ec & Eb). exists 0%nat, ref, m. split; [lia|]. auto.
  - apply bind_ok in E. destruct E as (bb & Eb & E). destruct n as [|n']; [cbn [pipLoop] in E; discriminate|]. destruct tc.
    + cbn [negb Nat.eqb andb] in Eb. destruct (pipSplit_head th s t bb Ht L Eb) as (t' & -> & L').
      destruct (IH (mkSeg (sA s) (svCenter s)) t' L' E) as (k & ref & m & Hk & Er & En & Ec & Ebb). exists (S k), ref, m. split; [lia|]. auto.
    + (* cannot happen: the head is then used *)
      exfalso. cbn [pipFor] in Ef. apply bind_ok in Ef. destruct Ef as (ref & Er & Ef). apply bind_ok in Ef. destruct Ef as (tc & Et & Ef). destruct tc; [apply pipFor_flag in Ef; discriminate|].
      apply bind_ok in Ef. destruct Ef as (m & _ & Ef). apply Ok_inj in Ef. discriminate.
Qed.
Lemma halfOf_center k s x y h : sA s = mkPt x y -> sB s = mkPt x (y + h) -> svCenter (halfOf k s) = mkPt x (y + h / 2 ^ (k + 1)).
Proof.
  revert s h. induction k as [|k IH]; intros s h A B; cbn [halfOf].
  - unfold svCenter. rewrite A, B. cbn [px py]. rnum. f_equal; [field|cbn; field].
  - rewrite (IH _ (h / 2)); cbn [sA sB]; auto.
    + f_equal. f_equal. cbn [Nat.add]. rewrite <- tech_pow_Rmult. field. apply pow_nonzero. lra.
    + unfold svCenter. rewrite A, B. cbn [px py]. rnum. f_equal; field.
Qed.

(** ** The answer *)
Lemma clear_off th pts p : thr_ok th -> wide th pts -> clearOf th pts p -> noNullSide pts /\ offSides pts p.
Proof.
  intros Ht W C. pose proof (thr_dist th Ht) as TD. assert (noNullSide pts) as NN.
  { intros e I E. destruct (W e I) as [O _]. cbn [sA sB] in O. rewrite E, edist_refl in O. lra. }
  split; auto. intros e I O. destruct (C e I) as [K _]. pose proof (edist_neq _ _ (NN e I)) as L. apply onSeg_along in O. destruct O as (t & _ & ->).
  assert (cross3 (fst e) (snd e) (along (fst e) (snd e) t) = 0) as Z by (unfold cross3, along; cbn [px py]; ring). rewrite Z, Rabs_R0 in K. nra.
Qed.
Lemma ptInRect_out th pts box p : thr_ok th -> isBox pts box -> ptInRect p box = false -> outBox pts p.
Proof.
  intros Ht (B & _) E. unfold outBox. assert (forall v, In v pts -> px (r1 box) <= px v <= px (r2 box) /\ py (r1 box) <= py v <= py (r2 box)) as B' by (intros v I; apply B in I; unfold inR in I; lra).
  destruct (Rle_lt_dec (px p) (px (r1 box))); [left; intros v I; specialize (B' v I); lra|].
  destruct (Rle_lt_dec (px (r2 box)) (px p)); [right; left; intros v I; specialize (B' v I); lra|].
  destruct (Rle_lt_dec (py p) (py (r1 box))); [right; right; left; intros v I; specialize (B' v I); lra|].
  destruct (Rle_lt_dec (py (r2 box)) (py p)); [right; right; right; intros v I; specialize (B' v I); lra|].
  exfalso. unfold ptInRect in E. rnum. rewrite !(proj2 (Rltb_spec _ _)) in E by lra. discriminate.
Qed.
Lemma sd_map th (pts : list (pt R)) : (2 <= length pts)%nat -> wide th pts -> plSegs th true KSeg pts = Ok (map sd (cyc pts)).
Proof. intros L W. rewrite plSegs_ok; auto. intros e I. apply (W e I). Qed.

Definition boxRefs (box : frect R) (k : nat) : pt R := refPt (px (r1 box)) (py (r1 box)) (px (r2 box)) (py (r2 box)) k.

(** One reference: the count has the parity of the even-odd rule. *)
Lemma ref_count th pts box p k : thr_ok th -> okSides th pts -> isBox pts box -> nullDistance th <= px (r2 box) - px (r1 box) -> dblEpsilon th < px (r2 box) - px (r1 box) ->
  px (r1 box) < px p -> clearOf th pts p -> dirOK th p (boxRefs box k) -> freeRef th pts p (boxRefs box k) ->
  exists m, countM (fun x => hasInter th x (sd (p, boxRefs box k))) (map sd (cyc pts)) = Ok m /\ (Nat.odd m = true <-> insideEO pts p).
Proof.
  intros Ht Ok_ (B & _) W We Pp C D F. set (r := boxRefs box k) in *. pose proof (thr_dist th Ht) as TD.
  assert (forall v, In v pts -> px (r1 box) <= px v) as B' by (intros v I; apply B in I; unfold inR in I; lra).
  assert (px r = 2 * px (r1 box) - px (r2 box)) as Xr by reflexivity.
  destruct (clear_off th pts p Ht (fun e I => proj1 (Ok_ e I)) C) as [NN Of].
  assert (forall e x, In e (cyc pts) -> onSeg (fst e) (snd e) x -> px (r1 box) <= px x) as SX.
  { intros e x I H. destruct (cyc_in _ _ I) as [I1 I2]. apply onSeg_along in H. destruct H as (t & T & ->). unfold along. cbn [px]. pose proof (B' _ I1). pose proof (B' _ I2). nra. }
  assert (forall e x, In e (cyc pts) -> onSeg (fst e) (snd e) x -> px (r2 box) - px (r1 box) <= edist r x) as SR.
  { intros e x I H. specialize (SX e x I H). eapply Rle_trans; [|apply edist_ge_x]. rewrite Rabs_left1 by lra. lra. }
  assert (px (r2 box) - px (r1 box) <= edist p r) as PR. { eapply Rle_trans; [|apply edist_ge_x]. rewrite Rabs_right by lra. lra. }
  assert (p <> r) as Npr by (intros E; rewrite <- E, edist_refl in PR; lra).
  assert (offSides pts r) as Or. { intros e I O. specialize (SR e r I O). rewrite edist_refl in SR. lra. }
  assert (forall v, In v pts -> ~ onSeg p r v) as Vr. { intros v I O. specialize (F v v I O). rewrite edist_refl in F. lra. }
  destruct (ray_parity pts p r NN Of Or Vr Npr) as [_ MS].
  exists (length (filter (meetB p r) (cyc pts))). split.
  - apply countM_map. intros e I. destruct (Ok_ e I) as [Oe De]. destruct (C e I) as [C1 C2]. destruct (cyc_in _ _ I) as [I1 I2].
    destruct (side_test th (sd e) (sd (p, r)) e p r Ht (sideOf_sd e) (sideOf_sd (p, r)) Oe De) as (b & Eb & Sb); auto.
    + split; cbn [sA sB]; lra.
    + intros v x [->| ->] Hx; apply F; auto.
    + intros x Hx. specialize (SR e x I Hx). lra.
    + rewrite Eb. f_equal. specialize (MS e I). destruct b, (meetB p r e); auto; exfalso; [assert (false = true) by tauto|assert (false = true) by tauto]; discriminate.
  - rewrite xsum_odd, (ray_out pts p r NN Of Or) by (auto; left; intros v I; specialize (B' v I); lra). symmetry. apply insideEO_xsum.
Qed.

Lemma far_lines_l th l p : thr_ok th -> (forall e, In e l -> okSeg th (mkSeg (fst e) (snd e)) /\ dirOK th (fst e) (snd e)) ->
  (forall e, In e l -> nullDistance th * edist (fst e) (snd e) <= Rabs (cross3 (fst e) (snd e) p)) ->
  anyM (fun s => do l <- svLine th s; Ok (lineDist l p <? nullDistance th)%num) (map sd l) = Ok false.
Proof.
  intros Ht Os C. induction l as [|e l IH]; [reflexivity|]. cbn [map anyM]. destruct (Os e (or_introl eq_refl)) as [Oe De]. specialize (C e (or_introl eq_refl)) as C1.
  assert (okSeg th (sd e)) as Od by (apply sd_ok; auto). destruct (svLine_ok th (sd e) Ht Od) as (ln & El). rewrite El. cbn [bind].
  assert (nullDistance th <= lineDist ln p) as G.
  { unfold svLine in El. rewrite (lineOf_dist th _ _ ln p Ht El) by (apply (sideOf_dir th (sd e) e); auto; apply sideOf_sd). rewrite (sideOf_len (sd e) e (sideOf_sd e)).
    pose proof (thr_dist th Ht). assert (0 < edist (fst e) (snd e)) by (destruct Oe; cbn [sA sB] in *; lra).
    assert (Rabs (cross3 (sA (sd e)) (sB (sd e)) p) = Rabs (cross3 (fst e) (snd e) p)) as ->. { destruct (sideOf_sd e) as [->| ->]; cbn [sA sB]; auto. rewrite cross_swap, Rabs_Ropp. auto. }
    apply (Rmult_le_reg_r (edist (fst e) (snd e))); auto. unfold Rdiv. rewrite Rmult_assoc, Rinv_l by lra. lra. }
  rnum. rewrite (proj2 (Rltb_false _ _) G). apply IH; intros; [apply Os|apply C]; now right.
Qed.

Lemma ext_segs th box : thr_ok th -> wfR box -> nullOrthogDistance th <= px (r2 box) - px (r1 box) -> nullOrthogDistance th <= py (r2 box) - py (r1 box) ->
  nullDistance th <= px (r2 box) - px (r1 box) -> nullDistance th <= py (r2 box) - py (r1 box) ->
  let x := mkR (mkPt (2 * px (r1 box) - px (r2 box)) (2 * py (r1 box) - py (r2 box))) (mkPt (2 * px (r2 box) - px (r1 box)) (2 * py (r2 box) - py (r1 box))) in
  frExtended th box = Ok x /\ frSegs th x = Ok (sidesOf x).
Proof.
  intros Ht Wf A B W H. pose proof (thr_orth _ Ht) as O. pose proof (thr_dist _ Ht) as TD. cbv zeta. split.
  - unfold frExtended, frSet4. rnum. rewrite frSet_ok; cbn [px py]; [|rewrite Rabs_left1; lra|rewrite Rabs_left1; lra].
    rewrite !Rmin_left, !Rmax_right by lra. do 2 f_equal; f_equal; lra.
  - apply frSegs_eq; cbn [r1 r2 px py]; auto; lra.
Qed.

Lemma ptInRect_in p r : ptInRect p r = true -> px (r1 r) < px p < px (r2 r) /\ py (r1 r) < py p < py (r2 r).
Proof. intros H. apply ptInRect_spec in H. unfold inRO in H. lra. Qed.
Lemma fresh_simple th pts : val (plIsSimple th true (plFresh pts)) = Ok true -> exists pl, plIsSimple th true (plFresh pts) = Ok (true, pl).
Proof. unfold val. intros E. apply bind_ok in E. destruct E as ([b pl] & E & K). apply Ok_inj in K. cbn in K. subst b. eauto. Qed.
Lemma simple_len th pts pl : plIsSimple th true (plFresh pts) = Ok (true, pl) -> (3 <= length pts)%nat.
Proof. unfold plIsSimple. cbn [plFresh plPts]. destruct (Nat.ltb_spec (length pts) 3); [discriminate|auto]. Qed.
Lemma ref_seg box k : svCenter (halfOf k (mkSeg (mkPt (2 * px (r1 box) - px (r2 box)) (2 * py (r1 box) - py (r2 box))) (mkPt (2 * px (r1 box) - px (r2 box)) (2 * py (r2 box) - py (r1 box))))) = boxRefs box k.
Proof.
  rewrite (halfOf_center k _ (2 * px (r1 box) - px (r2 box)) (2 * py (r1 box) - py (r2 box)) (3 * (py (r2 box) - py (r1 box)))); cbn [sA sB]; auto. f_equal. ring.
Qed.

Theorem pip_correct th pts box p b : thr_ok th -> okSides th pts -> isBox pts box ->
  nullDistance th <= px (r2 box) - px (r1 box) -> nullDistance th <= py (r2 box) - py (r1 box) -> dblEpsilon th < px (r2 box) - px (r1 box) ->
  val (plIsSimple th true (plFresh pts)) = Ok true -> clearOf th pts p -> (forall k, (k < 5)%nat -> dirOK th p (boxRefs box k)) ->
  ptInPolyB th true (plFresh pts) p = Ok b -> (b = true <-> insideEO pts p).
Proof.
  intros Ht Os Bx W H We Sm C D E. destruct (fresh_simple _ _ Sm) as (pl & Es). pose proof (simple_len _ _ _ Es) as L3. pose proof (thr_dist th Ht) as TD.
  destruct (clear_off th pts p Ht (fun e I => proj1 (Os e I)) C) as [NN Of].
  unfold ptInPolyB in E. apply bind_ok in E. destruct E as ([b' pl'] & E & K). apply Ok_inj in K. subst b'. unfold ptInPoly in E. rewrite Es in E. cbn [bind negb] in E.
  apply bind_ok in E. destruct E as (bx & Eb & E). cbn [plFresh plPts] in Eb, E. destruct (plBB_inv th pts bx Ht Eb) as (Wf & Bx' & O1 & O2). assert (bx = box) as -> by (eapply isBox_unique; eauto).
  destruct (ptInRect p box) eqn:Ep.
  2:{ cbn [negb] in E. apply Ok_inj in E. injection E as <- <-. split; [discriminate|]. intros X. apply insideEO_xsum in X. rewrite (outBox_even pts p NN Of (ptInRect_out th pts box p Ht Bx Ep)) in X. discriminate. }
  cbn [negb] in E. rewrite (sd_map th pts) in E by (try lia; intros e I; apply (Os e I)). cbn [bind] in E.
  rewrite (far_lines_l th (cyc pts) p Ht Os) in E by (intros e I; apply (C e I)). cbn [bind] in E.
  destruct (ext_segs th box Ht Wf O1 O2 W H) as [Ex Eg]. rewrite Ex in E. cbn [bind] in E. rewrite Eg in E. cbn [bind] in E. apply bind_ok in E. destruct E as (b2 & El & E). apply Ok_inj in E. injection E as -> <-.
  unfold sidesOf in El. cbn [r1 r2 px py] in El. apply pipLoop_inv in El; auto; [|right; cbn [sA sB px py]; lra]. destruct El as (k & ref & m & Hk & Er & En & Ec & ->).
  rewrite ref_seg in Er. apply ptInRect_in in Ep. destruct (svNew_inv th KSeg _ _ _ Ht Er) as (_ & Npr & _ & _). assert (ref = sd (p, boxRefs box k)) as ->.
  { unfold svNew in Er. destruct (ptEq _ _ _); [discriminate|]. apply Ok_inj in Er. subst ref. reflexivity. }
  assert (freeRef th pts p (boxRefs box k)) as F.
  { destruct (pipNear_ok th pts (sd (p, boxRefs box k))) as (b1 & E1 & S1).
    - intros X. destruct (sideOf_sd (p, boxRefs box k)) as [Y|Y]; rewrite Y in X; cbn [sA sB fst snd] in X; auto.
    - rewrite En in E1. apply Ok_inj in E1. subst b1. intros v x Iv Ix. apply S1; auto. apply (sideOf_has _ (p, boxRefs box k)); auto. apply sideOf_sd. }
  destruct (ref_count th pts box p k Ht Os Bx W We ltac:(lra) C (D k Hk) F) as (m' & Em & Sm'). rewrite Ec in Em. apply Ok_inj in Em. subst m'. exact Sm'.
Qed.

(** ** When it answers *)
Definition goodSeg th p (d : R) (s : seg R) : Prop :=
  lexlt (sA s) (sB s) /\ d <= edist (sA s) (sB s) /\ forall x, segHas s x -> nullDistance th <= edist p x /\ dblEpsilon th < edist p x.
Lemma center_has s : segHas s (svCenter s).
Proof. rewrite svCenter_along. unfold segHas. apply onSeg_along. exists (1 / 2). split; auto. lra. Qed.
Lemma good_ref th p d s : goodSeg th p d s -> svNew th KSeg p (svCenter s) = Ok (sd (p, svCenter s)).
Proof. intros (_ & _ & H). apply (svNew_ok_any th KSeg). apply (H _ (center_has s)). Qed.
Lemma good_near th pts p d s : thr_ok th -> goodSeg th p d s -> exists b, pipNear th pts (sd (p, svCenter s)) = Ok b /\ (b = false <-> freeRef th pts p (svCenter s)).
Proof.
  intros Ht (_ & _ & H). pose proof (thr_dist th Ht). destruct (H _ (center_has s)) as [H1 _]. destruct (pipNear_ok th pts (sd (p, svCenter s))) as (b & E & S).
  - intros X. assert (p = svCenter s) as Y by (destruct (sideOf_sd (p, svCenter s)) as [Y|Y]; rewrite Y in X; cbn [sA sB fst snd] in X; auto). rewrite <- Y, edist_refl in H1. lra.
  - exists b. split; auto. rewrite S. unfold freeRef. split; intros K v x Iv Ix; apply K; auto; apply (sideOf_has (sd (p, svCenter s)) (p, svCenter s)); auto; apply sideOf_sd.
Qed.
Lemma pipFor_true th p pts segs bb d : (forall s, In s bb -> goodSeg th p d s) -> pipFor th p pts segs bb true = Ok (inr true).
Proof.
  induction bb as [|s bb IH]; intros G; [reflexivity|]. cbn [pipFor]. rewrite (good_ref th p d s) by (apply G; now left). cbn [bind]. apply IH. intros; apply G; now right.
Qed.
Lemma pipFor_total th p pts segs s t d : thr_ok th -> (forall x, In x segs -> okSeg th x) -> (forall x, In x (s :: t) -> goodSeg th p d x) ->
  (freeRef th pts p (svCenter s) /\ exists b, pipFor th p pts segs (s :: t) false = Ok (inl b)) \/
  (~ freeRef th pts p (svCenter s) /\ pipFor th p pts segs (s :: t) false = Ok (inr true)).
Proof.
  intros Ht Sg G. assert (goodSeg th p d s) as Gs by (apply G; now left). cbn [pipFor]. rewrite (good_ref th p d s Gs). cbn [bind].
  destruct (good_near th pts p d s Ht Gs) as (b & Eb & Sb). rewrite Eb. cbn [bind]. destruct b.
  - right. split; [intros F; apply Sb in F; discriminate|]. apply (pipFor_true th p pts segs t d). intros; apply G; now right.
  - left. split; [now apply Sb|]. assert (exists n, countM (fun x => hasInter th x (sd (p, svCenter s))) segs = Ok n) as (n & En).
    { assert (okSeg th (sd (p, svCenter s))) as Or. { apply sd_ok. destruct Gs as (_ & _ & H). destruct (H _ (center_has s)). split; auto. }
      clear - Sg Or Ht. induction segs as [|x l IH]; [exists 0%nat; reflexivity|]. cbn [countM]. unfold hasInter at 1. destruct (segInterSeg_total th x (sd (p, svCenter s)) Ht (Sg x (or_introl eq_refl)) Or) as (it & It).
      rewrite It. cbn [bind]. destruct IH as (n & En); [intros; apply Sg; now right|]. rewrite En. cbn [bind]. eauto. }
    rewrite En. cbn [bind]. eauto.
Qed.
Lemma good_split th p d s : thr_ok th -> goodSeg th p (2 * d) s -> nullDistance th <= d ->
  svSplit th KSeg s = Ok (mkSeg (sA s) (svCenter s), mkSeg (svCenter s) (sB s)) /\ goodSeg th p d (mkSeg (sA s) (svCenter s)) /\ goodSeg th p d (mkSeg (svCenter s) (sB s)).
Proof.
  intros Ht (L & D & H) Hd. destruct (edist_half (sA s) (sB s)) as [E1 E2]. rewrite <- svCenter_along in E1, E2. split.
  - rewrite svSplit_ok, svCenter_along; auto. unfold svLength. rewrite distPP_edist. lra.
  - assert (forall x, onSeg (sA s) (svCenter s) x -> segHas s x) as I1. { intros x Hx. rewrite svCenter_along in Hx. apply onSeg_along in Hx. destruct Hx as (t & T & ->). unfold segHas. apply onSeg_along. exists (t / 2). split; [lra|]. unfold along. cbn [px py]. f_equal; field. }
    assert (forall x, onSeg (svCenter s) (sB s) x -> segHas s x) as I2. { intros x Hx. rewrite svCenter_along in Hx. apply onSeg_along in Hx. destruct Hx as (t & T & ->). unfold segHas. apply onSeg_along. exists (1 / 2 + t / 2). split; [lra|]. unfold along. cbn [px py]. f_equal; field. }
    rewrite svCenter_along in *. split; (split; [unfold lexlt, along in *; cbn [sA sB px py] in *; lra|split; [cbn [sA sB]; lra|]]); unfold segHas in *; cbn [sA sB]; auto.
Qed.
Lemma pipSplit_ok th p d bb : thr_ok th -> (forall s, In s bb -> goodSeg th p (2 * d) s) -> nullDistance th <= d ->
  exists bb', pipSplit th bb = Ok bb' /\ (forall s, In s bb' -> goodSeg th p d s).
Proof.
  intros Ht. induction bb as [|s bb IH]; intros G Hd; [exists []; split; [reflexivity|intros s []]|]. destruct (good_split th p d s Ht) as (Es & G1 & G2); auto; [apply G; now left|].
  destruct IH as (o & Eo & Go); auto; [intros; apply G; now right|]. cbn [pipSplit]. rewrite Es. cbn [bind]. rewrite Eo. cbn [bind]. eexists. split; [reflexivity|].
  intros x [<-|[<-|I]]; auto.
Qed.
Lemma pipLoop_total th p pts segs n s t : thr_ok th -> (forall x, In x segs -> okSeg th x) -> (forall x, In x (s :: t) -> goodSeg th p (nullDistance th * 2 ^ (n - 1)) x) ->
  ((exists k, (k < n)%nat /\ freeRef th pts p (svCenter (halfOf k s))) /\ exists b, pipLoop th p pts segs n (s :: t) = Ok b) \/
  ((forall k, (k < n)%nat -> ~ freeRef th pts p (svCenter (halfOf k s))) /\ pipLoop th p pts segs n (s :: t) = Throw).
Proof.
  intros Ht Sg. revert s t. induction n as [|n IH]; intros s t G; cbn [pipLoop]; [right; split; [intros; lia|auto]|].
  destruct (pipFor_total th p pts segs s t _ Ht Sg G) as [[F (b & E)]|[F E]]; rewrite E; cbn [bind].
  - left. split; [exists 0%nat; split; [lia|exact F]|eauto].
  - destruct n as [|n]; cbn [Nat.eqb negb andb].
    + cbn [bind pipLoop]. right. split; auto. intros k Hk. assert (k = 0)%nat as -> by lia. exact F.
    + assert (forall x, In x (s :: t) -> goodSeg th p (2 * (nullDistance th * 2 ^ (S n - 1))) x) as G'.
      { intros x I. specialize (G x I). replace (S n - 1)%nat with n by lia. replace (S (S n) - 1)%nat with (S n) in G by lia. cbn [pow] in G. replace (2 * (nullDistance th * 2 ^ n)) with (nullDistance th * (2 * 2 ^ n)) by ring. exact G. }
      assert (nullDistance th <= nullDistance th * 2 ^ (S n - 1)) as P2. { pose proof (thr_dist th Ht). assert (1 <= 2 ^ (S n - 1)) by (apply pow_R1_Rle; lra). nra. }
      destruct (pipSplit_ok th p _ (s :: t) Ht G' P2) as (bb & Eb & Gb). rewrite Eb. cbn [bind].
      assert (lexlt (sA s) (sB s)) as Ls by (apply (G s); now left). destruct (pipSplit_head th s t bb Ht Ls Eb) as (t' & -> & _).
      destruct (IH _ _ Gb) as [[(k & Hk & Fk) E']|[Fk E']].
      * left. split; [|exact E']. exists (S k). split; [lia|exact Fk].
      * right. split; [|exact E']. intros [|k] Hk; [exact F|]. apply (Fk k). lia.
Qed.

Theorem pip_answers th pts box p : thr_ok th -> okSides th pts -> isBox pts box ->
  nullOrthogDistance th <= px (r2 box) - px (r1 box) -> nullOrthogDistance th <= py (r2 box) - py (r1 box) ->
  16 * nullDistance th <= 3 * (px (r2 box) - px (r1 box)) -> 16 * nullDistance th <= 3 * (py (r2 box) - py (r1 box)) ->
  dblEpsilon th < px (r2 box) - px (r1 box) -> dblEpsilon th < py (r2 box) - py (r1 box) ->
  val (plIsSimple th true (plFresh pts)) = Ok true -> clearOf th pts p -> inRO box p ->
  ((exists k, (k < 5)%nat /\ freeRef th pts p (boxRefs box k)) /\ exists b, ptInPolyB th true (plFresh pts) p = Ok b) \/
  ((forall k, (k < 5)%nat -> ~ freeRef th pts p (boxRefs box k)) /\ ptInPolyB th true (plFresh pts) p = Throw).
Proof.
  intros Ht Os Bx O1 O2 W H We He Sm C In_. destruct (fresh_simple _ _ Sm) as (pl & Es). pose proof (simple_len _ _ _ Es) as L3. pose proof (thr_dist th Ht) as TD.
  unfold ptInPolyB, ptInPoly. rewrite Es. cbn [bind negb plFresh plPts].
  assert (nullDistance th <= edist (r1 box) (r2 box)) as Dg by (eapply Rle_trans; [|apply edist_ge_x]; rewrite Rabs_left1; lra).
  rewrite (plBB_ok th pts box Ht ltac:(lia) Bx O1 O2 Dg). cbn [bind]. rewrite (proj2 (ptInRect_spec p box) In_). cbn [negb].
  rewrite (sd_map th pts) by (try lia; intros e I; apply (Os e I)). cbn [bind].
  rewrite (far_lines_l th (cyc pts) p Ht Os) by (intros e I; apply (C e I)). cbn [bind].
  assert (wfR box) as Wf by (unfold wfR; lra).
  destruct (ext_segs th box Ht Wf O1 O2 ltac:(lra) ltac:(lra)) as [Ex Eg]. rewrite Ex. cbn [bind]. rewrite Eg. cbn [bind]. unfold sidesOf. cbn [r1 r2 px py].
  match goal with |- context [pipLoop th p pts ?sg 5 (?s :: ?t)] => destruct (pipLoop_total th p pts sg 5 s t Ht) as [[(k & Hk & F) (b & E)]|[F E]] end.
  - intros x I. apply in_map_iff in I. destruct I as (e & <- & I). apply sd_ok. apply (Os e I).
  - unfold inRO in In_. assert (nullDistance th * 2 ^ (5 - 1) = 16 * nullDistance th) as -> by (cbn; ring).
    intros x [<-|[<-|[<-|[<-|[]]]]]; (split; [unfold lexlt; cbn [sA sB px py]; lra|]); unfold segHas; cbn [sA sB].
    + split; [eapply Rle_trans; [|apply edist_ge_y]; cbn [px py]; rewrite Rabs_left1; lra|]. intros x Hx. apply onSeg_along in Hx. destruct Hx as (t & T & ->).
      assert (px (r2 box) - px (r1 box) <= edist p (along (mkPt (2 * px (r1 box) - px (r2 box)) (2 * py (r1 box) - py (r2 box))) (mkPt (2 * px (r1 box) - px (r2 box)) (2 * py (r2 box) - py (r1 box))) t)); [|lra].
      eapply Rle_trans; [|apply edist_ge_x]. unfold along. cbn [px py]. rewrite Rabs_right; lra.
    + split; [eapply Rle_trans; [|apply edist_ge_x]; cbn [px py]; rewrite Rabs_left1; lra|]. intros x Hx. apply onSeg_along in Hx. destruct Hx as (t & T & ->).
      assert (py (r2 box) - py (r1 box) <= edist p (along (mkPt (2 * px (r1 box) - px (r2 box)) (2 * py (r2 box) - py (r1 box))) (mkPt (2 * px (r2 box) - px (r1 box)) (2 * py (r2 box) - py (r1 box))) t)); [|lra].
      eapply Rle_trans; [|apply edist_ge_y]. unfold along. cbn [px py]. rewrite Rabs_left1; lra.
    + split; [eapply Rle_trans; [|apply edist_ge_y]; cbn [px py]; rewrite Rabs_left1; lra|]. intros x Hx. apply onSeg_along in Hx. destruct Hx as (t & T & ->).
      assert (px (r2 box) - px (r1 box) <= edist p (along (mkPt (2 * px (r2 box) - px (r1 box)) (2 * py (r1 box) - py (r2 box))) (mkPt (2 * px (r2 box) - px (r1 box)) (2 * py (r2 box) - py (r1 box))) t)); [|lra].
      eapply Rle_trans; [|apply edist_ge_x]. unfold along. cbn [px py]. rewrite Rabs_left1; lra.
    + split; [eapply Rle_trans; [|apply edist_ge_x]; cbn [px py]; rewrite Rabs_left1; lra|]. intros x Hx. apply onSeg_along in Hx. destruct Hx as (t & T & ->).
      assert (py (r2 box) - py (r1 box) <= edist p (along (mkPt (2 * px (r1 box) - px (r2 box)) (2 * py (r1 box) - py (r2 box))) (mkPt (2 * px (r2 box) - px (r1 box)) (2 * py (r1 box) - py (r2 box))) t)); [|lra].
      eapply Rle_trans; [|apply edist_ge_y]. unfold along. cbn [px py]. rewrite Rabs_right; lra.
  - left. rewrite ref_seg in F. rewrite E. cbn [bind]. split; eauto.
  - right. rewrite E. cbn [bind]. split; auto. intros k Hk. specialize (F k Hk). rewrite ref_seg in F. exact F.
Qed.
