(** * C155, C156: polyline inside a polygon, a circle or a rectangle *)

From Coq Require Import Reals Lra Psatz List Bool Arith Lia.
From Verif Require Import Num M_LP M_Seg M_Circle M_Poly M_FRect M_Pip S_Geom S_Seg S_Circle S_Poly S_FRect S_Pip P_LP P_LP2 P_LP4 P_Seg P_Seg2 P_Seg3 P_Circle P_Poly P_Poly2 P_Poly4 P_Poly5 P_Poly7 P_Pip P_Pip2 P_Pip3 C_Pip C_Pip2.
Import ListNotations.
Local Open Scope R_scope.

(** A segment with one end inside and which meets no side is inside. *)
Lemma nomeet_inside pts a b : noNullSide pts -> offSides pts a -> insideEO pts a -> (forall e, In e (cyc pts) -> ~ meetsSide a b e) ->
  forall x, onSeg a b x -> insideEO pts x /\ offSides pts x.
Proof.
  intros NN Of IA NM x Hx.
  assert (OX : offSides pts x) by (intros e I O; apply (NM e I); exists x; auto). split; auto.
  destruct (pt_dec a x) as [<-|NX]; auto.
  assert (Sub : forall z, onSeg a x z -> onSeg a b z).
  { apply onSeg_along in Hx. destruct Hx as (t & Tt & ->). intros z Hz. apply onSeg_along in Hz. destruct Hz as (u & Tu & ->). apply onSeg_along. exists (u * t). split; [split; [apply Rmult_le_pos; lra|nra]|]. unfold along. cbn [px py]. f_equal; ring. }
  apply (C104_connected pts a x NN Of OX NX); auto.
  - intros e I (q & Q1 & Q2). apply (NM e I). exists q. auto.
  - intros v Iv Ov. destruct (cyc_fst_in pts v Iv) as (w & Iw). apply (NM (v, w) Iw). exists v. split; auto. cbn [fst snd]. apply onSeg_along. exists 0. split; [lra|now rewrite along_0].
Qed.
(** Two sides that either meet or are apart: no near miss. *)
Definition plain th (e f : pt R * pt R) : Prop :=
  (exists q, onSeg (fst e) (snd e) q /\ onSeg (fst f) (snd f) q) \/
  forall x y, onSeg (fst e) (snd e) x -> onSeg (fst f) (snd f) y -> nullDistance th <= edist x y.
Lemma hasInter_plain th e f : thr_ok th -> okSeg th (mkSeg (fst e) (snd e)) -> okSeg th (mkSeg (fst f) (snd f)) -> dirOK th (fst e) (snd e) -> dirOK th (fst f) (snd f) ->
  transversal th e f -> endsApart th e f -> plain th e f -> exists b, hasInter th (sd e) (sd f) = Ok b /\ (b = true <-> exists q, onSeg (fst e) (snd e) q /\ onSeg (fst f) (snd f) q).
Proof.
  intros Ht Oe Of De Df T E P. destruct P as [(q & Q1 & Q2)|G].
  - exists true. split; [|split; eauto]. unfold hasInter. rewrite (meets_complete th e f q); auto.
  - destruct (segInterSeg_total th (sd e) (sd f) Ht (sd_ok _ _ Oe) (sd_ok _ _ Of)) as (it & It). unfold hasInter. rewrite It. cbn [bind]. eexists. split; [reflexivity|].
    pose proof (thr_dist th Ht) as TD. split.
    + destruct it as [p|]; [|discriminate]. intros _. exfalso.
      destruct (segInterSeg_sound th _ _ p Ht (sd_dirOK th e De) (sd_dirOK th f Df) It) as ((x & Hx & Dx) & (y & Hy & Dy) & _).
      apply (sideOf_has (sd e) e x (sideOf_sd e)) in Hx. apply (sideOf_has (sd f) f y (sideOf_sd f)) in Hy.
      specialize (G x y Hx Hy). pose proof (edist_triang x p y) as TR. rewrite (edist_sym x p) in TR. lra.
    + intros (q & Q1 & Q2). specialize (G q q Q1 Q2). rewrite edist_refl in G. lra.
Qed.
Lemma allM_of_true {A} (f : A -> res bool) l : (forall x, In x l -> f x = Ok true) -> allM f l = Ok true.
Proof. induction l as [|a l IH]; intros H; [reflexivity|]. cbn [allM]. rewrite H by (now left). cbn [bind]. apply IH. intros; apply H; now right. Qed.
Lemma allM_false {A} (f : A -> res bool) l : allM f l = Ok false -> exists x, In x l /\ f x = Ok false.
Proof.
  induction l as [|a l IH]; cbn [allM]; [discriminate|]. intros E. apply bind_ok in E. destruct E as (b & Eb & E). destruct b; [destruct (IH E) as (x & I & X); exists x; split; auto; now right|].
  exists a. split; auto. now left.
Qed.

(** ** C155 *)
(** The sides of the polyline are long enough, make an angle with the sides of the polygon, and there is no near miss. *)
Definition crossable th pts (f : pt R * pt R) : Prop :=
  okSeg th (mkSeg (fst f) (snd f)) /\ dirOK th (fst f) (snd f) /\ forall e, In e (cyc pts) -> transversal th e f /\ endsApart th e f /\ plain th e f.
Theorem C155_exact : forall th pts x1 y1 x2 y2 closed l b, thr_ok th -> okSides th pts -> isBox pts (mkR (mkPt x1 y1) (mkPt x2 y2)) ->
  nullDistance th <= x2 - x1 -> nullDistance th <= y2 - y1 -> dblEpsilon th < x2 - x1 -> val (plIsSimple th true (plFresh pts)) = Ok true ->
  (2 <= length l)%nat -> (forall v, In v l -> seen th pts x1 y1 x2 y2 v) -> (forall f, In f (sides closed l) -> crossable th pts f) ->
  plInPoly th closed l (plFresh pts) = Ok b ->
  (b = true <-> forall f x, In f (sides closed l) -> onSeg (fst f) (snd f) x -> insideEO pts x /\ offSides pts x).
Proof.
  intros th pts x1 y1 x2 y2 closed l b Ht Os B W H We Sm L2 SN CR E. pose proof (thr_dist th Ht) as TD.
  destruct (fresh_simple _ _ Sm) as (pl & Es). pose proof (simple_len _ _ _ Es) as L3.
  assert (PB : forall v c, In v l -> ptInPolyB th true (plFresh pts) v = Ok c -> (c = true <-> insideEO pts v) /\ offSides pts v /\ noNullSide pts).
  { intros v c I Ec. destruct (SN v I) as [CA DA]. destruct (clear_off th pts v Ht (okSides_wide _ _ Os) CA) as [NN Of]. split; auto.
    apply (C105_even_odd th pts x1 y1 x2 y2 v c); auto. }
  assert (VS : forall v, In v l -> exists f, In f (sides closed l) /\ onSeg (fst f) (snd f) v).
  { intros v I. destruct closed.
    - destruct (cyc_fst_in l v I) as (w & Iw). exists (v, w). split; auto. cbn [fst snd]. apply onSeg_along. exists 0. split; [lra|now rewrite along_0].
    - cbn [sides]. clear -I L2. unfold chain. destruct l as [|a [|c r]]; cbn in L2; try lia. cbn [tl]. revert a c I. clear. induction r as [|d r IH]; intros a c I.
      + cbn [combine]. exists (a, c). split; [now left|]. cbn [fst snd]. destruct I as [<-|[<-|[]]]; apply onSeg_along; [exists 0|exists 1]; (split; [lra|]); [now rewrite along_0|now rewrite along_1].
      + destruct I as [<-|I].
        * exists (a, c). split; [now left|]. cbn [fst snd]. apply onSeg_along. exists 0. split; [lra|now rewrite along_0].
        * destruct (IH c d I) as (f & If & Of). exists f. split; auto. right. exact If. }
  unfold plInPoly in E. destruct l as [|a r] eqn:El; [cbn in L2; lia|]. rewrite <- El in *. clear El a r.
  apply bind_ok in E. destruct E as (b0 & Ea & E). destruct b0; cbn [negb] in E.
  2: { apply Ok_inj in E. subst b. split; [discriminate|]. intros K. exfalso. destruct (allM_false _ _ Ea) as (v & I & Ev). destruct (PB v false I Ev) as [X _].
       destruct (VS v I) as (f & If & Of). destruct (K f v If Of) as [Y _]. apply X in Y. discriminate. }
  rewrite (plSegs_ok th closed KSeg l L2) in E by (intros f I; destruct (CR f I) as ((D & _) & _); exact D). cbn [bind] in E.
  change (map _ (sides closed l)) with (map sd (sides closed l)) in E.
  set (hit := fun e f => match hasInter th (sd e) (sd f) with Ok c => c | _ => false end).
  assert (HH : forall e f, In e (cyc pts) -> In f (sides closed l) -> hasInter th (sd e) (sd f) = Ok (hit e f) /\ (hit e f = true <-> exists q, onSeg (fst e) (snd e) q /\ onSeg (fst f) (snd f) q)).
  { intros e f Ie If. destruct (Os e Ie) as [Oe De]. destruct (CR f If) as (Of & Df & CE). destruct (CE e Ie) as (T & A & P).
    destruct (hasInter_plain th e f Ht Oe Of De Df T A P) as (c & Ec & X). unfold hit. rewrite Ec. auto. }
  set (g := fun f => negb (length (filter (fun e => hit e f) (cyc pts)) =? 0)%nat).
  rewrite (countM_map _ sd g) in E.
  2: { intros f If. unfold plHitsSeg. cbn [plFresh plPts]. rewrite (sd_map th pts) by (try lia; now apply okSides_wide). cbn [bind].
       rewrite (countM_map _ sd (fun e => hit e f)); [reflexivity|]. intros e Ie. now apply HH. }
  cbn [bind] in E. apply Ok_inj in E. subst b. rewrite Nat.eqb_eq. split.
  - intros Z f x If Ox. destruct (sides_in closed l f If) as [I1 _]. destruct (PB _ _ I1 (allM_true _ _ Ea _ I1)) as (P1 & P2 & P3).
    apply (nomeet_inside pts (fst f) (snd f)); auto; [now apply P1|]. intros e Ie (q & Q1 & Q2).
    assert (hit e f = true) as X by (apply HH; eauto). assert (In f (filter g (sides closed l))) as IF.
    { apply filter_In. split; auto. unfold g. assert (In e (filter (fun e => hit e f) (cyc pts))) as IE by (apply filter_In; auto). destruct (filter (fun e => hit e f) (cyc pts)); [destruct IE|reflexivity]. }
    destruct (filter g (sides closed l)); [destruct IF|discriminate].
  - intros K. destruct (filter g (sides closed l)) as [|f t] eqn:EF; auto. exfalso.
    assert (In f (filter g (sides closed l))) as I by (rewrite EF; now left). apply filter_In in I. destruct I as [I G]. unfold g in G.
    destruct (filter (fun e => hit e f) (cyc pts)) as [|e u] eqn:EE; [discriminate|]. assert (In e (filter (fun e => hit e f) (cyc pts))) as Ie by (rewrite EE; now left). apply filter_In in Ie. destruct Ie as [Ie X].
    apply (HH e f Ie I) in X. destruct X as (q & Q1 & Q2). destruct (K f q I Q2) as [_ Y]. exact (Y e Ie Q1).
Qed.
Theorem C155_empty th closed pl : plInPoly (T := R) th closed [] pl = Ok false.
Proof. reflexivity. Qed.
Definition lIn : list (pt R) := [mkPt 1 1; mkPt (19 / 16) (5 / 4); mkPt (23 / 16) (17 / 16)].
Lemma lIn_inner v : In v lIn -> inner (px v) (py v).
Proof. intros [<-|[<-|[<-|[]]]]; unfold inner; cbn [px py]; lra. Qed.
Lemma lIn_seen v : In v lIn -> seen thr0 box4 0 0 4 3 v.
Proof. intros I. pose proof (lIn_inner v I) as N. destruct v as [x y]. cbn [px py] in N. split; [now apply box4_clear|intros; now apply box4_dir]. Qed.
Lemma lIn_len f : In f (sides false lIn) -> edist (fst f) (snd f) = 5 / 16.
Proof. intros [<-|[<-|[]]]; apply edist_val; cbn [fst snd px py]; lra. Qed.
Lemma box4_len e : In e (cyc box4) -> edist (fst e) (snd e) = 4 \/ edist (fst e) (snd e) = 3.
Proof. intros [<-|[<-|[<-|[<-|[]]]]]; [left|right|left|right]; apply edist_val; cbn [fst snd px py]; lra. Qed.
Lemma lIn_gap e f x y : In e (cyc box4) -> In f (sides false lIn) -> onSeg (fst e) (snd e) x -> onSeg (fst f) (snd f) y -> 1 / 4 <= edist x y.
Proof.
  intros Ie If X Y. apply onSeg_along in X. destruct X as (t & Tt & ->). apply onSeg_along in Y. destruct Y as (u & Tu & ->).
  pose proof (edist_ge_x (along (fst e) (snd e) t) (along (fst f) (snd f) u)) as GX. pose proof (edist_ge_y (along (fst e) (snd e) t) (along (fst f) (snd f) u)) as GY.
  destruct Ie as [<-|[<-|[<-|[<-|[]]]]], If as [<-|[<-|[]]]; unfold along in GX, GY; cbn [fst snd px py] in GX, GY; unfold Rabs in GX, GY;
  repeat match goal with H : context [Rcase_abs ?x] |- _ => destruct (Rcase_abs x) end; unfold along; cbn [fst snd px py]; lra.
Qed.
Lemma lIn_cross f : In f (sides false lIn) -> crossable thr0 box4 f.
Proof.
  intros If. pose proof thr0_small as TS. pose proof (lIn_len f If) as LE. split; [split; cbn [sA sB]; rewrite LE; lra|].
  split; [apply dir_num; [lra|]; destruct If as [<-|[<-|[]]]; cbn [fst snd px py]; absval|].
  assert (nullAngleValue (thr0 (T := R)) <= 1 / 2) as NA by (unfold thr0; cbn [nullAngleValue]; rnum; lra). pose proof PI_RGT_0. pose proof PI2_3_2.
  assert (forall c, 0 <= c <= 4 / 5 -> nullAngleValue (thr0 (T := R)) <= acos c) as AC.
  { intros c C. apply Rle_trans with (PI / 6); [lra|]. apply acos_ge; [split; lra|split; lra|]. rewrite cos_PI6. assert (17 / 10 <= R_sqrt.sqrt 3); [|lra]. apply Rsqr_incr_0_var; [|apply sqrt_pos]. unfold Rsqr. rewrite sqrt_sqrt; lra. }
  intros e Ie. split; [|split].
  - unfold transversal. rewrite LE. apply AC. cbn [cyc box4 app combine In] in Ie.
    destruct Ie as [<-|[<-|[<-|[<-|[]]]]]; cbn [fst snd px py];
    [replace (edist _ _) with 4 by (symmetry; apply edist_val; cbn [px py]; lra)|replace (edist _ _) with 3 by (symmetry; apply edist_val; cbn [px py]; lra)
    |replace (edist _ _) with 4 by (symmetry; apply edist_val; cbn [px py]; lra)|replace (edist _ _) with 3 by (symmetry; apply edist_val; cbn [px py]; lra)];
    destruct If as [<-|[<-|[]]]; cbn [fst snd px py]; absval.
  - intros p q Ip Iq. apply Rle_trans with (1 / 4); [lra|].
    assert (forall g z, In z [fst g; snd g] -> onSeg (fst g) (snd g) z) as OE.
    { intros g z [<-|[<-|[]]]; apply onSeg_along; [exists 0|exists 1]; (split; [lra|]); [now rewrite along_0|now rewrite along_1]. }
    apply (lIn_gap e f); auto.
  - right. intros x y X Y. apply Rle_trans with (1 / 4); [lra|]. now apply (lIn_gap e f).
Qed.
Example C155_ex : (forall v, In v lIn -> seen thr0 box4 0 0 4 3 v) /\ (forall f, In f (sides false lIn) -> crossable thr0 box4 f) /\ plInPoly thr0 false lIn (plFresh box4) = Ok true.
Proof.
  pose proof thr0_small as TS. split; [exact lIn_seen|]. split; [exact lIn_cross|].
  unfold plInPoly. change lIn with (mkPt 1 1 :: tl lIn) at 1. cbv match. rewrite allM_of_true.
  2: { intros v I. pose proof (lIn_inner v I) as N. destruct v as [x y]. now apply box4_in. }
  cbn [bind negb]. rewrite (plSegs_ok thr0 false KSeg lIn) by (cbn; try lia; intros f If; change (In f (sides false lIn)) in If; rewrite (lIn_len f If); lra). cbn [bind].
  change (map _ (sides false lIn)) with (map sd (sides false lIn)).
  rewrite (countM_map _ sd (fun _ => false)); [reflexivity|]. intros f If. unfold plHitsSeg. cbn [plFresh plPts].
  rewrite (sd_map thr0 box4) by (try (cbn; lia); apply okSides_wide, box4_ok). cbn [bind].
  rewrite (countM_map _ sd (fun _ => false)); [reflexivity|]. intros e Ie. destruct (lIn_cross f If) as (Of & Df & CE). destruct (CE e Ie) as (T & A & P). destruct (box4_ok e Ie) as [Oe De].
  destruct (hasInter_plain thr0 e f thr0_ok Oe Of De Df T A P) as (c & Ec & X). rewrite Ec. destruct c; auto. exfalso. destruct (proj1 X eq_refl) as (q & Q1 & Q2).
  pose proof (lIn_gap e f q q Ie If Q1 Q2) as G. rewrite edist_refl in G. lra.
Qed.
Print Assumptions C155_exact.

(** ** C156 *)
Lemma prim_spec (f : pt R -> bool) pts : plInPrim f pts = true <-> pts <> [] /\ forall v, In v pts -> f v = true.
Proof. unfold plInPrim. destruct pts as [|a l]; [split; [discriminate|intros [X _]; congruence]|]. rewrite forallb_forall. split; [intros H; split; [discriminate|exact H]|intros [_ H]; exact H]. Qed.
Lemma disc_convex c a b x : inOpen c a -> inOpen c b -> onSeg a b x -> inOpen c x.
Proof.
  unfold inOpen. intros A B O. apply onSeg_along in O. destruct O as (t & T & ->).
  pose proof (edist_pos (cc c) a) as PA. pose proof (edist_pos (cc c) b) as PB. pose proof (edist_pos (cc c) (along a b t)) as PX.
  apply Rsqr_incrst_0; try lra. unfold Rsqr.
  assert (E : edist (cc c) (along a b t) * edist (cc c) (along a b t) = (1 - t) * (edist (cc c) a * edist (cc c) a) + t * (edist (cc c) b * edist (cc c) b) - t * (1 - t) * (edist a b * edist a b)).
  { rewrite !edist_sq. unfold along. cbn [px py]. ring. }
  rewrite E. pose proof (edist_pos a b) as PD.
  assert (QA : edist (cc c) a * edist (cc c) a < cr c * cr c) by nra. assert (QB : edist (cc c) b * edist (cc c) b < cr c * cr c) by nra.
  assert (QD : 0 <= t * (1 - t) * (edist a b * edist a b)) by (repeat apply Rmult_le_pos; lra).
  set (u := edist (cc c) a * edist (cc c) a) in *. set (v := edist (cc c) b * edist (cc c) b) in *. set (w := t * (1 - t) * (edist a b * edist a b)) in *. set (q := cr c * cr c) in *.
  assert (X : (1 - t) * u + t * v < q); [|lra]. destruct (Req_dec t 0) as [->|]; [lra|]. assert (t * v < t * q) by (apply Rmult_lt_compat_l; lra). assert ((1 - t) * u <= (1 - t) * q) by (apply Rmult_le_compat_l; lra). lra.
Qed.
(** Open rectangle. *)
Definition inOpenR (r : frect R) (x : pt R) : Prop := px (r1 r) < px x < px (r2 r) /\ py (r1 r) < py x < py (r2 r).
Lemma rect_convex r a b x : inOpenR r a -> inOpenR r b -> onSeg a b x -> inOpenR r x.
Proof.
  unfold inOpenR. intros A B O. apply onSeg_along in O. destruct O as (t & T & ->). unfold along. cbn [px py].
  assert (K : forall l u v w, l < v < u -> l < w < u -> l < v + t * (w - v) < u).
  { intros l u v w V W. replace (v + t * (w - v)) with ((1 - t) * v + t * w) by ring. destruct (Req_dec t 0) as [->|]; [lra|].
    assert (t * l < t * w < t * u) by (split; apply Rmult_lt_compat_l; lra). assert ((1 - t) * l <= (1 - t) * v <= (1 - t) * u) by (split; apply Rmult_le_compat_l; lra). lra. }
  split; apply K; tauto.
Qed.
Lemma inRect_spec p (r : frect R) : ptInRect p r = true <-> inOpenR r p.
Proof. unfold ptInRect, inOpenR. rnum.
  split.
  - destruct (Rltb (px (r1 r)) (px p)) eqn:A, (Rltb (px p) (px (r2 r))) eqn:B; cbn [andb]; try discriminate.
    destruct (Rltb (py (r1 r)) (py p)) eqn:C, (Rltb (py p) (py (r2 r))) eqn:D; cbn [andb]; try discriminate. apply Rltb_spec in A, B, C, D. lra.
  - intros [[A B] [C D]]. rewrite !(proj2 (Rltb_spec _ _)) by lra. reflexivity.
Qed.
Lemma vertex_side closed (l : list (pt R)) v : (2 <= length l)%nat -> In v l -> exists f, In f (sides closed l) /\ onSeg (fst f) (snd f) v.
Proof.
  intros L2 I. destruct closed.
  - destruct (cyc_fst_in l v I) as (w & Iw). exists (v, w). split; auto. cbn [fst snd]. apply onSeg_along. exists 0. split; [lra|now rewrite along_0].
  - cbn [sides]. unfold chain. destruct l as [|a [|c r]]; cbn in L2; try lia. cbn [tl]. revert a c I. clear. induction r as [|d r IH]; intros a c I.
    + cbn [combine]. exists (a, c). split; [now left|]. cbn [fst snd]. destruct I as [<-|[<-|[]]]; apply onSeg_along; [exists 0|exists 1]; (split; [lra|]); [now rewrite along_0|now rewrite along_1].
    + destruct I as [<-|I].
      * exists (a, c). split; [now left|]. cbn [fst snd]. apply onSeg_along. exists 0. split; [lra|now rewrite along_0].
      * destruct (IH c d I) as (f & If & Of). exists f. split; auto. right. exact If.
Qed.
Lemma prim_exact (f : pt R -> bool) (S : pt R -> Prop) closed l : (forall p, f p = true <-> S p) -> (forall a b x, S a -> S b -> onSeg a b x -> S x) -> (2 <= length l)%nat ->
  (plInPrim f l = true <-> forall e x, In e (sides closed l) -> onSeg (fst e) (snd e) x -> S x).
Proof.
  intros FS CV L2. rewrite prim_spec. split.
  - intros [_ A] e x I O. destruct (sides_in closed l e I) as [I1 I2]. apply (CV (fst e) (snd e)); auto; apply FS, A; auto.
  - intros A. split; [intros ->; cbn in L2; lia|]. intros v I. apply FS. destruct (vertex_side closed l v L2 I) as (e & Ie & O). eauto.
Qed.
(** The answer is true exactly when all the points of all the sides are strictly inside. *)
Theorem C156_circle : forall closed l c, (2 <= length l)%nat ->
  (plInPrim (fun p => ptInCircle p c) l = true <-> forall e x, In e (sides closed l) -> onSeg (fst e) (snd e) x -> edist (cc c) x < cr c).
Proof. intros closed l c L. apply (prim_exact _ (inOpen c)); auto; [intros p; apply ptInCircle_spec|apply disc_convex]. Qed.
Theorem C156_rectangle : forall closed l r, (2 <= length l)%nat ->
  (plInPrim (fun p => ptInRect p r) l = true <-> forall e x, In e (sides closed l) -> onSeg (fst e) (snd e) x -> inOpenR r x).
Proof. intros closed l r L. apply (prim_exact _ (inOpenR r)); auto; [intros p; apply inRect_spec|apply rect_convex]. Qed.
Theorem C156_empty (f : pt R -> bool) : plInPrim f [] = false.
Proof. reflexivity. Qed.
Example C156_ex : plInPrim (fun p => ptInCircle p (mkC (mkPt 0 0) 5)) [mkPt 3 3; mkPt (-3) 3; mkPt 0 (-4)] = true /\
  plInPrim (fun p => ptInCircle p (mkC (mkPt 0 0) 5)) [mkPt 3 3; mkPt 3 4; mkPt 0 (-4)] = false.
Proof.
  unfold plInPrim, forallb. split.
  - rewrite !(proj2 (ptInCircle_spec _ _)); [reflexivity|..]; unfold inOpen, cc, cr; apply Rsqr_incrst_0; try apply edist_pos; try lra; unfold Rsqr; rewrite edist_sq; cbn [px py]; lra.
  - rewrite (proj2 (ptInCircle_spec (mkPt 3 3) _)); [|unfold inOpen, cc, cr; apply Rsqr_incrst_0; try apply edist_pos; try lra; unfold Rsqr; rewrite edist_sq; cbn [px py]; lra].
    replace (ptInCircle (mkPt 3 4) (mkC (mkPt 0 0) 5)) with false; [reflexivity|]. symmetry. apply not_true_is_false. rewrite ptInCircle_spec. unfold inOpen. cbn [cc cr]. rewrite (edist_val _ _ 5); cbn [px py]; lra.
Qed.
Print Assumptions C156_circle. Print Assumptions C156_rectangle.
