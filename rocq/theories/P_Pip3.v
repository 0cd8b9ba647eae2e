(** * Inside of a convex polygon *)

From Coq Require Import Reals Lra Lia List Bool Arith.
From Verif Require Import Num M_LP S_Geom S_Seg S_Poly S_Pip P_LP P_Seg P_Parity P_Pip.
Import ListNotations.
Local Open Scope R_scope.

(** ** Lists of consecutive pairs *)
Lemma cyc_fst {A} (l : list A) : map fst (cyc l) = l.
Proof.
  destruct l as [|a r]; auto. unfold cyc. assert (length (a :: r) = length (r ++ [a])) as L by (rewrite app_length; cbn; lia). revert L. generalize (a :: r), (r ++ [a]).
  induction l as [|x l IH]; intros [|y m] L; auto; [discriminate|]. cbn. f_equal. apply IH. now injection L.
Qed.
Lemma cyc_snd_in {A} (l : list A) v : In v l -> exists u, In (u, v) (cyc l).
Proof.
  destruct l as [|a r]; [intros []|]. intros I. unfold cyc.
  assert (In v (r ++ [a])) as I' by (apply in_or_app; destruct I as [<-|I]; [right; now left|now left]).
  assert (length (a :: r) = length (r ++ [a])) as L by (rewrite app_length; cbn; lia). revert L I'. clear I. generalize (a :: r), (r ++ [a]).
  intros l m. revert l. induction m as [|y m IH]; intros [|x l] L I'; try discriminate; [destruct I'|]. destruct I' as [<-|I']; [exists x; now left|].
  destruct (IH l) as (u & Hu); auto. exists u. now right.
Qed.
Lemma cyc_fst_in {A} (l : list A) v : In v l -> exists w, In (v, w) (cyc l).
Proof. intros I. rewrite <- (cyc_fst l) in I. apply in_map_iff in I. destruct I as ([a b] & <- & I). exists b. exact I. Qed.
Lemma cyc_nodup {A} (l : list A) : NoDup l -> NoDup (cyc l).
Proof. intros N. apply (NoDup_map_inv fst). now rewrite cyc_fst. Qed.
Lemma chain_const {A} (g : A -> bool) r (a z : A) : (forall e, In e (combine (a :: r) (r ++ [z])) -> g (fst e) = g (snd e)) -> forall v, In v (a :: r) -> g v = g a.
Proof.
  revert a. induction r as [|b r IH]; intros a H v; [intros [<-|[]]; auto|]. intros [<-|I]; auto.
  assert (g a = g b) as E by (apply (H (a, b)); now left). rewrite E. apply IH; auto. intros e Ie. apply H. now right.
Qed.
Lemma cyc_change {A} (g : A -> bool) (l : list A) v w : In v l -> In w l -> g v = true -> g w = false -> exists e, In e (cyc l) /\ g (fst e) <> g (snd e).
Proof.
  intros Iv Iw Gv Gw. destruct (existsb (fun e => xorb (g (fst e)) (g (snd e))) (cyc l)) eqn:E.
  - apply existsb_exists in E. destruct E as (e & I & X). exists e. split; auto. intros Y. rewrite Y, xorb_nilpotent in X. discriminate.
  - exfalso. destruct l as [|a r]; [destruct Iv|]. assert (forall e, In e (cyc (a :: r)) -> g (fst e) = g (snd e)) as K.
    { intros e I. apply xorb_eq. destruct (xorb _ _) eqn:X; auto. assert (existsb (fun e => xorb (g (fst e)) (g (snd e))) (cyc (a :: r)) = true) by (apply existsb_exists; eauto). congruence. }
    unfold cyc in K. rewrite (chain_const g r a a K v Iv) in Gv. rewrite (chain_const g r a a K w Iw) in Gw. congruence.
Qed.
Lemma filter_one {A} (f : A -> bool) (l : list A) : NoDup l -> (forall x y, In x l -> In y l -> f x = true -> f y = true -> x = y) -> filter f l = [] \/ exists x, In x l /\ f x = true /\ filter f l = [x].
Proof.
  induction l as [|a l IH]; intros N H; auto. inversion N as [|? ? Na Nl]; subst. cbn [filter]. destruct (f a) eqn:E.
  - right. exists a. split; [now left|]. split; auto. destruct (filter f l) as [|b m] eqn:Ef; auto. exfalso.
    assert (In b (filter f l)) as Ib by (rewrite Ef; now left). apply filter_In in Ib. destruct Ib as [Ib Fb]. apply Na. rewrite (H a b); auto; [now left|now right].
  - destruct IH as [IH|(x & Ix & Fx & IH)]; auto; [intros; apply H; auto; now right|]. right. exists x. split; [now right|]. auto.
Qed.

Lemma pt_ext (a b : pt R) : px a = px b -> py a = py b -> a = b.
Proof. destruct a as [x y], b as [z t]. cbn. intros -> ->. reflexivity. Qed.

(** ** Sides crossed upwards and downwards by a level *)
Definition upB (t : R) (e : pt R * pt R) : bool := negb (lt t (py (fst e))) && lt t (py (snd e)).
Definition dnB (t : R) (e : pt R * pt R) : bool := lt t (py (fst e)) && negb (lt t (py (snd e))).
Lemma nlt_spec (a b : R) : negb (lt a b) = true <-> b <= a.
Proof. rewrite negb_true_iff, lt_false. tauto. Qed.
Lemma upB_spec t e : upB t e = true <-> py (fst e) <= t < py (snd e).
Proof. unfold upB. rewrite andb_true_iff, nlt_spec, lt_spec. tauto. Qed.
Lemma dnB_spec t e : dnB t e = true <-> py (snd e) <= t < py (fst e).
Proof. unfold dnB. rewrite andb_true_iff, nlt_spec, lt_spec. tauto. Qed.

Definition weakLeft (pts : list (pt R)) : Prop := forall e v, In e (cyc pts) -> In v pts -> v = fst e \/ v = snd e \/ 0 < cross3 (fst e) (snd e) v.
Lemma weak_pos pts e v : weakLeft pts -> In e (cyc pts) -> In v pts -> 0 <= cross3 (fst e) (snd e) v.
Proof. intros H I J. destruct (H e v I J) as [->|[->|K]]; [| |lra]; unfold cross3; right; ring. Qed.
Lemma weak_zero pts e v : weakLeft pts -> In e (cyc pts) -> In v pts -> cross3 (fst e) (snd e) v = 0 -> v = fst e \/ v = snd e.
Proof. intros H I J Z. destruct (H e v I J) as [K|[K|K]]; auto; lra. Qed.

Lemma level_id a b c d t : cross3 a b c * (py d - t) + cross3 c d a * (py b - t) = cross3 a b d * (py c - t) + cross3 c d b * (py a - t).
Proof. unfold cross3. ring. Qed.
Lemma pos_parts (A B u v w : R) : 0 <= A -> 0 <= B -> 0 < u -> 0 < v -> A * u + B * v = w -> w <= 0 -> A = 0 /\ B = 0.
Proof. intros. assert (0 <= A * u) by (apply Rmult_le_pos; lra). assert (0 <= B * v) by (apply Rmult_le_pos; lra). split; [destruct (Req_dec A 0)|destruct (Req_dec B 0)]; auto; exfalso; nra. Qed.
Lemma up_unique pts t e f : weakLeft pts -> In e (cyc pts) -> In f (cyc pts) -> upB t e = true -> upB t f = true -> e = f.
Proof.
  intros H Ie If Ue Uf. apply upB_spec in Ue. apply upB_spec in Uf. destruct (cyc_in _ _ Ie) as [E1 E2]. destruct (cyc_in _ _ If) as [F1 F2].
  pose proof (weak_pos _ _ _ H Ie F1) as A. pose proof (weak_pos _ _ _ H Ie F2) as B. pose proof (weak_pos _ _ _ H If E1) as C. pose proof (weak_pos _ _ _ H If E2) as D.
  destruct e as [a b], f as [c d]. cbn [fst snd] in *. pose proof (level_id a b c d t) as L.
  assert (cross3 a b d * (py c - t) + cross3 c d b * (py a - t) <= 0) as Ng. { assert (0 <= cross3 a b d * (t - py c)) by (apply Rmult_le_pos; lra). assert (0 <= cross3 c d b * (t - py a)) by (apply Rmult_le_pos; lra). lra. }
  destruct (pos_parts _ _ _ _ _ A C (ltac:(lra) : 0 < py d - t) (ltac:(lra) : 0 < py b - t) L Ng) as [ZA ZC].
  assert (c = a) as -> by (destruct (weak_zero _ (a, b) c H Ie F1 ZA) as [X|X]; cbn [fst snd] in X; auto; subst; lra).
  assert (cross3 a d b = - cross3 a b d) as Sg by (unfold cross3; ring). assert (cross3 a b d = 0) as ZB by lra.
  destruct (weak_zero _ (a, b) d H Ie F2 ZB) as [X|X]; cbn [fst snd] in X; subst; auto; lra.
Qed.
Lemma dn_unique pts t e f : weakLeft pts -> In e (cyc pts) -> In f (cyc pts) -> dnB t e = true -> dnB t f = true -> e = f.
Proof.
  intros H Ie If Ue Uf. apply dnB_spec in Ue. apply dnB_spec in Uf. destruct (cyc_in _ _ Ie) as [E1 E2]. destruct (cyc_in _ _ If) as [F1 F2].
  pose proof (weak_pos _ _ _ H Ie F1) as A. pose proof (weak_pos _ _ _ H Ie F2) as B. pose proof (weak_pos _ _ _ H If E1) as C. pose proof (weak_pos _ _ _ H If E2) as D.
  destruct e as [a b], f as [c d]. cbn [fst snd] in *. pose proof (level_id a b c d t) as L. symmetry in L.
  assert (cross3 a b c * (py d - t) + cross3 c d a * (py b - t) <= 0) as Ng. { assert (0 <= cross3 a b c * (t - py d)) by (apply Rmult_le_pos; lra). assert (0 <= cross3 c d a * (t - py b)) by (apply Rmult_le_pos; lra). lra. }
  destruct (pos_parts _ _ _ _ _ B D (ltac:(lra) : 0 < py c - t) (ltac:(lra) : 0 < py a - t) L Ng) as [ZB ZD].
  assert (d = b) as -> by (destruct (weak_zero _ (a, b) d H Ie F2 ZB) as [X|X]; cbn [fst snd] in X; auto; subst; lra).
  assert (cross3 c b a = - cross3 a b c) as Sg by (unfold cross3; ring). assert (cross3 a b c = 0) as ZA by lra.
  destruct (weak_zero _ (a, b) c H Ie F1 ZA) as [X|X]; cbn [fst snd] in X; subst; auto; lra.
Qed.

(** Number of sides crossed: none, or one upwards and one downwards. *)
Lemma level_sides pts t : convexCCW pts -> (filter (upB t) (cyc pts) = [] /\ filter (dnB t) (cyc pts) = []) \/
  exists u d, In u (cyc pts) /\ In d (cyc pts) /\ upB t u = true /\ dnB t d = true /\ filter (upB t) (cyc pts) = [u] /\ filter (dnB t) (cyc pts) = [d].
Proof.
  intros (L & N & H). fold (weakLeft pts) in H. pose proof (cyc_nodup _ N) as Nc.
  assert (xorb (xsum (upB t) (cyc pts)) (xsum (dnB t) (cyc pts)) = false) as P.
  { rewrite <- xsum_xor. rewrite <- (xsum_cyc (fun v => lt t (py v)) pts). apply xsum_ext. intros e _. unfold upB, dnB. destruct (lt t (py (fst e))), (lt t (py (snd e))); reflexivity. }
  rewrite <- !xsum_odd in P.
  destruct (filter_one (upB t) (cyc pts) Nc (fun e f Ie If => up_unique pts t e f H Ie If)) as [E1|(u & Iu & Fu & E1)];
  destruct (filter_one (dnB t) (cyc pts) Nc (fun e f Ie If => dn_unique pts t e f H Ie If)) as [E2|(d & Id & Fd & E2)]; rewrite E1, E2 in P |- *; try discriminate P; auto.
  right. exists u, d. auto 7.
Qed.
Lemma eCross_split p e : eCross p e = xorb (upB (py p) e && lt 0 (cross3 (fst e) (snd e) p)) (dnB (py p) e && lt (cross3 (fst e) (snd e) p) 0).
Proof.
  destruct e as [a b]. unfold eCross, cE, upB, dnB. cbn [fst snd]. generalize (lt 0 (cross3 a b p)), (lt (cross3 a b p) 0). intros x y. destruct (lt (py p) (py a)), (lt (py p) (py b)), x, y; reflexivity.
Qed.
Lemma filter_andb {A} (f g : A -> bool) l : filter (fun x => f x && g x) l = filter g (filter f l).
Proof. induction l as [|x l IH]; auto. cbn. destruct (f x); cbn; [destruct (g x)|]; congruence. Qed.
Lemma xsum_split pts p : xsum (eCross p) (cyc pts) =
  xorb (Nat.odd (length (filter (fun e => lt 0 (cross3 (fst e) (snd e) p)) (filter (upB (py p)) (cyc pts)))))
       (Nat.odd (length (filter (fun e => lt (cross3 (fst e) (snd e) p) 0) (filter (dnB (py p)) (cyc pts))))).
Proof.
  rewrite (xsum_ext _ _ (cyc pts) (fun e _ => eCross_split p e)), xsum_xor, <- !xsum_odd, !filter_andb. reflexivity.
Qed.

(** The point of a side at a level. *)
Definition atLevel (e : pt R * pt R) (t : R) : pt R := mkPt (px (fst e) + (t - py (fst e)) / (py (snd e) - py (fst e)) * (px (snd e) - px (fst e))) t.
Lemma atLevel_along e t : py (fst e) <> py (snd e) -> atLevel e t = along (fst e) (snd e) ((t - py (fst e)) / (py (snd e) - py (fst e))).
Proof. intros N. unfold atLevel, along. f_equal. field. lra. Qed.
Lemma frac_range (a b t : R) : (a <= t < b \/ b <= t < a) -> 0 <= (t - a) / (b - a) <= 1.
Proof.
  intros [H|H].
  - split; [apply Rmult_le_pos; [lra|left; apply Rinv_0_lt_compat; lra]|]. apply (Rmult_le_reg_r (b - a)); [lra|]. unfold Rdiv. rewrite Rmult_assoc, Rinv_l by lra. lra.
  - replace ((t - a) / (b - a)) with ((a - t) / (a - b)) by (field; lra).
    split; [apply Rmult_le_pos; [lra|left; apply Rinv_0_lt_compat; lra]|]. apply (Rmult_le_reg_r (a - b)); [lra|]. unfold Rdiv. rewrite Rmult_assoc, Rinv_l by lra. lra.
Qed.
Lemma atLevel_on e t : (py (fst e) <= t < py (snd e) \/ py (snd e) <= t < py (fst e)) -> onSeg (fst e) (snd e) (atLevel e t).
Proof. intros H. rewrite atLevel_along by lra. apply onSeg_along. eexists. split; [|reflexivity]. now apply frac_range. Qed.
Lemma cross_level_x e p : py (fst e) <> py (snd e) -> cross3 (fst e) (snd e) p = (py (snd e) - py (fst e)) * (px (atLevel e (py p)) - px p).
Proof. intros N. unfold cross3, atLevel. cbn [px]. field. lra. Qed.
Lemma on_weak pts g e q : weakLeft pts -> In g (cyc pts) -> In e (cyc pts) -> onSeg (fst e) (snd e) q -> 0 <= cross3 (fst g) (snd g) q.
Proof.
  intros H Ig Ie O. destruct (cyc_in _ _ Ie) as [I1 I2]. pose proof (weak_pos _ _ _ H Ig I1). pose proof (weak_pos _ _ _ H Ig I2). apply onSeg_along in O. destruct O as (s & Hs & ->).
  replace (cross3 (fst g) (snd g) (along (fst e) (snd e) s)) with ((1 - s) * cross3 (fst g) (snd g) (fst e) + s * cross3 (fst g) (snd g) (snd e)) by (unfold cross3, along; cbn [px py]; ring).
  assert (0 <= (1 - s) * cross3 (fst g) (snd g) (fst e)) by (apply Rmult_le_pos; lra). assert (0 <= s * cross3 (fst g) (snd g) (snd e)) by (apply Rmult_le_pos; lra). lra.
Qed.

(** A vertex of greatest (least) ordinate cannot see all sides on their left from above (below). *)
Lemma top_contra (u v w p : pt R) : 0 < cross3 u v p -> 0 < cross3 v w p -> 0 < cross3 u v w -> py u <= py v -> py w <= py v -> py v <= py p -> False.
Proof.
  intros A B C Hu Hw Hp. assert ((py v - py w) * cross3 u v p + (py v - py u) * cross3 v w p = - (py p - py v) * cross3 u v w) as I by (unfold cross3; ring).
  assert (0 <= (py v - py w) * cross3 u v p) by (apply Rmult_le_pos; lra). assert (0 <= (py v - py u) * cross3 v w p) by (apply Rmult_le_pos; lra). assert (0 <= (py p - py v) * cross3 u v w) by (apply Rmult_le_pos; lra).
  assert (py v = py w) as E1 by (apply Rminus_diag_uniq; destruct (Req_dec (py v - py w) 0); auto; exfalso; nra).
  assert (py v = py u) as E2 by (apply Rminus_diag_uniq; destruct (Req_dec (py v - py u) 0); auto; exfalso; nra).
  unfold cross3 in C. rewrite <- E1, <- E2 in C. lra.
Qed.
Definition flip (p : pt R) : pt R := mkPt (- px p) (- py p).
Lemma cross_flip u v p : cross3 (flip u) (flip v) (flip p) = cross3 u v p.
Proof. unfold cross3, flip. cbn [px py]. ring. Qed.
Lemma max_vertex (f : pt R -> R) (l : list (pt R)) : l <> [] -> exists v, In v l /\ forall w, In w l -> f w <= f v.
Proof.
  induction l as [|a l IH]; intros N; [congruence|]. destruct l as [|b l].
  - exists a. split; [now left|]. intros w [<-|[]]. lra.
  - destruct IH as (v & Iv & Hv); [discriminate|]. destruct (Rle_lt_dec (f a) (f v)).
    + exists v. split; [now right|]. intros w [<-|I]; auto.
    + exists a. split; [now left|]. intros w [<-|I]; [lra|]. specialize (Hv w I). lra.
Qed.
Lemma around pts v p : weakLeft pts -> leftOfAll pts p -> In v pts -> exists u w, In u pts /\ In w pts /\ 0 < cross3 u v p /\ 0 < cross3 v w p /\ 0 < cross3 u v w.
Proof.
  intros H Lf I. destruct (cyc_snd_in _ _ I) as (u & Iu). destruct (cyc_fst_in _ _ I) as (w & Iw). exists u, w.
  destruct (cyc_in _ _ Iu) as [Iu' _]. destruct (cyc_in _ _ Iw) as [_ Iw']. cbn [fst snd] in *. pose proof (Lf _ Iu) as A. pose proof (Lf _ Iw) as B. cbn [fst snd] in *. do 4 (split; auto).
  destruct (H _ _ Iu Iw') as [E|[E|E]]; cbn [fst snd] in E; auto; exfalso; subst w.
  - rewrite cross_swap in B. lra.
  - unfold cross3 in B. lra.
Qed.

Theorem convex_inside pts p : convexCCW pts -> offSides pts p -> (xsum (eCross p) (cyc pts) = true <-> leftOfAll pts p).
Proof.
  intros Cv Of. pose proof Cv as (L & N & H). fold (weakLeft pts) in H. rewrite xsum_split. split.
  - destruct (level_sides pts (py p) Cv) as [[E1 E2]|(u & d & Iu & Id & Uu & Dd & E1 & E2)]; rewrite E1, E2; cbn [filter]; [discriminate|].
    apply upB_spec in Uu. apply dnB_spec in Dd. pose proof (cross_level_x u p ltac:(lra)) as Xu. pose proof (cross_level_x d p ltac:(lra)) as Xd.
    pose proof (atLevel_on u (py p) ltac:(lra)) as Ou. pose proof (atLevel_on d (py p) ltac:(lra)) as Od. set (qu := atLevel u (py p)) in *. set (qd := atLevel d (py p)) in *.
    assert (py qu = py p) as Yu by reflexivity. assert (py qd = py p) as Yd by reflexivity.
    assert (px qu <> px p) as Nu. { intros E. apply (Of u Iu). replace p with qu; auto. apply pt_ext; auto. }
    assert (px qd <> px p) as Nd. { intros E. apply (Of d Id). replace p with qd; auto. apply pt_ext; auto. }
    destruct (lt 0 (cross3 (fst u) (snd u) p)) eqn:Lu; destruct (lt (cross3 (fst d) (snd d) p) 0) eqn:Ld; cbn [length Nat.odd]; cbn; try discriminate; intros _.
    + (* between the two sides *)
      apply lt_spec in Lu. apply lt_false in Ld. assert (px p < px qu) as Pu by nra. assert (px qd < px p) as Pd. { destruct (Rtotal_order (px qd) (px p)) as [|[|]]; auto; [contradiction|]. exfalso. nra. }
      intros g Ig. pose proof (on_weak pts g u qu H Ig Iu Ou) as Gu. pose proof (on_weak pts g d qd H Ig Id Od) as Gd.
      assert ((px qu - px qd) * cross3 (fst g) (snd g) p = (px p - px qd) * cross3 (fst g) (snd g) qu + (px qu - px p) * cross3 (fst g) (snd g) qd) as Mx by (unfold cross3; rewrite Yu, Yd; ring).
      destruct (Rlt_le_dec 0 (cross3 (fst g) (snd g) p)) as [|Z]; auto. exfalso.
      assert (cross3 (fst g) (snd g) qu = 0) as Zu by nra. assert (cross3 (fst g) (snd g) qd = 0) as Zd by nra.
      assert (py (fst g) = py (snd g)) as Hg. { unfold cross3 in Zu, Zd. rewrite Yu in Zu. rewrite Yd in Zd. assert ((py (snd g) - py (fst g)) * (px qu - px qd) = 0) as K by lra. apply Rmult_integral in K. lra. }
      assert (forall v, cross3 (fst g) (snd g) v = (px (snd g) - px (fst g)) * (py v - py (fst g))) as Cg by (intros v; unfold cross3; rewrite Hg; ring).
      destruct (cyc_in _ _ Iu) as [Iu1 Iu2]. destruct (cyc_in _ _ Id) as [Id1 Id2].
      pose proof (weak_pos _ _ _ H Ig Iu1) as W1. pose proof (weak_pos _ _ _ H Ig Iu2) as W2. pose proof (weak_pos _ _ _ H Ig Id2) as W3. rewrite Cg in W1, W2, W3, Zu. rewrite Yu in Zu.
      apply Rmult_integral in Zu. assert (px (snd g) <> px (fst g)) as Ng.
      { intros E. destruct (cyc_in _ _ Ig) as [G1 G2]. assert (cross3 (fst g) (snd g) (snd u) = 0) as Q1 by (rewrite Cg, E; ring). assert (cross3 (fst g) (snd g) (fst u) = 0) as Q2 by (rewrite Cg, E; ring).
        assert (fst g = snd g) as GG by (apply pt_ext; auto).
        destruct (weak_zero _ _ _ H Ig Iu2 Q1) as [R1|R1]; destruct (weak_zero _ _ _ H Ig Iu1 Q2) as [R2|R2]; rewrite ?R1, ?R2, ?GG in Uu; lra. }
      assert (py p = py (fst g)) as Lv by lra.
      assert (0 < px (snd g) - px (fst g)) as Pg. { destruct (Rtotal_order (px (snd g) - px (fst g)) 0) as [K|[K|K]]; auto; [|lra]. exfalso. nra. }
      assert (py (fst u) = py p) as B1 by nra. assert (py (snd d) = py p) as B2 by nra.
      assert (cross3 (fst g) (snd g) (fst u) = 0) as Q1 by (rewrite Cg, B1, Lv; ring). assert (cross3 (fst g) (snd g) (snd d) = 0) as Q2 by (rewrite Cg, B2, Lv; ring).
      assert (qu = fst u) as Eu. { unfold qu, atLevel. rewrite B1. destruct (fst u) as [x y]; cbn [px py] in *. f_equal; [|auto]. unfold Rdiv. ring. }
      assert (qd = snd d) as Ed. { unfold qd, atLevel. rewrite B2. destruct (snd d) as [x y]; cbn [px py] in *. f_equal; [|auto]. field. lra. }
      rewrite <- Eu in Q1. rewrite <- Ed in Q2. rewrite Eu in Q1. rewrite Ed in Q2.
      assert (onSeg (fst g) (snd g) p) as OO; [|apply (Of g Ig OO)].
      assert (px (fst g) <= px p <= px (snd g)) as Rg. { destruct (weak_zero _ _ _ H Ig Iu1 Q1) as [R1|R1]; destruct (weak_zero _ _ _ H Ig Id2 Q2) as [R2|R2]; rewrite Eu, R1 in Pu; rewrite Ed, R2 in Pd; lra. }
      apply onSeg_along. exists ((px p - px (fst g)) / (px (snd g) - px (fst g))). split.
      * split; [apply Rmult_le_pos; [lra|left; apply Rinv_0_lt_compat; lra]|]. apply (Rmult_le_reg_r (px (snd g) - px (fst g))); [lra|]. unfold Rdiv. rewrite Rmult_assoc, Rinv_l by lra. lra.
      * unfold along. destruct p as [x y]; cbn [px py] in *. f_equal; [field; lra|rewrite Hg in *; rewrite Lv; ring].
    + exfalso. apply lt_spec in Ld. apply lt_false in Lu. pose proof (on_weak pts u d qd H Iu Id Od) as K.
      assert (cross3 (fst u) (snd u) qd = cross3 (fst u) (snd u) p - (py (snd u) - py (fst u)) * (px qd - px p)) as E by (unfold cross3; rewrite Yd; ring). nra.
  - intros Lf. assert (pts <> []) as Ne by (intros ->; cbn in L; lia).
    destruct (level_sides pts (py p) Cv) as [[E1 E2]|(u & d & Iu & Id & Uu & Dd & E1 & E2)]; rewrite E1, E2; cbn [filter].
    + exfalso. assert (forall v w, In v pts -> In w pts -> py p < py v -> py w <= py p -> False) as NC.
      { intros v w Iv Iw Hv Hw. destruct (cyc_change (fun x => lt (py p) (py x)) pts v w Iv Iw) as (e & Ie & Ne'); [now apply lt_spec|now apply lt_false|].
        destruct (lt (py p) (py (fst e))) eqn:F1; destruct (lt (py p) (py (snd e))) eqn:F2; try congruence.
        - assert (In e (filter (dnB (py p)) (cyc pts))) as K by (apply filter_In; split; auto; unfold dnB; now rewrite F1, F2). rewrite E2 in K. destruct K.
        - assert (In e (filter (upB (py p)) (cyc pts))) as K by (apply filter_In; split; auto; unfold upB; now rewrite F1, F2). rewrite E1 in K. destruct K. }
      destruct (max_vertex py pts Ne) as (v & Iv & Mv). destruct (max_vertex (fun x => - py x) pts Ne) as (z & Iz & Mz).
      destruct (Rle_lt_dec (py v) (py p)) as [G|G].
      * destruct (around pts v p H Lf Iv) as (u & w & Iu & Iw & A & B & C). apply (top_contra u v w p A B C); auto.
      * destruct (Rle_lt_dec (py z) (py p)) as [G'|G']; [apply (NC v z); auto|].
        destruct (around pts z p H Lf Iz) as (u & w & Iu & Iw & A & B & C). apply (top_contra (flip u) (flip z) (flip w) (flip p)); rewrite ?cross_flip; auto; unfold flip; cbn [py]; try apply Mz; auto; lra.
    + pose proof (Lf u Iu) as Pu. pose proof (Lf d Id) as Pd. rewrite (proj2 (lt_spec _ _) Pu). rewrite (proj2 (lt_false (cross3 (fst d) (snd d) p) 0)) by lra. reflexivity.
Qed.
