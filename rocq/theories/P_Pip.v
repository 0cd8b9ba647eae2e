(** * Parity of crossings *)

From Coq Require Import Reals Lra Lia List Bool Arith.
From Verif Require Import Num M_LP S_Geom S_Seg S_Poly S_Pip P_LP P_LP2 P_Seg P_Poly P_Parity.
Import ListNotations.
Local Open Scope R_scope.

(** ** Sums modulo 2 *)
Definition xsum {A} (f : A -> bool) (l : list A) : bool := fold_right (fun e b => xorb (f e) b) false l.
Lemma xsum_xor {A} (f g : A -> bool) l : xsum (fun e => xorb (f e) (g e)) l = xorb (xsum f l) (xsum g l).
Proof. induction l as [|x l IH]; auto. cbn. fold (xsum (fun e => xorb (f e) (g e)) l). rewrite IH. unfold xsum. destruct (f x), (g x), (fold_right _ false l), (fold_right _ false l); reflexivity. Qed.
Lemma xsum_ext {A} (f g : A -> bool) l : (forall e, In e l -> f e = g e) -> xsum f l = xsum g l.
Proof. induction l as [|x l IH]; intros H; auto. cbn. rewrite (H x) by (now left). f_equal. apply IH. intros; apply H; now right. Qed.
Lemma xsum_false {A} (l : list A) : xsum (fun _ => false) l = false.
Proof. induction l as [|x l IH]; [reflexivity|]. unfold xsum in *. cbn [fold_right]. rewrite IH. reflexivity. Qed.
Lemma xsum_odd {A} (f : A -> bool) l : Nat.odd (length (filter f l)) = xsum f l.
Proof.
  induction l as [|x l IH]; auto. cbn [filter]. unfold xsum in *. cbn [fold_right]. rewrite <- IH. destruct (f x); [|now rewrite xorb_false_l].
  cbn [length]. rewrite Nat.odd_succ, <- Nat.negb_odd. now destruct (Nat.odd _).
Qed.
Lemma xsum_chain {A} (g : A -> bool) r (a z : A) : xsum (fun e => xorb (g (fst e)) (g (snd e))) (combine (a :: r) (r ++ [z])) = xorb (g a) (g z).
Proof.
  revert a. induction r as [|b r IH]; intros a.
  - cbn. now rewrite xorb_false_r.
  - change (xorb (xorb (g a) (g b)) (xsum (fun e => xorb (g (fst e)) (g (snd e))) (combine (b :: r) (r ++ [z]))) = xorb (g a) (g z)). rewrite IH.
    destruct (g a), (g b), (g z); reflexivity.
Qed.
Lemma xsum_cyc {A} (g : A -> bool) (l : list A) : xsum (fun e => xorb (g (fst e)) (g (snd e))) (cyc l) = false.
Proof. destruct l as [|a r]; auto. unfold cyc. rewrite xsum_chain. apply xorb_nilpotent. Qed.

Lemma countP_filter {A} (P : A -> Prop) (f : A -> bool) l : (forall x, In x l -> (f x = true <-> P x)) -> countP P l (length (filter f l)).
Proof.
  induction l as [|x l IH]; intros H; [constructor|]. cbn [filter]. destruct (f x) eqn:E.
  - cbn [length]. constructor; [apply H; [now left|auto]|apply IH; intros; apply H; now right].
  - constructor; [|apply IH; intros; apply H; now right]. rewrite <- H by (now left). now rewrite E.
Qed.
Lemma countP_fun {A} (P : A -> Prop) l n m : countP P l n -> countP P l m -> n = m.
Proof. intros H. revert m. induction H; intros m K; inversion K; subst; auto; tauto. Qed.
Lemma countP_xsum {A} (P : A -> Prop) (f : A -> bool) l n : (forall x, In x l -> (f x = true <-> P x)) -> countP P l n -> (Nat.Odd n <-> xsum f l = true).
Proof. intros H C. rewrite (countP_fun _ _ _ _ C (countP_filter P f l H)). rewrite <- xsum_odd, Nat.odd_spec. reflexivity. Qed.

(** ** The four orientations of a side and a segment *)
Implicit Types (p q r v a b : pt R) (e : pt R * pt R) (pts : list (pt R)).
Definition eCross p e : bool := cE (py (fst e)) (py (snd e)) (py p) (cross3 (fst e) (snd e) p).
Lemma eCross_spec p e : eCross p e = true <-> crossR p e.
Proof.
  destruct e as [a b]. unfold eCross, cE, crossR. cbn [fst snd].
  assert (forall k n d : R, 0 < d -> (k < n / d <-> k * d < n)) as DV.
  { intros k n d Hd. split; intros H.
    - replace n with (n / d * d) by (field; lra). nra.
    - apply (Rmult_lt_reg_r d); auto. replace (n / d * d) with n by (field; lra). auto. }
  destruct (lt (py p) (py a)) eqn:Ea; destruct (lt (py p) (py b)) eqn:Eb; rewrite ?lt_spec, ?lt_false in *.
  - split; [discriminate|]. intros [[H|H] _]; lra.
  - pose proof (DV (px p - px a) ((py a - py p) * (px b - px a)) (py a - py b) ltac:(lra)) as K.
    replace ((py p - py a) * (px b - px a) / (py b - py a)) with ((py a - py p) * (px b - px a) / (py a - py b)) by (field; lra).
    split; [intros H; split; [right; lra|]|intros [_ H]].
    + apply (Rplus_lt_reg_l (- px a)). ring_simplify. assert (px p - px a < (py a - py p) * (px b - px a) / (py a - py b)); [|lra]. apply K. unfold cross3 in H. nra.
    + assert (px p - px a < (py a - py p) * (px b - px a) / (py a - py b)) as H' by lra. apply K in H'. unfold cross3. nra.
  - pose proof (DV (px p - px a) ((py p - py a) * (px b - px a)) (py b - py a) ltac:(lra)) as K.
    split; [intros H; split; [left; lra|]|intros [_ H]].
    + assert (px p - px a < (py p - py a) * (px b - px a) / (py b - py a)); [|lra]. apply K. unfold cross3 in H. nra.
    + assert (px p - px a < (py p - py a) * (px b - px a) / (py b - py a)) as H' by lra. apply K in H'. unfold cross3. nra.
  - split; [discriminate|]. intros [[H|H] _]; lra.
Qed.
Lemma insideEO_xsum pts p : insideEO pts p <-> xsum (eCross p) (cyc pts) = true.
Proof.
  split.
  - intros (n & C & O). apply (countP_xsum (crossR p) (eCross p) (cyc pts) n); auto. intros; apply eCross_spec.
  - intros H. exists (length (filter (eCross p) (cyc pts))). split; [apply countP_filter; intros; apply eCross_spec|]. apply Nat.odd_spec. now rewrite xsum_odd.
Qed.

Lemma off_product a b p r : a <> b -> cross3 a b p = 0 -> ~ onSeg a b p -> cross3 a b r <> 0 -> 0 < cross3 p r a * cross3 p r b.
Proof.
  intros N Z O B. destruct (line_param a b p N Z) as (t & ->).
  assert (t < 0 \/ 1 < t) as T. { destruct (Rlt_dec t 0); auto. destruct (Rlt_dec 1 t); auto. exfalso. apply O. apply onSeg_along. exists t. split; auto. lra. }
  assert (cross3 (along a b t) r a = t * cross3 a b r) as -> by (unfold cross3, along; cbn [px py]; ring).
  assert (cross3 (along a b t) r b = - (1 - t) * cross3 a b r) as -> by (unfold cross3, along; cbn [px py]; ring).
  replace (t * cross3 a b r * (- (1 - t) * cross3 a b r)) with (t * (t - 1) * (cross3 a b r * cross3 a b r)) by ring.
  apply Rmult_lt_0_compat; [destruct T; nra|]. assert (0 < cross3 a b r \/ cross3 a b r < 0) as [H|H] by lra; nra.
Qed.
Lemma cross_sum a b p r : cross3 a b p + cross3 p r a = cross3 a b r + cross3 p r b.
Proof. unfold cross3. ring. Qed.
Lemma cross_level a b p r : cross3 a b p * py r + cross3 p r a * py b = cross3 a b r * py p + cross3 p r b * py a.
Proof. unfold cross3. ring. Qed.
Lemma cross_swap a b p : cross3 b a p = - cross3 a b p.
Proof. unfold cross3. ring. Qed.
Lemma para_all a b p r : p <> r -> cross3 p r a = 0 -> cross3 p r b = 0 -> cross3 a b p = 0 /\ cross3 a b r = 0.
Proof.
  intros N A B. destruct (line_param p r a N A) as (t & ->). destruct (line_param p r b N B) as (u & ->). unfold cross3, along. cbn [px py]. split; ring.
Qed.

Lemma mix_sign (A B u : R) : 0 <= u <= 1 -> (1 - u) * A + u * B = 0 -> ~ 0 < A * B.
Proof.
  intros Hu F X. destruct (Rtotal_order A 0) as [HA|[HA|HA]]; [|rewrite HA in X; lra|].
  - assert (B < 0) as HB. { destruct (Rlt_le_dec B 0) as [|L]; auto. exfalso. pose proof (Rmult_le_compat_neg_l A 0 B ltac:(lra) L). lra. }
    destruct (Rle_lt_dec A B); [assert ((1 - u) * (A - B) <= 0) by nra; lra|assert (u * (B - A) <= 0) by nra; lra].
  - assert (0 < B) as HB. { destruct (Rlt_le_dec 0 B) as [|L]; auto. exfalso. pose proof (Rmult_le_compat_l A B 0 ltac:(lra) L). lra. }
    destruct (Rle_lt_dec A B); [assert (0 <= u * (B - A)) by nra; lra|assert (0 <= (1 - u) * (A - B)) by nra; lra].
Qed.
Definition gC p r a : bool := cG (py p) (py r) (py a) (cross3 p r a).
Definition meetB p r e : bool := opp (cross3 (fst e) (snd e) p) (cross3 (fst e) (snd e) r) && opp (cross3 p r (fst e)) (cross3 p r (snd e)).
Lemma opp_spec (x y : R) : opp x y = true <-> (0 < x /\ y < 0) \/ (x < 0 /\ 0 < y).
Proof. unfold opp. rewrite orb_true_iff, !andb_true_iff, !lt_spec. reflexivity. Qed.
Lemma opp_same (x y : R) : 0 < x * y -> opp x y = false.
Proof. intros H. apply not_true_is_false. rewrite opp_spec. intros [X|X]; nra. Qed.
Lemma meet_parity p r e : fst e <> snd e -> p <> r -> ~ onSeg (fst e) (snd e) p -> ~ onSeg (fst e) (snd e) r -> ~ onSeg p r (fst e) -> ~ onSeg p r (snd e) ->
  xorb (meetB p r e) (xorb (eCross p e) (eCross r e)) = xorb (gC p r (fst e)) (gC p r (snd e)) /\ (meetB p r e = true <-> meetsSide p r e).
Proof.
  destruct e as [a b]. cbn [fst snd]. intros Nab Npr Op Or Oa Ob. unfold meetB, eCross, gC, meetsSide. cbn [fst snd].
  pose proof (cross_sum a b p r) as S. pose proof (cross_level a b p r) as L.
  destruct (Req_dec (cross3 a b p) 0) as [ZA|NA]; destruct (Req_dec (cross3 a b r) 0) as [ZB|NB].
  { assert (cross3 p r a = 0 /\ cross3 p r b = 0) as [ZC ZD] by (destruct (para_all p r a b Nab ZA ZB); auto). rewrite ZA, ZB, ZC, ZD. split.
    - unfold opp, cE, cG. assert (lt 0 0 = false) as Z0 by (apply lt_false; lra). rewrite Z0. clear Z0. cbn [andb orb]. repeat match goal with |- context [lt ?x ?y] => destruct (lt x y) end; reflexivity.
    - rewrite andb_true_iff, opp_spec. split; [lra|]. intros (q & Q1 & Q2). exfalso. apply onSeg_along in Q1. destruct Q1 as (t & Ht & ->).
      destruct (line_param a b p Nab ZA) as (tp & ->). destruct (line_param a b r Nab ZB) as (tr & ->).
      assert (tp < 0 \/ 1 < tp) as Tp. { destruct (Rlt_dec tp 0); auto. destruct (Rlt_dec 1 tp); auto. exfalso. apply Op. apply onSeg_along. exists tp. split; auto. lra. }
      assert (tr < 0 \/ 1 < tr) as Tr. { destruct (Rlt_dec tr 0); auto. destruct (Rlt_dec 1 tr); auto. exfalso. apply Or. apply onSeg_along. exists tr. split; auto. lra. }
      destruct Q2 as (s & Hs & E1 & E2). unfold along in E1, E2. cbn [px py] in E1, E2.
      assert (t = tp + s * (tr - tp)) as Et.
      { assert ((t - (tp + s * (tr - tp))) * (px b - px a) = 0) as F1 by lra. assert ((t - (tp + s * (tr - tp))) * (py b - py a) = 0) as F2 by lra.
        apply Rmult_integral in F1. apply Rmult_integral in F2. destruct F1 as [F1|F1]; [lra|]. destruct F2 as [F2|F2]; [lra|]. exfalso. apply Nab. destruct a, b. cbn in *. f_equal; lra. }
      apply Oa. assert ((tp < 0 /\ 1 < tr) \/ (1 < tp /\ tr < 0)) as K by (destruct Tp, Tr; [exfalso; destruct (Rle_lt_dec tp tr); nra|left; lra|right; lra|exfalso; destruct (Rle_lt_dec tp tr); nra]).
      exists (- tp / (tr - tp)). assert (0 <= - tp / (tr - tp) <= 1) as Rg.
      { destruct K as [K|K].
        - split; [apply Rlt_le, Rdiv_lt_0_compat; lra|]. apply (Rmult_le_reg_r (tr - tp)); [lra|]. replace (- tp / (tr - tp) * (tr - tp)) with (- tp) by (field; lra). lra.
        - replace (- tp / (tr - tp)) with (tp / (tp - tr)) by (field; lra). split; [apply Rlt_le, Rdiv_lt_0_compat; lra|]. apply (Rmult_le_reg_r (tp - tr)); [lra|]. replace (tp / (tp - tr) * (tp - tr)) with tp by (field; lra). lra. }
      split; auto. unfold along. cbn [px py]. split; field; lra. }
  all: assert (cross3 p r a <> 0 \/ cross3 p r b <> 0) as NCD by (destruct (Req_dec (cross3 p r a) 0) as [ZC|]; auto; destruct (Req_dec (cross3 p r b) 0) as [ZD|]; auto; exfalso; destruct (para_all a b p r Npr ZC ZD); tauto).
  all: assert (cross3 a b p = 0 -> 0 < cross3 p r a * cross3 p r b) as HA by (intros Z; apply off_product; auto; lra).
  all: assert (cross3 a b r = 0 -> 0 < cross3 p r a * cross3 p r b) as HB by (intros Z; replace (cross3 p r a * cross3 p r b) with (cross3 r p a * cross3 r p b) by (rewrite !(cross_swap p r); ring); apply off_product; auto; lra).
  all: assert (cross3 p r a = 0 -> 0 < cross3 a b p * cross3 a b r) as HC by (intros Z; apply off_product; auto; lra).
  all: assert (cross3 p r b = 0 -> 0 < cross3 a b p * cross3 a b r) as HD by (intros Z; replace (cross3 a b p * cross3 a b r) with (cross3 b a p * cross3 b a r) by (rewrite !(cross_swap a b); ring); apply off_product; auto; lra).
  all: split; [apply parity_core; auto; unfold cross3; intros E1 E2; rewrite ?E1, ?E2; ring|].
  all: rewrite andb_true_iff, !opp_spec; split.
  all: try (intros [H1 H2]; assert (cross3 a b p - cross3 a b r <> 0) as D1 by lra; assert (cross3 p r a - cross3 p r b <> 0) as D2 by lra;
    exists (along a b (cross3 p r a / (cross3 p r a - cross3 p r b))); split;
    [exists (cross3 p r a / (cross3 p r a - cross3 p r b)); split; [|cbn; auto]; split;
       [destruct H2; [apply Rlt_le, Rdiv_lt_0_compat; lra|replace (cross3 p r a / (cross3 p r a - cross3 p r b)) with (- cross3 p r a / (cross3 p r b - cross3 p r a)) by (field; lra); apply Rlt_le, Rdiv_lt_0_compat; lra]
       |assert (0 <= 1 - cross3 p r a / (cross3 p r a - cross3 p r b)); [|lra]; destruct H2; [replace (1 - cross3 p r a / (cross3 p r a - cross3 p r b)) with (- cross3 p r b / (cross3 p r a - cross3 p r b)) by (field; lra)|replace (1 - cross3 p r a / (cross3 p r a - cross3 p r b)) with (cross3 p r b / (cross3 p r b - cross3 p r a)) by (field; lra)]; apply Rlt_le, Rdiv_lt_0_compat; lra]
    |exists (cross3 a b p / (cross3 a b p - cross3 a b r)); split;
       [split;
       [destruct H1; [apply Rlt_le, Rdiv_lt_0_compat; lra|replace (cross3 a b p / (cross3 a b p - cross3 a b r)) with (- cross3 a b p / (cross3 a b r - cross3 a b p)) by (field; lra); apply Rlt_le, Rdiv_lt_0_compat; lra]
       |assert (0 <= 1 - cross3 a b p / (cross3 a b p - cross3 a b r)); [|lra]; destruct H1; [replace (1 - cross3 a b p / (cross3 a b p - cross3 a b r)) with (- cross3 a b r / (cross3 a b p - cross3 a b r)) by (field; lra)|replace (1 - cross3 a b p / (cross3 a b p - cross3 a b r)) with (cross3 a b r / (cross3 a b r - cross3 a b p)) by (field; lra)]; apply Rlt_le, Rdiv_lt_0_compat; lra]
       |unfold along; cbn [px py]; unfold cross3 in *; split; field; split; auto]]).
  all: intros (q & Q1 & Q2); apply onSeg_along in Q1; destruct Q1 as (t & Ht & ->); apply onSeg_along in Q2; destruct Q2 as (s & Hs & E).
  all: assert ((1 - t) * cross3 p r a + t * cross3 p r b = 0) as F1 by (transitivity (cross3 p r (along a b t)); [unfold cross3, along; cbn [px py]; ring|rewrite E; unfold cross3, along; cbn [px py]; ring]).
  all: assert ((1 - s) * cross3 a b p + s * cross3 a b r = 0) as F2 by (transitivity (cross3 a b (along p r s)); [unfold cross3, along; cbn [px py]; ring|rewrite <- E; unfold cross3, along; cbn [px py]; ring]).
  all: pose proof (mix_sign _ _ _ Ht F1) as M1; pose proof (mix_sign _ _ _ Hs F2) as M2.
  all: assert (cross3 a b p <> 0 /\ cross3 a b r <> 0 /\ cross3 p r a <> 0 /\ cross3 p r b <> 0) as (X1 & X2 & X3 & X4) by (repeat split; intros Z; tauto).
  all: clear - M1 M2 X1 X2 X3 X4; revert M1 M2 X1 X2 X3 X4; generalize (cross3 a b p) (cross3 a b r) (cross3 p r a) (cross3 p r b); intros A B C D M1 M2 X1 X2 X3 X4.
  all: split; [destruct (Rdichotomy A 0 X1), (Rdichotomy B 0 X2)|destruct (Rdichotomy C 0 X3), (Rdichotomy D 0 X4)]; try (exfalso; nra); lra.
Qed.

(** ** A point outside of the box *)
Lemma cyc_in {A} (l : list A) (e : A * A) : In e (cyc l) -> In (fst e) l /\ In (snd e) l.
Proof.
  destruct l as [|a r]; [tauto|]. unfold cyc. destruct e as [x y]. intros I. split; cbn [fst snd]; [eapply in_combine_l; eauto|].
  apply in_combine_r in I. apply in_app_or in I. destruct I as [I|[<-|[]]]; [now right|now left].
Qed.
Lemma outBox_even pts p : noNullSide pts -> offSides pts p -> outBox pts p -> xsum (eCross p) (cyc pts) = false.
Proof.
  intros NN Of H. destruct H as [H|[H|[H|H]]].
  - rewrite <- (xsum_cyc (fun v => lt (py p) (py v)) pts). apply xsum_ext. intros [a b] I. destruct (cyc_in _ _ I) as [Ia Ib]. specialize (Of _ I). cbn [fst snd] in *.
    apply H in Ia. apply H in Ib. unfold eCross, cE. cbn [fst snd]. destruct (lt (py p) (py a)) eqn:Ea; destruct (lt (py p) (py b)) eqn:Eb; rewrite ?lt_spec, ?lt_false in *; auto; cbn [xorb]; rewrite ?lt_spec.
    + assert (cross3 a b p <= 0) as L by (unfold cross3; nra). destruct L as [L|L]; auto. exfalso. apply Of. exists ((py a - py p) / (py a - py b)).
      split; [split; [apply Rmult_le_pos; [lra|apply Rlt_le, Rinv_0_lt_compat; lra]|apply (Rmult_le_reg_r (py a - py b)); [lra|]; unfold Rdiv; rewrite Rmult_assoc, Rinv_l by lra; lra]|].
      unfold cross3 in L. split; [|field; lra]. apply (Rmult_eq_reg_r (py a - py b)); [|lra]. transitivity (px a * (py a - py b) + (py a - py p) * (px b - px a)); [lra|field; lra].
    + assert (0 <= cross3 a b p) as L by (unfold cross3; nra). destruct L as [L|L]; auto. exfalso. apply Of. exists ((py p - py a) / (py b - py a)).
      split; [split; [apply Rmult_le_pos; [lra|apply Rlt_le, Rinv_0_lt_compat; lra]|apply (Rmult_le_reg_r (py b - py a)); [lra|]; unfold Rdiv; rewrite Rmult_assoc, Rinv_l by lra; lra]|].
      unfold cross3 in L. split; [|field; lra]. apply (Rmult_eq_reg_r (py b - py a)); [|lra]. transitivity (px a * (py b - py a) + (py p - py a) * (px b - px a)); [lra|field; lra].
  - rewrite <- (xsum_false (cyc pts)). apply xsum_ext. intros [a b] I. destruct (cyc_in _ _ I) as [Ia Ib]. cbn [fst snd] in *.
    apply H in Ia. apply H in Ib. unfold eCross, cE. cbn [fst snd]. destruct (lt (py p) (py a)) eqn:Ea; destruct (lt (py p) (py b)) eqn:Eb; rewrite ?lt_spec, ?lt_false in *; auto; unfold cross3; nra.
  - rewrite <- (xsum_cyc (fun v => negb (lt (py p) (py v)) && lt (px p) (px v)) pts). apply xsum_ext. intros [a b] I. destruct (cyc_in _ _ I) as [Ia Ib]. specialize (Of _ I). specialize (NN _ I). cbn [fst snd] in *.
    apply H in Ia. apply H in Ib. unfold eCross, cE. cbn [fst snd]. destruct (lt (py p) (py a)) eqn:Ea; destruct (lt (py p) (py b)) eqn:Eb; rewrite ?lt_spec, ?lt_false in *; auto; cbn [negb andb]; rewrite ?xorb_false_l, ?xorb_false_r.
    + assert (py b = py p) as E by lra. unfold cross3. apply eq_true_iff_eq. rewrite !lt_spec, E. split; intros; nra.
    + assert (py a = py p) as E by lra. unfold cross3. apply eq_true_iff_eq. rewrite !lt_spec, E. split; intros; nra.
    + assert (py a = py p) as E1 by lra. assert (py b = py p) as E2 by lra. destruct (lt (px p) (px a)) eqn:La; destruct (lt (px p) (px b)) eqn:Lb; rewrite ?lt_spec, ?lt_false in *; auto; exfalso; apply Of.
      * exists ((px a - px p) / (px a - px b)). split; [split; [apply Rmult_le_pos; [lra|apply Rlt_le, Rinv_0_lt_compat; lra]|apply (Rmult_le_reg_r (px a - px b)); [lra|]; unfold Rdiv; rewrite Rmult_assoc, Rinv_l by lra; lra]|].
        split; [field; lra|rewrite E1, E2; ring].
      * exists ((px p - px a) / (px b - px a)). split; [split; [apply Rmult_le_pos; [lra|apply Rlt_le, Rinv_0_lt_compat; lra]|apply (Rmult_le_reg_r (px b - px a)); [lra|]; unfold Rdiv; rewrite Rmult_assoc, Rinv_l by lra; lra]|].
        split; [field; lra|rewrite E1, E2; ring].
  - rewrite <- (xsum_false (cyc pts)). apply xsum_ext. intros [a b] I. destruct (cyc_in _ _ I) as [Ia Ib]. cbn [fst snd] in *.
    apply H in Ia. apply H in Ib. unfold eCross, cE. cbn [fst snd]. rewrite (proj2 (lt_false (py p) (py a))), (proj2 (lt_false (py p) (py b))) by auto. reflexivity.
Qed.

(** ** Any segment to the outside gives the same parity *)
Lemma ray_parity pts p r : noNullSide pts -> offSides pts p -> offSides pts r -> (forall v, In v pts -> ~ onSeg p r v) -> p <> r ->
  xorb (xsum (meetB p r) (cyc pts)) (xorb (xsum (eCross p) (cyc pts)) (xsum (eCross r) (cyc pts))) = false /\
  (forall e, In e (cyc pts) -> (meetB p r e = true <-> meetsSide p r e)).
Proof.
  intros NN Op Or V Npr. split.
  - rewrite <- !xsum_xor. rewrite <- (xsum_cyc (gC p r) pts). apply xsum_ext. intros e I. destruct (cyc_in _ _ I). apply meet_parity; auto.
  - intros e I. destruct (cyc_in _ _ I). apply meet_parity; auto.
Qed.
Lemma ray_out pts p r : noNullSide pts -> offSides pts p -> offSides pts r -> outBox pts r -> (forall v, In v pts -> ~ onSeg p r v) -> p <> r ->
  xsum (meetB p r) (cyc pts) = xsum (eCross p) (cyc pts).
Proof.
  intros NN Op Or B V Npr. destruct (ray_parity pts p r NN Op Or V Npr) as [E _]. rewrite (outBox_even pts r NN Or B) in E. rewrite xorb_false_r in E. now apply xorb_eq in E.
Qed.
