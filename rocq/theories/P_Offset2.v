(** * Proofs about outward offsets of convex polygons *)

From Coq Require Import Reals Lra Lia List Bool Arith.
From Verif Require Import Num M_LP M_Seg M_Poly M_Offset S_Geom S_Seg S_Poly S_Offset P_LP P_LP2 P_LP3 P_Seg P_Poly P_Poly2 P_Poly3 P_Poly6 P_Poly7 P_Offset.
Import ListNotations.
Local Open Scope R_scope.

(** a, b the directions of two consecutive sides of lengths L, M, w the vector from the common vertex to the
    offset vertex. *)
Lemma corner_dots ax ay bx by_ wx wy L M d : 0 < L -> 0 < M -> 0 < d -> L * L = ax * ax + ay * ay -> M * M = bx * bx + by_ * by_ ->
  ax * by_ - ay * bx < 0 -> ax * wy - ay * wx = d * L -> bx * wy - by_ * wx = d * M ->
  0 <= ax * wx + ay * wy /\ bx * wx + by_ * wy <= 0.
Proof.
  intros HL HM Hd EL EM S E1 E2. set (s := ax * by_ - ay * bx) in *.
  assert (ax * bx + ay * by_ <= L * M) as CS.
  { apply Rsqr_incr_0_var; [|nra]. unfold Rsqr. replace (L * M * (L * M)) with ((L * L) * (M * M)) by ring. rewrite EL, EM.
    assert (0 <= s * s) by nra. unfold s in *. nra. }
  assert (s * (ax * wx + ay * wy) = d * L * (ax * bx + ay * by_) - d * M * (L * L)) as I1.
  { rewrite EL, <- E1, <- E2. unfold s. ring. }
  assert (s * (bx * wx + by_ * wy) = d * L * (M * M) - d * M * (ax * bx + ay * by_)) as I2.
  { rewrite EM, <- E1, <- E2. unfold s. ring. }
  assert (0 <= d * L * (L * M - (ax * bx + ay * by_))) by (apply Rmult_le_pos; [nra|lra]).
  assert (0 <= d * M * (L * M - (ax * bx + ay * by_))) by (apply Rmult_le_pos; [nra|lra]).
  split.
  - apply Rmult_le_reg_l with (- s); [lra|]. lra.
  - apply Rmult_le_reg_l with (- s); [lra|]. lra.
Qed.
Definition dot3 (a b p q : pt R) : R := (px b - px a) * (px q - px p) + (py b - py a) * (py q - py p).
Lemma corner_vertex d A B C x : 0 < d -> A <> B -> B <> C -> cross3 A B C < 0 -> offLine d (A, B) x -> offLine d (B, C) x ->
  0 <= dot3 A B B x /\ dot3 B C B x <= 0.
Proof.
  intros Hd N1 N2 T O1 O2. unfold offLine, dot3 in *. cbn [fst snd] in *.
  pose proof (edist_neq _ _ N1) as L. pose proof (edist_neq _ _ N2) as M. pose proof (edist_sq A B) as EL. pose proof (edist_sq B C) as EM.
  apply (corner_dots _ _ _ _ _ _ (edist A B) (edist B C) d); auto; unfold cross3 in *; try lra.
Qed.
(** A side of the result: same direction as the side it comes from, at least as long. *)
Lemma offset_side d Z A B C x y : 0 < d -> Z <> A -> A <> B -> B <> C -> cross3 Z A B < 0 -> cross3 A B C < 0 ->
  offLine d (Z, A) x -> offLine d (A, B) x -> offLine d (A, B) y -> offLine d (B, C) y ->
  exists t, 1 <= t /\ px y - px x = t * (px B - px A) /\ py y - py x = t * (py B - py A).
Proof.
  intros Hd NZ NA NB T1 T2 O1 O2 O3 O4. destruct (corner_vertex d Z A B x) as [_ D1]; auto. destruct (corner_vertex d A B C y) as [D2 _]; auto.
  pose proof (edist_neq _ _ NA) as L. pose proof (edist_sq A B) as E. set (l := edist A B) in *. unfold dot3, offLine in *. cbn [fst snd] in *. fold l in O2, O3.
  set (ux := px B - px A) in *. set (uy := py B - py A) in *.
  assert (l * l = ux * ux + uy * uy) as E' by (unfold ux, uy; lra).
  set (s := ux * (px y - px x) + uy * (py y - py x)).
  assert (l * l <= s) as LS by (unfold s, ux, uy in *; lra).
  assert (ux * (py y - py x) - uy * (px y - px x) = 0) as Z0 by (unfold cross3 in O2, O3; fold ux uy in O2, O3; lra).
  exists (s / (l * l)). assert (0 < l * l) by nra. split; [|split].
  - apply (Rmult_le_reg_r (l * l)); auto. unfold Rdiv. rewrite Rmult_assoc, Rinv_l by lra. lra.
  - apply (Rmult_eq_reg_r (l * l)); [|lra]. replace (s / (l * l) * ux * (l * l)) with (s * ux) by (field; lra). rewrite E'. unfold s.
    replace ((ux * (px y - px x) + uy * (py y - py x)) * ux) with ((px y - px x) * (ux * ux + uy * uy) + uy * (ux * (py y - py x) - uy * (px y - px x))) by ring. rewrite Z0. ring.
  - apply (Rmult_eq_reg_r (l * l)); [|lra]. replace (s / (l * l) * uy * (l * l)) with (s * uy) by (field; lra). rewrite E'. unfold s.
    replace ((ux * (px y - px x) + uy * (py y - py x)) * uy) with ((py y - py x) * (ux * ux + uy * uy) - ux * (ux * (py y - py x) - uy * (px y - px x))) by ring. rewrite Z0. ring.
Qed.
Lemma cross_dist A B x p d : A <> B -> cross3 A B x = d * edist A B -> cross3 A B p <= 0 -> d <= edist x p.
Proof.
  intros N E P. pose proof (edist_neq _ _ N) as L. pose proof (edist_sq A B) as S. pose proof (edist_sq x p) as S'. pose proof (edist_pos x p) as NN.
  destruct (Rle_lt_dec d 0) as [D|D]; [lra|]. apply Rsqr_incr_0_var; auto. unfold Rsqr. apply (Rmult_le_reg_l (edist A B * edist A B)); [nra|].
  assert (d * edist A B <= (px B - px A) * (py x - py p) - (py B - py A) * (px x - px p)) as G by (unfold cross3 in *; lra).
  replace (edist x p * edist x p) with ((px x - px p) * (px x - px p) + (py x - py p) * (py x - py p)) by lra.
  apply Rle_trans with (((px B - px A) * (py x - py p) - (py B - py A) * (px x - px p)) * ((px B - px A) * (py x - py p) - (py B - py A) * (px x - px p))).
  - replace (edist A B * edist A B * (d * d)) with ((d * edist A B) * (d * edist A B)) by ring. assert (0 <= d * edist A B) by (apply Rmult_le_pos; lra). apply Rmult_le_compat; auto.
  - rewrite S. assert (0 <= ((px B - px A) * (px x - px p) + (py B - py A) * (py x - py p)) * ((px B - px A) * (px x - px p) + (py B - py A) * (py x - py p))) by apply Rle_0_sqr. lra.
Qed.
Lemma Forall2_combine {A B} (P : A -> B -> Prop) l m l' m' : Forall2 P l m -> Forall2 P l' m' ->
  Forall2 (fun e f => P (fst e) (fst f) /\ P (snd e) (snd f)) (combine l l') (combine m m').
Proof. intros H. revert l' m'. induction H as [|a b l m Q H IH]; intros l' m' H'; [constructor|]. destruct H'; constructor; cbn; auto. Qed.
Lemma Forall2_cyc {A B} (P : A -> B -> Prop) l m : Forall2 P l m -> Forall2 (fun e f => P (fst e) (fst f) /\ P (snd e) (snd f)) (cyc l) (cyc m).
Proof. intros H. destruct H; [constructor|]. apply Forall2_combine; [now constructor|]. apply Forall2_app; auto. Qed.
Lemma Forall2_in_r {A B} (P : A -> B -> Prop) l m y : Forall2 P l m -> In y m -> exists x, In x l /\ P x y.
Proof. intros H. induction H as [|a b l m Q H IH]; intros I; [destruct I|]. destruct I as [<-|I]; [exists a; split; [now left|auto]|]. destruct (IH I) as (x & X & Y). exists x. split; [now right|auto]. Qed.

Section Out.
  Variables (d : R) (v qs : list (pt R)).
  Hypothesis Hd : 0 < d.
  Hypothesis L3 : (3 <= length v)%nat.
  Hypothesis CW : clockwise v.
  Hypothesis F : Forall2 (fun c q => offLine d (fst c) q /\ offLine d (snd c) q) (corners v) qs.

  Lemma turn_neq p q r : cross3 p q r < 0 -> p <> q /\ q <> r.
  Proof. intros H. split; intros ->; unfold cross3 in H; lra. Qed.
  (** Each side of the result comes from a side of the polygon, between two others. *)
  Definition Q1 (c : (pt R * pt R) * (pt R * pt R)) (q : pt R) : Prop := offLine d (fst c) q /\ offLine d (snd c) q.
  Lemma out_at c x y : In c (cyc (corners v)) -> Q1 (fst c) x -> Q1 (snd c) y -> exists Z A B C t, fst (snd c) = (A, B) /\ snd (fst c) = (A, B) /\ In (A, B) (cyc v) /\ triple v Z A B /\ triple v A B C /\
    snd (snd c) = (B, C) /\ offLine d (A, B) x /\
    1 <= t /\ px y - px x = t * (px B - px A) /\ py y - py x = t * (py B - py A).
  Proof using Hd L3 CW.
    intros J [P1 P2] [P3 P4]. unfold corners in *.
    destruct (cyc_cyc_link (cyc v) c J) as (I1 & I2 & E).
    destruct (cyc_cyc_link v _ I1) as (K1 & K2 & E1). destruct (cyc_cyc_link v _ I2) as (K3 & K4 & E2).
    pose proof (cyc_cyc_triple v _ ltac:(lia) I1) as T1. pose proof (cyc_cyc_triple v _ ltac:(lia) I2) as T2.
    destruct c as [[[Z A] [A' B]] [[A2 B2] [B3 C]]]. cbn [fst snd] in *. subst A'. injection E as -> ->. subst B3.
    destruct (turn_neq _ _ _ (CW _ _ _ T1)) as [N1 N2]. destruct (turn_neq _ _ _ (CW _ _ _ T2)) as [_ N3].
    destruct (offset_side d Z A2 B2 C x y) as (t & Ht & X & Y); auto.
    exists Z, A2, B2, C, t. auto 12.
  Qed.
  Lemma out_sides f : In f (cyc qs) -> exists Z A B C t, In (A, B) (cyc v) /\ triple v Z A B /\ triple v A B C /\ offLine d (A, B) (fst f) /\
    1 <= t /\ px (snd f) - px (fst f) = t * (px B - px A) /\ py (snd f) - py (fst f) = t * (py B - py A).
  Proof using Hd L3 CW F.
    intros I. destruct (Forall2_in_r _ _ _ f (Forall2_cyc _ _ _ F) I) as (c & J & P1 & P2).
    destruct (out_at c (fst f) (snd f) J P1 P2) as (Z & A & B & C & t & _ & _ & H). exists Z, A, B, C, t. tauto.
  Qed.
  Lemma out_long f D : In f (cyc qs) -> (forall e, In e (cyc v) -> D <= edist (fst e) (snd e)) -> D <= edist (fst f) (snd f).
  Proof using Hd L3 CW F.
    intros I H. destruct (out_sides f I) as (Z & A & B & C & t & J & _ & _ & _ & Ht & X & Y). eapply Rle_trans; [apply (H _ J)|]. cbn [fst snd].
    pose proof (edist_pos A B). pose proof (edist_pos (fst f) (snd f)).
    apply Rsqr_incr_0_var; auto. unfold Rsqr. rewrite !edist_sq.
    replace (px (fst f) - px (snd f)) with (t * (px A - px B)) by lra. replace (py (fst f) - py (snd f)) with (t * (py A - py B)) by lra.
    assert (0 <= (px A - px B) * (px A - px B) + (py A - py B) * (py A - py B)) as G by (apply Rplus_le_le_0_compat; apply Rle_0_sqr).
    replace (t * (px A - px B) * (t * (px A - px B)) + t * (py A - py B) * (t * (py A - py B))) with (t * t * ((px A - px B) * (px A - px B) + (py A - py B) * (py A - py B))) by ring.
    assert (1 <= t * t) by nra. rewrite <- (Rmult_1_l ((px A - px B) * (px A - px B) + (py A - py B) * (py A - py B))) at 1. apply Rmult_le_compat_r; auto.
  Qed.
  Lemma out_contains f p : In f (cyc qs) -> inConvex v p -> cross3 (fst f) (snd f) p < 0.
  Proof using Hd L3 CW F.
    intros I H. destruct (out_sides f I) as (Z & A & B & C & t & J & T & _ & O & Ht & X & Y). specialize (H _ J). cbn [fst snd] in H.
    destruct (turn_neq _ _ _ (CW _ _ _ T)) as [_ N]. pose proof (edist_neq _ _ N).
    unfold cross3 in *. rewrite X, Y. unfold offLine, cross3 in O. cbn [fst snd] in O.
    replace (t * (px B - px A) * (py p - py (fst f)) - t * (py B - py A) * (px p - px (fst f))) with
      (t * (((px B - px A) * (py p - py A) - (py B - py A) * (px p - px A)) - ((px B - px A) * (py (fst f) - py A) - (py B - py A) * (px (fst f) - px A)))) by ring.
    rewrite O. assert (0 < d * edist A B) by (apply Rmult_lt_0_compat; auto).
    match goal with |- t * ?u < 0 => assert (u < 0) as HW by lra; revert HW; generalize u end. intros w HW. clear - HW Ht. nra.
  Qed.
  Lemma out_far x p : In x qs -> inConvex v p -> d <= edist x p.
  Proof using Hd L3 CW F.
    intros I H. destruct (Forall2_in_r _ _ _ x F I) as (c & J & O & _). unfold corners in J. destruct (cyc_cyc_link v _ J) as (K & _ & _).
    pose proof (cyc_cyc_triple v _ ltac:(lia) J) as T. destruct (turn_neq _ _ _ (CW _ _ _ T)) as [N _].
    apply (cross_dist (fst (fst c)) (snd (fst c))); auto.
  Qed.
  Lemma qs_length : length qs = length v.
  Proof using F. rewrite <- (Forall2_len _ _ _ F). unfold corners. now rewrite !cyc_length. Qed.
  Lemma out_turns c : In c (cyc (cyc qs)) -> cross3 (fst (fst c)) (snd (fst c)) (snd (snd c)) < 0.
  Proof using Hd L3 CW F.
    intros I. pose proof (Forall2_cyc _ _ _ (Forall2_cyc _ _ _ F)) as G. destruct (Forall2_in_r _ _ _ c G I) as (k & J & [P1 P2] & [P3 P4]).
    destruct (cyc_cyc_link (corners v) k J) as (K1 & K2 & E). destruct (cyc_cyc_link qs c I) as (_ & _ & E').
    destruct (out_at (fst k) (fst (fst c)) (snd (fst c)) K1 P1 P2) as (Z & A & B & C & t & _ & _ & _ & _ & T & E1 & _ & Ht & X & Y).
    destruct (out_at (snd k) (fst (snd c)) (snd (snd c)) K2 P3 P4) as (Z' & A' & B' & C' & t' & _ & E2 & _ & _ & _ & _ & _ & Ht' & X' & Y').
    rewrite E, E2 in E1. injection E1 as -> ->. apply CW in T. rewrite <- E' in X', Y'.
    unfold cross3 in *. rewrite X, Y.
    replace (py (snd (snd c)) - py (fst (fst c))) with (t' * (py C - py B) + t * (py B - py A)) by lra.
    replace (px (snd (snd c)) - px (fst (fst c))) with (t' * (px C - px B) + t * (px B - px A)) by lra.
    replace (t * (px B - px A) * (t' * (py C - py B) + t * (py B - py A)) - t * (py B - py A) * (t' * (px C - px B) + t * (px B - px A))) with
      (t * t' * ((px B - px A) * (py C - py A) - (py B - py A) * (px C - px A))) by ring.
    assert (0 < t * t') by nra. nra.
  Qed.
  Lemma out_clockwise : clockwise qs.
  Proof using Hd L3 CW F.
    intros p q r T. apply triple_index in T; [|rewrite qs_length; lia]. destruct T as (i & I & -> & -> & ->).
    set (n := length qs) in *. set (j := prevIdx n i). assert (j < n)%nat as J by (unfold j, prevIdx; destruct (Nat.eqb_spec i 0); lia).
    assert (nextIdx n j = i) as NJ by (unfold j, prevIdx, nextIdx; destruct (Nat.eqb_spec i 0); [rewrite Nat.eqb_refl; lia|]; destruct (Nat.eqb_spec (i - 1) (n - 1)); lia).
    pose proof (out_turns (nth j (cyc qs) (pt00, pt00), nth i (cyc qs) (pt00, pt00))) as O. cbn [fst snd] in O. rewrite !nth_cyc in O by (fold n; lia). cbn [fst snd] in O. fold n in O. rewrite NJ in O. apply O.
    rewrite <- (cyc_index (cyc qs) (pt00, pt00)). rewrite cyc_length. fold n. apply in_map_iff. exists j. rewrite NJ, !nth_cyc by (fold n; lia). fold n. rewrite NJ. split; auto. apply in_seq. lia.
  Qed.
End Out.
