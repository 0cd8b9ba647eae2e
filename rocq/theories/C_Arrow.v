(** * C167: arrows drawn on oriented segments *)

From Coq Require Import Reals ZArith List Bool Lra Psatz.
From Verif Require Import Num M_LP M_Seg M_Arrow S_Geom S_Seg P_LP P_LP2 P_LP3 P_Seg P_Seg2 P_Seg4 C_Seg.
Import ListNotations.
Local Open Scope R_scope.

(** ** Specification: point of coordinates (x,y) in the frame of origin [o] whose first axis goes from [a] to [b] *)
Definition frameAt (a b o : pt R) (x y : R) : pt R :=
  let ux := (px b - px a) / edist a b in
  let uy := (py b - py a) / edist a b in
  mkPt (px o + x * ux - y * uy) (py o + x * uy + y * ux).

Lemma unit_ortho a b x y : a * a + b * b = 1 -> x * x + y * y = 1 -> a * x + b * y = 0 -> exists e, (e = 1 \/ e = -1) /\ a = - e * y /\ b = e * x.
Proof.
  intros U V O. exists (b * x - a * y). assert (K : (b * x - a * y) * (b * x - a * y) = 1) by (replace 1 with ((a * a + b * b) * (x * x + y * y) - (a * x + b * y) * (a * x + b * y)) by (rewrite U, V, O; ring); ring).
  split.
  - assert (Z : (b * x - a * y - 1) * (b * x - a * y + 1) = 0) by lra. apply Rmult_integral in Z. lra.
  - split; [replace (- (b * x - a * y) * y) with (a * (y * y) - b * y * x) by ring; replace (b * y) with (- (a * x)) by lra; replace (a * (y * y) - - (a * x) * x) with (a * (x * x + y * y)) by ring
           |replace ((b * x - a * y) * x) with (b * (x * x) - a * x * y) by ring; replace (a * x) with (- (b * y)) by lra; replace (b * (x * x) - - (b * y) * y) with (b * (x * x + y * y)) by ring]; rewrite V; ring.
Qed.
(** The two points of a unit line at distance [d]: [e] is the order in which they come. *)
Lemma points_unit th l p d : thr_ok th -> unitL l -> onL l p -> exists e, (e = 1 \/ e = -1) /\
  getPoints th l p d = Ok (mkPt (px p - e * d * lb l) (py p + e * d * la l), mkPt (px p + e * d * lb l) (py p - e * d * la l)).
Proof.
  intros TH U O. rewrite (getPoints_on_ok th l p d TH (unit_proper _ U) O). destruct (getPoints_B2 p d l) as [q1 q2] eqn:G.
  apply getPoints_B2_spec in G; [|apply unit_proper; auto]. cbv zeta in G. rewrite (hypot_unit _ _ U) in G. destruct G as [_ [[-> ->]|[-> ->]]]; [exists 1|exists (-1)]; (split; [auto|]); do 3 f_equal; field.
Qed.

Theorem C167_arrow th s : thr_ok th -> okSeg th s -> dirOK th (sA s) (sB s) -> vertOK th (sA s) (sB s) ->
  exists e f, (e = 1 \/ e = -1) /\ (f = 1 \/ f = -1) /\
  let at_ := frameAt (sA s) (sB s) in
  arrowSegs th s = Ok [(at_ (sA s) 0 (8 * e), at_ (sA s) 0 (- 8 * e)); (at_ (sB s) (- 8) (8 * f), sB s); (at_ (sB s) (- 8) (- 8 * f), sB s)].
Proof.
  intros TH S D V. unfold arrowSegs. destruct (svLine_ok th s TH S) as (l & El). rewrite El. cbn [bind]. unfold svLine in El.
  destruct (lineOf_proper th _ _ _ TH El) as [U _]. pose proof (lineOf_vert _ _ _ _ TH El D V) as OO. destruct (lineOf_on th _ _ _ TH El D) as [OA OB].
  set (A := sA s) in *. set (B := sB s) in *. assert (L : 0 < edist A B) by (pose proof (thr_dist th TH); destruct S; fold A B in H0; lra).
  set (ux := (px B - px A) / edist A B). set (uy := (py B - py A) / edist A B).
  assert (UU : ux * ux + uy * uy = 1).
  { pose proof (edist_sq A B) as Q. unfold ux, uy. replace ((px B - px A) / edist A B * ((px B - px A) / edist A B) + (py B - py A) / edist A B * ((py B - py A) / edist A B)) with (((px A - px B) * (px A - px B) + (py A - py B) * (py A - py B)) / (edist A B * edist A B)) by (field; lra).
    rewrite <- Q. field. lra. }
  assert (Eu : px B = px A + edist A B * ux /\ py B = py A + edist A B * uy) by (unfold ux, uy; split; field; lra). destruct Eu as [EBx EBy].
  assert (LU : la l * ux + lb l * uy = 0).
  { unfold onL in OA, OB. unfold ux, uy. replace (la l * ((px B - px A) / edist A B) + lb l * ((py B - py A) / edist A B)) with ((la l * px B + lb l * py B + lc l - (la l * px A + lb l * py A + lc l)) / edist A B) by (field; lra). rewrite OA, OB. field. lra. }
  destruct (unit_ortho _ _ _ _ U UU LU) as (g & G & La & Lb).
  assert (OR : forall p, exists o e, (e = 1 \/ e = -1) /\ getOrthogLine th l p = Ok o /\ getPoints th o p 8 = Ok (frameAt A B p 0 (8 * e), frameAt A B p 0 (- 8 * e))).
  { intros p. destruct (getOrthogLine_total th l p TH U) as (o & Eo). destruct (getOrthogLine_same th l p o TH U OO Eo) as (_ & Or & On & Uo).
    destruct (unit_ortho (la o) (lb o) (- uy) ux Uo) as (k & K & Ka & Kb); [lra|unfold orthoL in Or; rewrite La, Lb in Or; destruct G as [->| ->]; lra|].
    destruct (points_unit th o p 8 TH Uo On) as (e & E & P). exists o, (- (e * k)). split; [destruct E as [->| ->], K as [->| ->]; lra|]. split; auto. rewrite P. unfold frameAt. fold ux uy. rewrite Ka, Kb. do 3 f_equal; ring. }
  destruct (OR A) as (oa & e & E & Oa & Pa). rewrite Oa. cbn [bind]. rnum. rewrite Pa. cbn [bind].
  destruct (points_unit th l B 8 TH U OB) as (k & K & P). rewrite P. cbn [bind fst snd].
  set (p0 := frameAt A B B (- 8) 0).
  assert (FAR : forall x, edist A (frameAt A B B x 0) = Rabs (edist A B + x)).
  { intros x. rewrite <- sqrt_Rsqr_abs. unfold edist at 1. f_equal. unfold frameAt. fold ux uy. cbn [px py]. unfold Rsqr. rewrite EBx, EBy.
    replace ((px A - (px A + edist A B * ux + x * ux - 0 * uy)) * (px A - (px A + edist A B * ux + x * ux - 0 * uy)) + (py A - (py A + edist A B * uy + x * uy + 0 * ux)) * (py A - (py A + edist A B * uy + x * uy + 0 * ux))) with ((edist A B + x) * (edist A B + x) * (ux * ux + uy * uy)) by ring.
    rewrite UU. ring. }
  assert (P0 : (if Rltb (distPP (N := RNum) A (mkPt (px B + k * 8 * lb l) (py B - k * 8 * la l))) (distPP (N := RNum) A (mkPt (px B - k * 8 * lb l) (py B + k * 8 * la l))) then mkPt (px B + k * 8 * lb l) (py B - k * 8 * la l) else mkPt (px B - k * 8 * lb l) (py B + k * 8 * la l)) = p0).
  { rewrite !distPP_edist. assert (Q1 : mkPt (px B + k * 8 * lb l) (py B - k * 8 * la l) = frameAt A B B (8 * (k * g)) 0) by (unfold frameAt; fold ux uy; rewrite La, Lb; f_equal; ring).
    assert (Q2 : mkPt (px B - k * 8 * lb l) (py B + k * 8 * la l) = frameAt A B B (- 8 * (k * g)) 0) by (unfold frameAt; fold ux uy; rewrite La, Lb; f_equal; ring).
    rewrite Q1, Q2, !FAR. assert (k * g = 1 \/ k * g = -1) as [->| ->] by (destruct K as [->| ->], G as [->| ->]; lra).
    - rewrite (proj2 (Rltb_false _ _)); [unfold p0; f_equal; ring|]. unfold Rabs. destruct (Rcase_abs _), (Rcase_abs _); lra.
    - rewrite (proj2 (Rltb_spec _ _)); [unfold p0; f_equal; ring|]. unfold Rabs. destruct (Rcase_abs _), (Rcase_abs _); lra. }
  rewrite P0. destruct (OR p0) as (ob & f & F & Ob & Pb). rewrite Ob. cbn [bind]. rewrite Pb. cbn [bind fst snd]. exists e, f. split; auto. split; auto.
  assert (M : forall y, frameAt A B p0 0 y = frameAt A B B (- 8) y) by (intros y; unfold p0, frameAt; fold ux uy; cbn [px py]; f_equal; ring). cbv zeta. now rewrite !M.
Qed.
Example C167_ex : okSeg thr0 xS /\ dirOK thr0 (sA xS) (sB xS) /\ vertOK thr0 (sA xS) (sB xS).
Proof. exact C35_ex. Qed.
Print Assumptions C167_arrow.
