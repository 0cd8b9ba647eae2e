(** * Proofs about bisector lines *)

From Coq Require Import Reals Lra Lia List Bool Arith.
From Verif Require Import Num M_LP M_Homogr M_Seg M_Poly M_Offset S_Geom S_Homogr S_Seg S_Poly S_Offset P_LP P_LP2 P_LP3 P_Homogr P_Homogr3 P_Seg P_Seg2 P_Seg4 P_Poly P_Poly2.
Import ListNotations.
Local Open Scope R_scope.

(** Rotation by half the angle of the unit normal gives the mirror. *)
Lemma half_mirror x y k s c sn : c * c + sn * sn = 1 -> (k * k) * (x * x + y * y) = 1 -> s * s = 1 ->
  let A := s * (c * (- (k * y)) - sn * (k * x)) in let B := s * (sn * (- (k * y)) + c * (k * x)) in
  let n := A * x + B * y in
  x - 2 * n * A = (c * c - sn * sn) * x - 2 * sn * c * y /\ y - 2 * n * B = 2 * sn * c * x + (c * c - sn * sn) * y.
Proof.
  intros H K S A B n. assert (n * k = - (s * sn)) as N.
  { unfold n, A, B. transitivity (- (s * sn) * ((k * k) * (x * x + y * y))); [ring|rewrite K; ring]. }
  assert (n * A = - (s * s) * sn * (- (c * y) - sn * x)) as NA by (unfold A; transitivity (n * k * (s * (- (c * y) - sn * x))); [ring|rewrite N; ring]).
  assert (n * B = - (s * s) * sn * (- (sn * y) + c * x)) as NB by (unfold B; transitivity (n * k * (s * (- (sn * y) + c * x))); [ring|rewrite N; ring]).
  rewrite S in NA, NB. split.
  - replace (2 * n * A) with (2 * (n * A)) by ring. rewrite NA. transitivity ((c * c + sn * sn) * x - 2 * sn * c * y - 2 * sn * sn * x); [rewrite H; ring|ring].
  - replace (2 * n * B) with (2 * (n * B)) by ring. rewrite NB. transitivity ((c * c + sn * sn) * y + 2 * sn * c * x - 2 * sn * sn * y); [rewrite H; ring|ring].
Qed.
Lemma bisector_ok th p a b : thr_ok th -> nullDeter th <= 1 -> nullDistance th <= edist p a -> dblEpsilon th < edist p a -> nullDistance th <= edist p b ->
  dirOK th p a -> bisOK th p a b ->
  exists l l', svLine th (mkSeg p a) = Ok l /\ getRotatedLine th l p (svAngleO (mkSeg p a) (mkSeg p b) / 2) = Ok l' /\ bisects l' p a b.
Proof.
  intros Hth HD Da De Db DO Z. pose proof (thr_dist th Hth) as TD.
  assert (p <> a) as Na by (intros ->; rewrite edist_refl in Da; lra). assert (p <> b) as Nb by (intros ->; rewrite edist_refl in Db; lra).
  destruct (lineOf_total th p a Hth Da De) as (l & El). exists l. destruct (lineOf_scaled th p a l Hth El DO) as (k & K0 & Ek & ->).
  pose proof (rawL_unit k p a Ek) as U. destruct (lineOf_on th p a _ Hth El DO) as [ON _].
  pose proof (svAngleO_spec (mkSeg p a) (mkSeg p b) Na Nb) as A. cbv zeta in A. set (t := svAngleO (mkSeg p a) (mkSeg p b)) in *. unfold svVector in A. cbn [sA sB] in A. rnum.
  destruct A as (Hr & X & Y & _). set (h := t / 2) in *. assert (t = h + h) as T by (unfold h; lra).
  pose proof (sin2_cos2 h) as SC. unfold Rsqr in SC. pose proof (edist_neq _ _ Na) as La. pose proof (edist_neq _ _ Nb) as Lb.
  rewrite T, cos_plus, sin_plus in X, Y.
  assert (k * k * ((px a - px p) * (px a - px p) + (py a - py p) * (py a - py p)) = 1) as KK.
  { unfold unitL, scaleL, rawL in U. cbn [la lb] in U. rewrite <- U. ring. }
  set (lr := mkL (cos h * la (scaleL k (rawL p a)) - sin h * lb (scaleL k (rawL p a))) (sin h * la (scaleL k (rawL p a)) + cos h * lb (scaleL k (rawL p a))) 0).
  assert (forall m s, (s = 1 \/ s = -1) -> onL m p -> unitL m -> la m = s * la lr -> lb m = s * lb lr -> bisects m p a b) as BI.
  { intros m s S O UM E1 E2. split; [auto|]. split; [auto|]. cbv zeta.
    destruct (half_mirror (px a - px p) (py a - py p) k s (cos h) (sin h)) as [M1 M2]; [lra|exact KK|destruct S as [-> | ->]; lra|].
    cbv zeta in M1, M2.
    assert (la m = s * (cos h * (- (k * (py a - py p))) - sin h * (k * (px a - px p)))) as F1 by (rewrite E1; unfold lr, scaleL, rawL; cbn [la lb]; ring).
    assert (lb m = s * (sin h * (- (k * (py a - py p))) + cos h * (k * (px a - px p)))) as F2 by (rewrite E2; unfold lr, scaleL, rawL; cbn [la lb]; ring).
    rewrite <- F1, <- F2 in M1, M2. rewrite M1, M2. rewrite X, Y. split; field; lra. }
  assert (exists w, onL (mkL (la lr) (lb lr) w) p) as (w & W) by (exists (- la lr * px p - lb lr * py p); unfold onL; cbn [la lb lc]; ring).
  assert (unitL (mkL (la lr) (lb lr) w)) as UW.
  { unfold unitL in *. cbn [la lb]. unfold lr. cbn [la lb]. set (u := la (scaleL k (rawL p a))) in *. set (v := lb (scaleL k (rawL p a))) in *.
    transitivity ((sin h * sin h + cos h * cos h) * (u * u + v * v)); [ring|]. rewrite SC, U. ring. }
  assert (zoneFree th lr) as ZF.
  { assert (bisects (mkL (la lr) (lb lr) w) p a b) as BB by (apply (BI _ 1); auto; cbn [la lb]; ring). apply Z in BB. exact BB. }
  destruct (getRotatedLine_spec th (scaleL k (rawL p a)) p h Hth HD U ON ZF) as (l' & E' & O' & U' & s & S & E1 & E2).
  exists l'. split; [exact El|]. split; [exact E'|]. apply (BI l' s); auto.
Qed.

(** ** The loop *)
Fixpoint linked {A} (p : A) (todo : list (A * A)) : Prop := match todo with [] => True | e :: r => fst e = p /\ linked (snd e) r end.
Definition cornerOK th (c : pt R * (pt R * pt R)) : Prop := let (a, e) := c in let (p, b) := e in
  nullDistance th <= edist p a /\ dblEpsilon th < edist p a /\ nullDistance th <= edist p b /\ dirOK th p a /\ bisOK th p a b.
Lemma bis_loop th todo : thr_ok th -> nullDeter th <= 1 -> forall p a, linked p todo -> (forall c, In c (combine (a :: map fst todo) todo) -> cornerOK th c) ->
  exists ls, bisLoop th (mkSeg p a) todo = Ok ls /\ Forall2 (fun c l => bisects l (fst (snd c)) (fst c) (snd (snd c))) (combine (a :: map fst todo) todo) ls.
Proof.
  intros Hth HD. induction todo as [|[p b] r IH]; intros p0 a LK H; [exists []; split; [reflexivity|constructor]|].
  cbn [linked fst snd] in LK. destruct LK as [<- LK]. cbn [map fst] in H.
  destruct (IH b p LK) as (ls & E & F).
  { intros c I. apply H. right. exact I. }
  destruct (H (a, (p, b)) (or_introl eq_refl)) as (C1 & C2 & C3 & C4 & C5).
  destruct (bisector_ok th p a b Hth HD C1 C2 C3 C4 C5) as (l & l' & E1 & E2 & B).
  exists (l' :: ls). cbn [bisLoop]. rewrite svNew_ok by auto. cbn [bind]. rewrite E1. cbn [bind]. rnum. rewrite E2. cbn [bind svNeg fst sA sB].
  rewrite E. split; [reflexivity|]. cbn [map fst combine]. constructor; [exact B|exact F].
Qed.
Lemma linked_chain {A} (l : list A) : forall p, linked p (chain (p :: l)).
Proof. induction l as [|q l IH]; intros p; [exact I|]. cbn [chain linked combine tl fst snd]. split; [reflexivity|apply IH]. Qed.
Lemma linked_cyc {A} (l : list A) : forall p z, linked p (combine (p :: l) (l ++ [z])).
Proof. induction l as [|q l IH]; intros p z; cbn; auto. split; auto. apply IH. Qed.
Lemma chain_fst {A} (l : list A) : forall p, exists s, p :: l = map fst (chain (p :: l)) ++ s.
Proof. induction l as [|q l IH]; intros p; [exists [p]; reflexivity|]. destruct (IH q) as (s & E). exists s. change (chain (p :: q :: l)) with ((p, q) :: chain (q :: l)). cbn [map fst app]. now rewrite <- E. Qed.
Lemma combine_map_fst {A B} (m : list (A * B)) s : forall a, combine (a :: map fst m) m = combine (a :: map fst m ++ s) m.
Proof. induction m as [|e m IH]; intros a; [reflexivity|]. cbn [map app combine]. f_equal. apply (IH (fst e)). Qed.
Lemma bis_lines th (closed : bool) pts : thr_ok th -> nullDeter th <= 1 -> (3 <= length pts)%nat ->
  (forall c, In c (polyCorners closed pts pt00) -> cornerOK th c) ->
  exists ls, plBisectorLines th closed pts = Ok ls /\ Forall2 (fun c l => bisects l (fst (snd c)) (fst c) (snd (snd c))) (polyCorners closed pts pt00) ls.
Proof.
  intros Hth HD L H. destruct pts as [|p0 [|p1 [|p2 r]]]; try (cbn in L; lia). unfold plBisectorLines, polyCorners in *. destruct closed.
  - set (pts := p0 :: p1 :: p2 :: r) in *. cbn [tl pts]. fold pts.
    assert (combine pts ((p1 :: p2 :: r) ++ [p0]) = cyc pts) as EC by reflexivity. fold pts in EC. rewrite EC.
    assert (combine (last pts pt00 :: map fst (cyc pts)) (cyc pts) = combine (last pts pt00 :: pts) (cyc pts)) as E1 by (now rewrite map_fst_cyc).
    destruct (bis_loop th (cyc pts) Hth HD p0 (last pts pt00)) as (ls & E & F).
    + unfold pts, cyc. apply (linked_cyc (p1 :: p2 :: r) p0 p0).
    + rewrite E1. exact H.
    + rewrite E1 in F. destruct (H (last pts pt00, (p0, p1))) as (C1 & _); [left; reflexivity|]. exists ls. rewrite svNew_ok by exact C1. cbn [bind]. split; auto.
  - cbn [tl] in *. change (combine (p1 :: p2 :: r) (p2 :: r)) with (chain (p1 :: p2 :: r)).
    assert (combine (p0 :: map fst (chain (p1 :: p2 :: r))) (chain (p1 :: p2 :: r)) = combine (p0 :: p1 :: p2 :: r) (chain (p1 :: p2 :: r))) as E1.
    { destruct (chain_fst (p2 :: r) p1) as (s & E). set (m := chain (p1 :: p2 :: r)) in *. rewrite E. apply combine_map_fst. }
    destruct (bis_loop th (chain (p1 :: p2 :: r)) Hth HD p1 p0) as (ls & E & F).
    + apply linked_chain.
    + rewrite E1. exact H.
    + rewrite E1 in F. destruct (H (p0, (p1, p2))) as (C1 & _); [left; reflexivity|]. exists ls. rewrite svNew_ok by exact C1. cbn [bind]. split; auto.
Qed.
