(** * Lemmas about segments *)

From Coq Require Import Reals ZArith List Bool Lra Psatz.
From Verif Require Import Num M_LP M_Seg S_Geom S_Seg P_LP P_LP2 P_LP3 P_LP4 P_LP5.
Import ListNotations.
Local Open Scope R_scope.
Implicit Types (p q r a b : pt R) (s : seg R) (l : line R) (th : thrs R).

Lemma pt_eq p q : px p = px q -> py p = py q -> p = q.
Proof. destruct p, q; cbn; now intros -> ->. Qed.
Lemma edist_along p q t : edist p (along p q t) = Rabs t * edist p q.
Proof.
  apply edist_val. { apply Rmult_le_pos; [apply Rabs_pos|apply edist_pos]. }
  replace (Rabs t * edist p q * (Rabs t * edist p q)) with ((Rabs t * Rabs t) * (edist p q * edist p q)) by ring.
  rewrite edist_sq, <- Rabs_mult, (Rabs_right (t * t)) by (pose proof (sqp t); lra).
  unfold along; cbn [px py]. ring.
Qed.
Lemma along_rev p q t : along p q t = along q p (1 - t).
Proof. apply pt_eq; unfold along; cbn [px py]; ring. Qed.
Lemma edist_along2 p q t : edist q (along p q t) = Rabs (1 - t) * edist p q.
Proof. rewrite along_rev, edist_along, (edist_sym q p). reflexivity. Qed.
Lemma onSeg_along p q r : onSeg p q r <-> exists t, 0 <= t <= 1 /\ r = along p q t.
Proof.
  split; intros (t & Ht & H).
  - exists t. split; auto. destruct H. apply pt_eq; auto.
  - exists t. split; auto. subst r. split; reflexivity.
Qed.
Lemma onSeg_sym p q r : onSeg p q r <-> onSeg q p r.
Proof.
  rewrite !onSeg_along. split; intros (t & Ht & ->); exists (1 - t); (split; [lra|]); rewrite along_rev; f_equal; ring.
Qed.
Lemma edist_neq p q : p <> q -> 0 < edist p q.
Proof. intros H. destruct (edist_pos p q) as [K|K]; auto. symmetry in K. apply edist_zero in K. contradiction. Qed.
Lemma onSeg_dist p q r : onSeg p q r -> edist p r + edist q r = edist p q.
Proof.
  rewrite onSeg_along. intros (t & Ht & ->). rewrite edist_along, edist_along2, !Rabs_right by lra. ring.
Qed.
Lemma line_param p q r : p <> q -> cross3 p q r = 0 -> exists t, r = along p q t.
Proof.
  intros Hn Hc. pose proof (edist_neq p q Hn) as L. pose proof (edist_sq p q) as Sq.
  assert (P : 0 < edist p q * edist p q) by nra. rewrite Sq in P.
  set (dx := px p - px q) in *. set (dy := py p - py q) in *.
  unfold cross3 in Hc. replace (px q - px p) with (- dx) in Hc by (unfold dx; ring).
  replace (py q - py p) with (- dy) in Hc by (unfold dy; ring).
  exists (((px r - px p) * - dx + (py r - py p) * - dy) / (dx * dx + dy * dy)).
  apply pt_eq; unfold along; cbn [px py]; replace (px q - px p) with (- dx) by (unfold dx; ring);
    replace (py q - py p) with (- dy) by (unfold dy; ring).
  - apply (Rmult_eq_reg_r (dx * dx + dy * dy)); [|lra]. field_simplify; [|lra].
    assert (K : dy * ((- dx) * (py r - py p) - - dy * (px r - px p)) = 0) by (rewrite Hc; ring). nra.
  - apply (Rmult_eq_reg_r (dx * dx + dy * dy)); [|lra]. field_simplify; [|lra].
    assert (K : dx * ((- dx) * (py r - py p) - - dy * (px r - px p)) = 0) by (rewrite Hc; ring). nra.
Qed.
Lemma near_seg p q r e : p <> q -> cross3 p q r = 0 -> edist p r + edist q r - edist p q < e -> 0 < e ->
  exists x, onSeg p q x /\ edist r x < e / 2.
Proof.
  intros Hn Hc He E. destruct (line_param p q r Hn Hc) as (t & ->). pose proof (edist_neq p q Hn) as L.
  rewrite edist_along, edist_along2 in He.
  destruct (Rlt_dec t 0) as [N|N]; [|destruct (Rlt_dec 1 t) as [M|M]].
  - exists p. split. { exists 0. split; [lra|]. split; ring. }
    rewrite edist_sym, edist_along. rewrite Rabs_left, Rabs_right in He by lra. rewrite Rabs_left by lra. lra.
  - exists q. split. { exists 1. split; [lra|]. split; ring. }
    rewrite edist_sym, edist_along2. rewrite Rabs_right, Rabs_left in He by lra. rewrite Rabs_left by lra. lra.
  - exists (along p q t). split. { apply onSeg_along. exists t. split; auto. lra. }
    rewrite edist_refl. lra.
Qed.

(** ** Construction and order *)
Lemma svNew_inv th k p q s : thr_ok th -> svNew th k p q = Ok s ->
  nullDistance th <= edist p q /\ p <> q /\
  match k with KSeg => lexlt (sA s) (sB s) /\ (s = mkSeg p q \/ s = mkSeg q p) | KOSeg => s = mkSeg p q end.
Proof.
  intros Hth. unfold svNew. destruct (ptEq th p q) eqn:E; [discriminate|]. intros H. apply Ok_inj in H.
  pose proof (ptEq_neq _ _ _ Hth E) as Hn. apply ptEq_false in E. split; auto. split; auto.
  destruct k; [|now subst]. unfold segOrder in H; cbn [sA sB] in H. destruct (fixOrder p q) as [u v] eqn:F. subst s. cbn [sA sB].
  split. { exact (fixOrder_lt p q u v Hn F). }
  destruct (fixOrder_spec _ _ _ _ F) as [_ [[-> ->]|[-> ->]]]; auto.
Qed.
Lemma svNew_ok th p q : nullDistance th <= edist p q -> svNew th KOSeg p q = Ok (mkSeg p q).
Proof. intros H. unfold svNew. rewrite (proj2 (ptEq_false th p q) H). reflexivity. Qed.
Lemma svNew_ok_seg th p q : nullDistance th <= edist p q -> lexlt p q -> svNew th KSeg p q = Ok (mkSeg p q).
Proof.
  intros H L. unfold svNew. rewrite (proj2 (ptEq_false th p q) H). unfold segOrder; cbn [sA sB].
  rewrite (fixOrder_id p q L). reflexivity.
Qed.
Lemma svNew_sym th p q : svNew th KSeg p q = svNew th KSeg q p.
Proof.
  unfold svNew. rewrite ptEq_sym. destruct (ptEq th q p); auto. unfold segOrder; cbn [sA sB].
  now rewrite fixOrder_sym.
Qed.
Lemma lexlt_moved p q x y : lexlt p q -> lexlt (moved p x y) (moved q x y).
Proof. unfold lexlt, moved; cbn [px py]. intros [H|[H H']]; [left|right]; lra. Qed.
Lemma segStep_inv th op s : thr_ok th -> lexlt (sA s) (sB s) ->
  lexlt (sA (segStep th KSeg s op)) (sB (segStep th KSeg s op)).
Proof.
  intros Hth H. destruct op as [p q|dx dy|p]; cbn [segStep].
  - unfold svSet. destruct (svNew th KSeg p q) eqn:E; auto. destruct (svNew_inv _ _ _ _ _ Hth E) as (_ & _ & K & _). exact K.
  - unfold svTranslate; cbn [sA sB]. exact (lexlt_moved _ _ dx dy H).
  - unfold svMoveTo; cbn [sA sB]; rnum. unfold lexlt in *; cbn [px py]. destruct H as [H|[H H']]; [left|right]; lra.
Qed.
Lemma segRun_inv th ops : forall s, thr_ok th -> lexlt (sA s) (sB s) ->
  lexlt (sA (segRun th KSeg s ops)) (sB (segRun th KSeg s ops)).
Proof.
  induction ops as [|op ops IH]; intros s Hth H; auto.
  change (segRun th KSeg s (op :: ops)) with (segRun th KSeg (segStep th KSeg s op) ops).
  apply IH; auto. now apply segStep_inv.
Qed.

(** ** Distance *)
Lemma svDist_spec s p : sA s <> sB s ->
  exists d c x, svDist s p = Ok (d, c) /\ segHas s x /\ edist p x = d /\
    (forall y, segHas s y -> d <= edist p y) /\
    let dot a b := (px p - px a) * (px b - px a) + (py p - py a) * (py b - py a) in
    (c = (-1)%Z /\ x = sA s /\ dot (sA s) (sB s) < 0 \/
     c = 1%Z /\ x = sB s /\ dot (sB s) (sA s) < 0 \/
     c = 0%Z /\ 0 <= dot (sA s) (sB s) /\ 0 <= dot (sB s) (sA s) /\ 
       (px p - px x) * (px (sB s) - px (sA s)) + (py p - py x) * (py (sB s) - py (sA s)) = 0).
Proof.
  intros Hn. unfold svDist. destruct s as [A B]; cbn [sA sB] in *. rnum. unfold segHas; cbn [sA sB].
  pose proof (edist_neq A B Hn) as L. pose proof (edist_sq A B) as Sq.
  assert (P : 0 < edist A B * edist A B) by nra. rewrite Sq in P. clear L Sq.
  set (c := px B - px A) in *. set (d := py B - py A) in *.
  replace (px A - px B) with (- c) in P by (unfold c; ring). replace (py A - py B) with (- d) in P by (unfold d; ring).
  set (a := px p - px A). set (b := py p - py A).
  assert (P' : 0 < c * c + d * d) by lra. clear P.
  set (dot := a * c + b * d).
  unfold cdiv. rnum. rewrite (proj2 (Reqb_false (c * c + d * d) 0)) by lra. cbn [bind].
  set (t := dot / (c * c + d * d)).
  assert (Et : t * (c * c + d * d) = dot) by (unfold t; field; lra).
  assert (LB : forall u v, 0 <= u -> (forall k, 0 <= k <= 1 ->
      u <= (a - k * c) * (a - k * c) + (b - k * d) * (b - k * d)) -> v = sqrt u ->
      forall y, onSeg A B y -> v <= edist p y).
  { intros u v Hu H -> y Hy. apply onSeg_along in Hy. destruct Hy as (k & Hk & ->).
    unfold edist. apply sqrt_le_1_alt. unfold along; cbn [px py]. unfold Rsqr. fold c d.
    replace (px p - (px A + k * c)) with (a - k * c) by (unfold a; ring).
    replace (py p - (py A + k * d)) with (b - k * d) by (unfold b; ring). auto. }
  assert (Q : forall k, (a - k * c) * (a - k * c) + (b - k * d) * (b - k * d)
     = (a * a + b * b) - 2 * k * dot + k * k * (c * c + d * d)) by (intros k; unfold dot; ring).
  destruct (Rltb t 0) eqn:Et0; rclean.
  - assert (Hd : dot < 0) by nra.
    eexists _, (-1)%Z, A. split; [reflexivity|]. split. { exists 0. split; [lra|]. split; ring. }
    split. { unfold edist, Rsqr. reflexivity. }
    split. { apply (LB (a * a + b * b)).
             - pose proof (sqp a); pose proof (sqp b); lra.
             - intros k Hk. rewrite Q. nra.
             - reflexivity. }
    left. split; auto.
  - destruct (Rltb 1 t) eqn:Et1; rclean.
    + assert (Hd : c * c + d * d < dot) by nra.
      eexists _, 1%Z, B. split; [reflexivity|]. split. { exists 1. split; [lra|]. split; ring. }
      split. { unfold edist, Rsqr. reflexivity. }
      split. { apply (LB ((a - 1 * c) * (a - 1 * c) + (b - 1 * d) * (b - 1 * d))).
               - pose proof (sqp (a - 1 * c)); pose proof (sqp (b - 1 * d)); lra.
               - intros k Hk. rewrite !Q. generalize dependent (c * c + d * d). intros S P' t' _ _ _ _ Hd.
                 assert (K1 : 0 <= (1 - k) * S) by (apply Rmult_le_pos; lra).
                 assert (K : 0 <= (1 - k) * (2 * dot - (1 + k) * S)) by (apply Rmult_le_pos; lra).
                 lra.
               - f_equal. unfold a, b, c, d. ring. }
      right; left. split; auto. split; auto.
      replace ((px p - px B) * (px A - px B) + (py p - py B) * (py A - py B)) with (c * c + d * d - dot)
        by (unfold dot, a, b, c, d; ring). lra.
    + assert (Hd : 0 <= dot <= c * c + d * d) by (split; nra).
      eexists _, 0%Z, (along A B t). split; [reflexivity|]. split. { apply onSeg_along. exists t. split; [lra|reflexivity]. }
      split. { unfold edist, Rsqr, along; cbn [px py]. fold c d. reflexivity. }
      split. { apply (LB ((a - t * c) * (a - t * c) + (b - t * d) * (b - t * d))).
               - pose proof (sqp (a - t * c)); pose proof (sqp (b - t * d)); lra.
               - intros k Hk. rewrite !Q. rewrite <- Et.
                 assert (0 <= (k - t) * (k - t) * (c * c + d * d)). { apply Rmult_le_pos; [apply sqp|lra]. }
                 nra.
               - f_equal. unfold a, b, c, d. ring. }
      right; right. split; auto. split. { exact (proj1 Hd). }
      split. { replace ((px p - px B) * (px A - px B) + (py p - py B) * (py A - py B)) with (c * c + d * d - dot)
                 by (unfold dot, a, b, c, d; ring). lra. }
      unfold along; cbn [px py]. fold c d.
      replace ((px p - (px A + t * c)) * c + (py p - (py A + t * d)) * d)
        with (dot - t * (c * c + d * d)) by (unfold dot, a, b; ring).
      rewrite Et. ring.
Qed.
