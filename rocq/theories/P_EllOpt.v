(** * Lemmas on the ellipses with cached parameters *)

From Coq Require Import Reals ZArith List Bool Lra Lia.
From Verif Require Import Num M_LP M_Homogr M_Seg M_Circle M_Poly M_FRect S_Geom S_Homogr S_Ellipse P_LP P_Homogr P_Ellipse P_Ellipse2 M_Ellipse M_EllOpt S_EllOpt.
Import ListNotations.
Local Open Scope R_scope.

Lemma oNew_ge x y a b t : b <= a -> oNew x y a b t = oInit false x y a b t.
Proof. intros H. unfold oNew. rnum. now rewrite (proj2 (Rltb_false _ _)) by lra. Qed.
Lemma oNew_exchange x y a b t : oNew x y a b t = oNew (N := RNum) x y b a t.
Proof.
  intros. unfold oNew. rnum. destruct (Rltb a b) eqn:E, (Rltb b a) eqn:F; auto; rclean; try lra. replace b with a by lra. reflexivity.
Qed.
Definition parOf (c : pt R) (a b t : R) : epar R := mkPar (px c) (py c) t (sin t) (cos t) a b (a * a) (b * b).

(** The invariant: the cache is current and holds the parameters, the matrix describes them up to a factor. *)
Definition good (c : pt R) (a b t : R) (o : ello R) : Prop :=
  oChg o = false /\ oPar o = parOf c a b t /\ exists k, k <> 0 /\ em (oe o) = scaleM k (ellInit (px c) (py c) a b t).

Lemma good_params th c a b t o : good c a b t o -> oParams th o = Ok (parOf c a b t, o).
Proof. intros (E & P & _). unfold oParams. now rewrite E, P. Qed.
Lemma good_init f c a b t : good c a b t (oInit f (px c) (py c) a b t).
Proof. split; [reflexivity|]. split; [reflexivity|]. exists 1. split; [lra|]. cbn [oInit oe em]. now rewrite scaleM_1. Qed.
Lemma scaleM_mul j k m : scaleM j (scaleM k m) = scaleM (j * k) m.
Proof. destruct m. unfold scaleM, matMap. cbn. rnum. f_equal; ring. Qed.
Lemma good_step th c a b t o op : thr_ok th -> good c a b t o ->
  exists o', oStep th (Ok o) op = Ok o' /\ good (centreStep c op) a b t o'.
Proof.
  intros Ht G. pose proof (good_params th _ _ _ _ _ G) as P. unfold oStep. cbn [bind]. destruct op as [dx dy|x y| |].
  - unfold oTranslate. rewrite P. cbn [bind parOf ex0 ey0 ea eb eth]. eexists. split; [reflexivity|]. apply (good_init _ (mkPt (px c + dx) (py c + dy))).
  - unfold oMoveTo. rewrite P. cbn [bind parOf ex0 ey0 ea eb eth]. eexists. split; [reflexivity|]. apply (good_init _ (mkPt x y)).
  - cbn [centreStep]. destruct (oNormalize th o) as [o'| |] eqn:E; [|eexists; split; [reflexivity|exact G]..].
    exists o'. split; auto. unfold oNormalize in E. apply bind_ok in E. destruct E as (e & E & H). apply Ok_inj in H. subst o'.
    destruct G as (G1 & G2 & k & K & M). split; [exact G1|]. split; [exact G2|]. cbn [oe]. unfold ellNormalize in E. destruct (eNorm (oe o)).
    + apply Ok_inj in E. subst e. exists k. auto.
    + apply bind_ok in E. destruct E as (m & E & H). apply Ok_inj in H. subst e. cbn [em]. apply matNormalize_inv in E; auto. destruct E as (-> & Z & _).
      exists (/ m22 (em (oe o)) * k). split; [apply Rmult_integral_contrapositive_currified; auto; now apply Rinv_neq_0_compat|]. rewrite M at 2. now rewrite scaleM_mul.
  - rewrite P. cbn [bind centreStep]. eauto.
Qed.
Lemma good_run th a b t ops : thr_ok th -> forall c o, good c a b t o -> exists o', fold_left (oStep th) ops (Ok o) = Ok o' /\ good (centreAfter ops c) a b t o'.
Proof.
  intros Ht. induction ops as [|op ops IH]; intros c o G; [exists o; split; auto|]. cbn [fold_left].
  destruct (good_step th c a b t o op Ht G) as (o1 & -> & G1). apply (IH _ _ G1).
Qed.
