(** * Properties C184, C185: texts written by the stream operators *)

From Coq Require Import String Ascii.
From Coq Require Import Reals ZArith QArith Qreals List Bool Lia Lra.
From Verif Require Import Num M_Svg M_Fmt M_Stream S_SvgIn S_Stream P_Fmt P_SvgIn P_Stream.
Import ListNotations.
Local Open Scope string_scope.

(** ** C184 *)
(** The text tells the object: kind, flags, number and order of the points, and every number to six digits. *)
Theorem C184_read : forall o, exists t, readText (showObj o) = Some t /\ writes t (asPoint o).
Proof. intros o. exists (objMap fmt (asPoint o)). split; [apply readText_show|apply writes_fmt]. Qed.
(** The same for the objects of a container, and the number written first is their number. *)
Theorem C184_container : forall l, Forall oneLine l -> exists n t, readAll (showAll l) = Some (n, t) /\
  number n = Some (INR (List.length l)) /\ Forall2 (fun u o => writes u (asPoint o)) t l.
Proof.
  intros l H. do 2 eexists. split; [apply readAll_show; exact H|]. split.
  - unfold number. rewrite fmtInt_read. now rewrite <- INR_IZR_INZ.
  - clear H. induction l as [|o l IH]; cbn [map]; constructor; auto. apply writes_fmt.
Qed.
(** Objects with the same text have the same shape, a line and a point at infinity apart; numbers of at most six
    digits are the same. *)
Theorem C184_injective : forall o o', showObj o = showObj o' -> shape (asPoint o) = shape (asPoint o') /\
  (Forall (fun x => sixDigits (Q2R x)) (nums (asPoint o)) -> Forall (fun x => sixDigits (Q2R x)) (nums (asPoint o')) ->
   map Q2R (nums (asPoint o)) = map Q2R (nums (asPoint o'))).
Proof.
  intros o o' E. destruct (C184_read o) as (t & R & S & F). destruct (C184_read o') as (t' & R' & S' & F'). rewrite E, R' in R. injection R as <-.
  split; [congruence|]. revert F F'. generalize (nums t') (nums (asPoint o)) (nums (asPoint o')). clear. intros s u v F. revert v.
  induction F as [|a x s u (w & W & C) _ IH]; intros v F' X Y; inversion F' as [|b y s' v' (w' & W' & C') F2]; subst; [reflexivity|].
  inversion X; inversion Y; subst. cbn [map]. f_equal; [|auto]. rewrite W in W'. injection W' as <-. destruct C as [_ C], C' as [_ C']. rewrite <- C, <- C'; auto.
Qed.
Example C184_ex : showObj (TSeg true (TFin (Qmake 1 3) 2) (TFin (Qmake (-1) 1000000) 1234567)) = "[0.333333,2]=>[-1e-06,1.23457e+06]" /\
  showObj (TPoly true [TFin 1 2; TFin 3 4; TFin (-5) 6]) = "CPolyline: [1,2]-[3,4]-[-5,6]-" /\
  showAll [TCircle (TFin 1 2) (Qmake 5 2); TPt (TFin 0 0)] = "#=2" ++ lf ++ "center: [1,2], radius=2.5" ++ lf ++ "[0,0]" ++ lf /\
  showObj (TMat false (1, 0, 5) (0, 1, 6) (0, 0, 1)) = "|      1      0      5  |" ++ lf ++ "|      0      1      6  |" ++ lf ++ "|      0      0      1  |" ++ lf /\
  sixDigits (Q2R (Qmake 5 2)) /\ Forall oneLine [TCircle (TFin 1 2) (Qmake 5 2); TPt (TFin 0 0)].
Proof.
  split; [vm_compute; reflexivity|]. split; [vm_compute; reflexivity|]. split; [vm_compute; reflexivity|]. split; [vm_compute; reflexivity|]. split.
  - exists 25%Z, (-1)%Z. split; [reflexivity|]. unfold Q2R. cbn [Qnum Qden]. change (powerRZ 10 (-1)) with (/ (10 * 1))%R. lra.
  - repeat constructor.
Qed.
Print Assumptions C184_read. Print Assumptions C184_container. Print Assumptions C184_injective.

(** ** C185 *)
(** A line and a point at infinity have the same text; so have two points apart. *)
Theorem C185_kind_refuted : exists o o' : tobj Q, showObj o = showObj o' /\ shape o <> shape o'.
Proof. exists (TLine 1 2 0), (TPt (TInf 1 2 0)). split; [reflexivity|discriminate]. Qed.
Theorem C185_digits_refuted : exists x y x' y' : Q, showObj (TPt (TFin x y)) = showObj (TPt (TFin x' y')) /\ (Q2R x' - Q2R x = 1)%R.
Proof. exists 1000000, 0, 1000001, 0. split; [vm_compute; reflexivity|]. unfold Q2R. cbn [Qnum Qden]. lra. Qed.
(** The stream that receives an IntersectM does not receive its points: they are written on the standard output. *)
Theorem C185_points_refuted : (forall l l' : list (tpt Q), List.length l = List.length l' -> fst (showInterM l) = fst (showInterM l')) /\
  exists l l' : list (tpt Q), fst (showInterM l) = fst (showInterM l') /\ l <> l' /\ snd (showInterM l) <> "".
Proof.
  split; [intros l l' E; unfold showInterM; now rewrite E|]. exists [TFin 1 2], [TFin 3 4]. split; [reflexivity|]. split; discriminate.
Qed.
Print Assumptions C185_kind_refuted. Print Assumptions C185_digits_refuted. Print Assumptions C185_points_refuted.
