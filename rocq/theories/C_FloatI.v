(** * Property C240: rectangles with integer corners and points inside a circle, in binary64 *)

From Coq Require Import Reals Lra ZArith Floats Bool Lia List Arith.
From Verif Require Import Num FloatFuns M_LP M_Seg M_Poly M_FRect M_Circle M_Misc S_Geom S_Float S_FloatZ S_FloatR P_LP P_Float P_FloatZ P_FloatZ2 P_FloatR P_FloatE P_FloatX P_FloatG C_FloatG C_FloatL.
Import ListNotations.
Local Open Scope R_scope.

(** ** C240 *)

(** The rectangle with lower-left corner [p] and upper-right corner [q]. *)
Definition gR (p q : Z * Z) : frect float := mkR (gpt p) (gpt q).

(** Width, height, area and length are exact. *)
Theorem C240_sizes : forall p q : Z * Z, within 16777216 p -> within 16777216 q ->
  toR (frWidth (N := FNum) (gR p q)) = IZR (fst q) - IZR (fst p) /\ toR (frHeight (N := FNum) (gR p q)) = IZR (snd q) - IZR (snd p) /\
  toR (frArea (N := FNum) (gR p q)) = (IZR (fst q) - IZR (fst p)) * (IZR (snd q) - IZR (snd p)) /\
  toR (frLength (N := FNum) (gR p q)) = 2 * (IZR (fst q) - IZR (fst p)) + 2 * (IZR (snd q) - IZR (snd p)).
Proof.
  intros p q Hp Hq. destruct (gG p Hp) as [Px Py], (gG q Hq) as [Qx Qy]. destruct Hp as [A B], Hq as [C D].
  assert (W : rep (frWidth (N := FNum) (gR p q)) (fst q - fst p)) by (apply rep_sub; auto; unfold lim; lia). assert (H : rep (frHeight (N := FNum) (gR p q)) (snd q - snd p)) by (apply rep_sub; auto; unfold lim; lia).
  assert (R2 : rep (FloatFuns.of_Z 2) 2) by (apply rep_ofZ; unfold lim; lia).
  pose proof (prod_bound (snd q - snd p) (fst q - fst p) 33554432 ltac:(lia) ltac:(lia) ltac:(lia)) as P.
  pose proof (rep_mul _ _ _ _ H W ltac:(unfold lim; lia)) as Ar. pose proof (rep_mul _ _ _ _ R2 W ltac:(unfold lim; lia)) as W2. pose proof (rep_mul _ _ _ _ R2 H ltac:(unfold lim; lia)) as H2. pose proof (rep_add _ _ _ _ H2 W2 ltac:(unfold lim; lia)) as Le.
  rewrite (rep_toR _ _ W), (rep_toR _ _ H). split; [apply minus_IZR|]. split; [apply minus_IZR|].
  split; [unfold frArea; cbn [nmul FNum]; rewrite (rep_toR _ _ Ar), mult_IZR, !minus_IZR; ring|]. unfold frLength. cbn [nmul nadd nZ FNum]. rewrite (rep_toR _ _ Le), plus_IZR, !mult_IZR, !minus_IZR. ring.
Qed.
Print Assumptions C240_sizes.

(** operator == is exact. *)
Theorem C240_equal : forall (th : thrs float) (p q p' q' : Z * Z), within 16777216 p -> within 16777216 q -> within 16777216 p' -> within 16777216 q' -> fin (nullDistance th) -> 0 < toR (nullDistance th) <= 1 ->
  (frEq (N := FNum) th (gR p q) (gR p' q') = true <-> p = p' /\ q = q').
Proof.
  intros th p q p' q' Hp Hq Hp' Hq' Ft Tt. pose proof (C234_equal th p p' Hp Hp' Ft Tt) as A. pose proof (C234_equal th q q' Hq Hq' Ft Tt) as B. unfold frEq, gR. cbn [r1 r2].
  destruct (ptEq (N := FNum) th (gpt p) (gpt p')), (ptEq (N := FNum) th (gpt q) (gpt q')); cbn [negb]; split; intro X; try reflexivity; try discriminate; try tauto.
Qed.
Print Assumptions C240_equal.

(** A rectangle is found inside a circle exactly if its four corners are. *)
Theorem C240_in_circle : forall (p q c : Z * Z) (t : Z), within 16777216 p -> within 16777216 q -> within 16777216 c -> (0 < t <= 33554432)%Z ->
  (frInCircle (N := FNum) (gR p q) (gC c t) = true <->
   forall x y, (x = fst p \/ x = fst q) -> (y = snd p \/ y = snd q) -> edist (rpt (x, y)) (rpt c) < IZR t).
Proof.
  intros p q c t Hp Hq Hc T. assert (W : forall x y, (x = fst p \/ x = fst q) -> (y = snd p \/ y = snd q) -> within 16777216 (x, y)) by (destruct Hp, Hq; intros x y [->| ->] [->| ->]; split; cbn [fst snd]; lia).
  destruct nullD_toR as [F0 B0]. assert (B1 : 0 < toR (nullDistance (thr0 (N := FNum))) <= / 1000000000) by lra.
  assert (K : forall x y, (x = fst p \/ x = fst q) -> (y = snd p \/ y = snd q) -> (ptInCircle (N := FNum) (gpt (x, y)) (gC c t) = true <-> edist (rpt (x, y)) (rpt c) < IZR t)) by (intros x y X Y; apply (C235_point (thr0 (N := FNum)) (x, y) c t (W x y X Y) Hc T F0 B1)).
  unfold frInCircle. rewrite forallb_forall. unfold fr4Pts, gR. cbn [r1 r2]. split.
  - intros A x y X Y. apply K; auto. apply A. destruct p as [p1 p2], q as [q1 q2]. cbn [fst snd] in *. unfold gpt. cbn [px py fst snd In]. destruct X as [->| ->], Y as [->| ->]; auto.
  - intros A f I. destruct p as [p1 p2], q as [q1 q2]. cbn [fst snd] in *. unfold gpt in I. cbn [px py fst snd In] in I.
    destruct I as [<-|[<-|[<-|[<-|[]]]]]; [apply (K p1 p2)|apply (K p1 q2)|apply (K q1 q2)|apply (K q1 p2)]; auto.
Qed.
Print Assumptions C240_in_circle.

(** getPtsInside() keeps exactly the points inside the circle, in their order. *)
Theorem C240_points : forall (c : Z * Z) (t : Z) (l : list (Z * Z)), within 16777216 c -> (0 < t <= 33554432)%Z -> Forall (within 16777216) l ->
  exists k, ptsInCircle (N := FNum) (map gpt l) (gC c t) = map gpt (filter k l) /\ forall p, In p l -> (k p = true <-> edist (rpt p) (rpt c) < IZR t).
Proof.
  intros c t l Hc T Hl. exists (fun p => ptInCircle (N := FNum) (gpt p) (gC c t)). destruct nullD_toR as [F0 B0]. assert (B1 : 0 < toR (nullDistance (thr0 (N := FNum))) <= / 1000000000) by lra. split.
  - unfold ptsInCircle. clear Hl. induction l as [|p l IH]; [reflexivity|]. cbn [map filter]. destruct (ptInCircle _ _); cbn [map]; now rewrite IH.
  - intros p I. rewrite Forall_forall in Hl. apply (C235_point (thr0 (N := FNum)) p c t (Hl p I) Hc T F0 B1).
Qed.
Print Assumptions C240_points.
Example C240_ex : within 16777216 (-16777216, -16777215)%Z /\ within 16777216 (16777215, 16777216)%Z /\ frArea (N := FNum) (gR (-16777216, -16777215)%Z (16777215, 16777216)%Z) = 1125899839733761%float /\
  frInCircle (N := FNum) (gR (-3, -4)%Z (4, 3)%Z) (gC (0, 0)%Z 6) = true /\ frInCircle (N := FNum) (gR (-3, -4)%Z (3, 4)%Z) (gC (0, 0)%Z 5) = false /\
  ptsInCircle (N := FNum) (map gpt [(3, 4); (1, 2); (5, 0); (-4, 2)]%Z) (gC (0, 0)%Z 5) = map gpt [(1, 2); (-4, 2)]%Z.
Proof. split; [split; cbn [fst snd]; lia|]. split; [split; cbn [fst snd]; lia|]. repeat split; vm_compute; reflexivity. Qed.
