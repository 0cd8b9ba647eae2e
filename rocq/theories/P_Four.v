(** * Proofs: elimination, uniqueness of the homography *)

From Coq Require Import Reals Lra Psatz List Bool Arith Lia.
From Verif Require Import Num M_LP M_Homogr M_Four S_Geom S_Homogr S_Four.
Import ListNotations.
Local Open Scope R_scope.

(** ** Elimination *)
Definition sat (r : @row R) (x : list R) : Prop := dot (fst r) x = snd r.
Lemma dot_subMul f : forall a b x, length a = length b -> dot (subMul f a b) x = dot a x - f * dot b x.
Proof.
  induction a as [|u a IH]; intros [|v b] [|y x] L; cbn in *; try discriminate; rnum; try lra.
  rewrite IH by lia. ring.
Qed.
Lemma subMul_length f : forall a b : list R, length a = length b -> length (subMul f a b) = length a.
Proof. induction a as [|u a IH]; intros [|v b] L; cbn in *; try discriminate; auto. Qed.
Lemma dot_cons (r : @row R) n x0 xs : length (fst r) = S n -> dot (fst r) (x0 :: xs) = lead r * x0 + dot (tl (fst r)) xs.
Proof. destruct r as [[|a l] b]; cbn; [discriminate|]. reflexivity. Qed.
Lemma pick_some (rows : list (@row R)) p (o : list (@row R)) : pick rows = Some (p, o) -> lead p <> 0 /\ (forall r, In r rows <-> r = p \/ In r o) /\ length rows = S (length o).
Proof.
  revert p o. induction rows as [|r q IH]; intros p o; cbn [pick]; [discriminate|]. rnum. destruct (Reqb (lead r) 0) eqn:Z; [apply Reqb_spec in Z|apply Reqb_false in Z].
  - destruct (pick q) as [[p' o']|]; [|discriminate]. intros E. injection E as <- <-. destruct (IH _ _ eq_refl) as (A & B & C).
    split; auto. split; [|cbn; lia]. intros x. cbn [In]. rewrite B. tauto.
  - intros E. injection E as <- <-. split; [assumption|]. split; [|reflexivity]. intros x. cbn [In]. intuition.
Qed.
Lemma pick_none (rows : list (@row R)) : pick rows = None -> forall r, In r rows -> lead r = (0 : R).
Proof.
  induction rows as [|r q IH]; cbn [pick]; [intros _ ? []|]. rnum. destruct (Reqb (lead r) 0) eqn:Z; [apply Reqb_spec in Z|discriminate].
  destruct (pick q) as [[? ?]|]; [discriminate|]. intros _ x [<-|I]; auto.
Qed.
Lemma elim_sat p r n x0 xs : lead p <> 0 -> length (fst p) = S n -> length (fst r) = S n -> sat p (x0 :: xs) -> (sat (elim p r) xs <-> sat r (x0 :: xs)).
Proof.
  intros P Lp Lr Sp. unfold sat in *. rewrite (dot_cons p n) in Sp by auto. rewrite (dot_cons r n) by auto. unfold elim. cbn [fst snd].
  rewrite dot_subMul by (destruct p as [[|? ?] ?], r as [[|? ?] ?]; cbn in *; lia). rnum. rewrite <- Sp. split; intros E.
  - assert (X : lead r / lead p * (lead p * x0) = lead r * x0) by (field; auto). rewrite Rmult_plus_distr_l in E. lra.
  - rewrite <- E. field. auto.
Qed.
Lemma solve_sound : forall n (rows : list (@row R)) x, length rows = n -> (forall r, In r rows -> length (fst r) = n) -> solve n rows = Some x ->
  length x = n /\ forall r, In r rows -> sat r x.
Proof.
  induction n as [|n IH]; intros rows x L W E.
  - cbn in E. injection E as <-. destruct rows; [|discriminate]. split; auto. intros ? [].
  - cbn [solve] in E. destruct (pick rows) as [[p o]|] eqn:Ep; [|discriminate]. destruct (pick_some _ _ _ Ep) as (P & I & Lo).
    destruct (solve n (map (elim p) o)) as [xs|] eqn:Es; [|discriminate]. injection E as <-.
    assert (Wp : length (fst p) = S n) by (apply W, I; auto).
    destruct (IH (map (elim p) o) xs) as [Lx Sx]; [rewrite map_length; lia| |auto|].
    { intros r Hr. apply in_map_iff in Hr. destruct Hr as (r' & <- & Hr). assert (Wr : length (fst r') = S n) by (apply W, I; auto).
      unfold elim. cbn [fst]. rewrite subMul_length; destruct p as [[|? ?] ?], r' as [[|? ?] ?]; cbn in *; lia. }
    split; [cbn; lia|]. rnum.
    assert (Sp : sat p ((snd p - dot (tl (fst p)) xs) / lead p :: xs)) by (unfold sat; rewrite (dot_cons _ n) by auto; field; auto).
    intros r Hr. apply I in Hr. destruct Hr as [->|Hr]; auto.
    apply (elim_sat p r n); auto; [apply W, I; auto|]. apply Sx. now apply in_map.
Qed.
(** The homogeneous system has no solution but zero. *)
Definition regular (n : nat) (rows : list (@row R)) : Prop :=
  forall z, length z = n -> (forall r, In r rows -> dot (fst r) z = 0) -> z = repeat 0 n.
Lemma dot_zero : forall (a : list R) n, dot a (repeat 0 n) = 0.
Proof. induction a as [|u a IH]; intros [|n]; cbn; rnum; auto. rewrite IH. ring. Qed.
Lemma solve_total : forall n (rows : list (@row R)), length rows = n -> (forall r, In r rows -> length (fst r) = n) -> regular n rows -> exists x, solve n rows = Some x.
Proof.
  induction n as [|n IH]; intros rows L W K; cbn [solve]; [eauto|]. destruct (pick rows) as [[p o]|] eqn:Ep.
  - destruct (pick_some _ _ _ Ep) as (P & I & Lo). assert (Wp : length (fst p) = S n) by (apply W, I; auto).
    destruct (IH (map (elim p) o)) as (xs & ->); [rewrite map_length; lia| | |eauto].
    + intros r Hr. apply in_map_iff in Hr. destruct Hr as (r' & <- & Hr). assert (Wr : length (fst r') = S n) by (apply W, I; auto).
      unfold elim. cbn [fst]. rewrite subMul_length; destruct p as [[|? ?] ?], r' as [[|? ?] ?]; cbn in *; lia.
    + intros z Lz Hz. set (x0 := - dot (tl (fst p)) z / lead p).
      assert (Kz : x0 :: z = repeat 0 (S n)).
      { apply K; [cbn; lia|]. intros r Hr. rewrite (dot_cons r n) by auto. apply I in Hr. destruct Hr as [->|Hr]; [unfold x0; field; auto|].
        assert (Wr : length (fst r) = S n) by (apply W, I; auto).
        specialize (Hz (elim p r) (in_map _ _ _ Hr)). unfold elim in Hz. cbn [fst] in Hz. rewrite dot_subMul in Hz by (destruct p as [[|? ?] ?], r as [[|? ?] ?]; cbn in *; lia).
        rnum. unfold x0. replace (lead r * (- dot (tl (fst p)) z / lead p)) with (- (lead r / lead p * dot (tl (fst p)) z)) by (field; auto). lra. }
      cbn in Kz. now injection Kz.
  - exfalso. assert (X : 1 :: repeat 0 n = repeat 0 (S n)).
    { apply K; [cbn; now rewrite repeat_length|]. intros r Hr. rewrite (dot_cons r n) by auto. rewrite (pick_none _ Ep r Hr), dot_zero. ring. }
    cbn in X. injection X. lra.
Qed.
(** If there is a solution, the homogeneous system has only one. *)
Lemma solve_regular : forall n (rows : list (@row R)) x, length rows = n -> (forall r, In r rows -> length (fst r) = n) -> solve n rows = Some x -> regular n rows.
Proof.
  induction n as [|n IH]; intros rows x L W E z Lz Hz.
  - destruct z; [reflexivity|discriminate].
  - cbn [solve] in E. destruct (pick rows) as [[p o]|] eqn:Ep; [|discriminate]. destruct (pick_some _ _ _ Ep) as (P & I & Lo).
    destruct (solve n (map (elim p) o)) as [xs|] eqn:Es; [|discriminate].
    assert (Wp : length (fst p) = S n) by (apply W, I; auto). destruct z as [|z0 zs]; [discriminate|]. cbn in Lz.
    assert (Zp : lead p * z0 + dot (tl (fst p)) zs = 0) by (rewrite <- (dot_cons p n) by auto; apply Hz, I; auto).
    assert (Z : zs = repeat 0 n).
    { apply (IH (map (elim p) o) xs); [rewrite map_length; lia| |auto|lia|].
      - intros r Hr. apply in_map_iff in Hr. destruct Hr as (r' & <- & Hr). assert (Wr : length (fst r') = S n) by (apply W, I; auto).
        unfold elim. cbn [fst]. rewrite subMul_length; destruct p as [[|? ?] ?], r' as [[|? ?] ?]; cbn in *; lia.
      - intros r Hr. apply in_map_iff in Hr. destruct Hr as (r' & <- & Hr). assert (Wr : length (fst r') = S n) by (apply W, I; auto).
        unfold elim. cbn [fst]. rewrite dot_subMul by (destruct p as [[|? ?] ?], r' as [[|? ?] ?]; cbn in *; lia).
        assert (Zr : lead r' * z0 + dot (tl (fst r')) zs = 0) by (rewrite <- (dot_cons r' n) by auto; apply Hz, I; auto). rnum.
        replace (dot (tl (fst p)) zs) with (- (lead p * z0)) by lra. replace (dot (tl (fst r')) zs) with (- (lead r' * z0)) by lra. field. auto. }
    subst zs. rewrite dot_zero in Zp. cbn [repeat]. f_equal. apply (Rmult_eq_reg_l (lead p)); auto. lra.
Qed.

(** ** A matrix that multiplies four points in general position like another one is a multiple of it *)
Definition aX (m : mat R) (p : pt R) : R := m00 m * px p + m01 m * py p + m02 m.
Definition aY (m : mat R) (p : pt R) : R := m10 m * px p + m11 m * py p + m12 m.
Definition aW (m : mat R) (p : pt R) : R := m20 m * px p + m21 m * py p + m22 m.
Lemma zero_of k x : k <> 0 -> x * k = 0 -> x = 0.
Proof. intros K E. apply Rmult_integral in E. tauto. Qed.
Lemma ker_row p1 p2 p3 a b c : cross3 p1 p2 p3 <> 0 -> a * px p1 + b * py p1 + c = 0 -> a * px p2 + b * py p2 + c = 0 -> a * px p3 + b * py p3 + c = 0 -> a = 0 /\ b = 0 /\ c = 0.
Proof.
  intros D E1 E2 E3. assert (A : a = 0).
  { apply (zero_of _ _ D). unfold cross3. replace (a * _) with ((a * px p1 + b * py p1 + c) * (py p2 - py p3) + (a * px p2 + b * py p2 + c) * (py p3 - py p1) + (a * px p3 + b * py p3 + c) * (py p1 - py p2)) by ring. rewrite E1, E2, E3. ring. }
  assert (B : b = 0).
  { apply (zero_of _ _ D). unfold cross3. replace (b * _) with ((a * px p1 + b * py p1 + c) * (px p3 - px p2) + (a * px p2 + b * py p2 + c) * (px p1 - px p3) + (a * px p3 + b * py p3 + c) * (px p2 - px p1)) by ring. rewrite E1, E2, E3. ring. }
  subst. lra.
Qed.
Lemma ker_mat m x y w : det3 m <> 0 -> m00 m * x + m01 m * y + m02 m * w = 0 -> m10 m * x + m11 m * y + m12 m * w = 0 -> m20 m * x + m21 m * y + m22 m * w = 0 -> x = 0 /\ y = 0 /\ w = 0.
Proof.
  intros D E1 E2 E3. set (e1 := m00 m * x + m01 m * y + m02 m * w) in *. set (e2 := m10 m * x + m11 m * y + m12 m * w) in *. set (e3 := m20 m * x + m21 m * y + m22 m * w) in *.
  split; [|split]; apply (zero_of _ _ D); unfold det3.
  - replace (x * _) with (e1 * (m11 m * m22 m - m12 m * m21 m) - e2 * (m01 m * m22 m - m02 m * m21 m) + e3 * (m01 m * m12 m - m02 m * m11 m)) by (unfold e1, e2, e3; ring). rewrite E1, E2, E3. ring.
  - replace (y * _) with (- e1 * (m10 m * m22 m - m12 m * m20 m) + e2 * (m00 m * m22 m - m02 m * m20 m) - e3 * (m00 m * m12 m - m02 m * m10 m)) by (unfold e1, e2, e3; ring). rewrite E1, E2, E3. ring.
  - replace (w * _) with (e1 * (m10 m * m21 m - m11 m * m20 m) - e2 * (m00 m * m21 m - m01 m * m20 m) + e3 * (m00 m * m11 m - m01 m * m10 m)) by (unfold e1, e2, e3; ring). rewrite E1, E2, E3. ring.
Qed.
Definition same4 (K G : mat R) (l : R) (p : pt R) : Prop := aX K p = l * aX G p /\ aY K p = l * aY G p /\ aW K p = l * aW G p.
Lemma multiple K G p1 p2 p3 p4 l1 l2 l3 l4 : det3 G <> 0 -> general p1 p2 p3 p4 -> same4 K G l1 p1 -> same4 K G l2 p2 -> same4 K G l3 p3 -> same4 K G l4 p4 ->
  m00 K = l4 * m00 G /\ m01 K = l4 * m01 G /\ m02 K = l4 * m02 G /\ m10 K = l4 * m10 G /\ m11 K = l4 * m11 G /\ m12 K = l4 * m12 G /\
  m20 K = l4 * m20 G /\ m21 K = l4 * m21 G /\ m22 K = l4 * m22 G.
Proof.
  intros DG (D & D3 & D2 & D1) (X1 & Y1 & W1) (X2 & Y2 & W2) (X3 & Y3 & W3) (X4 & Y4 & W4).
  set (d1 := cross3 p2 p3 p4) in *. set (d2 := - cross3 p1 p3 p4). set (d3 := cross3 p1 p2 p4) in *. set (d := cross3 p1 p2 p3) in *.
  set (c1 := d1 * (l1 - l4)). set (c2 := d2 * (l2 - l4)). set (c3 := d3 * (l3 - l4)).
  assert (V : forall f : mat R -> pt R -> R, (forall m, d1 * f m p1 + d2 * f m p2 + d3 * f m p3 = d * f m p4) -> f K p1 = l1 * f G p1 -> f K p2 = l2 * f G p2 -> f K p3 = l3 * f G p3 -> f K p4 = l4 * f G p4 ->
    c1 * f G p1 + c2 * f G p2 + c3 * f G p3 = 0).
  { intros f H E1 E2 E3 E4. unfold c1, c2, c3. pose proof (H K) as HK. pose proof (H G) as HG. rewrite E1, E2, E3, E4 in HK.
    replace (_ + _) with ((d1 * (l1 * f G p1) + d2 * (l2 * f G p2) + d3 * (l3 * f G p3)) - l4 * (d1 * f G p1 + d2 * f G p2 + d3 * f G p3)) by ring. rewrite HK, HG. ring. }
  assert (VX : c1 * aX G p1 + c2 * aX G p2 + c3 * aX G p3 = 0) by (apply V; auto; intros m; unfold d1, d2, d3, d, cross3, aX; ring).
  assert (VY : c1 * aY G p1 + c2 * aY G p2 + c3 * aY G p3 = 0) by (apply V; auto; intros m; unfold d1, d2, d3, d, cross3, aY; ring).
  assert (VW : c1 * aW G p1 + c2 * aW G p2 + c3 * aW G p3 = 0) by (apply V; auto; intros m; unfold d1, d2, d3, d, cross3, aW; ring).
  clear V. destruct (ker_mat G (c1 * px p1 + c2 * px p2 + c3 * px p3) (c1 * py p1 + c2 * py p2 + c3 * py p3) (c1 + c2 + c3) DG) as (Kx & Ky & Kw).
  { rewrite <- VX. unfold aX. ring. } { rewrite <- VY. unfold aY. ring. } { rewrite <- VW. unfold aW. ring. }
  assert (C1 : c1 = 0).
  { apply (zero_of d); auto. replace (c1 * d) with ((c1 * px p1 + c2 * px p2 + c3 * px p3) * (py p2 - py p3) + (c1 * py p1 + c2 * py p2 + c3 * py p3) * (px p3 - px p2) + (c1 + c2 + c3) * (px p2 * py p3 - py p2 * px p3)) by (unfold d, cross3; ring). rewrite Kx, Ky, Kw. ring. }
  assert (C2 : c2 = 0).
  { apply (zero_of d); auto. replace (c2 * d) with ((c1 * px p1 + c2 * px p2 + c3 * px p3) * (py p3 - py p1) + (c1 * py p1 + c2 * py p2 + c3 * py p3) * (px p1 - px p3) + (c1 + c2 + c3) * (py p1 * px p3 - px p1 * py p3)) by (unfold d, cross3; ring). rewrite Kx, Ky, Kw. ring. }
  assert (C3 : c3 = 0) by lra.
  assert (L1 : l1 = l4) by (apply Rminus_diag_uniq; apply (zero_of d1); auto; rewrite Rmult_comm; exact C1).
  assert (L2 : l2 = l4) by (apply Rminus_diag_uniq; apply (zero_of d2); [unfold d2; lra|]; rewrite Rmult_comm; exact C2).
  assert (L3 : l3 = l4) by (apply Rminus_diag_uniq; apply (zero_of d3); auto; rewrite Rmult_comm; exact C3).
  subst l1 l2 l3. clearbody c1 c2 c3 d1 d2 d3.
  destruct (ker_row p1 p2 p3 (m00 K - l4 * m00 G) (m01 K - l4 * m01 G) (m02 K - l4 * m02 G) D) as (A0 & A1 & A2); [unfold aX in *; lra..|].
  destruct (ker_row p1 p2 p3 (m10 K - l4 * m10 G) (m11 K - l4 * m11 G) (m12 K - l4 * m12 G) D) as (B0 & B1 & B2); [unfold aY in *; lra..|].
  destruct (ker_row p1 p2 p3 (m20 K - l4 * m20 G) (m21 K - l4 * m21 G) (m22 K - l4 * m22 G) D) as (E0 & E1 & E2); [unfold aW in *; lra..|].
  repeat split; lra.
Qed.
