(** * Orientation signs of a side and a segment, and levels of their ends *)

From Coq Require Import Reals Lra Bool.
Local Open Scope R_scope.

Definition lt (a b : R) : bool := if Rlt_dec a b then true else false.
Lemma lt_spec (a b : R) : lt a b = true <-> a < b.
Proof. unfold lt. destruct (Rlt_dec a b); split; auto; discriminate. Qed.
Lemma lt_false (a b : R) : lt a b = false <-> b <= a.
Proof. unfold lt. destruct (Rlt_dec a b); split; try discriminate; intros; auto; lra. Qed.
Definition opp (x y : R) : bool := (lt 0 x && lt y 0) || (lt x 0 && lt 0 y).
Definition cE (ya yb y A : R) : bool := if lt y ya then (if lt y yb then false else lt A 0) else (if lt y yb then lt 0 A else false).
Definition cG (yp yr ya C : R) : bool := if lt yp ya then (if lt yr ya then false else lt C 0) else (if lt yr ya then lt 0 C else false).
Lemma parity_core ya yb yp yr A B C D : A + C = B + D -> A * yr + C * yb = B * yp + D * ya ->
  (A = 0 -> 0 < C * D) -> (B = 0 -> 0 < C * D) -> (C = 0 -> 0 < A * B) -> (D = 0 -> 0 < A * B) -> (ya = yb -> yb = yp -> A = 0) -> (ya = yb -> yb = yr -> B = 0) ->
  xorb (opp A B && opp C D) (xorb (cE ya yb yp A) (cE ya yb yr B)) = xorb (cG yp yr ya C) (cG yp yr yb D).
Proof.
  intros H1 H2 HA HB HC HD HE HF.
  assert (A * (yr - yp) + C * (yb - yp) = D * (ya - yp)) as K1 by nra.
  assert (C * (yb - yr) = B * (yp - yr) + D * (ya - yr)) as K2 by nra. clear H2.
  destruct (Rtotal_order A 0) as [SA|[SA|SA]]; destruct (Rtotal_order B 0) as [SB|[SB|SB]]; destruct (Rtotal_order C 0) as [SC|[SC|SC]]; destruct (Rtotal_order D 0) as [SD|[SD|SD]];
  try (exfalso; lra); try (exfalso; specialize (HA SA); nra); try (exfalso; specialize (HB SB); nra); try (exfalso; specialize (HC SC); nra); try (exfalso; specialize (HD SD); nra).
  all: clear HA HB HC HD. 
  all: unfold opp, cE, cG, lt.
  all: repeat match goal with |- context[Rlt_dec 0 ?x] => destruct (Rlt_dec 0 x); try (exfalso; lra) | |- context[Rlt_dec ?x 0] => destruct (Rlt_dec x 0); try (exfalso; lra) end.
  all: cbn [andb orb xorb].
  all: destruct (Rlt_dec yp ya), (Rlt_dec yp yb), (Rlt_dec yr ya), (Rlt_dec yr yb); try reflexivity; exfalso.
  all: try (clear HE HF; nra). all: repeat match goal with H : ~ (_ < _) |- _ => apply Rnot_lt_le in H end.
  all: destruct (Rle_lt_dec yp yr) as [L|L].
  all: try (clear - K1 K2 SA SB SC SD r3 r4 r5 r6 L; nra); clear HF; try (clear - HE K1 K2 SA SB SC SD n3 n4 n5 n6 L; try (clear HE; nra)).
  all: destruct (Rle_lt_or_eq_dec yb yp) as [La|La]; [assumption|clear HE; nra|].
  all: destruct (Rle_lt_or_eq_dec yb yr) as [Lb|Lb]; [assumption| |].
  all: destruct (Rle_lt_or_eq_dec ya yp) as [Lc|Lc]; [assumption|clear HE; nra|].
  all: specialize (HE ltac:(lra) La); lra.

Qed.

