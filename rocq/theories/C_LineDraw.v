(** * Property C186: drawing of a line *)

From Coq Require Import Reals ZArith List Bool Lra Lia Classical_Prop.
From Verif Require Import Num M_LP M_Seg M_FRect M_Inter S_Geom S_Seg S_FRect S_Rect2 P_LP P_LP2 P_LP4 P_LP5 P_Seg P_BB P_FRect P_FRect2 P_Poly7 P_Rect2 M_LineDraw P_LineDraw C_Rect2.
Import ListNotations.
Local Open Scope R_scope.

(** The image: columns 0 to cols-1, rows 0 to rows-1. *)
Definition image (cols rows : Z) : frect R := mkR (mkPt 0 0) (mkPt (IZR (cols - 1)) (IZR (rows - 1))).

(** The segment drawn is the part of the line in the image; if nothing is drawn, the line has no point strictly inside. *)
Theorem C186_drawn : forall th cols rows l, thr_ok th -> nullOrthogDistance th <= 1 -> (2 < cols)%Z -> (2 < rows)%Z -> bigR th (image cols rows) ->
  unitL l -> axisClear th l -> cornerClear th (image cols rows) l ->
  (exists s, lineDrawn th cols rows l = Ok (Some s) /\ forall z, segHas s z <-> onL l z /\ inR (image cols rows) z) \/
  (lineDrawn th cols rows l = Ok None /\ forall z, onL l z -> ~ inRO (image cols rows) z).
Proof.
  intros th cols rows l Ht Hn Hc Hr G U A C. assert (2 <= IZR (cols - 1)) as Lc by (apply IZR_le; lia). assert (2 <= IZR (rows - 1)) as Lr by (apply IZR_le; lia).
  set (r := image cols rows) in *. assert (wfR r) as W by (split; cbn; lra).
  assert (frSet th (mkPt (#0)%num (#0)%num) (mkPt (#(cols - 1))%num (#(rows - 1))%num) = Ok r) as E.
  { rnum. rewrite frSet_ok by (cbn [px py]; rewrite Rabs_left by lra; lra). cbn [px py]. now rewrite !Rmin_left, !Rmax_right by lra. }
  unfold lineDrawn. rewrite E. cbn [bind].
  assert (FIN : forall p q, frInterLine th r l = Ok [p; q] -> nullDistance th <= edist p q -> (forall z, onSeg p q z <-> onL l z /\ inR r z) ->
    exists s, (do out <- frInterLine th r l; if (length out =? 2)%nat then match interGet out with [p; q] => do s <- svNew th KSeg p q; Ok (Some s) | _ => Undef end else Ok None) = Ok (Some s) /\ forall z, segHas s z <-> onL l z /\ inR r z).
  { intros p q -> D S. cbn [bind length Nat.eqb]. destruct (interGet_two p q) as (a & b & -> & AB).
    destruct (svNew_has th a b) as (s & -> & H); [destruct AB as [[-> ->]|[-> ->]]; [exact D|now rewrite edist_sym]|]. cbn [bind]. exists s. split; [reflexivity|].
    intros z. rewrite H, <- S. destruct AB as [[-> ->]|[-> ->]]; [reflexivity|apply onSeg_sym]. }
  destruct (classic (noSide r l)) as [N|N].
  - destruct (C130_exact th r l Ht G U A C N) as (out & F & ND & L & H). destruct out as [|p [|q [|x out]]]; [| | |cbn in L; lia].
    + right. rewrite F. split; [reflexivity|]. intros z O I. destruct (inner_two r l z I O U) as (a & b & NE & Oa & Ob & Ba & Bb). destruct (proj2 (H a)); auto.
    + right. rewrite F. split; [reflexivity|]. intros z O I. destruct (inner_two r l z I O U) as (a & b & NE & Oa & Ob & Ba & Bb).
      destruct (proj2 (H a)) as [<-|[]]; auto. destruct (proj2 (H b)) as [<-|[]]; auto.
    + left. assert (p <> q) as NE by (inversion ND as [|? ? K _]; intros ->; apply K; now left).
      destruct (proj1 (H p)) as [Op Bp]; [now left|]. destruct (proj1 (H q)) as [Oq Bq]; [right; now left|].
      apply (FIN p q F); [apply (border_apart th r l); auto|]. intros z. apply chord; auto. now apply unit_proper.
  - left. assert (la l = 0 \/ lb l = 0) as AX.
    { apply NNPP. intros K. apply N. intros e f _ _ Oe Of NE. unfold onL in Oe, Of. split; intros X; apply NE; apply pt_eq; auto.
      - apply Rmult_eq_reg_l with (lb l); [rewrite X in *; lra|tauto].
      - apply Rmult_eq_reg_l with (la l); [rewrite X in *; lra|tauto]. }
    destruct (C130_side th r l Ht G U N AX) as (p & q & F & NE & H). destruct (proj2 (H p) ltac:(auto)) as [Cp Op]. destruct (proj2 (H q) ltac:(auto)) as [Cq Oq].
    pose proof G as [[G1 G2] _]. pose proof (edist_ge_x p q) as DX. pose proof (edist_ge_y p q) as DY.
    assert (inR r p) as Ip by (destruct Cp as [[X|X] [Y|Y]]; unfold inR; rewrite X, Y; destruct W; lra). assert (inR r q) as Iq by (destruct Cq as [[X|X] [Y|Y]]; unfold inR; rewrite X, Y; destruct W; lra).
    assert ((px p = px q /\ (px p = px (r1 r) \/ px p = px (r2 r)) /\ lb l = 0) \/ (py p = py q /\ (py p = py (r1 r) \/ py p = py (r2 r)) /\ la l = 0)) as SD.
    { unfold onL in Op, Oq. unfold unitL in U. destruct AX as [Z|Z]; rewrite Z in *.
      - right. split; [apply Rmult_eq_reg_l with (lb l); [lra|intros Y; rewrite Y in U; lra]|]. destruct Cp. auto.
      - left. split; [apply Rmult_eq_reg_l with (la l); [lra|intros Y; rewrite Y in U; lra]|]. destruct Cp. auto. }
    assert (nullDistance th <= edist p q) as D.
    { assert (p <> q) as NE' by auto. unfold Rabs in *. destruct Cp as [X Y], Cq as [X' Y'], SD as [(S & _)|(S & _)].
      - destruct (Rcase_abs (py p - py q)); destruct Y as [Y|Y], Y' as [Y'|Y']; rewrite Y, Y' in *; try lra; exfalso; apply NE'; apply pt_eq; auto; congruence.
      - destruct (Rcase_abs (px p - px q)); destruct X as [X|X], X' as [X'|X']; rewrite X, X' in *; try lra; exfalso; apply NE'; apply pt_eq; auto; congruence. }
    apply (FIN p q F D). intros z. split; [intros S; split; [exact (onSeg_onL l p q z Op Oq S)|exact (onSeg_inR r p q z Ip Iq S)]|].
    intros [Oz Iz]. destruct (line_param p q z NE (onL_cross l p q z (unit_proper _ U) Op Oq Oz)) as (t & Ez).
    assert (px z = px p + t * (px q - px p)) as X by (rewrite Ez; reflexivity). assert (py z = py p + t * (py q - py p)) as Y by (rewrite Ez; reflexivity).
    exists t. split; [|auto]. destruct Iz as [I1 I2]. destruct W as [W1 W2]. destruct Cp as [[P1|P1] [P2|P2]], Cq as [[Q1|Q1] [Q2|Q2]];
      try (exfalso; apply NE; apply pt_eq; congruence); destruct SD as [(S & _)|(S & _)]; try (exfalso; rewrite ?P1, ?Q1, ?P2, ?Q2 in S; lra);
      rewrite P1, Q1, P2, Q2 in *; try (exfalso; lra); split; nra.
Qed.
Example C186_ex : bigR thr0 (image 5 4) /\ unitL l34 /\ axisClear thr0 l34 /\ cornerClear thr0 (image 5 4) l34 /\
  exists s, lineDrawn thr0 5 4 l34 = Ok (Some s) /\ segHas s (mkPt (4 / 3) 0) /\ segHas s (mkPt 4 2).
Proof.
  assert (image 5 4 = r43) as E by reflexivity. destruct l34_ok as (A & B & C & D).
  split; [rewrite E; exact r43_big|]. split; [exact A|]. split; [exact B|]. split; [rewrite E; exact C|].
  destruct (C186_drawn thr0 5 4 l34 thr0_ok) as [(s & F & H)|[_ H]]; auto; try lia; try (rewrite E; auto using r43_big).
  - unfold thr0. cbn [nullOrthogDistance]. rnum. lra.
  - exists s. split; [exact F|]. split; apply H; (split; [unfold onL; cbn; lra|]); rewrite E; unfold inR; cbn; lra.
  - exfalso. apply (H (mkPt (8 / 3) 1)); [unfold onL; cbn; lra|]. rewrite E. unfold inRO. cbn. lra.
Qed.
Print Assumptions C186_drawn.
