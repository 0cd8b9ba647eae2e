(** * Model of the arrows drawn on oriented segments *)

From Coq Require Import ZArith List Bool.
From Verif Require Import Num M_LP M_Seg.
Import ListNotations.

Section Arrow.
  Context {T : Type} {N : Num T}.
  Local Open Scope num_scope.

  (** priv::getArrowSegments, homog2d.hpp:11807-11835: the bar at the first point, the two sides of the head.
      Simplification: the conversions to double are left out. *)
  Definition arrowSegs (th : thrs T) (s : seg T) : res (list (pt T * pt T)) :=
    let arSize := #8 in
    do l <- svLine th s;
    do liA <- getOrthogLine th l (sA s);
    do bar <- getPoints th liA (sA s) arSize;
    do pB <- getPoints th l (sB s) arSize;
    let p0 := if distPP (sA s) (fst pB) >? distPP (sA s) (snd pB) then snd pB else fst pB in
    do liB <- getOrthogLine th l p0;
    do pC <- getPoints th liB p0 arSize;
    Ok [bar; (fst pC, sB s); (snd pC, sB s)].
End Arrow.
