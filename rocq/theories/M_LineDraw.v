(** * Model of the drawing of a line *)

From Coq Require Import ZArith List Bool.
From Verif Require Import Num M_LP M_Seg M_FRect M_Inter.
Import ListNotations.
Local Open Scope num_scope.

Section LineDraw.
  Context {T : Type} {N : Num T}.

  (** LPBase::impl_draw_LP for a line, homog2d.hpp:11707-11736: the segment handed to Segment_::draw, if any.
      An image has more than 2 rows and columns (asserts of :11714-11715). *)
  Definition lineDrawn (th : thrs T) (cols rows : Z) (l : line T) : res (option (seg T)) :=
    do r <- frSet th (mkPt (#0) (#0)) (mkPt (#(cols - 1)) (#(rows - 1)));
    do out <- frInterLine th r l;
    if (length out =? 2)%nat then
      match interGet out with
      | [p; q] => do s <- svNew th KSeg p q; Ok (Some s)
      | _ => Undef
      end
    else Ok None.
End LineDraw.
