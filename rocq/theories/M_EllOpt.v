(** * Model of ellipses in the build with HOMOG2D_OPTIMIZE_SPEED *)

From Coq Require Import ZArith List Bool.
From Verif Require Import Num M_LP M_Homogr M_Seg M_Circle M_Poly M_FRect M_Ellipse.
Import ListNotations.
Local Open Scope num_scope.

(** State of an Ellipse_ in that build, homog2d.hpp:2450-2453: matrix and flag [_isNormalized] of the base
    class, [_epHasChanged], [_par]. *)
Record ello (T : Type) : Type := mkEO { oe : ell T; oChg : bool; oPar : epar T }.
Arguments mkEO {T}. Arguments oe {T}. Arguments oChg {T}. Arguments oPar {T}.

Section EllOpt.
  Context {T : Type} {N : Num T}.
  Implicit Types (o : ello T) (e : ell T) (p : pt T) (th : thrs T).

  (** Ellipse_::p_init with the lines under HOMOG2D_OPTIMIZE_SPEED, homog2d.hpp:2399-2437; [f] is the flag
      [_isNormalized], not changed. *)
  Definition oInit (f : bool) (x0 y0 a b theta : T) : ello T :=
    mkEO (mkE (ellInit x0 y0 a b theta) f) false
         (mkPar x0 y0 theta (nsin theta) (ncos theta) a b (a * a) (b * b)).
  (** Constructor 2, homog2d.hpp:2260-2270. *)
  Definition oNew (x y major minor angle : T) : ello T :=
    if major <? minor then oInit false x y minor major angle else oInit false x y major minor angle.
  (** Constructor 3, homog2d.hpp:2273-2276. *)
  Definition oOfCircle (c : circle T) : ello T := oInit false (px (cc c)) (py (cc c)) (cr c) (cr c) (#0).

  (** Private constructor from a matrix, homog2d.hpp:2391-2392, and conversion from another floating-point
      type, :2279-2282: [_epHasChanged] has its initial value true (:2451).  [_par] is then never read before
      it is computed; zeros stand for its initial values.  The flag [_isNormalized] is copied. *)
  Definition oOfMat e : ello T :=
    mkEO e true (mkPar (#0) (#0) (#0) (#0) (#0) (#0) (#0) (#0) (#0)).

  (** Ellipse_::p_getParams, homog2d.hpp:8484-8499; if p_computeParams throws, nothing is changed. *)
  Definition oParams th o : res (epar T * ello T) :=
    if oChg o then do r <- ellParams th (oe o); Ok (r, mkEO (oe o) false r)
    else Ok (oPar o, o).

  (** getCenter, getMajMin, angle, area, homog2d.hpp:8583-8609, 2334-2338, with the object after the call. *)
  Definition oCenter th o : res (pt T * ello T) := do (r, o') <- oParams th o; Ok (mkPt (ex0 r) (ey0 r), o').
  Definition oMajMin th o : res (T * T * ello T) := do (r, o') <- oParams th o; Ok (ea r, eb r, o').
  Definition oAngle th o : res (T * ello T) := do (r, o') <- oParams th o; Ok (eth r, o').
  Definition oArea th o : res (T * ello T) := do (r, o') <- oParams th o; Ok (npi * ea r * eb r, o').
  (** getBB, homog2d.hpp:8654-8668. *)
  Definition oBB th o : res (frect T * ello T) :=
    do (r, o') <- oParams th o;
    let vx := ea2 r * ecos r * ecos r + eb2 r * esin r * esin r in
    let vy := ea2 r * esin r * esin r + eb2 r * ecos r * ecos r in
    do sx <- csqrt vx;
    do sy <- csqrt vy;
    do b <- frSet th (mkPt (ex0 r - sx) (ey0 r - sy)) (mkPt (ex0 r + sx) (ey0 r + sy));
    Ok (b, o').
  (** pointIsInside, homog2d.hpp:8742-8763. *)
  Definition oInside th o p : res (bool * ello T) :=
    do (r, o') <- oParams th o;
    let dx := px p - ex0 r in let dy := py p - ey0 r in
    let v1 := ecos r * dx + esin r * dy in
    do s1 <- cdiv (v1 * v1) (ea2 r);
    let v2 := esin r * dx - ecos r * dy in
    do s2 <- cdiv (v2 * v2) (eb2 r);
    Ok (s1 + s2 <? #1, o').

  (** translate, homog2d.hpp:2286-2293; moveTo, :2302-2309. *)
  Definition oTranslate th o (dx dy : T) : res (ello T) :=
    do (r, o') <- oParams th o; Ok (oInit (eNorm (oe o')) (ex0 r + dx) (ey0 r + dy) (ea r) (eb r) (eth r)).
  Definition oMoveTo th o (x y : T) : res (ello T) :=
    do (r, o') <- oParams th o; Ok (oInit (eNorm (oe o')) x y (ea r) (eb r) (eth r)).

  (** operator==, homog2d.hpp:2357-2375: the matrix of both operands is normalised, [_epHasChanged] and
      [_par] are not touched. *)
  Definition oNormalize th o : res (ello T) := do e <- ellNormalize th (oe o); Ok (mkEO e (oChg o) (oPar o)).
  Definition oEq th o (o2 : ello T) : res (bool * ello T * ello T) :=
    do a <- oNormalize th o;
    do b <- oNormalize th o2;
    Ok (matClose th (em (oe a)) (em (oe b)), a, b).

  (** Homography times ellipse, homog2d.hpp:9740-9754. *)
  Definition oImage th (h : mat T) o : res (ello T) := do e <- hEll th h (oe o); Ok (oOfMat e).

  (** Matrix_::set of a coefficient, homog2d.hpp:1499-1506, public through the base class (:2219); row and
      column in range. *)
  Definition setCoeff (r c : nat) (v : T) (m : mat T) : mat T :=
    let g i j x := if (Nat.eqb i r && Nat.eqb j c)%bool then v else x in
    mkM (g 0 0 (m00 m)) (g 0 1 (m01 m)) (g 0 2 (m02 m))
        (g 1 0 (m10 m)) (g 1 1 (m11 m)) (g 1 2 (m12 m))
        (g 2 0 (m20 m)) (g 2 1 (m21 m)) (g 2 2 (m22 m))%nat.
  Definition oSet (r c : nat) (v : T) o : ello T := mkEO (mkE (setCoeff r c v (em (oe o))) (eNorm (oe o))) (oChg o) (oPar o).
  Definition ellSet (r c : nat) (v : T) e : ell T := mkE (setCoeff r c v (em e)) (eNorm e).
End EllOpt.

(** Operations on one ellipse: translation, move, comparison (of which only the effect on this operand is
    kept; an exception leaves it as it was or normalised, here as it was or normalised according to its own
    matrix), any getter. *)
Inductive oop (T : Type) : Type := OTrans (dx dy : T) | OMove (x y : T) | OCmp | OGet.
Arguments OTrans {T}. Arguments OMove {T}. Arguments OCmp {T}. Arguments OGet {T}.
Definition oStep {T} {N : Num T} (th : thrs T) (o : res (ello T)) (a : oop T) : res (ello T) :=
  do o <- o;
  match a with
  | OTrans dx dy => oTranslate th o dx dy
  | OMove x y => oMoveTo th o x y
  | OCmp => match oNormalize th o with Ok o' => Ok o' | _ => Ok o end
  | OGet => do (_, o') <- oParams th o; Ok o'
  end.
(** The same calls on the default build. *)
Definition dStep {T} {N : Num T} (th : thrs T) (e : res (ell T)) (a : oop T) : res (ell T) :=
  do e <- e;
  match a with
  | OTrans dx dy => ellTranslate th e dx dy
  | OMove x y => ellMoveTo th e x y
  | OCmp => match ellNormalize th e with Ok e' => Ok e' | _ => Ok e end
  | OGet => do _ <- ellParams th e; Ok e
  end.
