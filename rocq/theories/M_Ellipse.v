(** * Model of ellipses (class Ellipse_) *)

From Coq Require Import ZArith List Bool Arith.
From Verif Require Import Num M_LP M_Homogr M_Seg M_Circle M_Poly M_FRect.
Import ListNotations.
Local Open Scope num_scope.

(** State of an Ellipse_: the matrix and the flag [_isNormalized] inherited from Matrix_, homog2d.hpp:1475-1476.
    Simplification: the build without HOMOG2D_OPTIMIZE_SPEED (the default), so without cached parameters. *)
Record ell (T : Type) : Type := mkE { em : mat T; eNorm : bool }.
Arguments mkE {T}. Arguments em {T}. Arguments eNorm {T}.

(** detail::EllParams, homog2d.hpp:2133-2163. *)
Record epar (T : Type) : Type := mkPar { ex0 : T; ey0 : T; eth : T; esin : T; ecos : T; ea : T; eb : T; ea2 : T; eb2 : T }.
Arguments mkPar {T}. Arguments ex0 {T}. Arguments ey0 {T}. Arguments eth {T}. Arguments esin {T}. Arguments ecos {T}.
Arguments ea {T}. Arguments eb {T}. Arguments ea2 {T}. Arguments eb2 {T}.

Section Ellipse.
  Context {T : Type} {N : Num T}.
  Implicit Types (e : ell T) (p q : pt T) (th : thrs T) (m : mat T).

  (** Ellipse_::p_init, homog2d.hpp:2399-2443: the matrix. *)
  Definition ellInit (x0 y0 a b theta : T) : mat T :=
    let sin1 := nsin theta in let cos1 := ncos theta in
    let sin2 := sin1 * sin1 in let cos2 := cos1 * cos1 in
    let a2 := a * a in let b2 := b * b in
    let A := a2 * sin2 + b2 * cos2 in
    let B := #2 * (b2 - a2) * nsin theta * ncos theta in
    let C := a2 * cos2 + b2 * sin2 in
    let D := #(-2) * A * x0 - B * y0 in
    let E := - B * x0 - #2 * C * y0 in
    let F := A * x0 * x0 + B * x0 * y0 + C * y0 * y0 - a2 * b2 in
    mkM A (B / #2) (D / #2) (B / #2) C (E / #2) (D / #2) (E / #2) F.

  (** Constructor 2, homog2d.hpp:2260-2270 (constructor 1, :2254-2257, and the default one, :2250-2251,
      call it). *)
  Definition ellNew (x y major minor angle : T) : ell T :=
    if major <? minor then mkE (ellInit x y minor major angle) false else mkE (ellInit x y major minor angle) false.
  Definition ellDefault : ell T := ellNew (#0) (#0) (#2) (#1) (#0).
  (** Constructor 3, homog2d.hpp:2273-2276. *)
  Definition ellOfCircle (c : circle T) : ell T := mkE (ellInit (px (cc c)) (py (cc c)) (cr c) (cr c) (#0)) false.

  (** Ellipse_::p_computeParams, homog2d.hpp:8508-8557 (p_getParams, :8484-8499).  theta is 0 by default;
      line 8545 sets it to 90. *)
  Definition ellParams th e : res (epar T) :=
    let m := em e in
    let A := m00 m in let C := m11 m in let F := m22 m in
    let B := #2 * m01 m in let D := #2 * m02 m in let E := #2 * m12 m in
    let denom := B * B - #4 * A * C in
    if nabs denom <? nullDenom th then Throw
    else
      let x0 := (#2 * C * D - B * E) / denom in
      let y0 := (#2 * A * E - B * D) / denom in
      let common := #2 * (A * E * E + C * D * D - B * D * E + denom * F) in
      let AmC := A - C in
      do sqr <- csqrt (AmC * AmC + B * B);
      do ra <- csqrt (common * (A + C + sqr));
      do rb <- csqrt (common * (A + C - sqr));
      let a := - ra / denom in
      let b := - rb / denom in
      let theta :=
        if nabs B <? nullDenom th then (if C <? A then #90 else #0)
        else natan ((C - A - sqr) / B) in
      Ok (mkPar x0 y0 theta (nsin theta) (ncos theta) a b (a * a) (b * b)).

  (** isCircle, homog2d.hpp:8567-8578. *)
  Definition ellIsCircle e (thres : T) : bool :=
    let m := em e in
    if nabs (m00 m - m11 m) <? thres then (if nabs (m01 m) * #2 <? thres then true else false) else false.
  (** getCenter, homog2d.hpp:8583-8589. *)
  Definition ellCenter th e : res (pt T) := do r <- ellParams th e; Ok (mkPt (ex0 r) (ey0 r)).
  (** getMajMin, homog2d.hpp:8592-8598. *)
  Definition ellMajMin th e : res (T * T) := do r <- ellParams th e; Ok (ea r, eb r).
  (** angle, homog2d.hpp:8603-8609. *)
  Definition ellAngle th e : res T := do r <- ellParams th e; Ok (eth r).
  (** area, homog2d.hpp:2334-2338. *)
  Definition ellArea th e : res T := do r <- ellParams th e; Ok (npi * ea r * eb r).
  (** length, homog2d.hpp:8616-8626. *)
  Definition ellLength th e : res T :=
    do r <- ellParams th e;
    let s := ea r + eb r in
    let d := ea r - eb r in
    do h <- cdiv (d * d) (s * s);
    do sq <- csqrt (#4 - #3 * h);
    let denom := #10 + sq in
    do k <- cdiv (#3 * h) denom;
    Ok (s * npi * (#1 + k)).

  (** getAxisLines, homog2d.hpp:8630-8647. *)
  Definition ellAxisLines th e : res (line T * line T) :=
    do r <- ellParams th e;
    let ptA := mkPt (ex0 r + ecos r * ea r) (ey0 r + esin r * ea r) in
    let pt0 := mkPt (ex0 r) (ey0 r) in
    do lH <- lineOf th ptA pt0;
    do lV <- getOrthogLine th lH pt0;
    Ok (lH, lV).

  (** getBB, homog2d.hpp:8654-8668. *)
  Definition ellBB th e : res (frect T) :=
    do r <- ellParams th e;
    let vx := ea2 r * ecos r * ecos r + eb2 r * esin r * esin r in
    let vy := ea2 r * esin r * esin r + eb2 r * ecos r * ecos r in
    do sx <- csqrt vx;
    do sy <- csqrt vy;
    frSet th (mkPt (ex0 r - sx) (ey0 r - sy)) (mkPt (ex0 r + sx) (ey0 r + sy)).

  (** getOBB, homog2d.hpp:8684-8736. *)
  Definition ellOBB th e : res (poly T) :=
    do r <- ellParams th e;
    let ptA := mkPt (ex0 r + ecos r * ea r) (ey0 r + esin r * ea r) in
    let pt0 := mkPt (ex0 r) (ey0 r) in
    do lH <- lineOf th ptA pt0;
    do (q1, q2) <- getPoints th lH pt0 (ea r);
    let ptB := if ptEq th q1 ptA then q2 else q1 in
    let (pa1, pa2) := getParallelLines lH (eb r) in
    do v1 <- getOrthogLine th lH ptA;
    do v2 <- getOrthogLine th lH ptB;
    do p1 <- meet th pa1 v1; do p2 <- meet th pa2 v1; do p3 <- meet th pa2 v2; do p4 <- meet th pa1 v2;
    plAddAll th (plFresh []) [p1; p2; p3; p4].

  (** pointIsInside, homog2d.hpp:8742-8763 (called by LPBase::isInside, :9436-9445). *)
  Definition ellInside th e p : res bool :=
    do r <- ellParams th e;
    let dx := px p - ex0 r in let dy := py p - ey0 r in
    let v1 := ecos r * dx + esin r * dy in
    do s1 <- cdiv (v1 * v1) (ea2 r);
    let v2 := esin r * dx - ecos r * dy in
    do s2 <- cdiv (v2 * v2) (eb2 r);
    Ok (s1 + s2 <? #1).

  (** translate, homog2d.hpp:2286-2293; moveTo, :2302-2309: the flag [_isNormalized] is not changed. *)
  Definition ellTranslate th e (dx dy : T) : res (ell T) :=
    do r <- ellParams th e; Ok (mkE (ellInit (ex0 r + dx) (ey0 r + dy) (ea r) (eb r) (eth r)) (eNorm e)).
  Definition ellMoveTo th e (x y : T) : res (ell T) :=
    do r <- ellParams th e; Ok (mkE (ellInit x y (ea r) (eb r) (eth r)) (eNorm e)).

  (** operator==, homog2d.hpp:2357-2375: normalises both operands (mutable data) if their flag is not set.
      The two objects are assumed to be different; see [ellEqSelf] for a comparison with itself. *)
  Definition ellNormalize th e : res (ell T) :=
    if eNorm e then Ok e else do m <- matNormalize th (em e); Ok (mkE m true).
  Definition ellEq th e (f : ell T) : res (bool * ell T * ell T) :=
    do e' <- ellNormalize th e;
    do f' <- ellNormalize th f;
    Ok (matClose th (em e') (em f'), e', f').
  Definition ellEqSelf th e : res (bool * ell T) :=
    do e' <- ellNormalize th e; Ok (matClose th (em e') (em e'), e').

  (** Homography times ellipse, homog2d.hpp:9740-9754; times circle, :9758-9765. *)
  Definition hEll th (h : mat T) e : res (ell T) :=
    do hi <- matInverse th h;
    Ok (mkE (matMul (matMul (matTranspose hi) (em e)) hi) false).
  Definition hCircle th (h : mat T) (c : circle T) : res (ell T) := hEll th h (ellOfCircle c).
End Ellipse.
