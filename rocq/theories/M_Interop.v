(** * Model of the conversions from and to OpenCV and Boost Geometry types

    Built only with HOMOG2D_USE_OPENCV or HOMOG2D_USE_BOOSTGEOM.  The foreign types are modelled by what
    the conversions read and write: a cv::Mat by its size, channels, element type and elements in row order,
    cv::Point_ by two numbers, a boost polygon by the points of its outer ring. *)

From Coq Require Import ZArith QArith List Bool Arith.
From Verif Require Import Num M_LP M_Seg M_Poly M_Homogr M_FRect M_SvgOut.
Import ListNotations.
Local Open Scope num_scope.

(** Element type of a cv::Mat: CV_64F, CV_32F or something else. *)
Inductive cvType := CV64 | CV32 | CVother.
Record cvMat (T : Type) : Type := mkCv { cvRows : nat; cvCols : nat; cvChan : nat; cvTyp : cvType; cvData : list T }.
Arguments mkCv {T}. Arguments cvRows {T}. Arguments cvCols {T}. Arguments cvChan {T}. Arguments cvTyp {T}. Arguments cvData {T}.

Section Interop.
  Context {T : Type} {N : Num T}.
  Implicit Types (o : hobj T) (m : mat T) (c : cvMat T) (th : thrs T).

  (** data[i/3][i%3] = *it, i++ for all elements, homog2d.hpp:11690-11701. *)
  Fixpoint cvFill m (i : nat) (l : list T) : res (mat T) :=
    match l with
    | [] => Ok m
    | v :: r => do m' <- matSet m (i / 3) (i mod 3) v; cvFill m' (S i) r
    end.

  (** Hmatrix_::operator=(cv::Mat), homog2d.hpp:11670-11704: size, channels and type are checked, the elements are
      copied; neither [_isNormalized] nor [_hasChanged] is touched, and nothing is normalised.
      Simplification: CV_32F elements are given by their value in the type of the matrix. *)
  Definition hAssignCv o c : res (hobj T) :=
    if negb ((cvRows c =? 3)%nat && (cvCols c =? 3)%nat) then Throw
    else if negb (cvChan c =? 1)%nat then Throw
    else match cvTyp c with
         | CVother => Throw
         | _ => do m <- cvFill (hm o) 0 (cvData c); Ok (mkHobj m (isNorm o) (hasChanged o) (hmt o))
         end.

  (** Constructor from a cv::Mat, homog2d.hpp:1798-1801 (members initialised as at :1476-1484, 2037-2038). *)
  Definition hOfCv c : res (hobj T) := hAssignCv (mkHobj matZero false true None) c.

  (** Hmatrix_::copyTo, homog2d.hpp:11645-11668; [cvt]: conversion of an element to the type asked for (identity for
      CV_64F, rounding to float for CV_32F). *)
  Definition hCopyTo (cvt : T -> T) o (t : cvType) : res (cvMat T) :=
    match t with
    | CVother => Throw
    | _ => do l <- mapM (fun i => matGet (hm o) (i / 3) (i mod 3)) (seq 0 9); Ok (mkCv 3 3 1 t (map cvt l))
    end.

  (** getFRect(cv::Mat), homog2d.hpp:4578-4592. *)
  Definition frOfCv th c : res (frect T) :=
    if (cvCols c =? 0)%nat || (cvRows c =? 0)%nat then Throw
    else frSet th (mkPt (#0) (#0)) (mkPt (nZ (Z.of_nat (cvCols c))) (nZ (Z.of_nat (cvRows c)))).

  (** Polyline constructor from a boost polygon, homog2d.hpp:6171-6206, [outer]: the points of the outer ring; front()
      and back() of an empty ring are undefined behaviour.  No check of the points is done. *)
  Definition plOfBoost th (closed : bool) (outer : list (pt T)) : res (poly T) :=
    match outer with
    | [] => Undef
    | f :: _ =>
        let isClosed := ptEq th f (last outer f) in
        if isClosed && negb closed then Throw
        else Ok (plFresh (if isClosed then removelast outer else outer))
    end.
End Interop.

(** ** OpenCV points

    Coordinates are rational numbers (every double is one). *)

(** cvRound (lrint): nearest integer, ties to even. *)
Definition qRound (x : Q) : Z :=
  let f := (Qnum x / Zpos (Qden x))%Z in
  let r := (Qnum x - f * Zpos (Qden x))%Z in
  match (2 * r ?= Zpos (Qden x))%Z with
  | Lt => f
  | Gt => (f + 1)%Z
  | Eq => if Z.even f then f else (f + 1)%Z
  end.

(** Conversion of a number to int out of range is undefined behaviour. *)
Definition asInt (z : Z) : res Z := if ((- 2147483648 <=? z) && (z <=? 2147483647))%Z then Ok z else Undef.
Definition asInts (f : Q -> Z) (p : qpt) : res (Z * Z) := do x <- asInt (f (fst p)); do y <- asInt (f (snd p)); Ok (x, y).

(** getPt<cv::Point2d>() and the free function, homog2d.hpp:4187-4190, 4202-4206, 4646-4651. *)
Definition getPt2d (p : qpt) : qpt := p.
(** getPts<RT>(), homog2d.hpp:4664-4673: a vector of the same size filled element by element. *)
Definition getPtsOf {A} (f : qpt -> A) (l : list qpt) : list A := map f l.
(** getCvPti(), homog2d.hpp:4438, 4607-4612: cv::Point2i(x,y), the numbers are truncated. *)
Definition getCvPti (p : qpt) : res (Z * Z) := asInts qTrunc p.
(** getCvPtd(), homog2d.hpp:4439, 4593-4598: a cv::Point2d converted to the return type of the member function,
    cv::Point2i (saturate_cast, i.e. cvRound), then to cv::Point2d. *)
Definition getCvPtd (p : qpt) : res qpt := do q <- asInts qRound p; Ok (inject_Z (fst q), inject_Z (snd q)).
(** getCvPtf(), homog2d.hpp:4440, 4600-4605; [r32]: rounding to float. *)
Definition getCvPtf (r32 : Q -> Q) (p : qpt) : res qpt :=
  do q <- asInts qRound (r32 (fst p), r32 (snd p)); Ok (inject_Z (fst q), inject_Z (snd q)).
(** Point constructor from a cv::Point_, homog2d.hpp:4443-4449. *)
Definition ptOfCv (p : Z * Z) : qpt := (inject_Z (fst p), inject_Z (snd p)).
