(** * Model of the homography computed from four pairs of points *)

From Coq Require Import ZArith List Bool Arith.
From Verif Require Import Num M_LP M_Homogr.
Import ListNotations.
Local Open Scope num_scope.

Section Four.
  Context {T : Type} {N : Num T}.

  (** A row of the linear system: 8 coefficients and the right-hand side. *)
  Definition row : Type := (list T * T)%type.

  (** The two rows set up for one pair of points, homog2d.hpp:4709-4726. *)
  Definition rowsOf (p q : pt T) : list row :=
    [ ([px p; py p; #1; #0; #0; #0; - px p * px q; - py p * px q], px q);
      ([#0; #0; #0; px p; py p; #1; - px p * py q; - py p * py q], py q) ].
  (** The system of 8 equations, homog2d.hpp:4704-4727. *)
  Definition system (src dst : list (pt T)) : list row := flat_map (fun e => rowsOf (fst e) (snd e)) (combine src dst).

  (** Scalar product. *)
  Fixpoint dot (a b : list T) : T :=
    match a, b with x :: a', y :: b' => x * y + dot a' b' | _, _ => #0 end.
  (** Elimination step: subtracts a multiple of the pivot row [p], and drops the first coefficient. *)
  Definition lead (r : row) : T := hd (#0) (fst r).
  Fixpoint subMul (f : T) (a b : list T) : list T :=
    match a, b with x :: a', y :: b' => (x - f * y) :: subMul f a' b' | _, _ => [] end.
  Definition elim (p r : row) : row :=
    let f := lead r / lead p in (subMul f (tl (fst r)) (tl (fst p)), snd r - f * snd p).
  (** First row with a non null first coefficient, and the other ones. *)
  Fixpoint pick (rows : list row) : option (row * list row) :=
    match rows with
    | [] => None
    | r :: q =>
        if lead r =? #0 then match pick q with Some (p, o) => Some (p, r :: o) | None => None end
        else Some (r, q)
    end.
  (** Product of the inverse of the matrix and the right-hand side (Eigen: A.inverse() times b),
      homog2d.hpp:4731-4732.  Eigen is not part of the repository: its LU decomposition is replaced by
      elimination.  Both give the solution of a regular system in exact arithmetic.  A singular
      matrix, where Eigen returns infinite or NaN values, is [None]. *)
  Fixpoint solve (n : nat) (rows : list row) : option (list T) :=
    match n with
    | O => Some []
    | S m =>
        match pick rows with
        | None => None
        | Some (p, others) =>
            match solve m (map (elim p) others) with
            | None => None
            | Some xs => Some ((snd p - dot (tl (fst p)) xs) / lead p :: xs)
            end
        end
    end.

  (** The loop which stores the 8 values with set(i/3,i%3), homog2d.hpp:4735-4738. *)
  Fixpoint setAll (i : nat) (xs : list T) (o : hobj T) : res (hobj T) :=
    match xs with
    | [] => Ok o
    | x :: r => do o' <- hSet o (i / 3) (i mod 3) x; setAll (i + 1) r o'
    end.
  (** detail::buildFrom4Points_Eigen, homog2d.hpp:4697-4741. *)
  Definition fourEigen (src dst : list (pt T)) : res (hobj T) :=
    match solve 8 (system src dst) with
    | None => Undef
    | Some xs => do o <- setAll 0 xs hNew; hSet o 2 2 (#1)
    end.
  (** Hmatrix_::buildFrom4Points with method 0 and Eigen available, homog2d.hpp:4795-4825 (the result is
      assigned to the object); free function :4770-4781 on a default-constructed object. *)
  Definition fourPoints (o : hobj T) (src dst : list (pt T)) : res (hobj T) :=
    if negb (length src =? 4)%nat then Throw
    else if negb (length dst =? 4)%nat then Throw
    else do h <- fourEigen src dst; Ok (hAssign o h).
End Four.
