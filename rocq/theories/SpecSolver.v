(** * Specification: polynomial solvers that round

    [numpy.polynomial.Polynomial.roots] finds the eigenvalues of a companion
    matrix.  What such a solver is asked for here is normwise backward stability:
    the numbers it returns are exact roots of a polynomial whose coefficients
    differ from the given ones by at most [eta] times the sum of their moduli. *)
From Coq Require Import Reals List.
From Coquelicot Require Import Complex.
From Verif Require Import Num.
Import ListNotations.
Open Scope R_scope.

(** sum of c_j z^j *)
Fixpoint poly_at (c : list C) (z : C) : C :=
  match c with [] => RtoC 0 | a :: c' => (a + z * poly_at c' z)%C end.
Definition total (c : list C) : R := fold_right Rplus 0 (map Cmod c).
Definition backward_stable (eta : R) (roots : list C -> list C) : Prop :=
  forall c, exists c', length c' = length c /\
    (forall j, (j < length c)%nat -> Cmod (nth j c' (RtoC 0) - nth j c (RtoC 0))%C <= eta * total c) /\
    forall z, In z (roots c) -> poly_at c' z = RtoC 0.
