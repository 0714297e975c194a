(** * Specification: sensitivity of the inverses to the measured signal (C89) *)
From Coq Require Import Reals List.
From Coquelicot Require Import Complex.
Import ListNotations.
Open Scope R_scope.

(** [k |c_k| rho^(k-1) + (k+1) |c_(k+1)| rho^k + ...] for the coefficients
    [c_k, c_(k+1), ...] *)
Fixpoint slopes (rho : R) (k : nat) (c : list C) : R :=
  match c with [] => 0 | a :: c' => INR k * Cmod a * rho ^ (k - 1) + slopes rho (S k) c' end.
(** by how much the linear term of a series outweighs all others on the disc of
    radius [rho]: [|c_1| - 2 |c_2| rho - 3 |c_3| rho^2 - ...] *)
Definition margin (rho : R) (c : list C) : R :=
  match c with _ :: a :: c' => Cmod a - slopes rho 2 c' | _ => 0 end.
(** the coefficient of order zero *)
Definition order0 (c : list C) : C := nth 0 c (RtoC 0).
