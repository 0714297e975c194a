(** * Specification: cosine coefficients along the stroke of the tip

    Plain real sums over the N sampled heights of one oscillation; nothing from
    the model of the code is used. *)
From Coq Require Import Reals ZArith.
From Verif Require Import Spec PosDef.
Open Scope R_scope.

(** n-th cosine coefficient of a function of the height of the tip, sampled at
    the N heights z + A (1 - cos (2 pi k / N)) *)
Definition cosine (z A : R) (n : Z) (N : nat) (f : R -> R) : R :=
  Sm (fun k => f (tip_height z A N k) * cos (IZR n * (2 * PI * INR k / INR N))) N / INR N.
(** height dependence of the dipole-image coupling in the point dipole model *)
Definition dipole (alpha r x : R) : R := alpha / (16 * PI * (r + x) ^ 3).
