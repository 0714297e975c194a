(** Specification for small tapping amplitudes *)
From Coq Require Import Reals.
From Coquelicot Require Import Complex.
From Verif Require Import Num ModelBase ModelSample Spec.
Open Scope R_scope.

(** Taylor expansion of order n at z, from the right: f (z + h) is
    c_0 + c_1 h + ... + c_n h^n up to an error that vanishes faster than h^n *)
Definition expands (f : R -> C) (z : R) (n : nat) (c : nat -> C) : Prop :=
  forall eps, 0 < eps -> exists delta, 0 < delta /\
    forall h, 0 <= h < delta -> Cmod (f (z + h)%R - poly c (S n) h)%C <= eps * h ^ n.
