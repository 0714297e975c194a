(** * Specification: the negative of a (possibly non-finite) value *)
From Coq Require Import Reals.
From Coquelicot Require Import Complex.
From Verif Require Import Num.
Definition negV (x : CV) : CV := match x with Some z => Some (- z)%C | None => None end.
