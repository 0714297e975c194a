(** * Polynomials: evaluation, roots with multiplicity *)
From Coq Require Import Reals List Arith.
From Coquelicot Require Import Complex.
From Verif Require Import Num.
Import ListNotations.
Open Scope C_scope.

(** value at [x] of the polynomial with coefficients [c], lowest power first *)
Fixpoint peval (c : list C) (x : C) : C :=
  match c with [] => RtoC 0 | a :: c' => a + x * peval c' x end.
(** its derivative at [x] *)
Fixpoint pderiv (c : list C) (x : C) : C :=
  match c with [] => RtoC 0 | _ :: c' => peval c' x + x * pderiv c' x end.
(** product of [x - r] over a list of numbers *)
Fixpoint prod_minus (rs : list C) (x : C) : C :=
  match rs with [] => RtoC 1 | r :: rs' => (x - r) * prod_minus rs' x end.
(** [rs] are the roots of the polynomial [c], with multiplicity: one less than
    there are coefficients, and the polynomial is the product of the linear factors *)
Definition all_roots_of (c rs : list C) : Prop :=
  S (length rs) = length c /\ forall x, peval c x = last c (RtoC 0) * prod_minus rs x.
(** [b] is an [m]-fold root of the polynomial function [P] ([m = 0]: no root) *)
Definition multiplicity (P : C -> C) (b : C) (m : nat) : Prop :=
  exists q, (forall x, P x = Cpown (x - b) m * peval q x) /\ peval q b <> RtoC 0.
