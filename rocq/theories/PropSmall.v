(** * Properties (generated by tools/gen_prop.py from ProofsSmall.v; statements
    only, each proved there) *)
From Coq Require Import String Reals Lra Lia ZArith List Bool.
From Coquelicot Require Import Coquelicot.
From Coq Require Import List.
From Verif Require Import Num NumLemmas ModelBase ModelSample ModelTip StackLemmas Spec SpecTap
  ProofsStackQS ProofsPassive DemodLemmas ProofsDemod ProofsTip ProofsTip2 ProofsTip3 ProofsTaylor LimLemmas.
Import ListNotations.
Open Scope R_scope.
From Verif Require Import ProofsSmall.

(** C64. Any quantity with a Taylor expansion of order |n| above the lowest tip
    position, demodulated at harmonic n with more than 2 |n| samples, scales as
    the |n|-th power of a small tapping amplitude; the factor is its |n|-th
    Taylor coefficient over 2^|n|. *)
Theorem C64_small_amplitude :
  forall (D : Defaults) (f : R -> res CV) (F : R -> C) (z : R) (n : Z) (n_trapz : option nat) (c : nat -> C) (room : R),
  let N := given_or (d_n_trapz D) n_trapz in let a := Z.abs_nat n in
  (2 * a < N)%nat ->
  (forall x, exists v, f x = Ok v) ->
  0 < room -> (forall h, 0 <= h < room -> f (z + h) = Ok (Some (F (z + h)))) ->
  expands F z a c ->
  forall eps, 0 < eps -> exists delta, 0 < delta /\ forall A, 0 < A < delta ->
  exists v, demod D f (z + A) A n n_trapz = Ok (Some v) /\
    Cmod (v / RtoC (A ^ a) - c a / RtoC (2 ^ a))%C <= eps.
Proof. exact C64_small_amplitude_proof. Qed.
Print Assumptions C64_small_amplitude.
