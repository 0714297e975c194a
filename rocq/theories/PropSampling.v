(** * Properties (generated by tools/gen_prop.py from ProofsSampling.v; statements
    only, each proved there) *)
From Coq Require Import String Reals Lra Lia ZArith List Bool.
From Coquelicot Require Import Coquelicot.
From Coq Require Import List.
From Verif Require Import Num NumLemmas LimLemmas ModelBase ModelSample ModelTip StackLemmas Spec SpecSampling
  ProofsStackQS ProofsStackQS2 ProofsBulkFF ProofsSym ProofsPassive DemodLemmas ProofsDemod ProofsTip ProofsTip2 ProofsTip3 ProofsTaylor.
Import ListNotations.
Open Scope R_scope.
From Verif Require Import ProofsSampling.

(** C79. Sampling theorem for demod: the error of the n-th harmonic against the
    documented Fourier integral is at most twice the distance, on the swept
    interval, to any polynomial of degree below n_trapz - |n|. *)
Theorem C79_best_polynomial :
  forall (D : Defaults) (f : R -> C) (x_0 A : R) (n : Z) (n_trapz : option nat) (c : nat -> C) (d : nat) (E : R),
  let N := given_or (d_n_trapz D) n_trapz in
  continuous_between (x_0 - Rabs A) (x_0 + Rabs A) f -> (d + Z.abs_nat n <= N)%nat -> N <> O ->
  (forall x, x_0 - Rabs A <= x <= x_0 + Rabs A -> Cmod (f x - poly c d (x - x_0))%C <= E) ->
  exists v : C, demod D (fun x => Ok (Some (f x))) x_0 A n n_trapz = Ok (Some v) /\
    Cmod (v - fourier_coefficient f x_0 A n)%C <= 2 * E.
Proof. exact C79_best_polynomial_proof. Qed.
Print Assumptions C79_best_polynomial.
