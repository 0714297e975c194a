(** * Properties (generated by tools/gen_prop.py from ProofsSampling5.v; statements
    only, each proved there) *)
From Coq Require Import String Reals Lra Lia ZArith List Bool.
From Coquelicot Require Import Coquelicot.
From Coq Require Import List.
From Verif Require Import Num NumLemmas LimLemmas ModelBase ModelSample ModelTip StackLemmas Spec SpecSampling
  ProofsStackQS ProofsStackQS2 ProofsBulkFF ProofsSym ProofsPassive DemodLemmas ProofsDemod ProofsTip ProofsTip2 ProofsTip3 ProofsTaylor
  ProofsDefault ProofsSampling ProofsSampling4.
Import ListNotations.
Open Scope R_scope.
From Verif Require Import ProofsSampling5.

(** C80. With the default tip and the default 32 samples, harmonics |n| <= 4 of
    fdm.eff_pol_n over every bulk sample with |beta| <= 1.01 are within 2 10^-5 of
    the documented integrals, for amplitudes up to 30 nm and heights up to 280 nm. *)
Theorem C80_fdm_default : forall (laggauss : laggauss_t) (e0 e1 : C) nu (A_tip z : R) (n : Z) d_Qa n_lag,
  let s := stack [e0; e1] [] nu in let beta := ((e1 - e0) / (e1 + e0))%C in
  let r := 20 / 10 ^ 9 in let L := 300 / 10 ^ 9 in let g := Cmult (RtoC (7 / 10)) (Cexp (0, 6 / 100)) in
  let f := fun d x => fdm_f x d r L g in
  e1 <> RtoC 0 -> (e0 + e1 <> 0)%C -> Cmod beta <= 101 / 100 -> (Z.abs n <= 4)%Z ->
  0 <= z -> 0 < A_tip <= 30 / 10 ^ 9 -> z + 2 * A_tip <= 280 / 10 ^ 9 ->
  exists v : C,
    fdm_eff_pol_n laggauss defaults0 s A_tip n (Some z) None None None None None None d_Qa n_lag None = Ok (Some v) /\
    Cmod (v - fourier_coefficient (fun x => 1 + beta * f (131 / 100 * L / (L + 2 * r))%R x / (2 * (1 - beta * f (5 / 10)%R x)))%C
                (z + A_tip) A_tip n)%C <= 2 / 10 ^ 5.
Proof. exact C80_fdm_default_proof. Qed.
Print Assumptions C80_fdm_default.

(** C80. Example: a silicon-like half space in contact with the default tip, 30 nm
    amplitude, second harmonic. *)
Example C80_example : forall (laggauss : laggauss_t),
  let beta := (((12, 1)%R - RtoC 1) / ((12, 1)%R + RtoC 1))%C in
  let r := 20 / 10 ^ 9 in let L := 300 / 10 ^ 9 in let g := Cmult (RtoC (7 / 10)) (Cexp (0, 6 / 100)) in
  let f := fun d x => fdm_f x d r L g in
  exists v : C,
    fdm_eff_pol_n laggauss defaults0 (stack [RtoC 1; (12, 1)] [] None) (30 / 10 ^ 9) 2 (Some 0) None None None None None None None None None = Ok (Some v) /\
    Cmod (v - fourier_coefficient (fun x => 1 + beta * f (131 / 100 * L / (L + 2 * r))%R x / (2 * (1 - beta * f (5 / 10)%R x)))%C
                (0 + 30 / 10 ^ 9) (30 / 10 ^ 9) 2)%C <= 2 / 10 ^ 5.
Proof. exact C80_example_proof. Qed.
