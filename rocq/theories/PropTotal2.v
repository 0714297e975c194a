(** * Properties (generated by tools/gen_prop.py from ProofsTotal2.v; statements
    only, each proved there) *)
From Coq Require Import String Reals Lra Lia ZArith List Bool Permutation.
From Coquelicot Require Import Coquelicot.
From Coq Require Import List.
From Verif Require Import Num NumLemmas ModelBase ModelSample ModelTip StackLemmas Spec SpecSampling DemodLemmas ProofsTip ProofsTip3 ProofsTip5
  SpecRound ModelRound ModelRound2 RoundLemmas RoundLemmas2 ProofsPassive ProofsTaylor ProofsDefault ProofsRounding ProofsRounding2 ProofsRounding3
  ProofsSampling3 ProofsSampling5 ProofsTotal.
Import ListNotations.
Open Scope R_scope.
From Verif Require Import ProofsTotal2.

(** C98. The default finite-dipole signal as computed: on any machine of relative precision u, adding in any order,
    fdm.eff_pol_n with the default tip and 32 samples is within 2 10^-5 + 3800 u + 3 delta of the documented integral, where
    delta is the error of the computed reflection coefficient. *)
Theorem C98_fdm_total : forall u (m : machine) (laggauss : laggauss_t) (e0 e1 b : C) nu (delta A_tip z : R) (n : Z) d_Qa n_lag,
  let s := stack [e0; e1] [] nu in let beta := ((e1 - e0) / (e1 + e0))%C in
  let r := 20 / 10 ^ 9 in let L := 300 / 10 ^ 9 in let g := Cmult (RtoC (7 / 10)) (Cexp (0, 6 / 100)) in
  let f := fun d x => fdm_f x d r L g in
  rounding u m -> 0 <= u <= / 10 ^ 5 ->
  k_refl_coef_qs m s 0 = Ok b -> Cmod (b - beta)%C <= delta -> delta <= 1 / 100 ->
  e1 <> RtoC 0 -> (e0 + e1 <> 0)%C -> Cmod beta <= 101 / 100 -> (Z.abs n <= 4)%Z ->
  0 <= z -> 0 < A_tip <= 30 / 10 ^ 9 -> z + 2 * A_tip <= 280 / 10 ^ 9 ->
  exists w : C,
    k_fdm_eff_pol_n m laggauss defaults0 s A_tip n (Some z) None None None None None None d_Qa n_lag None = Ok w /\
    Cmod (w - fourier_coefficient (fun x => 1 + beta * f (131 / 100 * L / (L + 2 * r))%R x / (2 * (1 - beta * f (5 / 10)%R x)))%C
                (z + A_tip) A_tip n)%C <= 2 / 10 ^ 5 + 3800 * u + 3 * delta.
Proof. exact C98_fdm_total_proof. Qed.
Print Assumptions C98_fdm_total.
