(** * Properties (generated by tools/gen_prop.py from ProofsMajor3.v; statements
    only, each proved there) *)
From Coq Require Import String Reals Lra Lia ZArith List Bool.
From Coquelicot Require Import Rcomplements Complex.
From Verif Require Import Num NumLemmas LimLemmas ModelBase ModelSample ModelTip StackLemmas Spec
  ProofsStackQS ProofsStackQS2 ProofsBulkFF ProofsSym ProofsPassive DemodLemmas ProofsDemod ProofsTip ProofsTip2 ProofsTip3
  ProofsTaylor PosDef ProofsContrast ProofsContrast2 SpecMajor Majorant ProofsMajor ProofsMajor2.
Import ListNotations.
Open Scope R_scope.
From Verif Require Import ProofsMajor3.

(** C97. First harmonic, conducting tip of the documented polarizability at or
    above contact, any amplitude and number of samples: over bulk samples
    with |beta| <= 3/5 the complex permittivity can be read off uniquely, and
    the sign of the imaginary part of the signal is that of the absorption. *)
Theorem C97_pdm_first_harmonic :
  forall (D : Defaults) (e0 e1 e2 : C) nu1 nu2 (A_tip : R) (z_tip r_tip : option R) (n_trapz : option nat),
  let N := given_or (d_n_trapz D) n_trapz in let z := given_or (d_z_tip D) z_tip in
  let r := given_or (d_r_tip D) r_tip in
  e0 <> RtoC 0 -> e1 <> RtoC 0 -> e2 <> RtoC 0 -> (e0 + e1 <> 0)%C -> (e0 + e2 <> 0)%C ->
  N <> O -> 0 < A_tip -> 0 < r -> 0 <= z ->
  Cmod ((e1 - e0) / (e1 + e0))%C <= 3 / 5 -> Cmod ((e2 - e0) / (e2 + e0))%C <= 3 / 5 ->
  (pdm_eff_pol_n D (stack [e0; e1] [] nu1) A_tip 1 z_tip n_trapz r_tip None None
    = pdm_eff_pol_n D (stack [e0; e2] [] nu2) A_tip 1 z_tip n_trapz r_tip None None -> e1 = e2) /\
  exists a : C, pdm_eff_pol_n D (stack [e0; e1] [] nu1) A_tip 1 z_tip n_trapz r_tip None None = Ok (Some a) /\
    (0 < Im ((e1 - e0) / (e1 + e0))%C -> Im a < 0).
Proof. exact C97_pdm_first_harmonic_proof. Qed.
Print Assumptions C97_pdm_first_harmonic.

(** C97. Without a bound on the reflection coefficient this fails: whatever the
    (real) tip, there is an absorbing bulk sample, near the resonance
    eps = - eps_env, whose first harmonic has the opposite sign of the phase. *)
Theorem C97_pdm_phase_refuted :
  forall (D : Defaults) (e0 : R) nu (A_tip : R) (z_tip r_tip : option R) (n_trapz : option nat)
    (eps_tip alpha_tip : option C) (alpha : R),
  let N := given_or (d_n_trapz D) n_trapz in let z := given_or (d_z_tip D) z_tip in
  let r := given_or (d_r_tip D) r_tip in
  tip_alpha r eps_tip alpha_tip (RtoC alpha) -> 0 < alpha -> 0 < e0 -> (2 <= N)%nat -> 0 < A_tip -> 0 < r + z ->
  exists e1 a : C, 0 < Im e1 /\ 0 < Im ((e1 - RtoC e0) / (e1 + RtoC e0))%C /\
    pdm_eff_pol_n D (stack [RtoC e0; e1] [] nu) A_tip 1 z_tip n_trapz r_tip eps_tip alpha_tip = Ok (Some a) /\ 0 < Im a.
Proof. exact C97_pdm_phase_refuted_proof. Qed.
Print Assumptions C97_pdm_phase_refuted.
