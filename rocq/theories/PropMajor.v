(** * Properties (generated by tools/gen_prop.py from ProofsMajor.v; statements
    only, each proved there) *)
From Coq Require Import String Reals Lra Lia ZArith List Bool.
From Coquelicot Require Import Rcomplements Complex.
From Verif Require Import Num NumLemmas LimLemmas ModelBase ModelSample ModelTip StackLemmas Spec
  ProofsStackQS ProofsStackQS2 ProofsBulkFF ProofsSym ProofsPassive DemodLemmas ProofsDemod ProofsTip ProofsTip2 ProofsTip3
  ProofsTaylor PosDef ProofsContrast ProofsContrast2 SpecMajor Majorant.
Import ListNotations.
Open Scope R_scope.
From Verif Require Import ProofsMajor.

(** C97. Point dipole model with a real tip over two arbitrary, possibly
    absorbing, samples whose complex quasistatic reflection coefficients have
    modulus at most rho, the loop gain staying below 1.  With c and d the n-th
    cosine coefficients of alpha g and of alpha g/(1 - rho g)^2 along the stroke
    (g the dipole coupling), the difference of the n-th harmonics is (-1)^n c
    times the difference of the reflection coefficients up to d - c times its
    modulus.  For every harmonic and number of samples. *)
Theorem C97_pdm_contrast :
  forall (D : Defaults) (s1 s2 : sample) (A_tip : R) (n : Z) (z_tip r_tip : option R) (n_trapz : option nat)
    (eps_tip alpha_tip : option C) (alpha rho : R) (b1 b2 : C),
  let N := given_or (d_n_trapz D) n_trapz in let z := given_or (d_z_tip D) z_tip in
  let r := given_or (d_r_tip D) r_tip in
  tip_alpha r eps_tip alpha_tip (RtoC alpha) -> 0 < alpha ->
  refl_coef_qs s1 (rr 0) = Ok (Some b1) -> refl_coef_qs s2 (rr 0) = Ok (Some b2) ->
  N <> O -> 0 < A_tip -> 0 < r + z -> Cmod b1 <= rho -> Cmod b2 <= rho -> alpha * rho < 16 * PI * (r + z) ^ 3 ->
  let c := cosine z A_tip n N (fun x => alpha * dipole alpha r x) in
  let d := cosine z A_tip n N (fun x => alpha * dipole alpha r x / (1 - rho * dipole alpha r x) ^ 2) in
  0 < c <= d /\
  exists a1 a2 : C,
    pdm_eff_pol_n D s1 A_tip n z_tip n_trapz r_tip eps_tip alpha_tip = Ok (Some a1) /\
    pdm_eff_pol_n D s2 A_tip n z_tip n_trapz r_tip eps_tip alpha_tip = Ok (Some a2) /\
    Cmod (a1 - a2 - RtoC (sgn_pow n * c) * (b1 - b2))%C <= (d - c) * Cmod (b1 - b2)%C /\
    (2 * c - d) * Cmod (b1 - b2)%C <= Cmod (a1 - a2)%C <= d * Cmod (b1 - b2)%C.
Proof. exact C97_pdm_contrast_proof. Qed.
Print Assumptions C97_pdm_contrast.

(** C97. Phase: the imaginary part of (-1)^n times the harmonic is c times the
    imaginary part of the reflection coefficient up to a relative error d/c - 1;
    in particular absorption shows up with its own sign as soon as d < 2 c. *)
Theorem C97_pdm_phase :
  forall (D : Defaults) (s : sample) (A_tip : R) (n : Z) (z_tip r_tip : option R) (n_trapz : option nat)
    (eps_tip alpha_tip : option C) (alpha rho : R) (b : C),
  let N := given_or (d_n_trapz D) n_trapz in let z := given_or (d_z_tip D) z_tip in
  let r := given_or (d_r_tip D) r_tip in
  tip_alpha r eps_tip alpha_tip (RtoC alpha) -> 0 < alpha ->
  refl_coef_qs s (rr 0) = Ok (Some b) ->
  N <> O -> 0 < A_tip -> 0 < r + z -> Cmod b <= rho -> alpha * rho < 16 * PI * (r + z) ^ 3 ->
  let c := cosine z A_tip n N (fun x => alpha * dipole alpha r x) in
  let d := cosine z A_tip n N (fun x => alpha * dipole alpha r x / (1 - rho * dipole alpha r x) ^ 2) in
  exists a : C,
    pdm_eff_pol_n D s A_tip n z_tip n_trapz r_tip eps_tip alpha_tip = Ok (Some a) /\
    Rabs (sgn_pow n * Im a - c * Im b) <= (d - c) * Rabs (Im b) /\
    (0 < Im b -> d < 2 * c -> 0 < sgn_pow n * Im a).
Proof. exact C97_pdm_phase_proof. Qed.
Print Assumptions C97_pdm_phase.

(** C97. No absorbing sample gives a larger harmonic than the lossless sample
    with the same modulus of the reflection coefficient. *)
Theorem C97_pdm_bound :
  forall (D : Defaults) (s s0 : sample) (A_tip : R) (n : Z) (z_tip r_tip : option R) (n_trapz : option nat)
    (eps_tip alpha_tip : option C) (alpha rho : R) (b : C),
  let N := given_or (d_n_trapz D) n_trapz in let z := given_or (d_z_tip D) z_tip in
  let r := given_or (d_r_tip D) r_tip in
  tip_alpha r eps_tip alpha_tip (RtoC alpha) -> 0 < alpha ->
  refl_coef_qs s (rr 0) = Ok (Some b) -> refl_coef_qs s0 (rr 0) = Ok (Some (RtoC rho)) ->
  N <> O -> 0 < A_tip -> 0 < r + z -> Cmod b <= rho -> alpha * rho < 16 * PI * (r + z) ^ 3 ->
  exists a a0 : C,
    pdm_eff_pol_n D s A_tip n z_tip n_trapz r_tip eps_tip alpha_tip = Ok (Some a) /\
    pdm_eff_pol_n D s0 A_tip n z_tip n_trapz r_tip eps_tip alpha_tip = Ok (Some a0) /\
    Cmod a <= Cmod a0.
Proof. exact C97_pdm_bound_proof. Qed.
Print Assumptions C97_pdm_bound.

(** C97. Below the threshold, d < 2 c, two bulk samples of arbitrary complex
    permittivity under the same medium giving the same value of one harmonic
    are the same material. *)
Theorem C97_pdm_unique :
  forall (D : Defaults) (e0 e1 e2 : C) nu1 nu2 (A_tip : R) (n : Z) (z_tip r_tip : option R) (n_trapz : option nat)
    (eps_tip alpha_tip : option C) (alpha rho : R),
  let N := given_or (d_n_trapz D) n_trapz in let z := given_or (d_z_tip D) z_tip in
  let r := given_or (d_r_tip D) r_tip in
  tip_alpha r eps_tip alpha_tip (RtoC alpha) -> 0 < alpha ->
  e0 <> RtoC 0 -> e1 <> RtoC 0 -> e2 <> RtoC 0 -> (e0 + e1 <> 0)%C -> (e0 + e2 <> 0)%C ->
  N <> O -> 0 < A_tip -> 0 < r + z ->
  Cmod ((e1 - e0) / (e1 + e0))%C <= rho -> Cmod ((e2 - e0) / (e2 + e0))%C <= rho -> alpha * rho < 16 * PI * (r + z) ^ 3 ->
  cosine z A_tip n N (fun x => alpha * dipole alpha r x / (1 - rho * dipole alpha r x) ^ 2) < 2 * cosine z A_tip n N (fun x => alpha * dipole alpha r x) ->
  pdm_eff_pol_n D (stack [e0; e1] [] nu1) A_tip n z_tip n_trapz r_tip eps_tip alpha_tip
    = pdm_eff_pol_n D (stack [e0; e2] [] nu2) A_tip n z_tip n_trapz r_tip eps_tip alpha_tip -> e1 = e2.
Proof. exact C97_pdm_unique_proof. Qed.
Print Assumptions C97_pdm_unique.
