(** * Properties (generated by tools/gen_prop.py from ProofsContrast.v; statements
    only, each proved there) *)
From Coq Require Import String Reals Lra Lia ZArith List Bool.
From Coquelicot Require Import Rcomplements Complex.
From Verif Require Import Num NumLemmas LimLemmas ModelBase ModelSample ModelTip StackLemmas Spec
  ProofsStackQS ProofsStackQS2 ProofsBulkFF ProofsSym ProofsPassive DemodLemmas ProofsDemod ProofsTip ProofsTip2 ProofsTip3
  ProofsTaylor PosDef.
Import ListNotations.
Open Scope R_scope.
From Verif Require Import ProofsContrast.

(** C69. Point dipole model, lossless tip and sample: harmonic n has the sign
    (-1)^n, and its magnitude grows strictly with the reflection coefficient,
    for every harmonic and any number of sampling points. *)
Theorem C69_pdm_contrast :
  forall (D : Defaults) (s1 s2 : sample) (A_tip : R) (n : Z) (z_tip r_tip : option R) (n_trapz : option nat)
    (eps_tip alpha_tip : option C) (alpha b1 b2 : R),
  let N := given_or (d_n_trapz D) n_trapz in let z := given_or (d_z_tip D) z_tip in
  let r := given_or (d_r_tip D) r_tip in
  tip_alpha r eps_tip alpha_tip (RtoC alpha) -> 0 < alpha ->
  refl_coef_qs s1 (rr 0) = Ok (Some (RtoC b1)) -> refl_coef_qs s2 (rr 0) = Ok (Some (RtoC b2)) ->
  N <> O -> 0 < A_tip -> 0 < r + z -> 0 <= b1 < b2 -> alpha * b2 < 16 * PI * (r + z) ^ 3 ->
  exists m1 m2 : R,
    pdm_eff_pol_n D s1 A_tip n z_tip n_trapz r_tip eps_tip alpha_tip = Ok (Some (RtoC (sgn_pow n * m1))) /\
    pdm_eff_pol_n D s2 A_tip n z_tip n_trapz r_tip eps_tip alpha_tip = Ok (Some (RtoC (sgn_pow n * m2))) /\
    0 <= m1 < m2 /\ (0 < b1 -> 0 < m1).
Proof. exact C69_pdm_contrast_proof. Qed.
Print Assumptions C69_pdm_contrast.

(** C69. ... and decays strictly with the height of the tip. *)
Theorem C69_pdm_approach :
  forall (D : Defaults) (s : sample) (A_tip : R) (n : Z) (z1 z2 : R) (r_tip : option R) (n_trapz : option nat)
    (eps_tip alpha_tip : option C) (alpha b : R),
  let N := given_or (d_n_trapz D) n_trapz in
  let r := given_or (d_r_tip D) r_tip in
  tip_alpha r eps_tip alpha_tip (RtoC alpha) -> 0 < alpha -> refl_coef_qs s (rr 0) = Ok (Some (RtoC b)) ->
  N <> O -> 0 < A_tip -> 0 < r + z1 -> z1 < z2 -> 0 < b -> alpha * b < 16 * PI * (r + z1) ^ 3 ->
  exists m1 m2 : R,
    pdm_eff_pol_n D s A_tip n (Some z1) n_trapz r_tip eps_tip alpha_tip = Ok (Some (RtoC (sgn_pow n * m1))) /\
    pdm_eff_pol_n D s A_tip n (Some z2) n_trapz r_tip eps_tip alpha_tip = Ok (Some (RtoC (sgn_pow n * m2))) /\
    0 < m2 < m1.
Proof. exact C69_pdm_approach_proof. Qed.
Print Assumptions C69_pdm_approach.
