(** * Properties (generated by tools/gen_prop.py from ProofsHarm3.v; statements
    only, each proved there) *)
From Coq Require Import String Reals Lra Lia ZArith List Bool.
From Coquelicot Require Import Rcomplements Complex.
From Verif Require Import Num NumLemmas LimLemmas ModelBase ModelSample ModelTip StackLemmas Spec
  ProofsStackQS ProofsStackQS2 ProofsBulkFF ProofsSym ProofsPassive DemodLemmas ProofsDemod ProofsTip ProofsTip2 ProofsTip3
  ProofsTaylor PosDef ProofsContrast ProofsContrast2 SpecMajor Majorant ProofsMajor ProofsMajor2 ProofsDefault ProofsPerm ProofsOsc
  ModelFit ProofsFit ProofsFit2 ProofsFit3 UniMod ProofsHarm.
Import ListNotations.
Open Scope R_scope.
From Verif Require Import ProofsHarm3.

(** C106. Complex g factors and absorbing samples: for every tip within its reach
    and every two harmonics 0 < |n| < |m| up to half the number of samples there is a
    threshold below which every reflection coefficient, of whatever phase, gives a
    stronger harmonic n. *)
Theorem C106_weak :
  forall (laggauss : laggauss_t) (D : Defaults) (A_tip : R) (n m : Z) (n_trapz : option nat)
    (z_tip r_tip L_tip : option R) (g_factor : option C) (d_Q0 d_Q1 d_Qa : option R) (n_lag : option nat),
  let N := given_or (d_n_trapz D) n_trapz in let z := given_or (d_z_tip D) z_tip in
  let r := given_or (d_r_tip D) r_tip in let L := given_or (d_L_tip D) L_tip in let g := given_or (d_g_factor D) g_factor in
  let d0 := given_or (131 / 100 * L / (L + 2 * r)) d_Q0 in let d1 := given_or (d_d_Q1 D) d_Q1 in
  N <> O -> 0 < A_tip -> 0 < r < 4 * L -> 0 < r + 4 * z + 2 * r * d0 -> 0 < r + 4 * z + 2 * r * d1 ->
  r + 2 * (z + 2 * A_tip) + r * d0 < 2 * L * Re g -> r + 4 * (z + 2 * A_tip) + 2 * r * d0 < 4 * L ->
  (0 < Z.abs n < Z.abs m)%Z -> (2 * Z.abs m <= Z.of_nat N)%Z ->
  exists rho, 0 < rho /\
  forall (s : sample) (b : C) method, method = None \/ method = Some "bulk"%string ->
  multilayer s = false -> refl_coef_qs s (rr 0) = Ok (Some b) -> 0 < Cmod b <= rho ->
  exists a_n a_m : C,
    fdm_eff_pol_n laggauss D s A_tip n z_tip n_trapz r_tip L_tip g_factor d_Q0 d_Q1 d_Qa n_lag method = Ok (Some a_n) /\
    fdm_eff_pol_n laggauss D s A_tip m z_tip n_trapz r_tip L_tip g_factor d_Q0 d_Q1 d_Qa n_lag method = Ok (Some a_m) /\
    0 < Cmod a_m < Cmod a_n.
Proof. exact C106_weak_proof. Qed.
Print Assumptions C106_weak.

(** C106. Point dipole model, lossy tips and samples: below a threshold for
    |alpha b| the lower harmonic is the stronger, whatever the phases of the tip
    polarizability and of the reflection coefficient. The threshold depends on
    the stroke only. *)
Theorem C106_weak_pdm :
  forall (D : Defaults) (A_tip : R) (n m : Z) (z_tip r_tip : option R) (n_trapz : option nat),
  let N := given_or (d_n_trapz D) n_trapz in let z := given_or (d_z_tip D) z_tip in
  let r := given_or (d_r_tip D) r_tip in
  N <> O -> 0 < A_tip -> 0 < r + z -> (0 < Z.abs n < Z.abs m)%Z -> (2 * Z.abs m <= Z.of_nat N)%Z ->
  exists rho, 0 < rho /\
  forall (s : sample) (eps_tip alpha_tip : option C) (alpha b : C),
  tip_alpha r eps_tip alpha_tip alpha -> refl_coef_qs s (rr 0) = Ok (Some b) -> 0 < Cmod (alpha * b)%C <= rho ->
  exists a_n a_m : C,
    pdm_eff_pol_n D s A_tip n z_tip n_trapz r_tip eps_tip alpha_tip = Ok (Some a_n) /\
    pdm_eff_pol_n D s A_tip m z_tip n_trapz r_tip eps_tip alpha_tip = Ok (Some a_m) /\
    0 < Cmod a_m < Cmod a_n.
Proof. exact C106_weak_pdm_proof. Qed.
Print Assumptions C106_weak_pdm.

(** C106. The default tip and settings (complex g factor), any amplitude up to
    90 nm and any two harmonics up to 16. *)
Theorem C106_weak_default :
  forall (laggauss : laggauss_t) (A_tip : R) (n m : Z), 0 < A_tip <= 90 / 10 ^ 9 -> (0 < Z.abs n < Z.abs m)%Z -> (Z.abs m <= 16)%Z ->
  exists rho, 0 < rho /\
  forall (s : sample) (b : C), multilayer s = false -> refl_coef_qs s (rr 0) = Ok (Some b) -> 0 < Cmod b <= rho ->
  exists a_n a_m : C,
    fdm_eff_pol_n laggauss defaults0 s A_tip n None None None None None None None None None None = Ok (Some a_n) /\
    fdm_eff_pol_n laggauss defaults0 s A_tip m None None None None None None None None None None = Ok (Some a_m) /\
    0 < Cmod a_m < Cmod a_n.
Proof. exact C106_weak_default_proof. Qed.
Print Assumptions C106_weak_default.

(** C106, example: default tip, 50 nm amplitude: there are absorbing samples to
    which the theorems apply, and their third harmonic is weaker than the second
    in both models. *)
Example C106_weak_example :
  forall laggauss, exists (t : R) (a2 a3 p2 p3 : C), 0 < t /\
    let s := stack [RtoC 1; (1, 2 * t)] [] None in
    fdm_eff_pol_n laggauss defaults0 s (50 / 10 ^ 9) 2 None None None None None None None None None None = Ok (Some a2) /\
    fdm_eff_pol_n laggauss defaults0 s (50 / 10 ^ 9) 3 None None None None None None None None None None = Ok (Some a3) /\
    pdm_eff_pol_n defaults0 s (50 / 10 ^ 9) 2 None None None None None = Ok (Some p2) /\
    pdm_eff_pol_n defaults0 s (50 / 10 ^ 9) 3 None None None None None = Ok (Some p3) /\
    0 < Cmod a3 < Cmod a2 /\ 0 < Cmod p3 < Cmod p2.
Proof. exact C106_weak_example_proof. Qed.
