(** * Properties (generated by tools/gen_prop.py from ProofsTip4.v; statements
    only, each proved there) *)
From Coq Require Import String Reals Lra Lia ZArith List Bool.
From Coquelicot Require Import Rcomplements Complex.
From Verif Require Import Num NumLemmas LimLemmas ModelBase ModelSample ModelTip StackLemmas Spec
  ProofsStackQS ProofsStackQS2 ProofsBulkFF ProofsSym ProofsPassive DemodLemmas ProofsDemod ProofsTip ProofsTip2 ProofsTip3.
Import ListNotations.
Open Scope R_scope.
From Verif Require Import ProofsTip4.

(** C42. Finite dipole model: measuring all lengths (tip, amplitude,
    thicknesses, and the stored defaults) in a unit k times smaller changes
    no effective polarizability, no harmonic, no Taylor sum and no inversion,
    for any method. *)
Theorem C42_fdm_units :
  forall (laggauss : laggauss_t) (k : R) (D : Defaults) (s : sample) (A_tip : R) (n : Z) (z_tip r_tip L_tip : option R)
    (g_factor : option C) (d_Q0 d_Q1 d_Qa : option R) (n_lag n_trapz n_tayl : option nat) (method : option string)
    (alpha : CV),
  let D' := rescale_defaults k D in let s' := rescale_sample k s in
  let z' := in_length k z_tip in let r' := in_length k r_tip in let L' := in_length k L_tip in
  0 < k -> given_or (d_L_tip D) L_tip + 2 * given_or (d_r_tip D) r_tip <> 0 ->
  fdm_eff_pol laggauss D' s' z' r' L' g_factor d_Q0 d_Q1 d_Qa n_lag method
    = fdm_eff_pol laggauss D s z_tip r_tip L_tip g_factor d_Q0 d_Q1 d_Qa n_lag method /\
  fdm_eff_pol_n laggauss D' s' (k * A_tip) n z' n_trapz r' L' g_factor d_Q0 d_Q1 d_Qa n_lag method
    = fdm_eff_pol_n laggauss D s A_tip n z_tip n_trapz r_tip L_tip g_factor d_Q0 d_Q1 d_Qa n_lag method /\
  fdm_eff_pol_n_taylor laggauss D' s' (k * A_tip) n z' r' L' g_factor d_Q0 d_Q1 d_Qa n_lag method n_trapz n_tayl
    = fdm_eff_pol_n_taylor laggauss D s A_tip n z_tip r_tip L_tip g_factor d_Q0 d_Q1 d_Qa n_lag method n_trapz n_tayl /\
  fdm_refl_coef_qs_from_eff_pol D' alpha z' r' L' g_factor d_Q0 d_Q1
    = fdm_refl_coef_qs_from_eff_pol D alpha z_tip r_tip L_tip g_factor d_Q0 d_Q1.
Proof. exact C42_fdm_units_proof. Qed.
Print Assumptions C42_fdm_units.

(** C42. Point dipole model: effective polarizabilities are volumes. They and
    their harmonics are multiplied by k^3 when all lengths are multiplied by k
    (alpha_tip, if given, by k^3); the inverse is unchanged.  The Taylor sum
    is unchanged too, which shows that it is not in the same unit as the
    harmonics it approximates (see C29). *)
Theorem C42_pdm_units :
  forall (k : R) (D : Defaults) (s : sample) (A_tip : R) (n : Z) (z_tip r_tip : option R)
    (eps_tip alpha_tip : option C) (n_trapz n_tayl : option nat) (alpha : CV),
  let D' := rescale_defaults k D in let s' := rescale_sample k s in
  let z' := in_length k z_tip in let r' := in_length k r_tip in let a' := in_volume k alpha_tip in
  0 < k ->
  pdm_eff_pol D' s' z' r' eps_tip a'
    = map_res (fun v => rc (k ^ 3) * v)%cv (pdm_eff_pol D s z_tip r_tip eps_tip alpha_tip) /\
  pdm_eff_pol_n D' s' (k * A_tip) n z' n_trapz r' eps_tip a'
    = map_res (fun v => rc (k ^ 3) * v)%cv (pdm_eff_pol_n D s A_tip n z_tip n_trapz r_tip eps_tip alpha_tip) /\
  pdm_eff_pol_n_taylor D' s' (k * A_tip) n z' r' eps_tip a' n_trapz n_tayl
    = pdm_eff_pol_n_taylor D s A_tip n z_tip r_tip eps_tip alpha_tip n_trapz n_tayl /\
  pdm_refl_coef_qs_from_eff_pol D' (rc (k ^ 3) * alpha)%cv z' r' eps_tip a'
    = pdm_refl_coef_qs_from_eff_pol D alpha z_tip r_tip eps_tip alpha_tip.
Proof. exact C42_pdm_units_proof. Qed.
Print Assumptions C42_pdm_units.

(** C42. Example: metres to nanometres, default tip over a 5 nm film *)
Example C42_example : forall laggauss,
  let Dnm := rescale_defaults (10 ^ 9) defaults0 in
  d_r_tip Dnm = 20 /\ d_L_tip Dnm = 300 /\
  fdm_eff_pol_n laggauss Dnm (stack [RtoC 1; RtoC 2; RtoC 3] [5] None) 30 3
    None None None None None None None None None None
  = fdm_eff_pol_n laggauss defaults0 (stack [RtoC 1; RtoC 2; RtoC 3] [5 / 10 ^ 9] None) (30 / 10 ^ 9) 3
    None None None None None None None None None None.
Proof. exact C42_example_proof. Qed.
