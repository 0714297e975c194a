(** * Properties (generated by tools/gen_prop.py from ProofsContrast3.v; statements
    only, each proved there) *)
From Coq Require Import String Reals Lra Lia ZArith List Bool.
From Coquelicot Require Import Rcomplements Complex.
From Verif Require Import Num NumLemmas LimLemmas ModelBase ModelSample ModelTip StackLemmas Spec
  ProofsStackQS ProofsStackQS2 ProofsBulkFF ProofsSym ProofsPassive DemodLemmas ProofsDemod ProofsTip ProofsTip2 ProofsTip3
  ProofsTaylor PosDef ProofsContrast ProofsContrast2.
Import ListNotations.
Open Scope R_scope.
From Verif Require Import ProofsContrast3.

(** C69. Finite dipole model over bulk dielectrics: every harmonic grows strictly
    with the permittivity of the sample. *)
Theorem C69_fdm_permittivity :
  forall (laggauss : laggauss_t) (D : Defaults) (e0 e1 e2 : R) nu1 nu2 (A_tip : R) (n : Z) (n_trapz : option nat)
    (z_tip r_tip L_tip : option R) (g_factor : option C) (d_Q0 d_Q1 d_Qa : option R) (n_lag : option nat) (g : R),
  let N := given_or (d_n_trapz D) n_trapz in let z := given_or (d_z_tip D) z_tip in
  let r := given_or (d_r_tip D) r_tip in let L := given_or (d_L_tip D) L_tip in
  let d0 := given_or (131 / 100 * L / (L + 2 * r)) d_Q0 in let d1 := given_or (d_d_Q1 D) d_Q1 in
  given_or (d_g_factor D) g_factor = RtoC g -> 0 < e0 -> e0 <= e1 < e2 ->
  N <> O -> 0 < A_tip -> 0 < r < 4 * L -> 0 < r + 4 * z + 2 * r * d0 -> 0 < r + 4 * z + 2 * r * d1 ->
  r + 2 * (z + 2 * A_tip) + r * d0 <= 2 * L * g -> r + 4 * (z + 2 * A_tip) + 2 * r * d0 <= 4 * L ->
  r + 2 * (z + 2 * A_tip) + r * d1 <= 2 * L * g -> r + 4 * (z + 2 * A_tip) + 2 * r * d1 <= 4 * L ->
  Re (fdm_f z d1 r L (RtoC g)) <= 1 ->
  forall method, method = None \/ method = Some "bulk"%string ->
  exists m1 m2 : R,
    fdm_eff_pol_n laggauss D (stack [RtoC e0; RtoC e1] [] nu1) A_tip n z_tip n_trapz r_tip L_tip g_factor d_Q0 d_Q1 d_Qa n_lag method
      = Ok (Some (RtoC (sgn_pow n * m1))) /\
    fdm_eff_pol_n laggauss D (stack [RtoC e0; RtoC e2] [] nu2) A_tip n z_tip n_trapz r_tip L_tip g_factor d_Q0 d_Q1 d_Qa n_lag method
      = Ok (Some (RtoC (sgn_pow n * m2))) /\
    0 <= m1 < m2.
Proof. exact C69_fdm_permittivity_proof. Qed.
Print Assumptions C69_fdm_permittivity.

(** C69. Hence a lossless permittivity (at least that of the environment) is
    determined by any single harmonic of either model. *)
Theorem C69_unique_permittivity :
  forall (laggauss : laggauss_t) (D : Defaults) (e0 e1 e2 : R) nu1 nu2 (A_tip : R) (n : Z) (n_trapz : option nat)
    (z_tip r_tip L_tip : option R) (g_factor : option C) (d_Q0 d_Q1 d_Qa : option R) (n_lag : option nat) (g : R),
  let N := given_or (d_n_trapz D) n_trapz in let z := given_or (d_z_tip D) z_tip in
  let r := given_or (d_r_tip D) r_tip in let L := given_or (d_L_tip D) L_tip in
  let d0 := given_or (131 / 100 * L / (L + 2 * r)) d_Q0 in let d1 := given_or (d_d_Q1 D) d_Q1 in
  let s1 := stack [RtoC e0; RtoC e1] [] nu1 in let s2 := stack [RtoC e0; RtoC e2] [] nu2 in
  0 < e0 -> e0 <= e1 -> e0 <= e2 -> N <> O -> 0 < A_tip -> 0 < r -> 0 <= z ->
  (pdm_eff_pol_n D s1 A_tip n z_tip n_trapz r_tip None None = pdm_eff_pol_n D s2 A_tip n z_tip n_trapz r_tip None None -> e1 = e2) /\
  (given_or (d_g_factor D) g_factor = RtoC g -> r < 4 * L -> 0 < r + 4 * z + 2 * r * d0 -> 0 < r + 4 * z + 2 * r * d1 ->
   r + 2 * (z + 2 * A_tip) + r * d0 <= 2 * L * g -> r + 4 * (z + 2 * A_tip) + 2 * r * d0 <= 4 * L ->
   r + 2 * (z + 2 * A_tip) + r * d1 <= 2 * L * g -> r + 4 * (z + 2 * A_tip) + 2 * r * d1 <= 4 * L ->
   Re (fdm_f z d1 r L (RtoC g)) <= 1 ->
   fdm_eff_pol_n laggauss D s1 A_tip n z_tip n_trapz r_tip L_tip g_factor d_Q0 d_Q1 d_Qa n_lag None
   = fdm_eff_pol_n laggauss D s2 A_tip n z_tip n_trapz r_tip L_tip g_factor d_Q0 d_Q1 d_Qa n_lag None -> e1 = e2).
Proof. exact C69_unique_permittivity_proof. Qed.
Print Assumptions C69_unique_permittivity.

(** C69, example: default tip with g = 0.7, tapping at 20 nm on eps = 2 and
    eps = 12 in air, third harmonic: both models give a negative real signal,
    larger on the second sample. *)
Example C69_example :
  forall laggauss,
  (exists m1 m2, pdm_eff_pol_n defaults0 (stack [RtoC 1; RtoC 2] [] None) (20 / 10 ^ 9) 3 None None None None None = Ok (Some (RtoC (- m1))) /\
     pdm_eff_pol_n defaults0 (stack [RtoC 1; RtoC 12] [] None) (20 / 10 ^ 9) 3 None None None None None = Ok (Some (RtoC (- m2))) /\ 0 <= m1 < m2) /\
  (exists m1 m2, fdm_eff_pol_n laggauss defaults0 (stack [RtoC 1; RtoC 2] [] None) (20 / 10 ^ 9) 3 None None None None (Some (RtoC (7 / 10))) None None None None None = Ok (Some (RtoC (- m1))) /\
     fdm_eff_pol_n laggauss defaults0 (stack [RtoC 1; RtoC 12] [] None) (20 / 10 ^ 9) 3 None None None None (Some (RtoC (7 / 10))) None None None None None = Ok (Some (RtoC (- m2))) /\ 0 <= m1 < m2).
Proof. exact C69_example_proof. Qed.
