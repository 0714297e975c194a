(** * Properties (generated by tools/gen_prop.py from ProofsMajor4.v; statements
    only, each proved there) *)
From Coq Require Import String Reals Lra Lia ZArith List Bool.
From Coquelicot Require Import Rcomplements Complex.
From Verif Require Import Num NumLemmas LimLemmas ModelBase ModelSample ModelTip StackLemmas Spec
  ProofsStackQS ProofsStackQS2 ProofsBulkFF ProofsSym ProofsPassive DemodLemmas ProofsDemod ProofsTip ProofsTip2 ProofsTip3
  ProofsTaylor PosDef ProofsContrast ProofsContrast2 SpecMajor Majorant ProofsMajor ProofsMajor2 ProofsMajor3.
Import ListNotations.
Open Scope R_scope.
From Verif Require Import ProofsMajor4.

(** C97. Finite dipole model: for every tip, stroke, harmonic and number of
    samples there is a bound on the reflection coefficient below which equal
    harmonics mean equal complex reflection coefficients and absorption shows
    with its own sign. *)
Theorem C97_fdm_weak :
  forall (laggauss : laggauss_t) (D : Defaults) (A_tip : R) (n : Z) (n_trapz : option nat)
    (z_tip r_tip L_tip : option R) (g_factor : option C) (d_Q0 d_Q1 d_Qa : option R) (n_lag : option nat) (g : R),
  let N := given_or (d_n_trapz D) n_trapz in let z := given_or (d_z_tip D) z_tip in
  let r := given_or (d_r_tip D) r_tip in let L := given_or (d_L_tip D) L_tip in
  let d0 := given_or (131 / 100 * L / (L + 2 * r)) d_Q0 in let d1 := given_or (d_d_Q1 D) d_Q1 in
  given_or (d_g_factor D) g_factor = RtoC g ->
  N <> O -> 0 < A_tip -> 0 < r < 4 * L -> 0 < r + 4 * z + 2 * r * d0 -> 0 < r + 4 * z + 2 * r * d1 ->
  r + 2 * (z + 2 * A_tip) + r * d0 <= 2 * L * g -> r + 4 * (z + 2 * A_tip) + 2 * r * d0 <= 4 * L ->
  r + 2 * (z + 2 * A_tip) + r * d1 <= 2 * L * g -> r + 4 * (z + 2 * A_tip) + 2 * r * d1 <= 4 * L ->
  exists rho, 0 < rho /\
  forall (s1 s2 : sample) (b1 b2 : C) method,
  multilayer s1 = false -> multilayer s2 = false ->
  refl_coef_qs s1 (rr 0) = Ok (Some b1) -> refl_coef_qs s2 (rr 0) = Ok (Some b2) -> Cmod b1 <= rho -> Cmod b2 <= rho ->
  method = None \/ method = Some "bulk"%string ->
  (fdm_eff_pol_n laggauss D s1 A_tip n z_tip n_trapz r_tip L_tip g_factor d_Q0 d_Q1 d_Qa n_lag method
     = fdm_eff_pol_n laggauss D s2 A_tip n z_tip n_trapz r_tip L_tip g_factor d_Q0 d_Q1 d_Qa n_lag method -> b1 = b2) /\
  exists a : C, fdm_eff_pol_n laggauss D s1 A_tip n z_tip n_trapz r_tip L_tip g_factor d_Q0 d_Q1 d_Qa n_lag method = Ok (Some a) /\
    (0 < Im b1 -> 0 < sgn_pow n * Im a).
Proof. exact C97_fdm_weak_proof. Qed.
Print Assumptions C97_fdm_weak.

(** C97, example: default tip tapping at 20 nm in air on the absorbing samples
    eps = 2 + 0.1 i and eps = 9/4 + 0.1 i.  Point dipole model: the first
    harmonics differ, with negative imaginary part on the first; finite dipole
    model with g = 0.7: both smaller than on a lossless sample with beta = 3/5
    (eps = 4), for the second harmonic. *)
Example C97_example :
  forall laggauss,
  let s1 := stack [RtoC 1; (2, 1 / 10)%R] [] None in let s2 := stack [RtoC 1; (9 / 4, 1 / 10)%R] [] None in
  pdm_eff_pol_n defaults0 s1 (20 / 10 ^ 9) 1 None None None None None <> pdm_eff_pol_n defaults0 s2 (20 / 10 ^ 9) 1 None None None None None /\
  (exists a, pdm_eff_pol_n defaults0 s1 (20 / 10 ^ 9) 1 None None None None None = Ok (Some a) /\ Im a < 0) /\
  exists a a0, fdm_eff_pol_n laggauss defaults0 s1 (20 / 10 ^ 9) 2 None None None None (Some (RtoC (7 / 10))) None None None None None = Ok (Some a) /\
    fdm_eff_pol_n laggauss defaults0 (stack [RtoC 1; RtoC 4] [] None) (20 / 10 ^ 9) 2 None None None None (Some (RtoC (7 / 10))) None None None None None = Ok (Some a0) /\
    Cmod a <= Cmod a0.
Proof. exact C97_example_proof. Qed.
