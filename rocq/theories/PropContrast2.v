(** * Properties (generated by tools/gen_prop.py from ProofsContrast2.v; statements
    only, each proved there) *)
From Coq Require Import String Reals Lra Lia ZArith List Bool.
From Coquelicot Require Import Rcomplements Complex.
From Verif Require Import Num NumLemmas LimLemmas ModelBase ModelSample ModelTip StackLemmas Spec
  ProofsStackQS ProofsStackQS2 ProofsBulkFF ProofsSym ProofsPassive DemodLemmas ProofsDemod ProofsTip ProofsTip2 ProofsTip3
  ProofsTaylor PosDef ProofsContrast.
Import ListNotations.
Open Scope R_scope.
From Verif Require Import ProofsContrast2.

(** C69. Point dipole model: over a bulk dielectric every harmonic grows strictly
    with the permittivity of the sample (metallic tip, or dielectric tip with
    eps_tip > 1), so a lossless permittivity can be read off uniquely. *)
Theorem C69_pdm_permittivity :
  forall (D : Defaults) (e0 e1 e2 : R) nu1 nu2 (A_tip : R) (n : Z) (z_tip r_tip : option R) (n_trapz : option nat)
    (eps_tip : option R),
  let N := given_or (d_n_trapz D) n_trapz in let z := given_or (d_z_tip D) z_tip in
  let r := given_or (d_r_tip D) r_tip in
  0 < e0 -> e0 <= e1 < e2 -> N <> O -> 0 < A_tip -> 0 < r -> 0 <= z -> (forall e, eps_tip = Some e -> 1 < e) ->
  exists m1 m2 : R,
    pdm_eff_pol_n D (stack [RtoC e0; RtoC e1] [] nu1) A_tip n z_tip n_trapz r_tip (option_map RtoC eps_tip) None
      = Ok (Some (RtoC (sgn_pow n * m1))) /\
    pdm_eff_pol_n D (stack [RtoC e0; RtoC e2] [] nu2) A_tip n z_tip n_trapz r_tip (option_map RtoC eps_tip) None
      = Ok (Some (RtoC (sgn_pow n * m2))) /\
    0 <= m1 < m2.
Proof. exact C69_pdm_permittivity_proof. Qed.
Print Assumptions C69_pdm_permittivity.

(** C69. Finite dipole model with a real g factor over a lossless bulk sample:
    as long as the whole stroke stays below the heights where the geometry
    functions change sign, and the loop gain at the lowest point below 1,
    harmonic n has the sign (-1)^n and grows strictly with the reflection
    coefficient. *)
Theorem C69_fdm_contrast :
  forall (laggauss : laggauss_t) (D : Defaults) (s1 s2 : sample) (A_tip : R) (n : Z) (n_trapz : option nat)
    (z_tip r_tip L_tip : option R) (g_factor : option C) (d_Q0 d_Q1 d_Qa : option R) (n_lag : option nat) (g b1 b2 : R),
  let N := given_or (d_n_trapz D) n_trapz in let z := given_or (d_z_tip D) z_tip in
  let r := given_or (d_r_tip D) r_tip in let L := given_or (d_L_tip D) L_tip in
  let d0 := given_or (131 / 100 * L / (L + 2 * r)) d_Q0 in let d1 := given_or (d_d_Q1 D) d_Q1 in
  given_or (d_g_factor D) g_factor = RtoC g ->
  multilayer s1 = false -> multilayer s2 = false ->
  refl_coef_qs s1 (rr 0) = Ok (Some (RtoC b1)) -> refl_coef_qs s2 (rr 0) = Ok (Some (RtoC b2)) ->
  N <> O -> 0 < A_tip -> 0 < r < 4 * L -> 0 < r + 4 * z + 2 * r * d0 -> 0 < r + 4 * z + 2 * r * d1 ->
  r + 2 * (z + 2 * A_tip) + r * d0 <= 2 * L * g -> r + 4 * (z + 2 * A_tip) + 2 * r * d0 <= 4 * L ->
  r + 2 * (z + 2 * A_tip) + r * d1 <= 2 * L * g -> r + 4 * (z + 2 * A_tip) + 2 * r * d1 <= 4 * L ->
  0 <= b1 < b2 -> b2 * Re (fdm_f z d1 r L (RtoC g)) < 1 ->
  forall method, method = None \/ method = Some "bulk"%string ->
  exists m1 m2 : R,
    fdm_eff_pol_n laggauss D s1 A_tip n z_tip n_trapz r_tip L_tip g_factor d_Q0 d_Q1 d_Qa n_lag method = Ok (Some (RtoC (sgn_pow n * m1))) /\
    fdm_eff_pol_n laggauss D s2 A_tip n z_tip n_trapz r_tip L_tip g_factor d_Q0 d_Q1 d_Qa n_lag method = Ok (Some (RtoC (sgn_pow n * m2))) /\
    0 <= m1 < m2 /\ (0 < b1 -> 0 < m1).
Proof. exact C69_fdm_contrast_proof. Qed.
Print Assumptions C69_fdm_contrast.

(** C69. ... and decays strictly with the height of the tip. *)
Theorem C69_fdm_approach :
  forall (laggauss : laggauss_t) (D : Defaults) (s : sample) (A_tip : R) (n : Z) (n_trapz : option nat)
    (z1 z2 : R) (r_tip L_tip : option R) (g_factor : option C) (d_Q0 d_Q1 d_Qa : option R) (n_lag : option nat) (g b : R),
  let N := given_or (d_n_trapz D) n_trapz in
  let r := given_or (d_r_tip D) r_tip in let L := given_or (d_L_tip D) L_tip in
  let d0 := given_or (131 / 100 * L / (L + 2 * r)) d_Q0 in let d1 := given_or (d_d_Q1 D) d_Q1 in
  given_or (d_g_factor D) g_factor = RtoC g ->
  multilayer s = false -> refl_coef_qs s (rr 0) = Ok (Some (RtoC b)) ->
  N <> O -> 0 < A_tip -> 0 < r < 4 * L -> 0 < r + 4 * z1 + 2 * r * d0 -> 0 < r + 4 * z1 + 2 * r * d1 -> z1 < z2 ->
  r + 2 * (z2 + 2 * A_tip) + r * d0 <= 2 * L * g -> r + 4 * (z2 + 2 * A_tip) + 2 * r * d0 <= 4 * L ->
  r + 2 * (z2 + 2 * A_tip) + r * d1 <= 2 * L * g -> r + 4 * (z2 + 2 * A_tip) + 2 * r * d1 <= 4 * L ->
  0 < b -> b * Re (fdm_f z1 d1 r L (RtoC g)) < 1 ->
  forall method, method = None \/ method = Some "bulk"%string ->
  exists m1 m2 : R,
    fdm_eff_pol_n laggauss D s A_tip n (Some z1) n_trapz r_tip L_tip g_factor d_Q0 d_Q1 d_Qa n_lag method = Ok (Some (RtoC (sgn_pow n * m1))) /\
    fdm_eff_pol_n laggauss D s A_tip n (Some z2) n_trapz r_tip L_tip g_factor d_Q0 d_Q1 d_Qa n_lag method = Ok (Some (RtoC (sgn_pow n * m2))) /\
    0 < m2 < m1.
Proof. exact C69_fdm_approach_proof. Qed.
Print Assumptions C69_fdm_approach.
