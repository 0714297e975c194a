(** * Properties (generated by tools/gen_prop.py from ProofsMajor2.v; statements
    only, each proved there) *)
From Coq Require Import String Reals Lra Lia ZArith List Bool.
From Coquelicot Require Import Rcomplements Complex.
From Verif Require Import Num NumLemmas LimLemmas ModelBase ModelSample ModelTip StackLemmas Spec
  ProofsStackQS ProofsStackQS2 ProofsBulkFF ProofsSym ProofsPassive DemodLemmas ProofsDemod ProofsTip ProofsTip2 ProofsTip3
  ProofsTaylor PosDef ProofsContrast ProofsContrast2 SpecMajor Majorant ProofsMajor.
Import ListNotations.
Open Scope R_scope.
From Verif Require Import ProofsMajor2.

(** C97. Finite dipole model with a real g factor over two arbitrary, possibly
    absorbing, bulk samples, as long as the geometry functions keep their sign
    along the stroke and the loop gain stays below 1: with c and d the n-th
    cosine coefficients of f0/2 and of f0/2/(1 - rho f1)^2, the difference of
    the n-th harmonics is (-1)^n c times the difference of the reflection
    coefficients up to d - c times its modulus. *)
Theorem C97_fdm_contrast :
  forall (laggauss : laggauss_t) (D : Defaults) (s1 s2 : sample) (A_tip : R) (n : Z) (n_trapz : option nat)
    (z_tip r_tip L_tip : option R) (g_factor : option C) (d_Q0 d_Q1 d_Qa : option R) (n_lag : option nat) (g rho : R) (b1 b2 : C),
  let N := given_or (d_n_trapz D) n_trapz in let z := given_or (d_z_tip D) z_tip in
  let r := given_or (d_r_tip D) r_tip in let L := given_or (d_L_tip D) L_tip in
  let d0 := given_or (131 / 100 * L / (L + 2 * r)) d_Q0 in let d1 := given_or (d_d_Q1 D) d_Q1 in
  given_or (d_g_factor D) g_factor = RtoC g ->
  multilayer s1 = false -> multilayer s2 = false ->
  refl_coef_qs s1 (rr 0) = Ok (Some b1) -> refl_coef_qs s2 (rr 0) = Ok (Some b2) ->
  N <> O -> 0 < A_tip -> 0 < r < 4 * L -> 0 < r + 4 * z + 2 * r * d0 -> 0 < r + 4 * z + 2 * r * d1 ->
  r + 2 * (z + 2 * A_tip) + r * d0 <= 2 * L * g -> r + 4 * (z + 2 * A_tip) + 2 * r * d0 <= 4 * L ->
  r + 2 * (z + 2 * A_tip) + r * d1 <= 2 * L * g -> r + 4 * (z + 2 * A_tip) + 2 * r * d1 <= 4 * L ->
  Cmod b1 <= rho -> Cmod b2 <= rho -> rho * Re (fdm_f z d1 r L (RtoC g)) < 1 ->
  forall method, method = None \/ method = Some "bulk"%string ->
  let c := cosine z A_tip n N (fun x => Re (fdm_f x d0 r L (RtoC g)) / 2) in
  let d := cosine z A_tip n N (fun x => Re (fdm_f x d0 r L (RtoC g)) / 2 / (1 - rho * Re (fdm_f x d1 r L (RtoC g))) ^ 2) in
  0 < c <= d /\
  exists a1 a2 : C,
    fdm_eff_pol_n laggauss D s1 A_tip n z_tip n_trapz r_tip L_tip g_factor d_Q0 d_Q1 d_Qa n_lag method = Ok (Some a1) /\
    fdm_eff_pol_n laggauss D s2 A_tip n z_tip n_trapz r_tip L_tip g_factor d_Q0 d_Q1 d_Qa n_lag method = Ok (Some a2) /\
    Cmod (a1 - a2 - RtoC (sgn_pow n * c) * (b1 - b2))%C <= (d - c) * Cmod (b1 - b2)%C /\
    (2 * c - d) * Cmod (b1 - b2)%C <= Cmod (a1 - a2)%C <= d * Cmod (b1 - b2)%C.
Proof. exact C97_fdm_contrast_proof. Qed.
Print Assumptions C97_fdm_contrast.

(** C97. ... and the imaginary part, for one absorbing sample. *)
Theorem C97_fdm_phase :
  forall (laggauss : laggauss_t) (D : Defaults) (s : sample) (A_tip : R) (n : Z) (n_trapz : option nat)
    (z_tip r_tip L_tip : option R) (g_factor : option C) (d_Q0 d_Q1 d_Qa : option R) (n_lag : option nat) (g rho : R) (b : C),
  let N := given_or (d_n_trapz D) n_trapz in let z := given_or (d_z_tip D) z_tip in
  let r := given_or (d_r_tip D) r_tip in let L := given_or (d_L_tip D) L_tip in
  let d0 := given_or (131 / 100 * L / (L + 2 * r)) d_Q0 in let d1 := given_or (d_d_Q1 D) d_Q1 in
  given_or (d_g_factor D) g_factor = RtoC g ->
  multilayer s = false -> refl_coef_qs s (rr 0) = Ok (Some b) ->
  N <> O -> 0 < A_tip -> 0 < r < 4 * L -> 0 < r + 4 * z + 2 * r * d0 -> 0 < r + 4 * z + 2 * r * d1 ->
  r + 2 * (z + 2 * A_tip) + r * d0 <= 2 * L * g -> r + 4 * (z + 2 * A_tip) + 2 * r * d0 <= 4 * L ->
  r + 2 * (z + 2 * A_tip) + r * d1 <= 2 * L * g -> r + 4 * (z + 2 * A_tip) + 2 * r * d1 <= 4 * L ->
  Cmod b <= rho -> rho * Re (fdm_f z d1 r L (RtoC g)) < 1 ->
  forall method, method = None \/ method = Some "bulk"%string ->
  let c := cosine z A_tip n N (fun x => Re (fdm_f x d0 r L (RtoC g)) / 2) in
  let d := cosine z A_tip n N (fun x => Re (fdm_f x d0 r L (RtoC g)) / 2 / (1 - rho * Re (fdm_f x d1 r L (RtoC g))) ^ 2) in
  exists a : C,
    fdm_eff_pol_n laggauss D s A_tip n z_tip n_trapz r_tip L_tip g_factor d_Q0 d_Q1 d_Qa n_lag method = Ok (Some a) /\
    Rabs (sgn_pow n * Im a - c * Im b) <= (d - c) * Rabs (Im b) /\
    (0 < Im b -> d < 2 * c -> 0 < sgn_pow n * Im a).
Proof. exact C97_fdm_phase_proof. Qed.
Print Assumptions C97_fdm_phase.

(** C97. Finite dipole model: no absorbing bulk sample gives a larger harmonic
    than the lossless one with the same modulus of the reflection coefficient. *)
Theorem C97_fdm_bound :
  forall (laggauss : laggauss_t) (D : Defaults) (s s0 : sample) (A_tip : R) (n : Z) (n_trapz : option nat)
    (z_tip r_tip L_tip : option R) (g_factor : option C) (d_Q0 d_Q1 d_Qa : option R) (n_lag : option nat) (g rho : R) (b : C),
  let N := given_or (d_n_trapz D) n_trapz in let z := given_or (d_z_tip D) z_tip in
  let r := given_or (d_r_tip D) r_tip in let L := given_or (d_L_tip D) L_tip in
  let d0 := given_or (131 / 100 * L / (L + 2 * r)) d_Q0 in let d1 := given_or (d_d_Q1 D) d_Q1 in
  given_or (d_g_factor D) g_factor = RtoC g ->
  multilayer s = false -> multilayer s0 = false ->
  refl_coef_qs s (rr 0) = Ok (Some b) -> refl_coef_qs s0 (rr 0) = Ok (Some (RtoC rho)) ->
  N <> O -> 0 < A_tip -> 0 < r < 4 * L -> 0 < r + 4 * z + 2 * r * d0 -> 0 < r + 4 * z + 2 * r * d1 ->
  r + 2 * (z + 2 * A_tip) + r * d0 <= 2 * L * g -> r + 4 * (z + 2 * A_tip) + 2 * r * d0 <= 4 * L ->
  r + 2 * (z + 2 * A_tip) + r * d1 <= 2 * L * g -> r + 4 * (z + 2 * A_tip) + 2 * r * d1 <= 4 * L ->
  Cmod b <= rho -> rho * Re (fdm_f z d1 r L (RtoC g)) < 1 ->
  forall method, method = None \/ method = Some "bulk"%string ->
  exists a a0 : C,
    fdm_eff_pol_n laggauss D s A_tip n z_tip n_trapz r_tip L_tip g_factor d_Q0 d_Q1 d_Qa n_lag method = Ok (Some a) /\
    fdm_eff_pol_n laggauss D s0 A_tip n z_tip n_trapz r_tip L_tip g_factor d_Q0 d_Q1 d_Qa n_lag method = Ok (Some a0) /\
    Cmod a <= Cmod a0.
Proof. exact C97_fdm_bound_proof. Qed.
Print Assumptions C97_fdm_bound.
