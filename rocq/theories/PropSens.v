(** * Properties (generated by tools/gen_prop.py from ProofsSens.v; statements
    only, each proved there) *)
From Coq Require Import String Reals Lra Lia ZArith List Bool.
From Coquelicot Require Import Rcomplements Complex.
From Verif Require Import Num NumLemmas ModelBase ModelSample ModelTip StackLemmas Spec
  ProofsStackQS ProofsStackQS2 ProofsPassive ProofsTip ProofsTip2 ProofsConsist3.
Import ListNotations.
Open Scope R_scope.
From Verif Require Import ProofsSens.

(** C89. Two signals a and a' of one finite-dipole tip lead to reflection
    coefficients b and b' with
      (b' - b) f_0 = 2 (1 - f_1 b) (1 - f_1 b') (a' - a),
    exactly: the error of the signal is amplified by 2 |1 - f_1 b|^2 / |f_0|. *)
Theorem C89_fdm_sensitivity : forall (D : Defaults) (z_tip r_tip L_tip : option R) (g_factor : option C)
    (d_Q0 d_Q1 : option R) (a a' b b' : C),
  let z := given_or (d_z_tip D) z_tip in let r := given_or (d_r_tip D) r_tip in
  let L := given_or (d_L_tip D) L_tip in let g := given_or (d_g_factor D) g_factor in
  let d0 := given_or (131 / 100 * L / (L + 2 * r)) d_Q0 in let d1 := given_or (d_d_Q1 D) d_Q1 in
  let f0 := fdm_f z d0 r L g in let f1 := fdm_f z d1 r L g in
  fdm_regular z d0 r L -> fdm_regular z d1 r L ->
  fdm_refl_coef_qs_from_eff_pol D (Some a) z_tip r_tip L_tip g_factor d_Q0 d_Q1 = Some b ->
  fdm_refl_coef_qs_from_eff_pol D (Some a') z_tip r_tip L_tip g_factor d_Q0 d_Q1 = Some b' ->
  ((b' - b) * f0 = 2 * (1 - f1 * b) * (1 - f1 * b') * (a' - a))%C.
Proof. exact C89_fdm_sensitivity_proof. Qed.
Print Assumptions C89_fdm_sensitivity.

(** C89. The same for the point dipole, with tip polarisability alpha and
    f = alpha / (16 pi (r + z)^3):
      (b' - b) f alpha = (1 - f b) (1 - f b') (a' - a). *)
Theorem C89_pdm_sensitivity : forall (D : Defaults) (z_tip r_tip : option R) (eps_tip alpha_tip : option C) (alpha a a' b b' : C),
  let z := given_or (d_z_tip D) z_tip in let r := given_or (d_r_tip D) r_tip in
  let f := (alpha / RtoC (16 * PI * (r + z) ^ 3))%C in
  tip_alpha r eps_tip alpha_tip alpha -> r + z <> 0 ->
  pdm_refl_coef_qs_from_eff_pol D (Some a) z_tip r_tip eps_tip alpha_tip = Ok (Some b) ->
  pdm_refl_coef_qs_from_eff_pol D (Some a') z_tip r_tip eps_tip alpha_tip = Ok (Some b') ->
  ((b' - b) * f * alpha = (1 - f * b) * (1 - f * b') * (a' - a))%C.
Proof. exact C89_pdm_sensitivity_proof. Qed.
Print Assumptions C89_pdm_sensitivity.

(** C89. From the reflection coefficient to the permittivity: for b and b' in one
    environment
      (e' - e) (1 + b) (1 - b') = 2 e (b' - b),
    so the relative error of the permittivity is 2 |b' - b| / |(1 + b) (1 - b')|:
    metals (b near 1) and materials at their plasmon or phonon edge (b near -1)
    are ill-conditioned. *)
Theorem C89_permittivity_sensitivity : forall env b b' e e' : C,
  permitivitty (Some b) (Some env) = Some e -> permitivitty (Some b') (Some env) = Some e' ->
  ((e' - e) * (1 - b) * (1 - b') = 2 * env * (b' - b) /\
   (e' - e) * (1 + b) * (1 - b') = 2 * e * (b' - b))%C.
Proof. exact C89_permittivity_sensitivity_proof. Qed.
Print Assumptions C89_permittivity_sensitivity.

(** C89. No bound on this loss holds for all samples: for every tip that responds
    and every constant K there are two signals whose permittivities differ by more
    than K times (the difference of the signals) times (the permittivity). *)
Theorem C89_bounded_relative_error_refuted : forall (D : Defaults) (z_tip r_tip L_tip : option R) (g_factor : option C)
    (d_Q0 d_Q1 : option R) (K : R),
  let z := given_or (d_z_tip D) z_tip in let r := given_or (d_r_tip D) r_tip in
  let L := given_or (d_L_tip D) L_tip in let g := given_or (d_g_factor D) g_factor in
  let d0 := given_or (131 / 100 * L / (L + 2 * r)) d_Q0 in let d1 := given_or (d_d_Q1 D) d_Q1 in
  fdm_regular z d0 r L -> fdm_regular z d1 r L ->
  fdm_f z d0 r L g <> RtoC 0 -> fdm_f z d1 r L g <> RtoC 1 ->
  exists a a' b b' e e' : C,
    fdm_refl_coef_qs_from_eff_pol D (Some a) z_tip r_tip L_tip g_factor d_Q0 d_Q1 = Some b /\
    fdm_refl_coef_qs_from_eff_pol D (Some a') z_tip r_tip L_tip g_factor d_Q0 d_Q1 = Some b' /\
    permitivitty (Some b) (Some (RtoC 1)) = Some e /\ permitivitty (Some b') (Some (RtoC 1)) = Some e' /\
    K * Cmod (a' - a)%C * Cmod e < Cmod (e' - e)%C.
Proof. exact C89_bounded_relative_error_refuted_proof. Qed.
Print Assumptions C89_bounded_relative_error_refuted.

(** C89. The conditions are met by a tip of radius and length 1 in contact, with
    g = 7/4 and both charges at depth 1/2: f_0 = f_1 = 1/2, the signal 7/6 is that
    of b = 1/2, the signal 1 is that of b = 0, and b = 1/2 in vacuum is
    permittivity 3. *)
Example C89_closed_form_example : forall D,
  fdm_regular 0 (1 / 2) 1 1 /\ fdm_f 0 (1 / 2) 1 1 (RtoC (7 / 4)) = RtoC (1 / 2) /\
  fdm_refl_coef_qs_from_eff_pol D (Some (RtoC (7 / 6))) (Some 0) (Some 1) (Some 1) (Some (RtoC (7 / 4))) (Some (1 / 2)) (Some (1 / 2))
    = Some (RtoC (1 / 2)) /\
  fdm_refl_coef_qs_from_eff_pol D (Some (RtoC 1)) (Some 0) (Some 1) (Some 1) (Some (RtoC (7 / 4))) (Some (1 / 2)) (Some (1 / 2))
    = Some (RtoC 0) /\
  permitivitty (Some (RtoC (1 / 2))) (Some (RtoC 1)) = Some (RtoC 3) /\
  permitivitty (Some (RtoC 0)) (Some (RtoC 1)) = Some (RtoC 1).
Proof. exact C89_closed_form_example_proof. Qed.
