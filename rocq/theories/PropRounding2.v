(** * Properties (generated by tools/gen_prop.py from ProofsRounding2.v; statements
    only, each proved there) *)
From Coq Require Import String Reals Lra Lia ZArith List Bool Permutation.
From Coquelicot Require Import Rcomplements Complex.
From Verif Require Import Num NumLemmas ModelBase ModelSample ModelTip StackLemmas Spec ProofsSym DemodLemmas ProofsPassive ProofsTip ProofsTip2 ProofsTaylor
  ProofsContrast3 ProofsAbsorb SpecRound SpecAccurate ModelRound ModelRound2 RoundLemmas RoundLemmas2 RoundTends RoundTends2 ProofsRounding.
Import ListNotations.
Open Scope R_scope.
From Verif Require Import ProofsRounding2.

(** C74. fdm.eff_pol in rounding arithmetic: same exceptions, error of order u. *)
Theorem C74_fdm_eff_pol : forall laggauss D s z_tip r_tip L_tip g_factor d_Q0 d_Q1 d_Qa n_lag method,
  tracks (fdm_eff_pol laggauss D s z_tip r_tip L_tip g_factor d_Q0 d_Q1 d_Qa n_lag method)
         (fun m => k_fdm_eff_pol m laggauss D s (given_or (d_z_tip D) z_tip) r_tip L_tip g_factor d_Q0 d_Q1 d_Qa n_lag method).
Proof. exact C74_fdm_eff_pol_proof. Qed.
Print Assumptions C74_fdm_eff_pol.

(** C74. fdm.eff_pol_n, every method: likewise. *)
Theorem C74_fdm_eff_pol_n : forall laggauss D s A_tip n z_tip n_trapz r_tip L_tip g_factor d_Q0 d_Q1 d_Qa n_lag method,
  tracks (fdm_eff_pol_n laggauss D s A_tip n z_tip n_trapz r_tip L_tip g_factor d_Q0 d_Q1 d_Qa n_lag method)
         (fun m => k_fdm_eff_pol_n m laggauss D s A_tip n z_tip n_trapz r_tip L_tip g_factor d_Q0 d_Q1 d_Qa n_lag method).
Proof. exact C74_fdm_eff_pol_n_proof. Qed.
Print Assumptions C74_fdm_eff_pol_n.

(** C74. fdm.eff_pol_n_taylor: likewise. *)
Theorem C74_fdm_taylor : forall laggauss D s A_tip n z_tip r_tip L_tip g_factor d_Q0 d_Q1 d_Qa n_lag method n_trapz n_tayl,
  tracks (fdm_eff_pol_n_taylor laggauss D s A_tip n z_tip r_tip L_tip g_factor d_Q0 d_Q1 d_Qa n_lag method n_trapz n_tayl)
         (fun m => k_fdm_eff_pol_n_taylor m laggauss D s A_tip n z_tip r_tip L_tip g_factor d_Q0 d_Q1 d_Qa n_lag method n_trapz n_tayl).
Proof. exact C74_fdm_taylor_proof. Qed.
Print Assumptions C74_fdm_taylor.

(** C74. pdm.eff_pol: likewise. *)
Theorem C74_pdm_eff_pol : forall D s z_tip r_tip eps_tip alpha_tip,
  tracks (pdm_eff_pol D s z_tip r_tip eps_tip alpha_tip)
         (fun m => k_pdm_eff_pol m D s (given_or (d_z_tip D) z_tip) r_tip eps_tip alpha_tip).
Proof. exact C74_pdm_eff_pol_proof. Qed.
Print Assumptions C74_pdm_eff_pol.

(** C74. pdm.eff_pol_n: likewise. *)
Theorem C74_pdm_eff_pol_n : forall D s A_tip n z_tip n_trapz r_tip eps_tip alpha_tip,
  tracks (pdm_eff_pol_n D s A_tip n z_tip n_trapz r_tip eps_tip alpha_tip)
         (fun m => k_pdm_eff_pol_n m D s A_tip n z_tip n_trapz r_tip eps_tip alpha_tip).
Proof. exact C74_pdm_eff_pol_n_proof. Qed.
Print Assumptions C74_pdm_eff_pol_n.

(** C74. pdm.eff_pol_n_taylor: likewise. *)
Theorem C74_pdm_taylor : forall D s A_tip n z_tip r_tip eps_tip alpha_tip n_trapz n_tayl,
  tracks (pdm_eff_pol_n_taylor D s A_tip n z_tip r_tip eps_tip alpha_tip n_trapz n_tayl)
         (fun m => k_pdm_eff_pol_n_taylor m D s A_tip n z_tip r_tip eps_tip alpha_tip n_trapz n_tayl).
Proof. exact C74_pdm_taylor_proof. Qed.
Print Assumptions C74_pdm_taylor.

(** C74. The contrast with a reference whose signal is not zero. *)
Theorem C74_contrast : forall laggauss D s s' A_tip n z_tip n_trapz r_tip L_tip g_factor d_Q0 d_Q1 d_Qa n_lag method a b,
  let exact := fun t => fdm_eff_pol_n laggauss D t A_tip n z_tip n_trapz r_tip L_tip g_factor d_Q0 d_Q1 d_Qa n_lag method in
  let run := fun m t => k_fdm_eff_pol_n m laggauss D t A_tip n z_tip n_trapz r_tip L_tip g_factor d_Q0 d_Q1 d_Qa n_lag method in
  exact s = Ok (Some a) -> exact s' = Ok (Some b) -> b <> RtoC 0 ->
  accurate (fun m => let! x := run m s in let! y := run m s' in Ok (kdiv m x y)) (a / b)%C.
Proof. exact C74_contrast_proof. Qed.
Print Assumptions C74_contrast.

(** C74. With p binary digits the error is at most K / 2^p from some p on. *)
Theorem C74_digits : forall laggauss D s A_tip n z_tip n_trapz r_tip L_tip g_factor d_Q0 d_Q1 d_Qa n_lag method d,
  fdm_eff_pol_n laggauss D s A_tip n z_tip n_trapz r_tip L_tip g_factor d_Q0 d_Q1 d_Qa n_lag method = Ok (Some d) ->
  exists K p0, forall p, (p0 <= p)%nat -> exists x,
    k_fdm_eff_pol_n (digits p) laggauss D s A_tip n z_tip n_trapz r_tip L_tip g_factor d_Q0 d_Q1 d_Qa n_lag method = Ok x /\ Cmod (x - d)%C <= K / 2 ^ p.
Proof. exact C74_digits_proof. Qed.
Print Assumptions C74_digits.

(** C74. No bound relative to the signal: over a sample like its environment the exact harmonic is zero,
    the computed one is not. *)
Theorem C74_relative_error_refuted :
  ~ (forall laggauss D s A_tip n z_tip n_trapz r_tip L_tip g_factor d_Q0 d_Q1 d_Qa n_lag method d,
       fdm_eff_pol_n laggauss D s A_tip n z_tip n_trapz r_tip L_tip g_factor d_Q0 d_Q1 d_Qa n_lag method = Ok (Some d) ->
       exists K u0, 0 < u0 /\ forall u m, 0 <= u <= u0 -> rounding u m ->
         exists x, k_fdm_eff_pol_n m laggauss D s A_tip n z_tip n_trapz r_tip L_tip g_factor d_Q0 d_Q1 d_Qa n_lag method = Ok x /\
           Cmod (x - d)%C <= K * u * Cmod d).
Proof. exact C74_relative_error_refuted_proof. Qed.
Print Assumptions C74_relative_error_refuted.

(** C74. Example: the third harmonic of a default tip over permittivity 2 and over 12 (finite
    dipole model, real g_factor): the computed contrast is accurate, with any
    order of summation *)
Example C74_example : forall laggauss, exists a b,
  fdm_eff_pol_n laggauss defaults0 (stack [RtoC 1; RtoC 2] [] None) (20 / 10 ^ 9) 3 None None None None (Some (RtoC (7 / 10))) None None None None None = Ok (Some a) /\
  fdm_eff_pol_n laggauss defaults0 (stack [RtoC 1; RtoC 12] [] None) (20 / 10 ^ 9) 3 None None None None (Some (RtoC (7 / 10))) None None None None None = Ok (Some b) /\
  b <> RtoC 0 /\ rounding (/ 2 ^ 53) (digits 53).
Proof. exact C74_example_proof. Qed.

(** C74. Example: a film in the averaged-charge method *)
Example C74_example_film : exists a,
  accurate (fun m => k_fdm_eff_pol m laggauss12 defaults0 (stack [RtoC 1; (-2, 1/10)%R; (11, 1/100)%R] [30] None)
     1 (Some 20) (Some 300) (Some (RtoC (7/10))) (Some (1/2)) (Some (1/2)) (Some (7/5)) (Some 2%nat) (Some "Q_ave"%string)) a /\ 0 < Im a.
Proof. exact C74_example_film_proof. Qed.

(** C75. refl_coef_qs of any stack in rounding arithmetic: same exceptions, error of order u. *)
Theorem C75_refl_coef_qs : forall s q, tracks (refl_coef_qs s (rr q)) (fun m => k_refl_coef_qs m s q).
Proof. exact C75_refl_coef_qs_proof. Qed.
Print Assumptions C75_refl_coef_qs.

(** C75. trans_coef_qs: likewise. *)
Theorem C75_trans_coef_qs : forall s q, tracks (trans_coef_qs s (rr q)) (fun m => k_trans_coef_qs m s q).
Proof. exact C75_trans_coef_qs_proof. Qed.
Print Assumptions C75_trans_coef_qs.

(** C75. refl_coef_qs_above_surf: likewise. *)
Theorem C75_above_surf : forall laggauss D s z_Q n_lag,
  tracks (refl_coef_qs_above_surf laggauss D s (rr z_Q) n_lag) (fun m => k_refl_coef_qs_above_surf m laggauss D s z_Q n_lag).
Proof. exact C75_above_surf_proof. Qed.
Print Assumptions C75_above_surf.

(** C75. surf_pot_and_field: both components. *)
Theorem C75_surf_pot_and_field : forall laggauss D s z_Q n_lag,
  let exact := surf_pot_and_field laggauss D s (rr z_Q) n_lag in
  let run := fun m => k_surf_pot_and_field m laggauss D s z_Q n_lag in
  tracks (let! p := exact in Ok (fst p)) (fun m => let! p := run m in Ok (fst p)) /\
  tracks (let! p := exact in Ok (snd p)) (fun m => let! p := run m in Ok (snd p)).
Proof. exact C75_surf_pot_and_field_proof. Qed.
Print Assumptions C75_surf_pot_and_field.

(** C75. image_depth_and_charge: both components. *)
Theorem C75_image_depth_and_charge : forall laggauss D s z_Q n_lag,
  let exact := image_depth_and_charge laggauss D s (rr z_Q) n_lag in
  let run := fun m => k_image_depth_and_charge m laggauss D s z_Q n_lag in
  tracks (let! p := exact in Ok (ofR (fst p))) (fun m => let! p := run m in Ok (RtoC (fst p))) /\
  tracks (let! p := exact in Ok (snd p)) (fun m => let! p := run m in Ok (snd p)).
Proof. exact C75_image_depth_and_charge_proof. Qed.
Print Assumptions C75_image_depth_and_charge.

(** C75. lorentz_perm. *)
Theorem C75_lorentz : forall nu nu_j gamma_j A_j nu_plasma f_j eps_inf,
  tracks (lorentz_perm nu nu_j gamma_j A_j nu_plasma f_j eps_inf) (fun m => k_lorentz_perm m nu nu_j gamma_j A_j nu_plasma f_j eps_inf).
Proof. exact C75_lorentz_proof. Qed.
Print Assumptions C75_lorentz.

(** C75. drude_perm. *)
Theorem C75_drude : forall nu nu_plasma gamma eps_inf,
  tracks (drude_perm nu nu_plasma gamma eps_inf) (fun m => k_drude_perm m nu nu_plasma gamma eps_inf).
Proof. exact C75_drude_proof. Qed.
Print Assumptions C75_drude.

(** C75. From the permittivity to fdm.eff_pol, back through the closed-form inverse and permitivitty, all
    computed in rounding arithmetic: the permittivity is recovered with an error of order u. *)
Theorem C75_fdm_round_trip : forall laggauss D (e0 e1 : C) nu z_tip r_tip L_tip g_factor d_Q0 d_Q1 d_Qa n_lag a,
  let s := stack [e0; e1] [] nu in
  let z := given_or (d_z_tip D) z_tip in let r := given_or (d_r_tip D) r_tip in
  let L := given_or (d_L_tip D) L_tip in let g := given_or (d_g_factor D) g_factor in
  let d0 := given_or (131 / 100 * L / (L + 2 * r)) d_Q0 in
  let d1 := given_or (d_d_Q1 D) d_Q1 in
  e0 <> RtoC 0 -> e1 <> RtoC 0 -> (e0 + e1 <> 0)%C ->
  fdm_regular z d0 r L -> fdm_regular z d1 r L ->
  g <> RtoC ((r + 2 * z + r * d0) / (2 * L)) -> r + 4 * z + 2 * r * d0 <> 4 * L ->
  fdm_eff_pol laggauss D s z_tip r_tip L_tip g_factor d_Q0 d_Q1 d_Qa n_lag None = Ok (Some a) ->
  accurate (fun m => let! alpha := k_fdm_eff_pol m laggauss D s z r_tip L_tip g_factor d_Q0 d_Q1 d_Qa n_lag None in
                     Ok (k_permitivitty m (k_fdm_refl_coef_qs_from_eff_pol m D alpha z_tip r_tip L_tip g_factor d_Q0 d_Q1) e0)) e1.
Proof. exact C75_fdm_round_trip_proof. Qed.
Print Assumptions C75_fdm_round_trip.

(** C75. From a sample to pdm.eff_pol and back: the reflection coefficient is recovered with an error of order u. *)
Theorem C75_pdm_round_trip : forall D s z_tip r_tip eps_tip alpha_tip beta alpha a,
  let z := given_or (d_z_tip D) z_tip in let r := given_or (d_r_tip D) r_tip in
  tip_alpha r eps_tip alpha_tip alpha -> alpha <> RtoC 0 -> r + z <> 0 ->
  refl_coef_qs s (rr 0) = Ok (Some beta) ->
  pdm_eff_pol D s z_tip r_tip eps_tip alpha_tip = Ok (Some a) ->
  accurate (fun m => let! x := k_pdm_eff_pol m D s z r_tip eps_tip alpha_tip in
                     k_pdm_refl_coef_qs_from_eff_pol m D x z_tip r_tip eps_tip alpha_tip) beta.
Proof. exact C75_pdm_round_trip_proof. Qed.
Print Assumptions C75_pdm_round_trip.

(** C75. Example: the hypotheses of the round trip hold for a default tip at contact over permittivity -2 + i/10 *)
Example C75_example : forall laggauss,
  accurate (fun m => let! alpha := k_fdm_eff_pol m laggauss defaults0 (stack [RtoC 1; (-2, 1/10)%R] [] None) 0 None None None None None None None None in
                     Ok (k_permitivitty m (k_fdm_refl_coef_qs_from_eff_pol m defaults0 alpha None None None None None None) (RtoC 1))) (-2, 1/10)%R.
Proof. exact C75_example_proof. Qed.
