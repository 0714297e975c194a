(** * Properties (generated by tools/gen_prop.py from ProofsSym.v; statements
    only, each proved there) *)
From Coq Require Import String Reals Lra Lia ZArith List Bool.
From Coquelicot Require Import Rcomplements Complex.
From Verif Require Import Num NumLemmas ModelBase ModelSample ModelTip StackLemmas Spec
  ProofsStackQS ProofsStackQS2 ProofsStackFF ProofsStackFF2 ProofsBulkFF.
Import ListNotations.
Open Scope R_scope.
From Verif Require Import ProofsSym.

(** C15. Conjugating every permittivity conjugates the quasistatic
    reflection and transmission coefficients, for every sample and momentum
    (non-finite results stay non-finite, exceptions stay the same). *)
Theorem C15_conj_refl_trans_qs :
  forall (s : sample) (q : RV),
  refl_coef_qs (conj_sample s) q = map_res conjV (refl_coef_qs s q) /\
  trans_coef_qs (conj_sample s) q = map_res conjV (trans_coef_qs s q).
Proof. exact C15_conj_refl_trans_qs_proof. Qed.
Print Assumptions C15_conj_refl_trans_qs.

(** C15. ... the height-dependent averages ... *)
Theorem C15_conj_averages :
  forall (laggauss : laggauss_t) (D : Defaults) (s : sample) (z_Q : RV) (n_lag : option nat),
  refl_coef_qs_above_surf laggauss D (conj_sample s) z_Q n_lag
  = map_res conjV (refl_coef_qs_above_surf laggauss D s z_Q n_lag) /\
  surf_pot_and_field laggauss D (conj_sample s) z_Q n_lag
  = map_res (fun p => (conjV (fst p), conjV (snd p))) (surf_pot_and_field laggauss D s z_Q n_lag) /\
  image_depth_and_charge laggauss D (conj_sample s) z_Q n_lag
  = map_res (fun p => (fst p, conjV (snd p))) (image_depth_and_charge laggauss D s z_Q n_lag).
Proof. exact C15_conj_averages_proof. Qed.
Print Assumptions C15_conj_averages.

(** C15. ... and the effective polarizability of both tip models (with the
    conjugate g_factor / tip material). *)
Theorem C15_conj_fdm_eff_pol :
  forall (laggauss : laggauss_t) (D : Defaults) (s : sample) (z_tip r_tip L_tip : option R) (g : C)
    (d_Q0 d_Q1 d_Qa : option R) (n_lag : option nat) (method : option string),
  fdm_eff_pol laggauss D (conj_sample s) z_tip r_tip L_tip (Some (Cconj g)) d_Q0 d_Q1 d_Qa n_lag method
  = map_res conjV (fdm_eff_pol laggauss D s z_tip r_tip L_tip (Some g) d_Q0 d_Q1 d_Qa n_lag method).
Proof. exact C15_conj_fdm_eff_pol_proof. Qed.
Print Assumptions C15_conj_fdm_eff_pol.

Theorem C15_conj_pdm_eff_pol :
  forall (D : Defaults) (s : sample) (z_tip r_tip : option R) (eps_tip alpha_tip : option C),
  pdm_eff_pol D (conj_sample s) z_tip r_tip (conjO eps_tip) (conjO alpha_tip)
  = map_res conjV (pdm_eff_pol D s z_tip r_tip eps_tip alpha_tip).
Proof. exact C15_conj_pdm_eff_pol_proof. Qed.
Print Assumptions C15_conj_pdm_eff_pol.

(** C15. In particular a lossless sample (all permittivities real) has real
    responses wherever they are finite: the reflection coefficient at each
    momentum, its height averages, and both effective polarizabilities (for a
    real g_factor, resp. a perfectly conducting tip). *)
Theorem C15_lossless_is_real :
  forall (laggauss : laggauss_t) (D : Defaults) (s : sample), real_sample s ->
  (forall q z, refl_coef_qs s q = Ok (Some z) -> Im z = 0) /\
  (forall z_Q n_lag z, refl_coef_qs_above_surf laggauss D s z_Q n_lag = Ok (Some z) -> Im z = 0) /\
  (forall z_tip r_tip L_tip (g : R) d_Q0 d_Q1 d_Qa n_lag method z,
     fdm_eff_pol laggauss D s z_tip r_tip L_tip (Some (RtoC g)) d_Q0 d_Q1 d_Qa n_lag method = Ok (Some z) ->
     Im z = 0) /\
  (forall z_tip r_tip z, pdm_eff_pol D s z_tip r_tip None None = Ok (Some z) -> Im z = 0).
Proof. exact C15_lossless_is_real_proof. Qed.
Print Assumptions C15_lossless_is_real.

(** C17. Quasistatic coefficients depend on momentum and thicknesses only
    through their products. *)
Theorem C17_units_refl_trans_qs :
  forall (k : R) (s : sample) (q : R), 0 < k ->
  refl_coef_qs (rescale_sample k s) (rr (q / k)) = refl_coef_qs s (rr q) /\
  trans_coef_qs (rescale_sample k s) (rr (q / k)) = trans_coef_qs s (rr q).
Proof. exact C17_units_refl_trans_qs_proof. Qed.
Print Assumptions C17_units_refl_trans_qs.

(** C17. Far field: angles stay, momenta and wavenumbers are per length.
    The wavenumber must be known (a bulk sample without any uses the number 1
    in whatever unit, see C19). *)
Theorem C17_units_far_field :
  forall (k : R) (s : sample) (q theta_in nu : option R) (polarization : string), 0 < k ->
  (nu <> None \/ nu_vac s <> None) ->
  refl_coef (rescale_sample k s) (per_length k q) theta_in (per_length k nu) polarization
  = refl_coef s q theta_in nu polarization /\
  trans_coef (rescale_sample k s) (per_length k q) theta_in (per_length k nu) polarization
  = trans_coef s q theta_in nu polarization.
Proof. exact C17_units_far_field_proof. Qed.
Print Assumptions C17_units_far_field.

(** C17. Height averages: the effective coefficient and the image charge do
    not change, the potential scales like 1/length, the field like
    1/length^2, the image depth like length. *)
Theorem C17_units_averages :
  forall (laggauss : laggauss_t) (D : Defaults) (k : R) (s : sample) (z_Q : R) (n_lag : option nat),
  0 < k ->
  refl_coef_qs_above_surf laggauss D (rescale_sample k s) (rr (k * z_Q)) n_lag
  = refl_coef_qs_above_surf laggauss D s (rr z_Q) n_lag /\
  surf_pot_and_field laggauss D (rescale_sample k s) (rr (k * z_Q)) n_lag
  = map_res (fun pE => (fst pE / rc k, snd pE / rc (k ^ 2))%cv)
            (surf_pot_and_field laggauss D s (rr z_Q) n_lag) /\
  image_depth_and_charge laggauss D (rescale_sample k s) (rr (k * z_Q)) n_lag
  = map_res (fun db => (rr k * fst db, snd db)%rv)
            (image_depth_and_charge laggauss D s (rr z_Q) n_lag).
Proof. exact C17_units_averages_proof. Qed.
Print Assumptions C17_units_averages.
