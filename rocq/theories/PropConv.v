(** * Properties (generated by tools/gen_prop.py from ProofsConv.v; statements
    only, each proved there) *)
From Coq Require Import String Reals Lra Lia ZArith List Bool.
From Coquelicot Require Import Rcomplements Complex.
From Verif Require Import Num NumLemmas ModelBase ModelSample ModelTip NArr SpecArr NArrLemmas ModelObj ModelArr ModelArrTip ModelInv
  Spec SpecConv SpecInv ProofsTip3 ProofsTip4 ProofsInv5.
From Coq Require Import FunctionalExtensionality.
Import ListNotations.
Open Scope R_scope.
From Verif Require Import ProofsConv.

(** C83. Finite dipole model, the inversion of measured harmonics: measuring
    all lengths (arrays, amplitude, stored defaults) in a unit k times smaller
    changes neither the roots nor the mask. *)
Theorem C83_fdm_units :
  forall eig_roots argsort_bool argsort_real (k : R) (D : Defaults) (alpha_eff_n : arr CV) (A_tip : arr R) (n : arr Z)
    (z_tip r_tip L_tip : option (arr R)) (g_factor : option (arr C)) (d_Q0 d_Q1 : option (arr R))
    (n_trapz n_tayl : option nat) (beta_threshold : option R) (rej_im rej_abs : bool) (eps_env : option (arr C)),
  0 < k ->
  fdm_refl_coef_qs_from_eff_pol_n eig_roots argsort_bool argsort_real (rescale_defaults k D) alpha_eff_n
    (lengths_in k A_tip) n (option_map (lengths_in k) z_tip) (option_map (lengths_in k) r_tip)
    (option_map (lengths_in k) L_tip) g_factor d_Q0 d_Q1 n_trapz n_tayl beta_threshold rej_im rej_abs eps_env
  = fdm_refl_coef_qs_from_eff_pol_n eig_roots argsort_bool argsort_real D alpha_eff_n A_tip n z_tip r_tip L_tip
      g_factor d_Q0 d_Q1 n_trapz n_tayl beta_threshold rej_im rej_abs eps_env.
Proof. exact C83_fdm_units_proof. Qed.
Print Assumptions C83_fdm_units.

(** C83. Point dipole model: likewise, with alpha_tip a volume.  The measured
    harmonics are not converted although eff_pol_n returns volumes: the
    inversion takes them in units of alpha_tip. *)
Theorem C83_pdm_units :
  forall eig_roots argsort_bool argsort_real (k : R) (D : Defaults) (alpha_eff_n : arr CV) (A_tip : arr R) (n : arr Z)
    (z_tip r_tip : option (arr R)) (eps_tip alpha_tip : option (arr C))
    (n_trapz n_tayl : option nat) (beta_threshold : option R) (rej_im rej_abs : bool) (eps_env : option (arr C)),
  0 < k ->
  pdm_refl_coef_qs_from_eff_pol_n eig_roots argsort_bool argsort_real (rescale_defaults k D) alpha_eff_n
    (lengths_in k A_tip) n (option_map (lengths_in k) z_tip) (option_map (lengths_in k) r_tip)
    eps_tip (option_map (volumes_in k) alpha_tip) n_trapz n_tayl beta_threshold rej_im rej_abs eps_env
  = pdm_refl_coef_qs_from_eff_pol_n eig_roots argsort_bool argsort_real D alpha_eff_n A_tip n z_tip r_tip
      eps_tip alpha_tip n_trapz n_tayl beta_threshold rej_im rej_abs eps_env.
Proof. exact C83_pdm_units_proof. Qed.
Print Assumptions C83_pdm_units.

(** C83. The inversion of measured harmonics, finite dipole model: whatever
    subset of the arguments is left out, the result is that of the call with
    the missing ones filled in from the current table - d_Q0 from the r_tip and
    L_tip in use - and then the table does not matter. *)
Theorem C83_fdm_defaults :
  forall eig_roots argsort_bool argsort_real (D D' : Defaults) (alpha_eff_n : arr CV) (A_tip : arr R) (n : arr Z)
    (z_tip r_tip L_tip : option (arr R)) (g_factor : option (arr C)) (d_Q0 d_Q1 : option (arr R))
    (n_trapz n_tayl : option nat) (beta_threshold : option R) (rej_im rej_abs : bool) (eps_env : option (arr C))
    (S : list nat),
  let r := filled (d_r_tip D) r_tip in let L := filled (d_L_tip D) L_tip in
  joint [shp L; shp r] S -> (forall i, entry L i + 2 * entry r i <> 0) ->
  fdm_refl_coef_qs_from_eff_pol_n eig_roots argsort_bool argsort_real D alpha_eff_n A_tip n z_tip r_tip L_tip
    g_factor d_Q0 d_Q1 n_trapz n_tayl beta_threshold rej_im rej_abs eps_env
  = fdm_refl_coef_qs_from_eff_pol_n eig_roots argsort_bool argsort_real D' alpha_eff_n A_tip n
      (Some (filled (d_z_tip D) z_tip)) (Some r) (Some L) (Some (filled (d_g_factor D) g_factor))
      (Some (match d_Q0 with Some d => d | None => charge_position S L r end)) (Some (filled (d_d_Q1 D) d_Q1))
      (Some (given_or (d_n_trapz D) n_trapz)) (Some (given_or (d_n_tayl D) n_tayl))
      (Some (given_or (d_beta_threshold D) beta_threshold)) rej_im rej_abs (Some (filled (d_eps_env D) eps_env)).
Proof. exact C83_fdm_defaults_proof. Qed.
Print Assumptions C83_fdm_defaults.

(** C83. Point dipole model: likewise. *)
Theorem C83_pdm_defaults :
  forall eig_roots argsort_bool argsort_real (D D' : Defaults) (alpha_eff_n : arr CV) (A_tip : arr R) (n : arr Z)
    (z_tip r_tip : option (arr R)) (eps_tip alpha_tip : option (arr C))
    (n_trapz n_tayl : option nat) (beta_threshold : option R) (rej_im rej_abs : bool) (eps_env : option (arr C)),
  pdm_refl_coef_qs_from_eff_pol_n eig_roots argsort_bool argsort_real D alpha_eff_n A_tip n z_tip r_tip
    eps_tip alpha_tip n_trapz n_tayl beta_threshold rej_im rej_abs eps_env
  = pdm_refl_coef_qs_from_eff_pol_n eig_roots argsort_bool argsort_real D' alpha_eff_n A_tip n
      (Some (filled (d_z_tip D) z_tip)) (Some (filled (d_r_tip D) r_tip)) eps_tip alpha_tip
      (Some (given_or (d_n_trapz D) n_trapz)) (Some (given_or (d_n_tayl D) n_tayl))
      (Some (given_or (d_beta_threshold D) beta_threshold)) rej_im rej_abs (Some (filled (d_eps_env D) eps_env)).
Proof. exact C83_pdm_defaults_proof. Qed.
Print Assumptions C83_pdm_defaults.

(** C83. Tip material in the point dipole inversion: neither argument is a
    perfectly conducting sphere, eps_tip a dielectric one, each result being
    that for the polarizability of the sphere; giving both raises. *)
Theorem C83_pdm_material :
  forall eig_roots argsort_bool argsort_real (D : Defaults) (alpha_eff_n : arr CV) (A_tip : arr R) (n : arr Z)
    (z_tip r_tip : option (arr R)) (n_trapz n_tayl : option nat) (beta_threshold : option R) (rej_im rej_abs : bool)
    (eps_env : option (arr C)),
  let r := filled (d_r_tip D) r_tip in
  let invert eps_tip alpha_tip := pdm_refl_coef_qs_from_eff_pol_n eig_roots argsort_bool argsort_real D alpha_eff_n
    A_tip n z_tip r_tip eps_tip alpha_tip n_trapz n_tayl beta_threshold rej_im rej_abs eps_env in
  invert None None = invert None (Some (conductor_polarizability r)) /\
  (forall e S, joint [shp r; shp e] S -> (forall i, (entry e i <> -(2))%C) ->
     invert (Some e) None = invert None (Some (sphere_polarizability S r e))) /\
  (forall e a, invert (Some e) (Some a) = Raise (ValueError "Either `alpha_tip` or `eps_tip` must be None.")).
Proof. exact C83_pdm_material_proof. Qed.
Print Assumptions C83_pdm_material.

(** C83. Example: the tip entirely from a table in which it is 20 nm long, no
    argument but the charge position: the reflection coefficient 1/2 is found
    for the first element. *)
Example C83_example :
  let D := mkDefaults (RtoC 1) 0 20 20 (RtoC (11 / 4)) (1 / 2) (1 / 2) 1 1 3 1 in
  let alpha := mkArr [2%nat] (fun i => if Nat.eqb (hd O i) 0 then Some (RtoC (11 / 8)) else Some (RtoC 1)) in
  (exists eig sb sr, library eig sb sr) /\
  forall eig sb sr, library eig sb sr ->
  exists r, fdm_refl_coef_qs_from_eff_pol_n eig sb sr D alpha (scalar 0) (scalar 0%Z) None None None None
      (Some (scalar (1 / 2))) None None None None true false None = Ok r /\
    In (Some (RtoC (1 / 2))) (unmasked r [O]).
Proof. exact C83_example_proof. Qed.
