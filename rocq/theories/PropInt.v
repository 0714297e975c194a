(** * Properties (generated by tools/gen_prop.py from ProofsInt.v; statements
    only, each proved there) *)
From Coq Require Import String Reals Lra Lia ZArith List Bool.
From Coquelicot Require Import Rcomplements Complex.
From Verif Require Import Num ModelBase ModelSample ModelTip ModelInt SpecInt.
Import ListNotations.
Open Scope R_scope.
From Verif Require Import ProofsInt.

(** NumPy integers keep the low bits: what is stored fits, and differs from the
    exact result by a multiple of 2^bits; results that fit are exact. *)
Theorem C88_low_bits : forall (w : nat) (sg : bool) (z : Z), (0 < w)%nat ->
  fits (Word w sg) (wrap (Word w sg) z) /\
  same_bits w (wrap (Word w sg) z) z /\
  (fits (Word w sg) z -> wrap (Word w sg) z = z) /\
  (forall z', fits (Word w sg) z' -> same_bits w z' z -> z' = wrap (Word w sg) z).
Proof. exact C88_low_bits_proof. Qed.
Print Assumptions C88_low_bits.

(** Far field: as long as the squares of the wavenumber and of the in-plane
    momentum fit into the integer type, integers give what the equal floats give. *)
Theorem C88_far_field_in_range : forall t s q theta_in nu pol,
  match t with Word w _ => (0 < w)%nat | Unbounded => True end ->
  opt_ok (power_fits t 2) q -> opt_ok (power_fits t 2) nu -> opt_ok (power_fits t 2) (i_nu_vac s) ->
  i_transfer_matrix t s q theta_in nu pol
    = transfer_matrix (in_floats s) (option_map real_of q) theta_in (option_map real_of nu) pol /\
  i_refl_coef t s q theta_in nu pol
    = refl_coef (in_floats s) (option_map real_of q) theta_in (option_map real_of nu) pol /\
  i_trans_coef t s q theta_in nu pol
    = trans_coef (in_floats s) (option_map real_of q) theta_in (option_map real_of nu) pol.
Proof. exact C88_far_field_in_range_proof. Qed.
Print Assumptions C88_far_field_in_range.

(** Quasistatic coefficients and surface potential: as long as the products of the
    momentum (or height) with the thicknesses, twice the height and its square fit. *)
Theorem C88_near_field_in_range : forall t s q,
  match t with Word w _ => (0 < w)%nat | Unbounded => True end ->
  Forall (product_fits t q) (i_t_stack s) ->
  i_refl_coef_qs t s q = refl_coef_qs (in_floats s) (rr (real_of q)) /\
  i_trans_coef_qs t s q = trans_coef_qs (in_floats s) (rr (real_of q)) /\
  (forall laggauss D n_lag,
     (forall z, q = I z -> fits t (2 * z) /\ fits t (z ^ 2) /\ fits t (4 * z ^ 2)) ->
     i_surf_pot_and_field t laggauss D s q n_lag
     = surf_pot_and_field laggauss D (in_floats s) (rr (real_of q)) n_lag).
Proof. exact C88_near_field_in_range_proof. Qed.
Print Assumptions C88_near_field_in_range.

(** Permittivity models and interface coefficients *)
Theorem C88_permittivity_in_range : forall t nu nu_j gamma_j A_j nu_plasma f_j eps_inf eps_i eps_j,
  match t with Word w _ => (0 < w)%nat | Unbounded => True end ->
  (power_fits t 2 nu -> power_fits t 2 nu_j -> opt_ok (power_fits t 2) nu_plasma ->
   (forall x y, nu = I x -> nu_j = I y -> fits t (y ^ 2 - x ^ 2)) ->
   (forall x y, f_j = Some (I x) -> nu_plasma = Some (I y) -> fits t (x * y ^ 2)) ->
   i_lorentz_perm t nu nu_j gamma_j A_j nu_plasma f_j eps_inf
   = lorentz_perm (real_of nu) (real_of nu_j) (real_of gamma_j) (option_map real_of A_j)
       (option_map real_of nu_plasma) (option_map real_of f_j) (option_map real_of eps_inf)) /\
  ((forall x y, eps_i = I x -> eps_j = I y -> fits t (y - x) /\ fits t (y + x)) ->
   i_refl_coef_qs_single t eps_i eps_j
   = refl_coef_qs_single (rc (real_of eps_i)) (rc (real_of eps_j))).
Proof. exact C88_permittivity_in_range_proof. Qed.
Print Assumptions C88_permittivity_in_range.

(** Point-dipole model: as long as the cubes of the radius and of the distance of
    the dipole fit *)
Theorem C88_point_dipole_in_range : forall t D s z_tip r_tip eps_tip alpha_tip,
  match t with Word w _ => (0 < w)%nat | Unbounded => True end ->
  opt_ok (power_fits t 3) r_tip ->
  (forall r z, r_tip = Some (I r) -> z_tip = Some (I z) -> fits t (r + z) /\ fits t ((r + z) ^ 3)) ->
  i_pdm_eff_pol t D s z_tip r_tip eps_tip alpha_tip
    = pdm_eff_pol D s (option_map real_of z_tip) (option_map real_of r_tip) eps_tip alpha_tip /\
  forall a, i_pdm_refl_coef_qs_from_eff_pol t D a z_tip r_tip eps_tip alpha_tip
    = pdm_refl_coef_qs_from_eff_pol D a (option_map real_of z_tip) (option_map real_of r_tip) eps_tip alpha_tip.
Proof. exact C88_point_dipole_in_range_proof. Qed.
Print Assumptions C88_point_dipole_in_range.
