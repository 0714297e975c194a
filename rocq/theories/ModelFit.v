(** * The inversion by minimisation of docs/examples/scripts/inversion.py

    The two functions the example script defines (lines 9-77). The optimiser
    [scipy.optimize.minimize] is not part of the package: it is a parameter, an
    arbitrary map from an objective and a start to a point (or an exception).
    The loop over an array (69-77) visits the elements of two lists of the same
    length in order (the script asks for arrays of the same shape). *)
From Coq Require Import String Reals List ZArith.
From Coquelicot Require Import Complex.
From Verif Require Import Num ModelBase ModelSample ModelTip.
Import ListNotations.
Open Scope R_scope.

(** the dictionary fdm_params: any keyword arguments of fdm.eff_pol_n
    (inversion.py:81 passes A_tip and n only) *)
Record params := mkParams {
  p_A_tip : R; p_n : Z; p_z_tip : option R; p_n_trapz : option nat;
  p_r_tip : option R; p_L_tip : option R; p_g_factor : option C;
  p_d_Q0 : option R; p_d_Q1 : option R; p_d_Qa : option R;
  p_n_lag : option nat; p_method : option string
}.
(** dict(A_tip=..., n=...) *)
Definition params_A_n (A_tip : R) (n : Z) : params :=
  mkParams A_tip n None None None None None None None None None None.

(** snompy.fdm.eff_pol_n(snompy.bulk_sample(eps), ...) (inversion.py:37, 103):
    sample.py:801-828 puts the environment of the defaults above eps *)
Definition simulate (laggauss : laggauss_t) (D : Defaults) (p : params) (eps : C) : res CV :=
  fdm_eff_pol_n laggauss D (mkSample [Some (d_eps_env D); Some eps] [] None) (p_A_tip p) (p_n p) (p_z_tip p)
    (p_n_trapz p) (p_r_tip p) (p_L_tip p) (p_g_factor p) (p_d_Q0 p) (p_d_Q1 p) (p_d_Qa p) (p_n_lag p) (p_method p).

(** eps_re_im[0] + 1j * np.abs(eps_re_im[1]) (inversion.py:36, 76) *)
Definition folded (x : R * R) : C := (RtoC (fst x) + (0, 1)%R * RtoC (Rabs (snd x)))%C.

(** inversion.py:9-38 *)
Definition minimization_function (laggauss : laggauss_t) (D : Defaults) (x : R * R) (alpha_eff_n : CV) (p : params) : res RV :=
  let! test := simulate laggauss D p (folded x) in
  Ok (cabs (alpha_eff_n - test)%cv).

(** what scipy.optimize.minimize does with an objective and a start *)
Definition minimiser := (R * R -> res RV) -> R * R -> res (R * R).

(** inversion.py:41-77 *)
Fixpoint invert_by_minimization (minimize : minimiser) (laggauss : laggauss_t) (D : Defaults)
    (alpha_eff_n : list CV) (initial_guess : list C) (p : params) : res (list C) :=
  match alpha_eff_n, initial_guess with
  | a :: l, g :: m =>
      let! x := minimize (fun x => minimization_function laggauss D x a p) (Re g, Im g) in
      let! rest := invert_by_minimization minimize laggauss D l m p in
      Ok (folded x :: rest)
  | _, _ => Ok []
  end.

(** inversion.py:90-98: the permittivity of the script, a sum of
    [lorentz_perm(nu, nu_j, gamma_j, A_j, eps_inf=0)] and a background; the list
    holds (nu_j, gamma_j, A_j) *)
Fixpoint oscillators (nu : R) (l : list (R * R * R)) (background : R) : res CV :=
  match l with
  | [] => Ok (rc background)
  | (nu_j, gamma_j, A_j) :: rest =>
      let! v := lorentz_perm nu nu_j gamma_j (Some A_j) None None (Some 0) in
      let! w := oscillators nu rest background in
      Ok (v + w)%cv
  end.
(** inversion.py:99-100: beta and the mask |beta| >= 1 *)
Definition invalid_beta (eps_env eps_sub : C) : option bool :=
  match refl_coef_qs_single (Some eps_env) (Some eps_sub) with
  | Some b => Some (if Rle_dec 1 (Cmod b) then true else false)
  | None => None
  end.
