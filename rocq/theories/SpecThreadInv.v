(** * What the root-finding inverses may return while the defaults are being changed *)
From Coq Require Import String Reals Lra Lia ZArith List Bool.
From Coquelicot Require Import Complex.
From Verif Require Import Num ModelBase ModelSample ModelTip NArr ModelObj ModelArr ModelArrTip ModelInv ModelCache ModelThread ModelThreadInv SpecThread.
Import ListNotations.
Open Scope R_scope.

(** the two calls *)
Inductive rcall :=
| RFdm (alpha_eff_n : arr CV) (A_tip : arr R) (n : arr Z) (z_tip r_tip L_tip : option (arr R)) (g_factor : option (arr C))
    (d_Q0 d_Q1 : option (arr R)) (n_trapz n_tayl : option nat) (beta_threshold : option R)
    (reject_negative_eps_imag reject_subvacuum_eps_abs : bool) (eps_env : option (arr C))
| RPdm (alpha_eff_n : arr CV) (A_tip : arr R) (n : arr Z) (z_tip r_tip : option (arr R)) (eps_tip alpha_tip : option (arr C))
    (n_trapz n_tayl : option nat) (beta_threshold : option R)
    (reject_negative_eps_imag reject_subvacuum_eps_abs : bool) (eps_env : option (arr C)).
Section WithLibrary.
Variable eig_roots : list C -> list C.
Variable argsort_bool : list bool -> list nat.
Variable argsort_real : list RV -> list nat.
(** with defaults that do not change (ModelInv.v) *)
Definition roots_alone (D : Defaults) (c : rcall) : res (arr CV * arr bool) :=
  match c with
  | RFdm a A n z r L g d0 d1 N J t b1 b2 e => fdm_refl_coef_qs_from_eff_pol_n eig_roots argsort_bool argsort_real D a A n z r L g d0 d1 N J t b1 b2 e
  | RPdm a A n z r e1 a1 N J t b1 b2 e => pdm_refl_coef_qs_from_eff_pol_n eig_roots argsort_bool argsort_real D a A n z r e1 a1 N J t b1 b2 e
  end.
(** with defaults that may change at any time *)
Definition roots_threaded (sched : nat -> Defaults) (c : rcall) : thr (arr CV * arr bool) :=
  match c with
  | RFdm a A n z r L g d0 d1 N J t b1 b2 e => t_fdm_roots eig_roots argsort_bool argsort_real sched a A n z r L g d0 d1 N J t b1 b2 e
  | RPdm a A n z r e1 a1 N J t b1 b2 e => t_pdm_roots eig_roots argsort_bool argsort_real sched a A n z r e1 a1 N J t b1 b2 e
  end.
End WithLibrary.
(** every argument given whose default could enter *)
Definition roots_given (c : rcall) : bool :=
  match c with
  | RFdm _ _ _ z r L g _ d1 N J t _ _ e =>
      is_given z && is_given r && is_given L && is_given g && is_given d1 && is_given N && is_given J && is_given t && is_given e
  | RPdm _ _ _ z r _ _ N J t _ _ e => is_given z && is_given r && is_given N && is_given J && is_given t && is_given e
  end.
