(** * The root-finding inverses in arithmetic that rounds

    One rounded operation of a [machine] (SpecRound.v) per operation of the
    source, as in ModelRound2.v.  Scalars; the polynomial solver
    ([Polynomial.roots]) is a parameter.  The sorting of the roots and the masked
    array are left out: the result is the list of the unmasked roots, in no
    particular order. *)
From Coq Require Import String Reals List ZArith Bool.
From Coquelicot Require Import Complex.
From Verif Require Import Num ModelBase ModelSample ModelTip SpecRound ModelRound ModelRound2.
Import ListNotations.
Open Scope R_scope.

Definition leb_R (x y : R) : bool := if Rle_dec x y then true else false.
(** [np.abs] of a complex number *)
Definition k_abs (m : machine) (z : C) : R := a_hypot m (Re z) (Im z).
(** fdm.py:784-791, pdm.py:525-532 (the same lines) *)
Definition k_valid (m : machine) (beta_threshold : R) (reject_negative_eps_imag reject_subvacuum_eps_abs : bool)
    (eps_env b : C) : bool :=
  let eps := k_permitivitty m b eps_env in
  leb_R (k_abs m b) beta_threshold
  && (negb reject_negative_eps_imag || leb_R 0 (Im eps))
  && (negb reject_subvacuum_eps_abs || leb_R 1 (k_abs m eps)).
(** [np.where(j_taylor == 0, coefs - alpha_eff_n, coefs)], fdm.py:781, pdm.py:522 *)
Definition k_offset (m : machine) (alpha : C) (coefs : list C) : list C :=
  match coefs with [] => [] | c0 :: cs => ksub m c0 alpha :: cs end.

(** fdm.py:662-811 *)
Definition k_fdm_refl_coef_qs_from_eff_pol_n (m : machine) (roots : list C -> list C) (D : Defaults) (alpha_eff_n : C) (A_tip : R) (n : Z)
    (z_tip r_tip L_tip : option R) (g_factor : option C) (d_Q0 d_Q1 : option R) (n_trapz n_tayl : option nat)
    (beta_threshold : option R) (reject_negative_eps_imag reject_subvacuum_eps_abs : bool) (eps_env : option C) : res (list C) :=
  let z_tip := dflt (d_z_tip D) z_tip in
  match k_fdm_defaults m D r_tip L_tip g_factor d_Q0 d_Q1 None with
  | (r_tip, L_tip, g_factor, d_Q0, d_Q1, _) =>
    let n_tayl := dflt (d_n_tayl D) n_tayl in
    let beta_threshold := dflt (d_beta_threshold D) beta_threshold in
    let eps_env := dflt (d_eps_env D) eps_env in
    let! coefs := mapM (fun j => k_fdm_taylor_coef m D z_tip j A_tip n r_tip L_tip g_factor d_Q0 d_Q1 n_trapz) (seq 0 n_tayl) in
    Ok (filter (k_valid m beta_threshold reject_negative_eps_imag reject_subvacuum_eps_abs eps_env) (roots (k_offset m alpha_eff_n coefs)))
  end.

(** pdm.py:410-552 *)
Definition k_pdm_refl_coef_qs_from_eff_pol_n (m : machine) (roots : list C -> list C) (D : Defaults) (alpha_eff_n : C) (A_tip : R) (n : Z)
    (z_tip r_tip : option R) (eps_tip alpha_tip : option C) (n_trapz n_tayl : option nat)
    (beta_threshold : option R) (reject_negative_eps_imag reject_subvacuum_eps_abs : bool) (eps_env : option C) : res (list C) :=
  let z_tip := dflt (d_z_tip D) z_tip in
  let! ra := k_pdm_defaults m D r_tip eps_tip alpha_tip in
  let n_tayl := dflt (d_n_tayl D) n_tayl in
  let beta_threshold := dflt (d_beta_threshold D) beta_threshold in
  let eps_env := dflt (d_eps_env D) eps_env in
  let! coefs := mapM (fun j => k_pdm_taylor_coef m D z_tip j A_tip n (fst ra) (snd ra) n_trapz) (seq 0 n_tayl) in
  Ok (filter (k_valid m beta_threshold reject_negative_eps_imag reject_subvacuum_eps_abs eps_env) (roots (k_offset m alpha_eff_n coefs))).
