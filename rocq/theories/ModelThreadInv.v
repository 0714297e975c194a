(** * The root-finding inverses while another thread assigns to [snompy.defaults]

    Continuation of ModelThread.v for array arguments: the reads of the defaults are
    events again, [sched i] is the state of the defaults at the [i]-th read. *)
From Coq Require Import String Reals Lra Lia ZArith List Bool.
From Coquelicot Require Import Complex.
From Verif Require Import Num ModelBase ModelSample ModelTip NArr ModelObj ModelArr ModelArrTip ModelInv ModelCache ModelThread.
Import ListNotations.
Open Scope R_scope.

Section WithSchedule.
Variable eig_roots : list C -> list C.
Variable argsort_bool : list bool -> list nat.
Variable argsort_real : list RV -> list nat.
Variable sched : nat -> Defaults.
Notation "'let#' x ':=' m 'in' k" := (tbind m (fun x => k))
  (at level 200, x pattern, m at level 100, k at level 200).
(** [defaults.attr if x is None else x], an attribute being a number *)
Definition or_default_a {A} (attr : Defaults -> A) (x : option (arr A)) : thr (arr A) :=
  match x with
  | Some a => tpure (Ok a)
  | None => fun i => (Ok (scalar (attr (sched i))), S i)
  end.

(** _defaults.py:114-122 *)
Definition t_fdm_defaults_a (r_tip L_tip : option (arr R)) (g_factor : option (arr C)) (d_Q0 d_Q1 d_Qa : option (arr R))
  : thr (arr R * arr R * arr C * arr RV * arr R * arr R) :=
  let# r_tip := or_default_a d_r_tip r_tip in
  let# L_tip := or_default_a d_L_tip L_tip in
  let# g_factor := or_default_a d_g_factor g_factor in
  let# d_Q0 := tpure (match d_Q0 with
                      | None => lift2 rdiv (Ok (amap (fun L => (rr (131 / 100) * rr L)%rv) L_tip))
                                  (amap2 (fun L r => (rr L + rr 2 * rr r)%rv) L_tip r_tip)
                      | Some d => Ok (amap rr d)
                      end) in
  let# d_Q1 := or_default_a d_d_Q1 d_Q1 in
  let# d_Qa := or_default_a d_d_Qa d_Qa in
  tpure (Ok (r_tip, L_tip, g_factor, d_Q0, d_Q1, d_Qa)).
(** _defaults.py:124-138 *)
Definition t_pdm_defaults_a (r_tip : option (arr R)) (eps_tip alpha_tip : option (arr C)) : thr (arr R * arr CV) :=
  let# r_tip := or_default_a d_r_tip r_tip in
  let sphere := amap (fun r => ofR (rr 4 * rr PI * rr r ^ 3)%rv) r_tip in
  tpure (match eps_tip with
         | None =>
             match alpha_tip with
             | None => Ok (r_tip, sphere)
             | Some a => Ok (r_tip, amap Some a)
             end
         | Some eps =>
             match alpha_tip with
             | None =>
                 let! a := lift2 cdiv (amap2 (fun s e => (s * (Some e - rc 1))%cv) sphere eps)
                             (Ok (amap (fun e => (Some e + rc 2)%cv) eps)) in
                 Ok (r_tip, a)
             | Some _ => Raise (ValueError msg_alpha_eps_tip)
             end
         end).

(** fdm.py:763-811; [n_trapz] is read by [demod] (demodulate.py:103), after the
    centre of the oscillation is known (fdm.py:519) *)
Definition t_fdm_roots (alpha_eff_n : arr CV) (A_tip : arr R)
    (n : arr Z) (z_tip r_tip L_tip : option (arr R)) (g_factor : option (arr C))
    (d_Q0 d_Q1 : option (arr R)) (n_trapz n_tayl : option nat) (beta_threshold : option R)
    (reject_negative_eps_imag reject_subvacuum_eps_abs : bool) (eps_env : option (arr C))
  : thr (arr CV * arr bool) :=
  let# z_tip := or_default_a d_z_tip z_tip in
  let# defs := t_fdm_defaults_a r_tip L_tip g_factor d_Q0 d_Q1 None in
  match defs with
  | (r_tip, L_tip, g_factor, d_Q0, d_Q1, _) =>
    let# n_tayl := or_default sched d_n_tayl n_tayl in
    let# beta_threshold := or_default sched d_beta_threshold beta_threshold in
    let# eps_env := or_default_a d_eps_env eps_env in
    let j_taylor := pad_for_broadcasting O (seq 0 n_tayl)
      [shp z_tip; shp A_tip; shp n; shp alpha_eff_n; shp r_tip; shp L_tip; shp g_factor; shp d_Q0; shp d_Q1] in
    let# _ := tpure (amap2 Rplus z_tip A_tip) in
    let# N := or_default sched d_n_trapz n_trapz in
    tpure (let! coefs := fdm_taylor_coef_a defaults0 z_tip j_taylor A_tip n (amap rr r_tip) (amap rr L_tip)
                           (amap Some g_factor) d_Q0 (amap rr d_Q1) (Some N) in
           let! offset := offset_coefs j_taylor coefs alpha_eff_n in
           let! all_roots := apply_along_axis0 None (polyroots eig_roots) offset in
           select_roots argsort_bool argsort_real beta_threshold reject_negative_eps_imag reject_subvacuum_eps_abs eps_env all_roots)
  end.
(** pdm.py:509-552 *)
Definition t_pdm_roots (alpha_eff_n : arr CV) (A_tip : arr R)
    (n : arr Z) (z_tip r_tip : option (arr R)) (eps_tip alpha_tip : option (arr C))
    (n_trapz n_tayl : option nat) (beta_threshold : option R)
    (reject_negative_eps_imag reject_subvacuum_eps_abs : bool) (eps_env : option (arr C))
  : thr (arr CV * arr bool) :=
  let# z_tip := or_default_a d_z_tip z_tip in
  let# ra := t_pdm_defaults_a r_tip eps_tip alpha_tip in
  let# n_tayl := or_default sched d_n_tayl n_tayl in
  let# beta_threshold := or_default sched d_beta_threshold beta_threshold in
  let# eps_env := or_default_a d_eps_env eps_env in
  let j_taylor := pad_for_broadcasting O (seq 0 n_tayl)
    [shp z_tip; shp A_tip; shp n; shp alpha_eff_n; shp (fst ra); shp (snd ra)] in
  let# _ := tpure (amap2 Rplus z_tip A_tip) in
  let# N := or_default sched d_n_trapz n_trapz in
  tpure (let! coefs := pdm_taylor_coef_a defaults0 z_tip j_taylor A_tip n (amap rr (fst ra)) (snd ra) (Some N) in
         let! offset := offset_coefs j_taylor coefs alpha_eff_n in
         let! all_roots := apply_along_axis0 None (polyroots eig_roots) offset in
         select_roots argsort_bool argsort_real beta_threshold reject_negative_eps_imag reject_subvacuum_eps_abs eps_env all_roots).
End WithSchedule.
