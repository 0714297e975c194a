(** * Scalar model of [snompy/_defaults.py] and [snompy/demodulate.py] *)
From Coq Require Import String Reals Lra Lia ZArith List Bool.
From Coquelicot Require Import Complex.
From Verif Require Import Num.
Import ListNotations.
Open Scope R_scope.

(** ** [snompy/_defaults.py] *)

(** _defaults.py:77-112 [Defaults.__init__]: the mutable attributes of
    [snompy.defaults].  The object is passed explicitly to every function that
    reads it, so "the current defaults" is a quantified argument. *)
Record Defaults := mkDefaults {
  d_eps_env : C;
  d_z_tip : R;
  d_r_tip : R;
  d_L_tip : R;
  d_g_factor : C;
  d_d_Q1 : R;
  d_d_Qa : R;
  d_n_trapz : nat;
  d_n_lag : nat;
  d_n_tayl : nat;
  d_beta_threshold : R
}.

(** _defaults.py:77-90,141: the values [defaults = Defaults()] starts with *)
Definition defaults0 : Defaults := {|
  d_eps_env := RtoC 1;
  d_z_tip := 0;
  d_r_tip := 20 / 10 ^ 9;
  d_L_tip := 300 / 10 ^ 9;
  d_g_factor := Cmult (RtoC (7 / 10)) (Cexp (0, 6 / 100));
  d_d_Q1 := 5 / 10;
  d_d_Qa := 14 / 10;
  d_n_trapz := 32;
  d_n_lag := 32;
  d_n_tayl := 16;
  d_beta_threshold := 101 / 100
|}.

(** _defaults.py:114-122 [Defaults._fdm_defaults]; returns
    (r_tip, L_tip, g_factor, d_Q0, d_Q1, d_Qa) *)
Definition fdm_defaults (D : Defaults) (r_tip L_tip : option R)
    (g_factor : option C) (d_Q0 d_Q1 d_Qa : option R)
  : R * R * C * RV * R * R :=
  let r_tip := dflt (d_r_tip D) r_tip in
  let L_tip := dflt (d_L_tip D) L_tip in
  let g_factor := dflt (d_g_factor D) g_factor in
  let d_Q0 := match d_Q0 with
              | None => (rr (131 / 100) * rr L_tip / (rr L_tip + rr 2 * rr r_tip))%rv
              | Some d => rr d
              end in
  let d_Q1 := dflt (d_d_Q1 D) d_Q1 in
  let d_Qa := dflt (d_d_Qa D) d_Qa in
  (r_tip, L_tip, g_factor, d_Q0, d_Q1, d_Qa).

Definition msg_alpha_eps_tip : string :=
  "Either `alpha_tip` or `eps_tip` must be None.".

(** _defaults.py:124-138 [Defaults._pdm_defaults]; returns (r_tip, alpha_tip) *)
Definition pdm_defaults (D : Defaults) (r_tip : option R)
    (eps_tip alpha_tip : option C) : res (R * CV) :=
  let r_tip := dflt (d_r_tip D) r_tip in
  match eps_tip with
  | None =>
      match alpha_tip with
      | None => Ok (r_tip, ofR (rr 4 * rr PI * rr r_tip ^ 3)%rv)
      | Some a => Ok (r_tip, Some a)
      end
  | Some eps =>
      match alpha_tip with
      | None =>
          Ok (r_tip, (ofR (rr 4 * rr PI * rr r_tip ^ 3)%rv
                      * (Some eps - rc 1) / (Some eps + rc 2))%cv)
      | Some _ => Raise (ValueError msg_alpha_eps_tip)
      end
  end.

(** ** [snompy/demodulate.py] *)

(** demodulate.py:106 [np.linspace(-np.pi, np.pi, n_trapz + 1)] *)
Definition thetas (N : nat) : list R :=
  map (fun k => - PI + INR k * (2 * PI / INR N))%R (seq 0 (N + 1)).

(** demodulate.py:22-26,112 [trapezoid(integrand, axis=0)] (unit spacing):
    the sum of the means of neighbouring samples *)
Definition trapezoid (ys : list CV) : CV :=
  csum (map (fun p => ((fst p + snd p) / rc 2)%cv) (combine (tl ys) ys)).

(** demodulate.py:109-111: one sample of the integrand,
    [f_x(...) * np.exp(-1j * n * theta)] *)
Definition demod_integrand (n : Z) (fv : CV) (theta : R) : CV :=
  (fv * cexp (Some (0, - (IZR n * theta))%R))%cv.

(** demodulate.py:29-112 [demod] for scalar x_0, x_amplitude, n.
    [f] is [f_x] with [f_args]/[kwargs] already applied.  demodulate.py:107
    calls it once at the centre (only the shape is used, but an exception
    escapes from there). *)
Definition demod (D : Defaults) (f : R -> res CV) (x_0 x_amplitude : R) (n : Z)
    (n_trapz : option nat) : res CV :=
  let N := dflt (d_n_trapz D) n_trapz in
  let! _ := f (x_0 + 0 * x_amplitude)%R in
  let! fs := mapM (fun theta => f (x_0 + cos theta * x_amplitude)%R) (thetas N) in
  let integrand := map (fun p => demod_integrand n (fst p) (snd p))
                       (combine fs (thetas N)) in
  Ok (trapezoid integrand / rc (INR N))%cv.
