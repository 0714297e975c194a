(** * Properties (generated by tools/gen_prop.py from ProofsOsc.v; statements
    only, each proved there) *)
From Coq Require Import String Reals Lra Lia ZArith List Bool.
From Coquelicot Require Import Rcomplements Complex.
From Verif Require Import Num NumLemmas ModelBase ModelSample ModelTip StackLemmas Spec SpecReson DemodLemmas
  ProofsStackQS ProofsStackQS2 ProofsSym ProofsPassive ProofsTip ProofsTip2 ProofsTip3 ProofsPerm ProofsDemod ProofsTaylor ProofsAbsorb ProofsReson ProofsReson2.
Import ListNotations.
Open Scope R_scope.
From Verif Require Import ProofsOsc.

(** C102. The reflection coefficient of a damped oscillator (phonon or, with nu_j = 0, free electrons) is again an oscillator: of the same
    damping, centred at the surface mode, nu_s^2 = nu_j^2 + A/(eps_inf + e0). *)
Theorem C102_reflection :
  forall (e0 nu nu_j gamma A eps_inf nu_s : R) (e1 : C) nu_vac q,
  0 < e0 -> 0 < eps_inf -> gamma <> 0 -> nu <> 0 -> nu_s ^ 2 = nu_j ^ 2 + A / (eps_inf + e0) ->
  lorentz_perm nu nu_j gamma (Some A) None None (Some eps_inf) = Ok (Some e1) -> e1 <> RtoC 0 ->
  refl_coef_qs (stack [RtoC e0; e1] [] nu_vac) (rr q)
  = lorentz_perm nu nu_s gamma (Some (2 * e0 * A / (eps_inf + e0) ^ 2)) None None (Some ((eps_inf - e0) / (eps_inf + e0))).
Proof. exact C102_reflection_proof. Qed.
Print Assumptions C102_reflection.

(** C102. So is the effective polarizability in the point dipole model, at every height: same damping, centre nu_t with
    nu_t^2 = resonant_nu2 (the resonance of tip and lossless sample, C90). *)
Theorem C102_pdm :
  forall (D : Defaults) (e0 nu nu_j gamma A eps_inf nu_t : R) (e1 : C) nu_vac z_tip r_tip eps_tip alpha_tip (alpha : R),
  let z := given_or (d_z_tip D) z_tip in let r := given_or (d_r_tip D) r_tip in
  let f := coupling alpha (r + z) in let x := resonant_eps e0 f in
  tip_alpha r eps_tip alpha_tip (RtoC alpha) -> 0 < e0 -> 0 < alpha -> 0 < r + z -> f < 1 ->
  0 < eps_inf -> gamma <> 0 -> nu <> 0 -> nu_t ^ 2 = resonant_nu2 nu_j A eps_inf e0 f ->
  lorentz_perm nu nu_j gamma (Some A) None None (Some eps_inf) = Ok (Some e1) -> e1 <> RtoC 0 ->
  pdm_eff_pol D (stack [RtoC e0; e1] [] nu_vac) z_tip r_tip eps_tip alpha_tip
  = lorentz_perm nu nu_t gamma (Some (2 * alpha * f * e0 * A / ((1 - f) ^ 2 * (eps_inf - x) ^ 2))) None None
      (Some (alpha * (eps_inf + e0) / ((1 - f) * (eps_inf - x)))).
Proof. exact C102_pdm_proof. Qed.
Print Assumptions C102_pdm.

(** C102. The finite dipole model: the oscillator acquires the complex shift p of its squared centre, so the tip moves it by Re p and, when the
    charge factor g absorbs, widens it by Im p > 0. *)
Theorem C102_fdm :
  forall (laggauss : laggauss_t) (D : Defaults) (e0 nu nu_j gamma A eps_inf : R) (e1 : C) nu_vac z_tip r_tip L_tip g_factor d_Q0 d_Q1 d_Qa n_lag method,
  let z := given_or (d_z_tip D) z_tip in let r := given_or (d_r_tip D) r_tip in
  let L := given_or (d_L_tip D) L_tip in let g := given_or (d_g_factor D) g_factor in
  let d0 := given_or (131 / 100 * L / (L + 2 * r)) d_Q0 in let d1 := given_or (d_d_Q1 D) d_Q1 in
  let f0 := fdm_f z d0 r L g in let f1 := fdm_f z d1 r L g in
  let b := RtoC ((eps_inf - e0) / (eps_inf + e0)) in let B := 2 * e0 * A / (eps_inf + e0) ^ 2 in
  let p := (f1 * RtoC B / (1 - f1 * b))%C in
  let s := (nu_j ^ 2 + A / (eps_inf + e0) - nu ^ 2, - (gamma * nu)) in
  fdm_regular z d0 r L -> fdm_regular z d1 r L -> method = None \/ method = Some "bulk"%string ->
  0 < e0 -> 0 < eps_inf -> gamma <> 0 -> nu <> 0 -> (1 - f1 * b <> 0)%C ->
  lorentz_perm nu nu_j gamma (Some A) None None (Some eps_inf) = Ok (Some e1) -> e1 <> RtoC 0 ->
  fdm_eff_pol laggauss D (stack [RtoC e0; e1] [] nu_vac) z_tip r_tip L_tip g_factor d_Q0 d_Q1 d_Qa n_lag method
  = Ok (if Ceq_dec s p then None else Some (1 + f0 / 2 * (b / (1 - f1 * b) + RtoC B / ((1 - f1 * b) * (1 - f1 * b)) / (s - p)))%C) /\
  Im p = B * Im f1 / Cmod (1 - f1 * b)%C ^ 2 /\
  (0 < A -> 0 < Im g -> r + 4 * z + 2 * r * d1 < 4 * L -> r < 4 * L -> 0 < Im p).
Proof. exact C102_fdm_proof. Qed.
Print Assumptions C102_fdm.
