(** * Properties (generated by tools/gen_prop.py from ProofsReson2.v; statements
    only, each proved there) *)
From Coq Require Import String Reals Lra Lia ZArith List Bool.
From Coquelicot Require Import Rcomplements Complex.
From Verif Require Import Num NumLemmas ModelBase ModelSample ModelTip StackLemmas Spec SpecReson DemodLemmas
  ProofsStackQS ProofsStackQS2 ProofsSym ProofsPassive ProofsTip ProofsTip2 ProofsTip3 ProofsPerm ProofsDemod ProofsTaylor ProofsAbsorb ProofsReson.
Import ListNotations.
Open Scope R_scope.
From Verif Require Import ProofsReson2.

(** C90. A lossless oscillator (phonon) below the point dipole: the frequency at
    which tip and sample resonate. *)
Theorem C90_pdm_phonon :
  forall (D : Defaults) (e0 nu nu_j A eps_inf : R) (e1 : C) f_j nu_vac z_tip r_tip eps_tip alpha_tip (alpha : R),
  let z := given_or (d_z_tip D) z_tip in let r := given_or (d_r_tip D) r_tip in
  let f := coupling alpha (r + z) in
  tip_alpha r eps_tip alpha_tip (RtoC alpha) -> 0 < e0 -> 0 < alpha -> 0 < r + z -> f < 1 ->
  0 < eps_inf -> A <> 0 -> nu ^ 2 <> nu_j ^ 2 ->
  lorentz_perm nu nu_j 0 (Some A) None f_j (Some eps_inf) = Ok (Some e1) ->
  e1 <> RtoC 0 -> (RtoC e0 + e1 <> 0)%C ->
  (pdm_eff_pol D (stack [RtoC e0; e1] [] nu_vac) z_tip r_tip eps_tip alpha_tip = Ok None
   <-> nu ^ 2 = resonant_nu2 nu_j A eps_inf e0 f).
Proof. exact C90_pdm_phonon_proof. Qed.
Print Assumptions C90_pdm_phonon.

(** C90. Red shift: on approach the resonance of a lossless oscillator moves to lower
    frequencies, from the surface phonon frequency [nu_j^2 + A / (eps_inf + e0)] of
    the bare sample, never below [nu_j]. *)
Theorem C90_red_shift :
  forall (D : Defaults) (e0 nu nu' nu_j A eps_inf z z' : R) (e1 e1' : C) f_j nu_vac r_tip eps_tip alpha_tip (alpha : R),
  let r := given_or (d_r_tip D) r_tip in
  tip_alpha r eps_tip alpha_tip (RtoC alpha) -> 0 < e0 -> 0 < alpha -> 0 < r + z -> z < z' ->
  coupling alpha (r + z) < 1 -> 0 < eps_inf -> 0 < A -> nu ^ 2 <> nu_j ^ 2 -> nu' ^ 2 <> nu_j ^ 2 ->
  lorentz_perm nu nu_j 0 (Some A) None f_j (Some eps_inf) = Ok (Some e1) ->
  lorentz_perm nu' nu_j 0 (Some A) None f_j (Some eps_inf) = Ok (Some e1') ->
  e1 <> RtoC 0 -> (RtoC e0 + e1 <> 0)%C -> e1' <> RtoC 0 -> (RtoC e0 + e1' <> 0)%C ->
  pdm_eff_pol D (stack [RtoC e0; e1] [] nu_vac) (Some z) r_tip eps_tip alpha_tip = Ok None ->
  pdm_eff_pol D (stack [RtoC e0; e1'] [] nu_vac) (Some z') r_tip eps_tip alpha_tip = Ok None ->
  nu_j ^ 2 < nu ^ 2 /\ nu ^ 2 < nu' ^ 2 /\ nu' ^ 2 < nu_j ^ 2 + A / (eps_inf + e0).
Proof. exact C90_red_shift_proof. Qed.
Print Assumptions C90_red_shift.

(** C90. A lossless free-electron metal (drude_perm): the resonance satisfies
    [nu^2 (eps_inf (1 - f) + e0 (1 + f)) = nu_plasma^2 (1 - f)], i.e.
    [nu_plasma^2 (1 - f) / 2] in vacuum. *)
Theorem C90_pdm_plasmon :
  forall (D : Defaults) (e0 nu nu_plasma eps_inf : R) (e1 : C) nu_vac z_tip r_tip eps_tip alpha_tip (alpha : R),
  let z := given_or (d_z_tip D) z_tip in let r := given_or (d_r_tip D) r_tip in
  let f := coupling alpha (r + z) in
  tip_alpha r eps_tip alpha_tip (RtoC alpha) -> 0 < e0 -> 0 < alpha -> 0 < r + z -> f < 1 ->
  0 < eps_inf -> nu_plasma <> 0 -> nu <> 0 ->
  drude_perm nu nu_plasma 0 (Some eps_inf) = Ok (Some e1) ->
  e1 <> RtoC 0 -> (RtoC e0 + e1 <> 0)%C ->
  (pdm_eff_pol D (stack [RtoC e0; e1] [] nu_vac) z_tip r_tip eps_tip alpha_tip = Ok None
   <-> nu ^ 2 * (eps_inf * (1 - f) + e0 * (1 + f)) = nu_plasma ^ 2 * (1 - f)).
Proof. exact C90_pdm_plasmon_proof. Qed.
Print Assumptions C90_pdm_plasmon.

(** C90. The finite dipole model over a bulk sample of any complex permittivity: not
    finite exactly for the sample whose reflection is [1 / f_1]. *)
Theorem C90_fdm_pole :
  forall (laggauss : laggauss_t) (D : Defaults) (e0 : R) (e1 : C) nu z_tip r_tip L_tip g_factor d_Q0 d_Q1 d_Qa n_lag method,
  let z := given_or (d_z_tip D) z_tip in let r := given_or (d_r_tip D) r_tip in
  let L := given_or (d_L_tip D) L_tip in let g := given_or (d_g_factor D) g_factor in
  let d0 := given_or (131 / 100 * L / (L + 2 * r)) d_Q0 in let d1 := given_or (d_d_Q1 D) d_Q1 in
  let f1 := fdm_f z d1 r L g in
  fdm_regular z d0 r L -> fdm_regular z d1 r L -> f1 <> RtoC 1 -> method = None \/ method = Some "bulk"%string ->
  e1 <> RtoC 0 -> (RtoC e0 + e1 <> 0)%C ->
  (fdm_eff_pol laggauss D (stack [RtoC e0; e1] [] nu) z_tip r_tip L_tip g_factor d_Q0 d_Q1 d_Qa n_lag method = Ok None
   <-> e1 = (- RtoC e0 * (1 + f1) / (1 - f1))%C) /\
  (0 < e0 -> 0 < Im g -> r + 4 * z + 2 * r * d1 < 4 * L -> r < 4 * L -> 0 <= Im e1 ->
   exists a, fdm_eff_pol laggauss D (stack [RtoC e0; e1] [] nu) z_tip r_tip L_tip g_factor d_Q0 d_Q1 d_Qa n_lag method = Ok (Some a)).
Proof. exact C90_fdm_pole_proof. Qed.
Print Assumptions C90_fdm_pole.
