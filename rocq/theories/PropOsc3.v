(** * Properties (generated by tools/gen_prop.py from ProofsOsc3.v; statements
    only, each proved there) *)
From Coq Require Import String Reals Lra Lia ZArith List Bool.
From Coquelicot Require Import Coquelicot.
From Coq Require Import List.
From Verif Require Import Num NumLemmas ModelBase ModelSample ModelTip StackLemmas Spec SpecReson SpecQuad DemodLemmas
  ProofsStackQS ProofsStackQS2 ProofsSym ProofsPassive ProofsTip ProofsTip2 ProofsTip3 ProofsPerm ProofsDemod ProofsTaylor ProofsAbsorb ProofsReson ProofsReson2 ProofsConsist3 ProofsOsc ProofsOsc2.
Import ListNotations.
Open Scope R_scope.
From Verif Require Import ProofsOsc3.

(** C104. The width of a line: nu Im of an oscillator exceeds half its maximum exactly between sqrt(nu_c^2 + gamma^2/4) - gamma/2 and
    sqrt(nu_c^2 + gamma^2/4) + gamma/2: its full width at half maximum is the damping, exactly. The line of a phonon seen through a point dipole tip
    at any height has the same width, around nu_t. *)
Theorem C104_width :
  (forall nu nu_c gamma A eps (v : C), 0 < gamma -> 0 < A -> 0 < nu ->
     lorentz_perm nu nu_c gamma (Some A) None None (Some eps) = Ok (Some v) ->
     (A / gamma / 2 <= nu * Im v <-> sqrt (nu_c ^ 2 + gamma ^ 2 / 4) - gamma / 2 <= nu <= sqrt (nu_c ^ 2 + gamma ^ 2 / 4) + gamma / 2)) /\
  (forall (D : Defaults) (e0 nu nu_j gamma A eps_inf : R) (e1 a : C) nu_vac z_tip r_tip eps_tip alpha_tip (alpha peak : R),
     let z := given_or (d_z_tip D) z_tip in let r := given_or (d_r_tip D) r_tip in
     let f := coupling alpha (r + z) in let nu_t2 := resonant_nu2 nu_j A eps_inf e0 f in
     tip_alpha r eps_tip alpha_tip (RtoC alpha) -> 0 < e0 -> 0 < alpha -> 0 < r + z -> f < 1 -> 0 < eps_inf -> 0 < gamma -> 0 < A -> 0 < nu ->
     peak = 2 * alpha * f * e0 * A / ((1 - f) * eps_inf + (1 + f) * e0) ^ 2 / gamma ->
     lorentz_perm nu nu_j gamma (Some A) None None (Some eps_inf) = Ok (Some e1) ->
     pdm_eff_pol D (stack [RtoC e0; e1] [] nu_vac) z_tip r_tip eps_tip alpha_tip = Ok (Some a) ->
     nu * Im a <= peak /\ (peak / 2 <= nu * Im a <-> sqrt (nu_t2 + gamma ^ 2 / 4) - gamma / 2 <= nu <= sqrt (nu_t2 + gamma ^ 2 / 4) + gamma / 2)).
Proof. exact C104_width_proof. Qed.
Print Assumptions C104_width.

(** C104. The static sum rule (a Kramers-Kronig relation at zero frequency): the area under Im/nu is pi/2 times the difference between the static value
    and the value far above the resonance: for the permittivity, for the reflection coefficient and for the polarizability of tip and sample at any height. *)
Theorem C104_static :
  forall (D : Defaults) (e0 nu_j gamma A eps_inf : R) (eps : R -> C) (es : C) nu_vac q z_tip r_tip eps_tip alpha_tip (alpha : R) (u v w : R -> R),
  let z := given_or (d_z_tip D) z_tip in let r := given_or (d_r_tip D) r_tip in
  0 < e0 -> 0 < eps_inf -> 0 < gamma -> 0 < A -> 0 < nu_j ->
  (forall nu, 0 < nu -> lorentz_perm nu nu_j gamma (Some A) None None (Some eps_inf) = Ok (Some (eps nu))) ->
  lorentz_perm 0 nu_j gamma (Some A) None None (Some eps_inf) = Ok (Some es) ->
  ((forall nu, 0 < nu -> u nu = Im (eps nu) / nu) -> integral_to_infinity u (PI / 2 * (Re es - eps_inf))) /\
  (forall b0 b1, (forall nu, 0 < nu -> exists b, refl_coef_qs (stack [RtoC e0; eps nu] [] nu_vac) (rr q) = Ok (Some b) /\ v nu = Im b / nu) ->
   refl_coef_qs (stack [RtoC e0; es] [] nu_vac) (rr q) = Ok (Some b0) -> refl_coef_qs (stack [RtoC e0; RtoC eps_inf] [] nu_vac) (rr q) = Ok (Some b1) ->
   integral_to_infinity v (PI / 2 * (Re b0 - Re b1))) /\
  (forall a0 a1, tip_alpha r eps_tip alpha_tip (RtoC alpha) -> 0 < alpha -> 0 < r + z -> coupling alpha (r + z) < 1 ->
   (forall nu, 0 < nu -> exists a, pdm_eff_pol D (stack [RtoC e0; eps nu] [] nu_vac) z_tip r_tip eps_tip alpha_tip = Ok (Some a) /\ w nu = Im a / nu) ->
   pdm_eff_pol D (stack [RtoC e0; es] [] nu_vac) z_tip r_tip eps_tip alpha_tip = Ok (Some a0) ->
   pdm_eff_pol D (stack [RtoC e0; RtoC eps_inf] [] nu_vac) z_tip r_tip eps_tip alpha_tip = Ok (Some a1) ->
   integral_to_infinity w (PI / 2 * (Re a0 - Re a1))).
Proof. exact C104_static_proof. Qed.
Print Assumptions C104_static.

(** C104: an oscillator with nu_c^2 = 2 and damping 1 has its half maxima exactly at 1 and 2 (value 1/2 at both); and the phonon 2 + 6/(1 - nu^2 - i nu) has
    static permittivity 8, so that the area under Im eps/nu is 3 pi and the one under Im beta/nu is 2 pi/9. *)
Example C104_example :
  lorentz_perm 1 (sqrt 2) 1 (Some 1) None None (Some 1) = Ok (Some (3 / 2, 1 / 2)) /\
  lorentz_perm 2 (sqrt 2) 1 (Some 1) None None (Some 1) = Ok (Some (3 / 4, 1 / 4)) /\
  sqrt (sqrt 2 ^ 2 + 1 ^ 2 / 4) - 1 / 2 = 1 /\ sqrt (sqrt 2 ^ 2 + 1 ^ 2 / 4) + 1 / 2 = 2 /\
  lorentz_perm 0 1 1 (Some 6) None None (Some 2) = Ok (Some (RtoC 8)) /\
  (exists (eps : R -> C) (u v : R -> R), (forall nu, 0 < nu -> lorentz_perm nu 1 1 (Some 6) None None (Some 2) = Ok (Some (eps nu)) /\ u nu = Im (eps nu) / nu /\
     exists b, refl_coef_qs (stack [RtoC 1; eps nu] [] None) (rr 0) = Ok (Some b) /\ v nu = Im b / nu) /\
   integral_to_infinity u (3 * PI) /\ integral_to_infinity v (2 * PI / 9)).
Proof. exact C104_example_proof. Qed.
