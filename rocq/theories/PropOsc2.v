(** * Properties (generated by tools/gen_prop.py from ProofsOsc2.v; statements
    only, each proved there) *)
From Coq Require Import String Reals Lra Lia ZArith List Bool.
From Coquelicot Require Import Coquelicot.
From Coq Require Import List.
From Verif Require Import Num NumLemmas ModelBase ModelSample ModelTip StackLemmas Spec SpecReson SpecQuad DemodLemmas
  ProofsStackQS ProofsStackQS2 ProofsSym ProofsPassive ProofsTip ProofsTip2 ProofsTip3 ProofsPerm ProofsDemod ProofsTaylor ProofsAbsorb ProofsReson ProofsReson2 ProofsConsist3 ProofsOsc.
Import ListNotations.
Open Scope R_scope.
From Verif Require Import ProofsOsc2.

(** C102. Where the absorption peaks: nu Im of the response is largest, and equal to its strength over its damping, exactly at the centre.
    With a tip at any height this is nu_t: above the phonon, below the surface mode, and the lower the closer the tip. *)
Theorem C102_peak :
  (forall nu nu_c gamma A eps (v : C), 0 < gamma -> 0 < A -> 0 < nu -> 0 <= nu_c ->
     lorentz_perm nu nu_c gamma (Some A) None None (Some eps) = Ok (Some v) ->
     nu * Im v <= A / gamma /\ (nu * Im v = A / gamma <-> nu = nu_c)) /\
  (forall nu_j A eps_inf e0 alpha h, 0 <= nu_j -> 0 < A -> 0 < eps_inf -> 0 < e0 -> 0 < alpha -> 0 < h -> coupling alpha h < 1 ->
     nu_j < sqrt (resonant_nu2 nu_j A eps_inf e0 (coupling alpha h)) < sqrt (nu_j ^ 2 + A / (eps_inf + e0)) /\
     (forall h', h < h' -> sqrt (resonant_nu2 nu_j A eps_inf e0 (coupling alpha h)) < sqrt (resonant_nu2 nu_j A eps_inf e0 (coupling alpha h')))).
Proof. exact C102_peak_proof. Qed.
Print Assumptions C102_peak.

(** C102. The sum rules. The area under nu Im eps is pi/2 times the strength of the oscillator, whatever its frequency, damping and background. *)
Theorem C102_sum_rule :
  (forall nu_j gamma A eps_inf (w : R -> R), 0 < gamma ->
     (forall nu, 0 < nu -> exists v, lorentz_perm nu nu_j gamma (Some A) None None (Some eps_inf) = Ok (Some v) /\ w nu = nu * Im v) ->
     integral_to_infinity w (PI / 2 * A)) /\
  (forall nu_plasma gamma eps_inf (w : R -> R), 0 < gamma ->
     (forall nu, 0 < nu -> exists v, drude_perm nu nu_plasma gamma eps_inf = Ok (Some v) /\ w nu = nu * Im v) ->
     integral_to_infinity w (PI / 2 * nu_plasma ^ 2)).
Proof. exact C102_sum_rule_proof. Qed.
Print Assumptions C102_sum_rule.

(** C102. The area under nu Im of the reflection coefficient, and under nu Im of the polarizability of tip and sample at any height: independent of
    the damping and of the frequency of the sample's oscillator. *)
Theorem C102_near_field_area :
  forall (D : Defaults) (e0 nu_j gamma A eps_inf : R) (eps : R -> C) nu_vac q z_tip r_tip eps_tip alpha_tip (alpha : R) (v w : R -> R),
  let z := given_or (d_z_tip D) z_tip in let r := given_or (d_r_tip D) r_tip in
  let f := coupling alpha (r + z) in
  0 < e0 -> 0 < eps_inf -> 0 < gamma -> 0 < A ->
  (forall nu, 0 < nu -> lorentz_perm nu nu_j gamma (Some A) None None (Some eps_inf) = Ok (Some (eps nu))) ->
  ((forall nu, 0 < nu -> exists b, refl_coef_qs (stack [RtoC e0; eps nu] [] nu_vac) (rr q) = Ok (Some b) /\ v nu = nu * Im b) ->
   integral_to_infinity v (PI * e0 * A / (eps_inf + e0) ^ 2)) /\
  (tip_alpha r eps_tip alpha_tip (RtoC alpha) -> 0 < alpha -> 0 < r + z -> f < 1 ->
   (forall nu, 0 < nu -> exists a, pdm_eff_pol D (stack [RtoC e0; eps nu] [] nu_vac) z_tip r_tip eps_tip alpha_tip = Ok (Some a) /\ w nu = nu * Im a) ->
   integral_to_infinity w (PI * alpha * f * e0 * A / ((1 - f) * eps_inf + (1 + f) * e0) ^ 2)).
Proof. exact C102_near_field_area_proof. Qed.
Print Assumptions C102_near_field_area.

(** C102: nu_j = 1, gamma = 1, A = 6, eps_inf = 2 in vacuum, with the default conducting tip in contact (f = 1/4): at nu = 1 eps = 2 + 6i; the surface mode is at
    sqrt 3, where beta = 1/3 + (4/3) i / sqrt 3; the area under nu Im beta is 2 pi / 3; and the oscillator of tip and sample is at nu^2 = 1 + 18/11. *)
Example C102_example :
  lorentz_perm 1 1 1 (Some 6) None None (Some 2) = Ok (Some (2, 6)) /\
  refl_coef_qs (stack [RtoC 1; (2, 6)] [] None) (rr 0) = lorentz_perm 1 (sqrt 3) 1 (Some (4 / 3)) None None (Some (1 / 3)) /\
  pdm_eff_pol defaults0 (stack [RtoC 1; (2, 6)] [] None) (Some 0) None None None
  = lorentz_perm 1 (sqrt (29 / 11)) 1 (Some (4 * PI * d_r_tip defaults0 ^ 3 * (48 / 121))) None None (Some (4 * PI * d_r_tip defaults0 ^ 3 * (12 / 11))) /\
  coupling (4 * PI * d_r_tip defaults0 ^ 3) (d_r_tip defaults0 + 0) = 1 / 4.
Proof. exact C102_example_proof. Qed.

(** C102: the same sample under a finite dipole tip with f_0 = f_1 = 1/2: the centre 3 of the surface mode moves by p = 4/5, to 11/5. *)
Example C102_fdm_example :
  forall lg D, fdm_regular 0 (1 / 2) 1 1 /\ fdm_f 0 (1 / 2) 1 1 (RtoC (7 / 4)) = RtoC (1 / 2) /\
  fdm_eff_pol lg D (stack [RtoC 1; (2, 6)] [] None) (Some 0) (Some 1) (Some 1) (Some (RtoC (7 / 4))) (Some (1 / 2)) (Some (1 / 2)) None None None
  = lorentz_perm 1 (sqrt (11 / 5)) 1 (Some (12 / 25)) None None (Some (11 / 10)).
Proof. exact C102_fdm_example_proof. Qed.
