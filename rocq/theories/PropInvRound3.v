(** * Properties (generated by tools/gen_prop.py from ProofsInvRound3.v; statements
    only, each proved there) *)
From Coq Require Import String Reals Lra Lia ZArith List Bool Permutation.
From Coquelicot Require Import Coquelicot.
From Coq Require Import List.
From Verif Require Import Num NumLemmas ModelBase ModelSample ModelTip StackLemmas Spec SpecSampling DemodLemmas ProofsTip ProofsTip2 ProofsTip3 ProofsTip5
  SpecRound SpecSolver ModelRound ModelRound2 ModelRoundInv RoundLemmas RoundLemmas2 ProofsPassive ProofsTaylor ProofsDefault ProofsRounding ProofsRounding2 ProofsRounding3
  ProofsSampling3 ProofsSampling5 ProofsTotal ProofsTotal2 ProofsTotal3 ProofsTotal4 ProofsInvRound ProofsInvRound2 ProofsConsist2.
Import ListNotations.
Open Scope R_scope.
From Verif Require Import ProofsInvRound3.

(** C100. What the rejections guarantee after rounding (any tip, any settings, both models): an unmasked root obeys the threshold up to
    2u, and its exact permittivity eps has Im eps >= -20 u |eps| if negative imaginary parts are rejected, and |eps| >= 1 - 22 u if
    permittivities below one are rejected. *)
Theorem C100_rejections : forall u (m : machine) (thr : R) (ri ra : bool) (env b : C),
  rounding u m -> 0 <= u <= / 10 ^ 4 -> k_valid m thr ri ra env b = true ->
  Cmod b <= thr * (1 + 2 * u) /\
  (b <> RtoC 1 -> let eps := (env * (1 + b) / (1 - b))%C in
    (ri = true -> - (20 * u * Cmod eps) <= Im eps) /\ (ra = true -> 1 - 22 * u <= Cmod eps)).
Proof. exact C100_rejections_proof. Qed.
Print Assumptions C100_rejections.

(** C100. fdm.refl_coef_qs_from_eff_pol_n with the default tip and settings, on any machine of relative precision u, with any
    polynomial solver of backward error eta: every unmasked root b satisfies |b| <= 1.01 (1 + 2u), and a sample whose reflection
    coefficient beta is within delta of b has the documented signal alpha_eff_n up to 1.2 10^-4 + 3600 u + 25 eta + 2 delta. *)
Theorem C100_fdm_inverse : forall u eta (m : machine) roots (alpha : C) (A_tip z : R) (n : Z) ri ra env,
  rounding u m -> 0 <= u <= / 10 ^ 6 -> backward_stable eta roots -> 0 <= eta <= / 10 ^ 3 -> (Z.abs n <= 4)%Z ->
  0 <= z -> 0 < A_tip <= 30 / 10 ^ 9 -> z + 2 * A_tip <= 280 / 10 ^ 9 ->
  exists bs, k_fdm_refl_coef_qs_from_eff_pol_n m roots defaults0 alpha A_tip n (Some z) None None None None None None None None ri ra env = Ok bs /\
    forall b, In b bs -> Cmod b <= 101 / 100 * (1 + 2 * u) /\
      forall beta delta, Cmod (b - beta)%C <= delta -> delta <= / 10 ^ 4 -> Cmod beta <= 101 / 100 -> beta <> RtoC (-1) ->
        Cmod (fdm_signal beta z A_tip n - alpha)%C <= 12 / 10 ^ 5 + 3600 * u + 25 * eta + 2 * delta.
Proof. exact C100_fdm_inverse_proof. Qed.
Print Assumptions C100_fdm_inverse.

(** C100. pdm.refl_coef_qs_from_eff_pol_n likewise, with the value given in units of the polarizability of the sphere (what
    pdm.eff_pol_n_taylor returns): any tip radius, (1.004 10^-7 + 1420 u + 13 eta + delta) 4 pi r^3. *)
Theorem C100_pdm_inverse : forall u eta (m : machine) roots (alpha : C) (A_tip z : R) (n : Z) (r_tip : option R) ri ra env,
  let r := given_or (20 / 10 ^ 9) r_tip in
  rounding u m -> 0 <= u <= / 10 ^ 6 -> backward_stable eta roots -> 0 <= eta <= / 10 ^ 3 -> (Z.abs n <= 4)%Z ->
  0 < r -> 0 <= z -> 0 < A_tip <= 3 / 2 * r ->
  exists bs, k_pdm_refl_coef_qs_from_eff_pol_n m roots defaults0 alpha A_tip n (Some z) r_tip None None None None None ri ra env = Ok bs /\
    forall b, In b bs -> Cmod b <= 101 / 100 * (1 + 2 * u) /\
      forall beta delta, Cmod (b - beta)%C <= delta -> delta <= / 10 ^ 4 -> Cmod beta <= 101 / 100 -> beta <> RtoC (-1) ->
        Cmod (pdm_signal r beta z A_tip n - RtoC (4 * PI * r ^ 3) * alpha)%C
        <= (/ 10 ^ 7 + 4 / 10 ^ 10 + 1420 * u + 13 * eta + delta) * (4 * PI * r ^ 3).
Proof. exact C100_pdm_inverse_proof. Qed.
Print Assumptions C100_pdm_inverse.

(** C100. Forward and back in double precision: the signal of a bulk sample computed by fdm.eff_pol_n and inverted by
    fdm.refl_coef_qs_from_eff_pol_n; every unmasked root with |b| <= 1.01, b <> -1, has the documented signal of the sample to
    1.41 10^-4 (backward error of the solver at most 10^-9). *)
Theorem C100_round_trip : forall (m : machine) (laggauss : laggauss_t) roots (e0 e1 : C) nu (A_tip z : R) (n : Z) d_Qa n_lag ri ra env,
  let beta := ((e1 - e0) / (e1 + e0))%C in
  rounding (/ 2 ^ 53) m -> backward_stable (/ 10 ^ 9) roots ->
  e1 <> RtoC 0 -> (e0 + e1 <> 0)%C -> Cmod e0 + Cmod e1 <= 100 * Cmod (e0 + e1)%C -> Cmod beta <= 101 / 100 -> (Z.abs n <= 4)%Z ->
  0 <= z -> 0 < A_tip <= 30 / 10 ^ 9 -> z + 2 * A_tip <= 280 / 10 ^ 9 ->
  exists alpha bs,
    k_fdm_eff_pol_n m laggauss defaults0 (stack [e0; e1] [] nu) A_tip n (Some z) None None None None None None d_Qa n_lag None = Ok alpha /\
    k_fdm_refl_coef_qs_from_eff_pol_n m roots defaults0 alpha A_tip n (Some z) None None None None None None None None ri ra env = Ok bs /\
    forall b, In b bs -> Cmod b <= 101 / 100 -> b <> RtoC (-1) ->
      Cmod (fdm_signal b z A_tip n - fdm_signal beta z A_tip n)%C <= 141 / 10 ^ 6.
Proof. exact C100_round_trip_proof. Qed.
Print Assumptions C100_round_trip.

(** C100, a case: exact arithmetic, a solver that tries 1/2, amplitude 30 nm, all rejections on: some value of alpha_eff_n is
    inverted to 1/2, and the signal of 1/2 is that value to 1.2 10^-4. *)
Example C100_example :
  exists alpha bs, rounding 0 (exact_but_m 0) /\ backward_stable 0 tries_half /\
    k_fdm_refl_coef_qs_from_eff_pol_n (exact_but_m 0) tries_half defaults0 alpha (30 / 10 ^ 9) 2 (Some 0) None None None None None None None None true true None = Ok bs /\
    In (RtoC (1 / 2)) bs /\ Cmod (fdm_signal (RtoC (1 / 2)) 0 (30 / 10 ^ 9) 2 - alpha)%C <= 12 / 10 ^ 5.
Proof. exact C100_example_proof. Qed.
