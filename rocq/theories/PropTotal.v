(** * Properties (generated by tools/gen_prop.py from ProofsTotal.v; statements
    only, each proved there) *)
From Coq Require Import String Reals Lra Lia ZArith List Bool Permutation.
From Coquelicot Require Import Coquelicot.
From Coq Require Import List.
From Verif Require Import Num NumLemmas ModelBase ModelSample ModelTip StackLemmas Spec SpecSampling DemodLemmas ProofsTip ProofsTip3 ProofsTip5
  SpecRound ModelRound ModelRound2 RoundLemmas RoundLemmas2 ProofsPassive ProofsRounding ProofsRounding2 ProofsRounding3 ProofsSampling3.
Import ListNotations.
Open Scope R_scope.
From Verif Require Import ProofsTotal.

(** C98. The default point-dipole signal as computed: on any machine of relative precision u, adding in any order, with a
    perfectly conducting tip of any radius and the default 32 samples, pdm.eff_pol_n is within
    (10^-7 + 1310 u + delta) alpha_tip of the documented integral, where delta is the error of the computed reflection
    coefficient. *)
Theorem C98_pdm_total : forall u (m : machine) (s : sample) (beta b : C) (delta A_tip z : R) (n : Z) (r_tip : option R),
  let r := given_or (20 / 10 ^ 9) r_tip in let alpha := RtoC (4 * PI * r ^ 3) in
  rounding u m -> 0 <= u <= / 10 ^ 4 ->
  refl_coef_qs s (rr 0) = Ok (Some beta) -> k_refl_coef_qs m s 0 = Ok b -> Cmod (b - beta)%C <= delta -> delta <= 1 / 100 ->
  Cmod beta <= 101 / 100 -> (Z.abs n <= 4)%Z -> 0 < r -> 0 <= z -> 0 < A_tip <= 3 / 2 * r ->
  exists w : C, k_pdm_eff_pol_n m defaults0 s A_tip n (Some z) None r_tip None None = Ok w /\
    Cmod (w - fourier_coefficient (fun x => alpha / (1 - alpha / RtoC (16 * PI * (r + x) ^ 3) * beta))%C (z + A_tip) A_tip n)%C
    <= (/ 10 ^ 7 + 1310 * u + delta) * (4 * PI * r ^ 3).
Proof. exact C98_pdm_total_proof. Qed.
Print Assumptions C98_pdm_total.

(** C98. Over a bulk sample the reflection coefficient is itself computed from the two permittivities: total error
    (10^-7 + 1630 u kappa^2) alpha_tip, kappa = (|e0| + |e1|) / |e0 + e1|. *)
Theorem C98_pdm_bulk : forall u (m : machine) (e0 e1 : C) nu (A_tip z : R) (n : Z) (r_tip : option R),
  let beta := ((e1 - e0) / (e1 + e0))%C in let kappa := ((Cmod e0 + Cmod e1) / Cmod (e0 + e1)%C)%R in
  let r := given_or (20 / 10 ^ 9) r_tip in let alpha := RtoC (4 * PI * r ^ 3) in
  rounding u m -> 0 <= u -> 40000 * u * kappa ^ 2 <= 1 -> e1 <> RtoC 0 -> (e0 + e1 <> 0)%C ->
  Cmod beta <= 101 / 100 -> (Z.abs n <= 4)%Z -> 0 < r -> 0 <= z -> 0 < A_tip <= 3 / 2 * r ->
  exists w : C, k_pdm_eff_pol_n m defaults0 (stack [e0; e1] [] nu) A_tip n (Some z) None r_tip None None = Ok w /\
    Cmod (w - fourier_coefficient (fun x => alpha / (1 - alpha / RtoC (16 * PI * (r + x) ^ 3) * beta))%C (z + A_tip) A_tip n)%C
    <= (/ 10 ^ 7 + 1630 * u * kappa ^ 2) * (4 * PI * r ^ 3).
Proof. exact C98_pdm_bulk_proof. Qed.
Print Assumptions C98_pdm_bulk.

(** C98. In double precision (u = 2^-53, a correctly rounding machine), permittivities away from resonance (kappa at most
    100): 1.02 10^-7 alpha_tip, all but two percent of it the sampling error. *)
Theorem C98_pdm_double : forall (m : machine) (e0 e1 : C) nu (A_tip z : R) (n : Z) (r_tip : option R),
  let beta := ((e1 - e0) / (e1 + e0))%C in
  let r := given_or (20 / 10 ^ 9) r_tip in let alpha := RtoC (4 * PI * r ^ 3) in
  rounding (/ 2 ^ 53) m -> e1 <> RtoC 0 -> (e0 + e1 <> 0)%C -> Cmod e0 + Cmod e1 <= 100 * Cmod (e0 + e1)%C ->
  Cmod beta <= 101 / 100 -> (Z.abs n <= 4)%Z -> 0 < r -> 0 <= z -> 0 < A_tip <= 3 / 2 * r ->
  exists w : C, k_pdm_eff_pol_n m defaults0 (stack [e0; e1] [] nu) A_tip n (Some z) None r_tip None None = Ok w /\
    Cmod (w - fourier_coefficient (fun x => alpha / (1 - alpha / RtoC (16 * PI * (r + x) ^ 3) * beta))%C (z + A_tip) A_tip n)%C
    <= 102 / 100 * / 10 ^ 7 * (4 * PI * r ^ 3).
Proof. exact C98_pdm_double_proof. Qed.
Print Assumptions C98_pdm_double.
