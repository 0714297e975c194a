(** * Properties (generated by tools/gen_prop.py from ProofsSampling3.v; statements
    only, each proved there) *)
From Coq Require Import String Reals Lra Lia ZArith List Bool.
From Coquelicot Require Import Coquelicot.
From Coq Require Import List.
From Verif Require Import Num NumLemmas LimLemmas ModelBase ModelSample ModelTip StackLemmas Spec SpecSampling FTA
  ProofsStackQS ProofsStackQS2 ProofsBulkFF ProofsSym ProofsPassive DemodLemmas ProofsDemod ProofsTip ProofsTip2 ProofsTip3 ProofsTaylor
  ProofsSampling ProofsSampling2.
Import ListNotations.
Open Scope R_scope.
From Verif Require Import ProofsSampling3.

(** C79. Sampling error of pdm.eff_pol_n: geometric in the number of samples, with
    ratio |w_j| for each of the three poles. *)
Theorem C79_pdm_error :
  forall (D : Defaults) (s : sample) (A_tip : R) (n : Z) (z_tip : option R) (n_trapz : option nat) (r_tip : option R)
    (eps_tip alpha_tip : option C) (alpha beta p1 p2 p3 w1 w2 w3 : C),
  let N := given_or (d_n_trapz D) n_trapz in let z := given_or (d_z_tip D) z_tip in let r := given_or (d_r_tip D) r_tip in
  let image := fun p : C => ((RtoC (r + z + A_tip) - p) / RtoC A_tip)%C in
  let term := fun p w : C => Cmod (p / RtoC (3 * A_tip))%C * Cmod (2 * w / (1 - w * w))%C
                * (2 * Cmod w ^ (N - Z.abs_nat n) / (1 - Cmod w ^ N)) in
  tip_alpha r eps_tip alpha_tip alpha -> refl_coef_qs s (rr 0) = Ok (Some beta) ->
  (Z.abs_nat n < N)%nat -> A_tip <> 0 ->
  (forall x, z + A_tip - Rabs A_tip <= x <= z + A_tip + Rabs A_tip -> r + x <> 0) ->
  cube_roots (alpha * beta / RtoC (16 * PI))%C p1 p2 p3 ->
  inner_image (image p1) w1 -> inner_image (image p2) w2 -> inner_image (image p3) w3 ->
  exists v : C, pdm_eff_pol_n D s A_tip n z_tip n_trapz r_tip eps_tip alpha_tip = Ok (Some v) /\
    Cmod (v - fourier_coefficient (fun x => alpha / (1 - alpha / RtoC (16 * PI * (r + x) ^ 3) * beta))%C (z + A_tip) A_tip n)%C
    <= Cmod alpha * (term p1 w1 + term p2 w2 + term p3 w3).
Proof. exact C79_pdm_error_proof. Qed.
Print Assumptions C79_pdm_error.

(** C79. Cube roots exist for every kappa, and a circle coordinate w for every
    pole that is not swept by the tip. *)
Theorem C79_poles_exist : (forall kappa : C, exists p1 p2 p3, cube_roots kappa p1 p2 p3) /\
  (forall a : C, (forall c, -1 <= c <= 1 -> a <> RtoC c) -> exists w, inner_image a w).
Proof. exact C79_poles_exist_proof. Qed.
Print Assumptions C79_poles_exist.

(** C79. With a conducting tip and the default 32 samples, harmonics |n| <= 4 of
    pdm.eff_pol_n are within 10^-7 alpha_tip of the documented integrals for every
    sample with |beta| <= 1.01, every height and amplitudes up to 1.5 tip radii. *)
Theorem C79_pdm_default : forall (s : sample) (beta : C) (A_tip z : R) (n : Z) (r_tip : option R),
  let r := given_or (20 / 10 ^ 9) r_tip in let alpha := RtoC (4 * PI * r ^ 3) in
  refl_coef_qs s (rr 0) = Ok (Some beta) -> Cmod beta <= 101 / 100 -> (Z.abs n <= 4)%Z ->
  0 < r -> 0 <= z -> 0 < A_tip <= 3 / 2 * r ->
  exists v : C, pdm_eff_pol_n defaults0 s A_tip n (Some z) None r_tip None None = Ok (Some v) /\
    Cmod (v - fourier_coefficient (fun x => alpha / (1 - alpha / RtoC (16 * PI * (r + x) ^ 3) * beta))%C (z + A_tip) A_tip n)%C
    <= / 10 ^ 7 * (4 * PI * r ^ 3).
Proof. exact C79_pdm_default_proof. Qed.
Print Assumptions C79_pdm_default.

(** C79. Example: the poles and circle coordinates of a concrete tip, and a default
    call (silicon-like permittivity 12 + i, 30 nm amplitude, tip in contact). *)
Example C79_example : cube_roots (RtoC 8) (RtoC 2) (- (1), sqrt 3)%R (- (1), - sqrt 3)%R /\
  inner_image (RtoC (- (5 / 4))) (RtoC (1 / 2)) /\
  exists v : C, pdm_eff_pol_n defaults0 (stack [RtoC 1; (12, 1)] [] None) (30 / 10 ^ 9) 2 (Some 0) None None None None = Ok (Some v) /\
    let r := 20 / 10 ^ 9 in let alpha := RtoC (4 * PI * r ^ 3) in let beta := (((12, 1)%R - RtoC 1) / ((12, 1)%R + RtoC 1))%C in
    Cmod (v - fourier_coefficient (fun x => alpha / (1 - alpha / RtoC (16 * PI * (r + x) ^ 3) * beta))%C (0 + 30 / 10 ^ 9) (30 / 10 ^ 9) 2)%C
    <= / 10 ^ 7 * (4 * PI * r ^ 3).
Proof. exact C79_example_proof. Qed.
