(** * Properties (generated by tools/gen_prop.py from ProofsSampling2.v; statements
    only, each proved there) *)
From Coq Require Import String Reals Lra Lia ZArith List Bool.
From Coquelicot Require Import Coquelicot.
From Coq Require Import List.
From Verif Require Import Num NumLemmas LimLemmas ModelBase ModelSample ModelTip StackLemmas Spec SpecSampling FTA
  ProofsStackQS ProofsStackQS2 ProofsBulkFF ProofsSym ProofsPassive DemodLemmas ProofsDemod ProofsTip ProofsTip2 ProofsTip3 ProofsTaylor ProofsSampling.
Import ListNotations.
Open Scope R_scope.
From Verif Require Import ProofsSampling2.

(** C79. Closed form of every point-dipole harmonic: the three cube roots p_j of
    alpha beta / (16 pi) are the heights where the response has its poles, and
    each contributes an elementary function of the w_j inside the unit circle with
    (r + z + A - p_j)/A = - (w_j + 1/w_j)/2. *)
Theorem C79_pdm_closed_form :
  forall (D : Defaults) (s : sample) (A_tip : R) (n : Z) (z_tip : option R) (n_trapz : option nat) (r_tip : option R)
    (eps_tip alpha_tip : option C) (alpha beta p1 p2 p3 w1 w2 w3 : C),
  let N := given_or (d_n_trapz D) n_trapz in let z := given_or (d_z_tip D) z_tip in let r := given_or (d_r_tip D) r_tip in
  let image := fun p : C => ((RtoC (r + z + A_tip) - p) / RtoC A_tip)%C in
  tip_alpha r eps_tip alpha_tip alpha -> refl_coef_qs s (rr 0) = Ok (Some beta) ->
  (Z.abs_nat n < N)%nat -> A_tip <> 0 -> (forall k, (k < N)%nat -> r + tip_height z A_tip N k <> 0) ->
  cube_roots (alpha * beta / RtoC (16 * PI))%C p1 p2 p3 ->
  inner_image (image p1) w1 -> inner_image (image p2) w2 -> inner_image (image p3) w3 ->
  pdm_eff_pol_n D s A_tip n z_tip n_trapz r_tip eps_tip alpha_tip
  = Ok (Some (alpha * ((if Z.eqb n 0 then 1 else 0)
       + (p1 * kernel_sampled w1 N n + p2 * kernel_sampled w2 N n + p3 * kernel_sampled w3 N n) / RtoC (3 * A_tip)))%C).
Proof. exact C79_pdm_closed_form_proof. Qed.
Print Assumptions C79_pdm_closed_form.

(** C79. The documented integral itself, in closed form: the same expression with
    the coefficients of the exact expansion. *)
Theorem C79_pdm_fourier :
  forall (A z r : R) (n : Z) (alpha beta p1 p2 p3 w1 w2 w3 : C),
  let image := fun p : C => ((RtoC (r + z + A) - p) / RtoC A)%C in
  A <> 0 -> (forall x, z + A - Rabs A <= x <= z + A + Rabs A -> r + x <> 0) ->
  cube_roots (alpha * beta / RtoC (16 * PI))%C p1 p2 p3 ->
  inner_image (image p1) w1 -> inner_image (image p2) w2 -> inner_image (image p3) w3 ->
  fourier_coefficient (fun x => alpha / (1 - alpha / RtoC (16 * PI * (r + x) ^ 3) * beta))%C (z + A) A n
  = (alpha * ((if Z.eqb n 0 then 1 else 0)
       + (p1 * kernel_harmonic w1 n + p2 * kernel_harmonic w2 n + p3 * kernel_harmonic w3 n) / RtoC (3 * A)))%C.
Proof. exact C79_pdm_fourier_proof. Qed.
Print Assumptions C79_pdm_fourier.
