(** * Properties (generated by tools/gen_prop.py from ProofsSmall2.v; statements
    only, each proved there) *)
From Coq Require Import String Reals Lra Lia ZArith List Bool.
From Coquelicot Require Import Coquelicot.
From Coq Require Import List.
From Verif Require Import Num NumLemmas ModelBase ModelSample ModelTip StackLemmas Spec SpecTap
  ProofsStackQS ProofsPassive DemodLemmas ProofsDemod ProofsTip ProofsTip2 ProofsTip3 ProofsTaylor LimLemmas ProofsAbsorb ProofsSmall.
Import ListNotations.
Open Scope R_scope.
From Verif Require Import ProofsSmall2.

(** C64. The coefficients of an expansion are determined by the function. *)
Theorem C64_expansion_unique :
  forall (f : R -> C) (z : R) (n : nat) (c c' : nat -> C),
  expands f z n c -> expands f z n c' -> forall m, (m <= n)%nat -> c m = c' m.
Proof. exact C64_expansion_unique_proof. Qed.
Print Assumptions C64_expansion_unique.

(** C64. Finite-dipole model of a bulk sample: for small tapping amplitudes the
    n-th harmonic is A^|n| times the |n|-th Taylor coefficient of the effective
    polarizability at the lowest tip position, over 2^|n|. *)
Theorem C64_fdm_bulk :
  forall (laggauss : laggauss_t) (D : Defaults) (s : sample) (n : Z)
    (z_tip r_tip L_tip : option R) (g_factor : option C) (d_Q0 d_Q1 d_Qa : option R) (n_lag n_trapz : option nat)
    (method : option string) (beta : C),
  let z := given_or (d_z_tip D) z_tip in let r := given_or (d_r_tip D) r_tip in
  let L := given_or (d_L_tip D) L_tip in
  let d0 := given_or (131 / 100 * L / (L + 2 * r)) d_Q0 in
  let d1 := given_or (d_d_Q1 D) d_Q1 in
  let g := given_or (d_g_factor D) g_factor in
  let N := given_or (d_n_trapz D) n_trapz in let a := Z.abs_nat n in
  multilayer s = false -> refl_coef_qs s (rr 0) = Ok (Some beta) ->
  method = None \/ method = Some "bulk"%string ->
  fdm_regular z d0 r L -> fdm_regular z d1 r L -> (1 - beta * fdm_f z d1 r L g <> 0)%C ->
  (2 * a < N)%nat ->
  exists c, expands (fun x => 1 + beta * fdm_f x d0 r L g / (2 * (1 - beta * fdm_f x d1 r L g)))%C z a c /\
  forall eps, 0 < eps -> exists delta, 0 < delta /\ forall A, 0 < A < delta ->
  exists v, fdm_eff_pol_n laggauss D s A n z_tip n_trapz r_tip L_tip g_factor d_Q0 d_Q1 d_Qa n_lag method = Ok (Some v) /\
    Cmod (v / RtoC (A ^ a) - c a / RtoC (2 ^ a))%C <= eps.
Proof. exact C64_fdm_bulk_proof. Qed.
Print Assumptions C64_fdm_bulk.

(** C64. Point-dipole model: the same. *)
Theorem C64_pdm :
  forall (D : Defaults) (s : sample) (n : Z) (z_tip r_tip : option R) (eps_tip alpha_tip : option C) (n_trapz : option nat) (alpha beta : C),
  let z := given_or (d_z_tip D) z_tip in let r := given_or (d_r_tip D) r_tip in
  let N := given_or (d_n_trapz D) n_trapz in let a := Z.abs_nat n in
  refl_coef_qs s (rr 0) = Ok (Some beta) -> tip_alpha r eps_tip alpha_tip alpha ->
  0 < r + z -> (1 - alpha / RtoC (16 * PI * (r + z) ^ 3) * beta <> 0)%C ->
  (2 * a < N)%nat ->
  exists c, expands (fun x => alpha / (1 - alpha / RtoC (16 * PI * (r + x) ^ 3) * beta))%C z a c /\
  forall eps, 0 < eps -> exists delta, 0 < delta /\ forall A, 0 < A < delta ->
  exists v, pdm_eff_pol_n D s A n z_tip n_trapz r_tip eps_tip alpha_tip = Ok (Some v) /\
    Cmod (v / RtoC (A ^ a) - c a / RtoC (2 ^ a))%C <= eps.
Proof. exact C64_pdm_proof. Qed.
Print Assumptions C64_pdm.

(** C64. First harmonic of the point-dipole model, explicitly: half the
    amplitude times the height derivative of the effective polarizability. *)
Theorem C64_pdm_first_harmonic :
  forall (D : Defaults) (s : sample) (z_tip r_tip : option R) (eps_tip alpha_tip : option C) (n_trapz : option nat) (alpha beta : C),
  let z := given_or (d_z_tip D) z_tip in let r := given_or (d_r_tip D) r_tip in
  let f := (alpha / RtoC (16 * PI * (r + z) ^ 3))%C in
  refl_coef_qs s (rr 0) = Ok (Some beta) -> tip_alpha r eps_tip alpha_tip alpha ->
  0 < r + z -> (1 - f * beta <> 0)%C ->
  (2 < given_or (d_n_trapz D) n_trapz)%nat ->
  forall eps, 0 < eps -> exists delta, 0 < delta /\ forall A, 0 < A < delta ->
  exists v, pdm_eff_pol_n D s A 1 z_tip n_trapz r_tip eps_tip alpha_tip = Ok (Some v) /\
    Cmod (v / RtoC A - (- (RtoC (3 / 2) * alpha * f * beta / (RtoC (r + z) * ((1 - f * beta) * (1 - f * beta))))))%C <= eps.
Proof. exact C64_pdm_first_harmonic_proof. Qed.
Print Assumptions C64_pdm_first_harmonic.
