(** * Properties (generated by tools/gen_prop.py from ProofsTaylor.v; statements
    only, each proved there) *)
From Coq Require Import String Reals Lra Lia ZArith List Bool.
From Coquelicot Require Import Rcomplements Complex.
From Verif Require Import Num NumLemmas LimLemmas ModelBase ModelSample ModelTip StackLemmas Spec
  ProofsStackQS ProofsStackQS2 ProofsBulkFF ProofsSym ProofsPassive DemodLemmas ProofsDemod ProofsTip ProofsTip2 ProofsTip3.
Import ListNotations.
Open Scope R_scope.
From Verif Require Import ProofsTaylor.

(** C28. Over a bulk sample the difference between fdm.eff_pol_n and its Taylor
    series with n_tayl = J + 1 terms is exactly the demodulation of the tail of
    the geometric series, at every harmonic the sampling resolves. *)
Theorem C28_exact_remainder :
  forall (laggauss : laggauss_t) (D : Defaults) (e0 e1 : C) nu (A_tip : R) (n : Z) (n_trapz : option nat)
    (z_tip r_tip L_tip : option R) (g_factor : option C) (d_Q0 d_Q1 d_Qa : option R) (n_lag : option nat) (J : nat),
  let s := stack [e0; e1] [] nu in let beta := ((e1 - e0) / (e1 + e0))%C in
  let N := given_or (d_n_trapz D) n_trapz in let z := given_or (d_z_tip D) z_tip in
  let r := given_or (d_r_tip D) r_tip in let L := given_or (d_L_tip D) L_tip in
  let d0 := given_or (131 / 100 * L / (L + 2 * r)) d_Q0 in let d1 := given_or (d_d_Q1 D) d_Q1 in
  let f0 := fun x => fdm_f x d0 r L (given_or (d_g_factor D) g_factor) in
  let f1 := fun x => fdm_f x d1 r L (given_or (d_g_factor D) g_factor) in
  e1 <> RtoC 0 -> (e0 + e1 <> 0)%C -> N <> O -> resolved N n ->
  (forall k, (k < N)%nat -> let x := tip_height z A_tip N k in
     fdm_regular x d0 r L /\ fdm_regular x d1 r L /\ (1 - beta * f1 x <> 0)%C) ->
  exists a t e : C,
    fdm_eff_pol_n laggauss D s A_tip n z_tip n_trapz r_tip L_tip g_factor d_Q0 d_Q1 d_Qa n_lag None = Ok (Some a) /\
    fdm_eff_pol_n_taylor laggauss D s A_tip n z_tip r_tip L_tip g_factor d_Q0 d_Q1 d_Qa n_lag None n_trapz (Some (S J)) = Ok (Some t) /\
    demod D (fun x => Ok (Some (beta * f0 x / 2 * Cpown (beta * f1 x) J / (1 - beta * f1 x))%C)) (z + A_tip) A_tip n n_trapz = Ok (Some e) /\
    a = (t + e)%C.
Proof. exact C28_exact_remainder_proof. Qed.
Print Assumptions C28_exact_remainder.

(** C28. If |beta f_1| <= rho < 1 and |beta f_0| <= B at every sampled height,
    the truncation error is at most B rho^J / (2 (1 - rho)). *)
Theorem C28_error_bound :
  forall (laggauss : laggauss_t) (D : Defaults) (e0 e1 : C) nu (A_tip : R) (n : Z) (n_trapz : option nat)
    (z_tip r_tip L_tip : option R) (g_factor : option C) (d_Q0 d_Q1 d_Qa : option R) (n_lag : option nat) (rho B : R),
  let s := stack [e0; e1] [] nu in let beta := ((e1 - e0) / (e1 + e0))%C in
  let N := given_or (d_n_trapz D) n_trapz in let z := given_or (d_z_tip D) z_tip in
  let r := given_or (d_r_tip D) r_tip in let L := given_or (d_L_tip D) L_tip in
  let d0 := given_or (131 / 100 * L / (L + 2 * r)) d_Q0 in let d1 := given_or (d_d_Q1 D) d_Q1 in
  let f0 := fun x => fdm_f x d0 r L (given_or (d_g_factor D) g_factor) in
  let f1 := fun x => fdm_f x d1 r L (given_or (d_g_factor D) g_factor) in
  e1 <> RtoC 0 -> (e0 + e1 <> 0)%C -> N <> O -> resolved N n -> rho < 1 ->
  (forall k, (k < N)%nat -> let x := tip_height z A_tip N k in
     fdm_regular x d0 r L /\ fdm_regular x d1 r L /\ Cmod (beta * f0 x)%C <= B /\ Cmod (beta * f1 x)%C <= rho) ->
  exists a : C,
    fdm_eff_pol_n laggauss D s A_tip n z_tip n_trapz r_tip L_tip g_factor d_Q0 d_Q1 d_Qa n_lag None = Ok (Some a) /\
    forall J, exists t : C,
      fdm_eff_pol_n_taylor laggauss D s A_tip n z_tip r_tip L_tip g_factor d_Q0 d_Q1 d_Qa n_lag None n_trapz (Some (S J)) = Ok (Some t) /\
      Cmod (a - t)%C <= B * rho ^ J / (2 * (1 - rho)).
Proof. exact C28_error_bound_proof. Qed.
Print Assumptions C28_error_bound.

(** C28. Hence the series converges to fdm.eff_pol_n as n_tayl grows, if
    |beta f_1| < 1 at every sampled height. *)
Theorem C28_converges :
  forall (laggauss : laggauss_t) (D : Defaults) (e0 e1 : C) nu (A_tip : R) (n : Z) (n_trapz : option nat)
    (z_tip r_tip L_tip : option R) (g_factor : option C) (d_Q0 d_Q1 d_Qa : option R) (n_lag : option nat),
  let s := stack [e0; e1] [] nu in let beta := ((e1 - e0) / (e1 + e0))%C in
  let N := given_or (d_n_trapz D) n_trapz in let z := given_or (d_z_tip D) z_tip in
  let r := given_or (d_r_tip D) r_tip in let L := given_or (d_L_tip D) L_tip in
  let d0 := given_or (131 / 100 * L / (L + 2 * r)) d_Q0 in let d1 := given_or (d_d_Q1 D) d_Q1 in
  let f1 := fun x => fdm_f x d1 r L (given_or (d_g_factor D) g_factor) in
  e1 <> RtoC 0 -> (e0 + e1 <> 0)%C -> N <> O -> resolved N n ->
  (forall k, (k < N)%nat -> let x := tip_height z A_tip N k in
     fdm_regular x d0 r L /\ fdm_regular x d1 r L /\ Cmod (beta * f1 x)%C < 1) ->
  exists a : C,
    fdm_eff_pol_n laggauss D s A_tip n z_tip n_trapz r_tip L_tip g_factor d_Q0 d_Q1 d_Qa n_lag None = Ok (Some a) /\
    forall eps, 0 < eps -> exists J0, forall J, (J0 <= J)%nat -> exists t : C,
      fdm_eff_pol_n_taylor laggauss D s A_tip n z_tip r_tip L_tip g_factor d_Q0 d_Q1 d_Qa n_lag None n_trapz (Some J) = Ok (Some t) /\
      Cmod (a - t)%C < eps.
Proof. exact C28_converges_proof. Qed.
Print Assumptions C28_converges.

(** C28. The highest power of beta used is n_tayl - 1, not n_tayl: a series of
    order 1 does not see the sample at all.  Whatever the sample, method, tip and
    sampling, with n_tayl = 1 a finite result is 1 for n = 0 and 0 otherwise. *)
Theorem C28_order_one_ignores_sample :
  forall (laggauss : laggauss_t) (D : Defaults) (s : sample) (A_tip : R) (n : Z) (n_trapz : option nat)
    (z_tip r_tip L_tip : option R) (g_factor : option C) (d_Q0 d_Q1 d_Qa : option R) (n_lag : option nat)
    (method : option string) (t : C),
  fdm_eff_pol_n_taylor laggauss D s A_tip n z_tip r_tip L_tip g_factor d_Q0 d_Q1 d_Qa n_lag method n_trapz (Some 1%nat) = Ok (Some t) ->
  t = (if Z.eqb n 0 then RtoC 1 else RtoC 0).
Proof. exact C28_order_one_ignores_sample_proof. Qed.
Print Assumptions C28_order_one_ignores_sample.

(** C28. ... and with n_tayl = 0 it is 0. *)
Theorem C28_order_zero :
  forall (laggauss : laggauss_t) (D : Defaults) (s : sample) (A_tip : R) (n : Z) (n_trapz : option nat)
    (z_tip r_tip L_tip : option R) (g_factor : option C) (d_Q0 d_Q1 d_Qa : option R) (n_lag : option nat)
    (method : option string) v,
  fdm_eff_pol_n_taylor laggauss D s A_tip n z_tip r_tip L_tip g_factor d_Q0 d_Q1 d_Qa n_lag method n_trapz (Some 0%nat) = Ok v ->
  v = Some (RtoC 0).
Proof. exact C28_order_zero_proof. Qed.
Print Assumptions C28_order_zero.

(** C29. alpha_tip times pdm.eff_pol_n_taylor differs from pdm.eff_pol_n exactly
    by the demodulated tail of the geometric series. *)
Theorem C29_exact_remainder :
  forall (D : Defaults) (s : sample) (A_tip : R) (n : Z) (z_tip r_tip : option R) (n_trapz : option nat)
    (eps_tip alpha_tip : option C) (alpha beta : C) (J : nat),
  let N := given_or (d_n_trapz D) n_trapz in let z := given_or (d_z_tip D) z_tip in
  let r := given_or (d_r_tip D) r_tip in
  let f := fun x => (alpha / RtoC (16 * PI * (r + x) ^ 3))%C in
  tip_alpha r eps_tip alpha_tip alpha -> refl_coef_qs s (rr 0) = Ok (Some beta) -> N <> O ->
  (forall k, (k < N)%nat -> let x := tip_height z A_tip N k in r + x <> 0 /\ (1 - f x * beta <> 0)%C) ->
  exists a t e : C,
    pdm_eff_pol_n D s A_tip n z_tip n_trapz r_tip eps_tip alpha_tip = Ok (Some a) /\
    pdm_eff_pol_n_taylor D s A_tip n z_tip r_tip eps_tip alpha_tip n_trapz (Some J) = Ok (Some t) /\
    demod D (fun x => Ok (Some (Cpown (f x * beta) J / (1 - f x * beta))%C)) (z + A_tip) A_tip n n_trapz = Ok (Some e) /\
    a = (alpha * (t + e))%C.
Proof. exact C29_exact_remainder_proof. Qed.
Print Assumptions C29_exact_remainder.

(** C29. Hence, if |beta f| < 1 at every sampled height, pdm.eff_pol_n_taylor
    converges to pdm.eff_pol_n divided by alpha_tip. *)
Theorem C29_converges_to_normalised :
  forall (D : Defaults) (s : sample) (A_tip : R) (n : Z) (z_tip r_tip : option R) (n_trapz : option nat)
    (eps_tip alpha_tip : option C) (alpha beta : C),
  let N := given_or (d_n_trapz D) n_trapz in let z := given_or (d_z_tip D) z_tip in
  let r := given_or (d_r_tip D) r_tip in
  let f := fun x => (alpha / RtoC (16 * PI * (r + x) ^ 3))%C in
  tip_alpha r eps_tip alpha_tip alpha -> refl_coef_qs s (rr 0) = Ok (Some beta) -> N <> O ->
  (forall k, (k < N)%nat -> let x := tip_height z A_tip N k in r + x <> 0 /\ Cmod (f x * beta)%C < 1) ->
  exists a c : C,
    pdm_eff_pol_n D s A_tip n z_tip n_trapz r_tip eps_tip alpha_tip = Ok (Some a) /\ a = (alpha * c)%C /\
    forall eps, 0 < eps -> exists J0, forall J, (J0 <= J)%nat -> exists t : C,
      pdm_eff_pol_n_taylor D s A_tip n z_tip r_tip eps_tip alpha_tip n_trapz (Some J) = Ok (Some t) /\ Cmod (c - t)%C < eps.
Proof. exact C29_converges_to_normalised_proof. Qed.
Print Assumptions C29_converges_to_normalised.

(** C29. It does not converge to pdm.eff_pol_n itself, which is what it is
    documented to approximate: for a perfectly conducting tip of radius 1 in
    contact with permittivity 3, at harmonic 0 without tapping, it stays more
    than 10 away at every order beyond some J0. *)
Theorem C29_taylor_of_eff_pol_n_refuted :
  exists (D : Defaults) (s : sample) (a : C),
  pdm_eff_pol_n D s 0 0 None None (Some 1) None None = Ok (Some a) /\
  exists J0, forall J, (J0 <= J)%nat -> exists t : C,
    pdm_eff_pol_n_taylor D s 0 0 None (Some 1) None None None (Some J) = Ok (Some t) /\ 10 < Cmod (a - t)%C.
Proof. exact C29_taylor_of_eff_pol_n_refuted_proof. Qed.
Print Assumptions C29_taylor_of_eff_pol_n_refuted.

(** C29. Example: the hypotheses of the two positive statements hold for the
    default tip over permittivity 3, tapping by 30 nm *)
Example C29_example :
  let r := d_r_tip defaults0 in let alpha := RtoC (4 * PI * r ^ 3) in
  forall k, let x := tip_height 0 (30 / 10 ^ 9) 32 k in
  r + x <> 0 /\ Cmod (alpha / RtoC (16 * PI * (r + x) ^ 3) * RtoC (1 / 2))%C < 1.
Proof. exact C29_example_proof. Qed.

(** C28. Example: a tip with r = L = 1, g = 1, tapping by 1/8 in contact with
    permittivity 3 (beta = 1/2) meets the hypotheses *)
Example C28_example :
  forall k, let x := tip_height 0 (1 / 8) 32 k in
  fdm_regular x (131 / 100 * 1 / (1 + 2 * 1)) 1 1 /\ fdm_regular x (5 / 10) 1 1 /\
  Cmod ((RtoC 3 - RtoC 1) / (RtoC 3 + RtoC 1) * fdm_f x (5 / 10) 1 1 (RtoC 1))%C < 1.
Proof. exact C28_example_proof. Qed.
