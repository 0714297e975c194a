(** * Properties (generated by tools/gen_prop.py from ProofsSampling4.v; statements
    only, each proved there) *)
From Coq Require Import String Reals Lra Lia ZArith List Bool.
From Coquelicot Require Import Coquelicot.
From Coq Require Import List.
From Verif Require Import Num NumLemmas LimLemmas ModelBase ModelSample ModelTip StackLemmas Spec SpecSampling
  ProofsStackQS ProofsStackQS2 ProofsBulkFF ProofsSym ProofsPassive DemodLemmas ProofsDemod ProofsTip ProofsTip2 ProofsTip3 ProofsTaylor
  ProofsDefault ProofsSampling ProofsSampling2 PolyBall ChebLog.
Import ListNotations.
Open Scope R_scope.
From Verif Require Import ProofsSampling4.

(** C80. Sampling error of fdm.eff_pol_n over a bulk sample: for any s > 1 for which
    the (explicit) bound rho_1 of |beta f_1| on an ellipse around the swept heights
    is below 1, the error against the documented integral is at most
    rho_0 / (1 - rho_1) s^-(n_trapz - |n|). *)
Theorem C80_fdm_error :
  forall (laggauss : laggauss_t) (D : Defaults) (e0 e1 : C) nu (A_tip : R) (n : Z) (n_trapz : option nat)
    (z_tip r_tip L_tip : option R) (g_factor : option C) (d_Q0 d_Q1 d_Qa : option R) (n_lag : option nat) (s w0 w1 : R),
  let sam := stack [e0; e1] [] nu in let beta := ((e1 - e0) / (e1 + e0))%C in
  let N := given_or (d_n_trapz D) n_trapz in let z := given_or (d_z_tip D) z_tip in
  let r := given_or (d_r_tip D) r_tip in let L := given_or (d_L_tip D) L_tip in let g := given_or (d_g_factor D) g_factor in
  let d0 := given_or (131 / 100 * L / (L + 2 * r)) d_Q0 in let d1 := given_or (d_d_Q1 D) d_Q1 in
  let X := fun d => r + 4 * z + 2 * r * d in
  let rho := fun d w => Cmod beta * ((Cmod (g - RtoC ((r + 2 * (z + A_tip) + r * d) / (2 * L)))%C + A_tip / L * s)
     * (ln (4 * L / X d * ((1 - w) / (1 - w * s)) ^ 2) / ln (4 * L / r))) in
  e1 <> RtoC 0 -> (e0 + e1 <> 0)%C -> (Z.abs_nat n < N)%nat -> 0 < A_tip -> 0 < r < 4 * L -> 1 < s ->
  (forall d w, In (d, w) [(d0, w0); (d1, w1)] ->
     0 < X d /\ X d + 4 * A_tip <= 4 * L /\ 0 < w /\ w * s < 1 /\ 1 + X d / (4 * A_tip) = (w + / w) / 2) ->
  rho d1 w1 < 1 ->
  exists v : C, fdm_eff_pol_n laggauss D sam A_tip n z_tip n_trapz r_tip L_tip g_factor d_Q0 d_Q1 d_Qa n_lag None = Ok (Some v) /\
    Cmod (v - fourier_coefficient (fun x => 1 + beta * fdm_f x d0 r L g / (2 * (1 - beta * fdm_f x d1 r L g)))%C (z + A_tip) A_tip n)%C
    <= rho d0 w0 / (1 - rho d1 w1) / s ^ (N - Z.abs_nat n).
Proof. exact C80_fdm_error_proof. Qed.
Print Assumptions C80_fdm_error.
