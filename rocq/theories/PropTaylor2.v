(** * Properties (generated by tools/gen_prop.py from ProofsTaylor2.v; statements
    only, each proved there) *)
From Coq Require Import String Reals Lra Lia ZArith List Bool.
From Coquelicot Require Import Rcomplements Complex.
From Verif Require Import Num NumLemmas LimLemmas ModelBase ModelSample ModelTip StackLemmas Spec
  ProofsStackQS ProofsStackQS2 ProofsBulkFF ProofsSym ProofsPassive DemodLemmas ProofsDemod ProofsTip ProofsTip2 ProofsTip3
  ProofsTaylor.
Import ListNotations.
Open Scope R_scope.
From Verif Require Import ProofsTaylor2.

(** C50. On a bulk sample method 'Q_ave' of the Taylor series is method 'bulk'
    (so C28 applies to both). *)
Theorem C50_bulk_agrees :
  forall (laggauss : laggauss_t) (D : Defaults) (e0 e1 : C) nu (A_tip : R) (n : Z) (n_trapz n_tayl : option nat)
    (z_tip r_tip L_tip : option R) (g_factor : option C) (d_Q0 d_Q1 d_Qa : option R) (n_lag : option nat),
  let s := stack [e0; e1] [] nu in
  let z := given_or (d_z_tip D) z_tip in let r := given_or (d_r_tip D) r_tip in
  let da := given_or (d_d_Qa D) d_Qa in let nl := given_or (d_n_lag D) n_lag in
  nl <> O -> laguerre_rule (laggauss nl) -> e1 <> RtoC 0 -> (e0 + e1 <> 0)%C -> 0 < z + r * da ->
  fdm_eff_pol_n_taylor laggauss D s A_tip n z_tip r_tip L_tip g_factor d_Q0 d_Q1 d_Qa n_lag (Some "Q_ave"%string) n_trapz n_tayl
  = fdm_eff_pol_n_taylor laggauss D s A_tip n z_tip r_tip L_tip g_factor d_Q0 d_Q1 d_Qa n_lag (Some "bulk"%string) n_trapz n_tayl.
Proof. exact C50_bulk_agrees_proof. Qed.
Print Assumptions C50_bulk_agrees.

(** C50. But for a multilayer sample the Q_ave Taylor series is not a series for
    fdm.eff_pol_n with method 'Q_ave': the sample's response is taken at the
    lowest tip position only.  Over a film (permittivity 3, thickness 1) there is
    a tip for which the two differ at every truncation order, by more than a
    fixed amount, for every Gauss-Laguerre rule. *)
Theorem C50_multilayer_series_refuted :
  exists (D : Defaults) (s : sample) (A_tip : R) (d_Q0 : R), multilayer s = true /\
  forall (laggauss : laggauss_t) (n_lag : option nat),
  let nl := given_or (d_n_lag D) n_lag in
  nl <> O -> laguerre_rule (laggauss nl) ->
  exists (a : C) (delta : R), 0 < delta /\
    fdm_eff_pol_n laggauss D s A_tip 0 None None None None None (Some d_Q0) None None n_lag (Some "Q_ave"%string) = Ok (Some a) /\
    forall J, exists t : C,
      fdm_eff_pol_n_taylor laggauss D s A_tip 0 None None None None (Some d_Q0) None None n_lag (Some "Q_ave"%string) None (Some J) = Ok (Some t) /\
      delta <= Cmod (a - t)%C.
Proof. exact C50_multilayer_series_refuted_proof. Qed.
Print Assumptions C50_multilayer_series_refuted.

(** C50. Example: Gauss-Laguerre rules exist (order 1 and 2) *)
Example C50_example : laguerre_rule [(1, 1)] /\ laguerre_rule (laggauss12 2%nat).
Proof. exact C50_example_proof. Qed.
