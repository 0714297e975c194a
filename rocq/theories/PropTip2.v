(** * Properties (generated by tools/gen_prop.py from ProofsTip2.v; statements
    only, each proved there) *)
From Coq Require Import String Reals Lra Lia ZArith List Bool.
From Coquelicot Require Import Rcomplements Complex.
From Verif Require Import Num NumLemmas ModelBase ModelSample ModelTip StackLemmas Spec
  ProofsStackQS ProofsStackQS2 ProofsSym ProofsPassive DemodLemmas ProofsDemod ProofsTip.
Import ListNotations.
Open Scope R_scope.
From Verif Require Import ProofsTip2.

(** C27. pdm.refl_coef_qs_from_eff_pol inverts pdm.eff_pol for every sample,
    bulk or not, as long as the tip is polarizable. *)
Theorem C27_inverse_after_eff_pol :
  forall (D : Defaults) (s : sample) (z_tip r_tip : option R) (eps_tip alpha_tip : option C) (beta alpha a : C),
  let z := given_or (d_z_tip D) z_tip in let r := given_or (d_r_tip D) r_tip in
  tip_alpha r eps_tip alpha_tip alpha -> alpha <> RtoC 0 -> r + z <> 0 ->
  refl_coef_qs s (rr 0) = Ok (Some beta) ->
  pdm_eff_pol D s z_tip r_tip eps_tip alpha_tip = Ok (Some a) ->
  pdm_refl_coef_qs_from_eff_pol D (Some a) z_tip r_tip eps_tip alpha_tip = Ok (Some beta).
Proof. exact C27_inverse_after_eff_pol_proof. Qed.
Print Assumptions C27_inverse_after_eff_pol.

(** C27. Conversely: if the inverse returns a finite b other than +-1 for a
    given a, the bulk sample built from b has effective polarizability a. *)
Theorem C27_eff_pol_after_inverse :
  forall (D : Defaults) (e0 b : C) nu (z_tip r_tip : option R) (eps_tip alpha_tip : option C) (a : C),
  let s := stack [e0; e0 * (1 + b) / (1 - b)]%C [] nu in
  e0 <> RtoC 0 -> b <> RtoC 1 -> b <> RtoC (-1) ->
  pdm_refl_coef_qs_from_eff_pol D (Some a) z_tip r_tip eps_tip alpha_tip = Ok (Some b) ->
  pdm_eff_pol D s z_tip r_tip eps_tip alpha_tip = Ok (Some a).
Proof. exact C27_eff_pol_after_inverse_proof. Qed.
Print Assumptions C27_eff_pol_after_inverse.

(** C27. Example: default tip at contact, film of permittivity 2 on 3: the
    hypotheses of the first statement hold. *)
Example C27_example :
  let s := stack [RtoC 1; RtoC 2; RtoC 3] [5 / 10 ^ 9] None in
  let r := d_r_tip defaults0 in
  tip_alpha r None None (RtoC (4 * PI * r ^ 3)) /\ RtoC (4 * PI * r ^ 3) <> RtoC 0 /\ r + 0 <> 0 /\
  refl_coef_qs s (rr 0) = Ok (Some (RtoC (1 / 2))) /\
  pdm_eff_pol defaults0 s None None None None = Ok (Some (RtoC (32 / 7 * PI * r ^ 3))).
Proof. exact C27_example_proof. Qed.

(** C33. fdm.eff_pol: no method means 'bulk' for a bulk sample and 'multi'
    for a multilayer sample. *)
Theorem C33_default_method :
  forall (laggauss : laggauss_t) (D : Defaults) (s : sample) (z_tip r_tip L_tip : option R)
    (g_factor : option C) (d_Q0 d_Q1 d_Qa : option R) (n_lag : option nat),
  let alpha := fdm_eff_pol laggauss D s z_tip r_tip L_tip g_factor d_Q0 d_Q1 d_Qa n_lag in
  ((length (eps_stack s) <= 2)%nat -> alpha None = alpha (Some "bulk"%string)) /\
  ((2 < length (eps_stack s))%nat -> alpha None = alpha (Some "multi"%string)).
Proof. exact C33_default_method_proof. Qed.
Print Assumptions C33_default_method.

(** C33. fdm.eff_pol on a sample with at least two layers (and a positive
    number of Laguerre points): it raises for 'bulk' on a multilayer sample
    and for a name that is none of the three, a ValueError with the documented
    message, and otherwise returns. *)
Theorem C33_eff_pol_raises :
  forall (laggauss : laggauss_t) (D : Defaults) (s : sample) (z_tip r_tip L_tip : option R)
    (g_factor : option C) (d_Q0 d_Q1 d_Qa : option R) (n_lag : option nat) (m : string),
  (2 <= length (eps_stack s))%nat -> given_or (d_n_lag D) n_lag <> O ->
  let alpha := fdm_eff_pol laggauss D s z_tip r_tip L_tip g_factor d_Q0 d_Q1 d_Qa n_lag in
  (m = "bulk"%string -> (2 < length (eps_stack s))%nat ->
     alpha (Some m) = Raise (ValueError "`method`='bulk' cannot be used for multilayer samples.")) /\
  (m <> "bulk"%string -> m <> "multi"%string -> m <> "Q_ave"%string ->
     alpha (Some m) = Raise (ValueError "`method` must be one of `bulk`, `multi`, or `Q_ave`.")) /\
  ((m = "bulk"%string /\ length (eps_stack s) = 2%nat) \/ m = "multi"%string \/ m = "Q_ave"%string ->
     exists v, alpha (Some m) = Ok v) /\
  exists v, alpha None = Ok v.
Proof. exact C33_eff_pol_raises_proof. Qed.
Print Assumptions C33_eff_pol_raises.

(** C33. fdm.eff_pol_n_taylor: no method means 'bulk' / 'Q_ave' (not 'multi');
    'bulk' on a multilayer sample and every name other than 'bulk' and
    'Q_ave' (also 'multi') raise; nothing else does. *)
Theorem C33_taylor_dispatch :
  forall (laggauss : laggauss_t) (D : Defaults) (s : sample) (A_tip : R) (n : Z) (z_tip r_tip L_tip : option R)
    (g_factor : option C) (d_Q0 d_Q1 d_Qa : option R) (n_lag n_trapz n_tayl : option nat) (m : string),
  (2 <= length (eps_stack s))%nat -> given_or (d_n_lag D) n_lag <> O ->
  let alpha method := fdm_eff_pol_n_taylor laggauss D s A_tip n z_tip r_tip L_tip g_factor d_Q0 d_Q1 d_Qa n_lag
                        method n_trapz n_tayl in
  (length (eps_stack s) = 2%nat -> alpha None = alpha (Some "bulk"%string)) /\
  ((2 < length (eps_stack s))%nat -> alpha None = alpha (Some "Q_ave"%string)) /\
  (m = "bulk"%string -> (2 < length (eps_stack s))%nat ->
     alpha (Some m) = Raise (ValueError "`method`='bulk' cannot be used for multilayer samples.")) /\
  (m <> "bulk"%string -> m <> "Q_ave"%string ->
     alpha (Some m) = Raise (ValueError "`method` must be one of `bulk`, or `Q_ave`.")) /\
  ((m = "bulk"%string /\ length (eps_stack s) = 2%nat) \/ m = "Q_ave"%string ->
     exists v, alpha (Some m) = Ok v) /\
  exists v, alpha None = Ok v.
Proof. exact C33_taylor_dispatch_proof. Qed.
Print Assumptions C33_taylor_dispatch.

(** C33. Example: a misspelt name *)
Example C33_example : forall laggauss,
  fdm_eff_pol laggauss defaults0 (stack [RtoC 1; RtoC 2] [] None) None None None None None None None None (Some "Bulk"%string)
  = Raise (ValueError "`method` must be one of `bulk`, `multi`, or `Q_ave`.").
Proof. exact C33_example_proof. Qed.
