(** * Properties (generated by tools/gen_prop.py from ProofsTip5.v; statements
    only, each proved there) *)
From Coq Require Import String Reals Lra Lia ZArith List Bool.
From Coquelicot Require Import Rcomplements Complex.
From Verif Require Import Num NumLemmas LimLemmas ModelBase ModelSample ModelTip StackLemmas Spec
  ProofsStackQS ProofsStackQS2 ProofsBulkFF ProofsSym ProofsPassive DemodLemmas ProofsDemod ProofsTip ProofsTip2 ProofsTip3.
Import ListNotations.
Open Scope R_scope.
From Verif Require Import ProofsTip5.

(** C44. Far from any sample the point dipole model gives the bare tip: its
    effective polarizability tends to alpha_tip as z_tip grows. *)
Theorem C44_decays_to_bare_tip :
  forall (D : Defaults) (s : sample) (r_tip : option R) (eps_tip alpha_tip : option C) (beta alpha : C),
  tip_alpha (given_or (d_r_tip D) r_tip) eps_tip alpha_tip alpha ->
  refl_coef_qs s (rr 0) = Ok (Some beta) ->
  forall eps, 0 < eps -> exists Z, forall z, Z < z ->
  exists a, pdm_eff_pol D s (Some z) r_tip eps_tip alpha_tip = Ok (Some a) /\ Cmod (a - alpha)%C < eps.
Proof. exact C44_decays_to_bare_tip_proof. Qed.
Print Assumptions C44_decays_to_bare_tip.

(** C44. For the perfectly conducting tip the magnitude decreases strictly
    with height if |beta|^2 < 4 Re beta (for real beta: 0 < beta < 4), and
    increases strictly if Re beta < 0. *)
Theorem C44_monotonic :
  forall (D : Defaults) (s : sample) (r_tip : option R) (beta : C) (z1 z2 : R),
  0 < given_or (d_r_tip D) r_tip -> refl_coef_qs s (rr 0) = Ok (Some beta) ->
  0 <= z1 < z2 ->
  (Cmod beta ^ 2 < 4 * Re beta ->
   exists a1 a2, pdm_eff_pol D s (Some z1) r_tip None None = Ok (Some a1) /\
                 pdm_eff_pol D s (Some z2) r_tip None None = Ok (Some a2) /\ Cmod a2 < Cmod a1) /\
  (Re beta < 0 ->
   exists a1 a2, pdm_eff_pol D s (Some z1) r_tip None None = Ok (Some a1) /\
                 pdm_eff_pol D s (Some z2) r_tip None None = Ok (Some a2) /\ Cmod a1 < Cmod a2).
Proof. exact C44_monotonic_proof. Qed.
Print Assumptions C44_monotonic.

(** C44. Example: eps 3 in vacuum (beta = 1/2) and eps 1/3 (beta = -1/2) *)
Example C44_example :
  refl_coef_qs (stack [RtoC 1; RtoC 3] [] None) (rr 0) = Ok (Some (RtoC (1 / 2))) /\
  Cmod (RtoC (1 / 2)) ^ 2 < 4 * Re (RtoC (1 / 2)) /\
  refl_coef_qs (stack [RtoC 1; RtoC (1 / 3)] [] None) (rr 0) = Ok (Some (RtoC (- (1 / 2)))) /\ Re (RtoC (- (1 / 2))) < 0.
Proof. exact C44_example_proof. Qed.

(** C45. The geometry function vanishes at z = L - r (1 + 2 d) / 4 ... *)
Theorem C45_geometry_zero :
  forall (d r L : R) (g : C), 0 < r -> 0 < L -> r <> 4 * L ->
  fdm_geom_func (rr (L - r * (1 + 2 * d) / 4)) (rr d) (rr r) (rr L) (Some g) = Some (RtoC 0).
Proof. exact C45_geometry_zero_proof. Qed.
Print Assumptions C45_geometry_zero.

(** C45. ... and then grows without bound. *)
Theorem C45_geometry_grows :
  forall (d r L : R) (g : C), 0 < r -> 0 < L -> r <> 4 * L ->
  forall K, exists Z, forall z, Z < z ->
  exists f, fdm_geom_func (rr z) (rr d) (rr r) (rr L) (Some g) = Some f /\ K < Cmod f.
Proof. exact C45_geometry_grows_proof. Qed.
Print Assumptions C45_geometry_grows.

(** C45. So, as z_tip grows, fdm.eff_pol over any bulk sample with contrast
    tends to 1/2: not to 1, its value without a sample (C43). *)
Theorem C45_far_limit_is_half :
  forall (laggauss : laggauss_t) (D : Defaults) (e0 e1 : C) nu (r_tip L_tip : option R)
    (g_factor : option C) (d_Q0 d_Q1 d_Qa : option R) (n_lag : option nat),
  let r := given_or (d_r_tip D) r_tip in let L := given_or (d_L_tip D) L_tip in
  e1 <> RtoC 0 -> (e0 + e1 <> 0)%C -> e0 <> e1 -> 0 < r -> 0 < L -> r <> 4 * L ->
  forall eps, 0 < eps -> exists Z, forall z, Z < z ->
  exists a, fdm_eff_pol laggauss D (stack [e0; e1] [] nu) (Some z) r_tip L_tip g_factor d_Q0 d_Q1 d_Qa n_lag None = Ok (Some a) /\
            Cmod (a - RtoC (1 / 2))%C < eps.
Proof. exact C45_far_limit_is_half_proof. Qed.
Print Assumptions C45_far_limit_is_half.

(** C45. Example: the default tip over permittivity 3 *)
Example C45_example : forall laggauss, exists z a,
  fdm_eff_pol laggauss defaults0 (stack [RtoC 1; RtoC 3] [] None) (Some z) None None None None None None None None = Ok (Some a) /\
  Cmod (a - RtoC (1 / 2))%C < 1 / 100 .
Proof. exact C45_example_proof. Qed.
