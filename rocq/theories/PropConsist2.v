(** * Properties (generated by tools/gen_prop.py from ProofsConsist2.v; statements
    only, each proved there) *)
From Coq Require Import String Reals Lra Lia ZArith List Bool Permutation Sorted.
From Coquelicot Require Import Rcomplements Complex.
From Verif Require Import Num NumLemmas LimLemmas ModelBase ModelSample ModelTip NArr SpecArr NArrLemmas ModelObj SpecObj
  ModelArr ModelArrTip ModelInv StackLemmas Spec SpecPoly SpecInv SpecNear FTA ArrSample
  ProofsStackQS ProofsStackQS2 ProofsPassive DemodLemmas ProofsDemod ProofsTip ProofsTip2 ProofsTip3 ProofsTaylor
  ProofsArr ProofsArr2 ProofsArrTip InvLemmas ProofsInv ProofsInv2 ProofsInv3 ProofsInv4 ProofsNear ProofsConsist.
Import ListNotations.
Open Scope R_scope.
From Verif Require Import ProofsConsist2.

(** C65. Every approximate solution has a solution near it: if x gives a signal
    that differs from the requested one by delta, there is a solution within
    distance d delta / |slope|, where d is the degree of the series and the slope
    is that of the series at x.  If this solution meets the restrictions it is
    returned unmasked. *)
Theorem C65_near_solution : forall eig sb sr D alpha A n z r L g d_Q0 d_Q1 n_trapz n_tayl thr ri ra env S
    (c : list nat -> list C) (al : list nat -> C) d,
  library eig sb sr -> env_fits env (fdm_inverse_operands alpha A n z r L g d_Q0 d_Q1) ->
  joint (fdm_inverse_operands alpha A n z r L g d_Q0 d_Q1) S -> (exists i, index_of S i) -> (1 <= d)%nat ->
  (forall i, index_of S i -> entry alpha i = Some (al i) /\ degree (c i) d /\ length (c i) = given_or (d_n_tayl D) n_tayl /\
     match fdm_defaults D (at_index r i) (at_index L i) (at_index g i) (at_index d_Q0 i) (at_index d_Q1 i) None with
     | (r, L, g, d_Q0, d_Q1, _) =>
       coefficients (fun j => fdm_taylor_coef D (given_or (d_z_tip D) (at_index z i)) j (entry A i) (entry n i)
                                (rr r) (rr L) (Some g) d_Q0 (rr d_Q1) n_trapz) (c i)
     end) ->
  exists result,
    fdm_refl_coef_qs_from_eff_pol_n eig sb sr D alpha A n z r L g d_Q0 d_Q1 n_trapz n_tayl thr ri ra env = Ok result /\
    elements result = S /\
    forall i x, index_of S i -> pderiv (c i) x <> RtoC 0 ->
      exists b, peval (c i) b = al i /\
        Cmod (b - x)%C <= INR d * Cmod (peval (c i) x - al i)%C / Cmod (pderiv (c i) x) /\
        (admissible (given_or (d_beta_threshold D) thr) ri ra (given_or (d_eps_env D) (at_index env i)) b ->
         In (Some b) (unmasked result i)).
Proof. exact C65_near_solution_proof. Qed.
Print Assumptions C65_near_solution.

(** C65. The finite dipole inverse is consistent: applied to the exact signal of a
    bulk sample, for which the series converges, it returns for large n_tayl an
    unmasked value as close as desired to the sample's reflection coefficient --
    if the signal responds to first order to the reflection coefficient, and the
    sample meets the requested restrictions with room to spare. *)
Theorem C65_fdm_consistent :
  forall eig sb sr (laggauss : laggauss_t) (D : Defaults) (e0 e1 : C) nu (A_tip : R) (n : Z) (n_trapz : option nat)
    (z_tip r_tip L_tip : option R) (g_factor : option C) (d_Q0 d_Q1 d_Qa : option R) (n_lag : option nat)
    (thr : option R) (ri ra : bool) (eps_env : option C) (response : C),
  let s := stack [e0; e1] [] nu in let beta := ((e1 - e0) / (e1 + e0))%C in
  let N := given_or (d_n_trapz D) n_trapz in let z := given_or (d_z_tip D) z_tip in
  let r := given_or (d_r_tip D) r_tip in let L := given_or (d_L_tip D) L_tip in
  let d0 := given_or (131 / 100 * L / (L + 2 * r)) d_Q0 in let d1 := given_or (d_d_Q1 D) d_Q1 in
  let f0 := fun x => fdm_f x d0 r L (given_or (d_g_factor D) g_factor) in
  let f1 := fun x => fdm_f x d1 r L (given_or (d_g_factor D) g_factor) in
  library eig sb sr -> e1 <> RtoC 0 -> (e0 + e1 <> 0)%C -> N <> O -> resolved N n ->
  (forall k, (k < N)%nat -> let x := tip_height z A_tip N k in
     fdm_regular x d0 r L /\ fdm_regular x d1 r L /\ Cmod (beta * f1 x)%C < 1) ->
  demod D (fun x => Ok (Some (f0 x / (2 * ((1 - beta * f1 x) * (1 - beta * f1 x))))%C)) (z + A_tip) A_tip n n_trapz
    = Ok (Some response) -> response <> RtoC 0 ->
  interior (given_or (d_beta_threshold D) thr) ri ra (given_or (d_eps_env D) eps_env) beta ->
  exists a : C,
    fdm_eff_pol_n laggauss D s A_tip n z_tip n_trapz r_tip L_tip g_factor d_Q0 d_Q1 d_Qa n_lag None = Ok (Some a) /\
    forall eps, 0 < eps -> exists J0, forall J, (J0 <= J)%nat -> exists result b,
      fdm_refl_coef_qs_from_eff_pol_n eig sb sr D (scalar (Some a)) (scalar A_tip) (scalar n) (as_array z_tip) (as_array r_tip)
        (as_array L_tip) (as_array g_factor) (as_array d_Q0) (as_array d_Q1) n_trapz (Some J) thr ri ra (as_array eps_env) = Ok result /\
      elements result = [] /\ In (Some b) (unmasked result []) /\ Cmod (b - beta)%C < eps.
Proof. exact C65_fdm_consistent_proof. Qed.
Print Assumptions C65_fdm_consistent.

(** C65. The same for the point dipole model, given the signal divided by the
    tip polarisability (which is what this inverse expects). *)
Theorem C65_pdm_consistent :
  forall eig sb sr (D : Defaults) (s : sample) (A_tip : R) (n : Z) (z_tip r_tip : option R) (n_trapz : option nat)
    (eps_tip alpha_tip : option C) (thr : option R) (ri ra : bool) (eps_env : option C) (alpha beta response : C),
  let N := given_or (d_n_trapz D) n_trapz in let z := given_or (d_z_tip D) z_tip in
  let r := given_or (d_r_tip D) r_tip in
  let f := fun x => (alpha / RtoC (16 * PI * (r + x) ^ 3))%C in
  library eig sb sr -> tip_alpha r eps_tip alpha_tip alpha -> refl_coef_qs s (rr 0) = Ok (Some beta) -> N <> O ->
  (forall k, (k < N)%nat -> let x := tip_height z A_tip N k in r + x <> 0 /\ Cmod (f x * beta)%C < 1) ->
  demod D (fun x => Ok (Some (f x / ((1 - f x * beta) * (1 - f x * beta)))%C)) (z + A_tip) A_tip n n_trapz
    = Ok (Some response) -> response <> RtoC 0 ->
  interior (given_or (d_beta_threshold D) thr) ri ra (given_or (d_eps_env D) eps_env) beta ->
  exists a c : C,
    pdm_eff_pol_n D s A_tip n z_tip n_trapz r_tip eps_tip alpha_tip = Ok (Some a) /\ a = (alpha * c)%C /\
    forall eps, 0 < eps -> exists J0, forall J, (J0 <= J)%nat -> exists result b,
      pdm_refl_coef_qs_from_eff_pol_n eig sb sr D (scalar (Some c)) (scalar A_tip) (scalar n) (as_array z_tip) (as_array r_tip)
        (as_array eps_tip) (as_array alpha_tip) n_trapz (Some J) thr ri ra (as_array eps_env) = Ok result /\
      elements result = [] /\ In (Some b) (unmasked result []) /\ Cmod (b - beta)%C < eps.
Proof. exact C65_pdm_consistent_proof. Qed.
Print Assumptions C65_pdm_consistent.
