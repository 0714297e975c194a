(** * Properties (generated by tools/gen_prop.py from ProofsFirst3.v; statements
    only, each proved there) *)
From Coq Require Import String Reals Lra Lia ZArith List Bool Permutation Sorted.
From Coquelicot Require Import Rcomplements Complex.
From Verif Require Import Num NumLemmas LimLemmas ModelBase ModelSample ModelTip NArr SpecArr NArrLemmas ModelObj SpecObj
  ModelArr ModelArrTip ModelInv StackLemmas Spec SpecPoly SpecInv SpecNear SpecFirst FTA ArrSample
  ProofsStackQS ProofsStackQS2 ProofsPassive DemodLemmas ProofsDemod ProofsTip ProofsTip2 ProofsTip3 ProofsTaylor
  ProofsArr ProofsArr2 ProofsArrTip InvLemmas ProofsInv ProofsInv2 ProofsInv3 ProofsInv4 ProofsNear ProofsConsist ProofsConsist2 ProofsConsist3
  PosDef ProofsContrast ProofsContrast2 PosPoly ProofsFirst ProofsFirst2.
Import ListNotations.
Open Scope R_scope.
From Verif Require Import ProofsFirst3.

(** C84. The same for the point dipole model, for every sample, bulk or layered, with
    a real non-negative quasistatic reflection coefficient. *)
Theorem C84_pdm_first :
  forall eig sb sr (D : Defaults) (s : sample) (A_tip : R) (n : Z) (z_tip r_tip : option R) (n_trapz : option nat)
    (eps_tip alpha_tip : option C) (thr : option R) (ri ra : bool) (eps_env : option C) (alpha b : R) (J : nat),
  let N := given_or (d_n_trapz D) n_trapz in let z := given_or (d_z_tip D) z_tip in
  let r := given_or (d_r_tip D) r_tip in
  library eig sb sr -> tip_alpha r eps_tip alpha_tip (RtoC alpha) -> 0 < alpha ->
  refl_coef_qs s (rr 0) = Ok (Some (RtoC b)) -> N <> O -> 0 < A_tip -> 0 < r + z -> 0 <= b -> (2 <= J)%nat ->
  admissible (given_or (d_beta_threshold D) thr) ri ra (given_or (d_eps_env D) eps_env) (RtoC b) ->
  exists (a : R) result,
    pdm_eff_pol_n_taylor D s A_tip n z_tip r_tip eps_tip alpha_tip n_trapz (Some J) = Ok (Some (RtoC a)) /\
    pdm_refl_coef_qs_from_eff_pol_n eig sb sr D (scalar (Some (RtoC a))) (scalar A_tip) (scalar n) (as_array z_tip) (as_array r_tip)
        (as_array eps_tip) (as_array alpha_tip) n_trapz (Some J) thr ri ra (as_array eps_env) = Ok result /\
    smallest_first result b.
Proof. exact C84_pdm_first_proof. Qed.
Print Assumptions C84_pdm_first.

(** C84. Noise in the signal is amplified by at most 1/|c_1|. *)
Theorem C84_pdm_stable :
  forall (D : Defaults) (s s' : sample) (A_tip : R) (n : Z) (z_tip r_tip : option R) (n_trapz : option nat)
    (eps_tip alpha_tip : option C) (alpha b b' : R),
  let N := given_or (d_n_trapz D) n_trapz in let z := given_or (d_z_tip D) z_tip in
  let r := given_or (d_r_tip D) r_tip in
  tip_alpha r eps_tip alpha_tip (RtoC alpha) -> 0 < alpha ->
  refl_coef_qs s (rr 0) = Ok (Some (RtoC b)) -> refl_coef_qs s' (rr 0) = Ok (Some (RtoC b')) ->
  N <> O -> 0 < A_tip -> 0 < r + z -> 0 <= b -> 0 <= b' ->
  exists c1 : R, c1 <> 0 /\
    pdm_taylor_coef D z 1 A_tip n (rr r) (Some (RtoC alpha)) n_trapz = Ok (Some (RtoC c1)) /\
    forall J, (2 <= J)%nat -> exists a a' : R,
      pdm_eff_pol_n_taylor D s A_tip n z_tip r_tip eps_tip alpha_tip n_trapz (Some J) = Ok (Some (RtoC a)) /\
      pdm_eff_pol_n_taylor D s' A_tip n z_tip r_tip eps_tip alpha_tip n_trapz (Some J) = Ok (Some (RtoC a')) /\
      Rabs c1 * Rabs (b' - b) <= Rabs (a' - a).
Proof. exact C84_pdm_stable_proof. Qed.
Print Assumptions C84_pdm_stable.

(** C84. The truncated inverse overestimates, by an amount that decreases to 0 with
    the number of terms (the exact signal being divided by the polarizability of
    the tip, as the inverse expects). *)
Theorem C84_pdm_overestimates :
  forall eig sb sr (D : Defaults) (s : sample) (A_tip : R) (n : Z) (z_tip r_tip : option R) (n_trapz : option nat)
    (eps_tip alpha_tip : option C) (thr : option R) (ri ra : bool) (eps_env : option C) (alpha b : R),
  let N := given_or (d_n_trapz D) n_trapz in let z := given_or (d_z_tip D) z_tip in
  let r := given_or (d_r_tip D) r_tip in
  library eig sb sr -> tip_alpha r eps_tip alpha_tip (RtoC alpha) -> 0 < alpha ->
  refl_coef_qs s (rr 0) = Ok (Some (RtoC b)) -> N <> O -> 0 < A_tip -> 0 < r + z -> 0 <= b ->
  alpha * b < 16 * PI * (r + z) ^ 3 ->
  exists (a c1 : R) (est : nat -> R),
    pdm_eff_pol_n D s A_tip n z_tip n_trapz r_tip eps_tip alpha_tip = Ok (Some (RtoC (alpha * a))) /\
    pdm_taylor_coef D z 1 A_tip n (rr r) (Some (RtoC alpha)) n_trapz = Ok (Some (RtoC c1)) /\ c1 <> 0 /\
    (forall J, (2 <= J)%nat ->
      b <= est J /\ (0 < b -> b < est J) /\ (forall J', (J <= J')%nat -> est J' <= est J) /\
      (exists t : R, pdm_eff_pol_n_taylor D s A_tip n z_tip r_tip eps_tip alpha_tip n_trapz (Some J) = Ok (Some (RtoC t)) /\
         Rabs c1 * (est J - b) <= Rabs (a - t)) /\
      (admissible (given_or (d_beta_threshold D) thr) ri ra (given_or (d_eps_env D) eps_env) (RtoC (est J)) ->
       exists result,
         pdm_refl_coef_qs_from_eff_pol_n eig sb sr D (scalar (Some (RtoC a))) (scalar A_tip) (scalar n) (as_array z_tip) (as_array r_tip)
           (as_array eps_tip) (as_array alpha_tip) n_trapz (Some J) thr ri ra (as_array eps_env) = Ok result /\
         smallest_first result (est J))) /\
    (forall eps, 0 < eps -> exists J0, forall J, (J0 <= J)%nat -> est J - b < eps).
Proof. exact C84_pdm_overestimates_proof. Qed.
Print Assumptions C84_pdm_overestimates.

(** C84. Example: a tip of radius 1 and length 3 with g = 2 tapping by 1/4 from
    contact over a sample of permittivity 3 (b = 1/2), third harmonic from seven
    samples, both restrictions requested.  All hypotheses hold, also that on the
    loop gain; the inverse of the series with five terms returns 1/2 first. *)
Example C84_example : forall eig sb sr (laggauss : laggauss_t) (D : Defaults), library eig sb sr ->
  let s := stack [RtoC 1; RtoC 3] [] None in
  refl_coef_qs s (rr 0) = Ok (Some (RtoC (1 / 2))) /\ resolved 7 3 /\ 1 / 2 * Re (fdm_f 0 (1 / 2) 1 3 (RtoC 2)) < 1 /\
  exists a result,
    fdm_eff_pol_n_taylor laggauss D s (1 / 4) 3 (Some 0) (Some 1) (Some 3) (Some (RtoC 2)) (Some (1 / 2)) (Some (1 / 2)) None None None (Some 7%nat) (Some 5%nat)
      = Ok (Some (RtoC a)) /\
    fdm_refl_coef_qs_from_eff_pol_n eig sb sr D (scalar (Some (RtoC a))) (scalar (1 / 4)) (scalar 3%Z) (Some (scalar 0)) (Some (scalar 1))
      (Some (scalar 3)) (Some (scalar (RtoC 2))) (Some (scalar (1 / 2))) (Some (scalar (1 / 2))) (Some 7%nat) (Some 5%nat) (Some 1) true true
      (Some (scalar (RtoC 1))) = Ok result /\
    smallest_first result (1 / 2).
Proof. exact C84_example_proof. Qed.
