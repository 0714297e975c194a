(** * Properties (generated by tools/gen_prop.py from ProofsFirst2.v; statements
    only, each proved there) *)
From Coq Require Import String Reals Lra Lia ZArith List Bool Permutation Sorted.
From Coquelicot Require Import Rcomplements Complex.
From Verif Require Import Num NumLemmas LimLemmas ModelBase ModelSample ModelTip NArr SpecArr NArrLemmas ModelObj SpecObj
  ModelArr ModelArrTip ModelInv StackLemmas Spec SpecPoly SpecInv SpecNear SpecFirst FTA ArrSample
  ProofsStackQS ProofsStackQS2 ProofsPassive DemodLemmas ProofsDemod ProofsTip ProofsTip2 ProofsTip3 ProofsTaylor
  ProofsArr ProofsArr2 ProofsArrTip InvLemmas ProofsInv ProofsInv2 ProofsInv3 ProofsInv4 ProofsNear ProofsConsist ProofsConsist2
  PosDef ProofsContrast ProofsContrast2 PosPoly ProofsFirst.
Import ListNotations.
Open Scope R_scope.
From Verif Require Import ProofsFirst2.

(** C84. Finite dipole model with a real g factor, over a lossless bulk sample with
    non-negative reflection coefficient b, with two or more Taylor terms, and while
    the whole stroke stays below the heights where the geometry functions change
    sign: the inverse of the signal of the Taylor series returns b first, once, and
    every other solution it returns is strictly larger in magnitude. *)
Theorem C84_fdm_first :
  forall eig sb sr (laggauss : laggauss_t) (D : Defaults) (s : sample) (A_tip : R) (n : Z) (n_trapz : option nat)
    (z_tip r_tip L_tip : option R) (g_factor : option C) (d_Q0 d_Q1 d_Qa : option R) (n_lag : option nat)
    (thr : option R) (ri ra : bool) (eps_env : option C) (g b : R) (J : nat),
  let N := given_or (d_n_trapz D) n_trapz in let z := given_or (d_z_tip D) z_tip in
  let r := given_or (d_r_tip D) r_tip in let L := given_or (d_L_tip D) L_tip in
  let d0 := given_or (131 / 100 * L / (L + 2 * r)) d_Q0 in let d1 := given_or (d_d_Q1 D) d_Q1 in
  library eig sb sr -> given_or (d_g_factor D) g_factor = RtoC g ->
  multilayer s = false -> refl_coef_qs s (rr 0) = Ok (Some (RtoC b)) ->
  N <> O -> 0 < A_tip -> 0 < r < 4 * L -> 0 < r + 4 * z + 2 * r * d0 -> 0 < r + 4 * z + 2 * r * d1 ->
  r + 2 * (z + 2 * A_tip) + r * d0 <= 2 * L * g -> r + 4 * (z + 2 * A_tip) + 2 * r * d0 <= 4 * L ->
  r + 2 * (z + 2 * A_tip) + r * d1 <= 2 * L * g -> r + 4 * (z + 2 * A_tip) + 2 * r * d1 <= 4 * L ->
  0 <= b -> (2 <= J)%nat ->
  admissible (given_or (d_beta_threshold D) thr) ri ra (given_or (d_eps_env D) eps_env) (RtoC b) ->
  exists (a : R) result,
    fdm_eff_pol_n_taylor laggauss D s A_tip n z_tip r_tip L_tip g_factor d_Q0 d_Q1 d_Qa n_lag None n_trapz (Some J) = Ok (Some (RtoC a)) /\
    fdm_refl_coef_qs_from_eff_pol_n eig sb sr D (scalar (Some (RtoC a))) (scalar A_tip) (scalar n) (as_array z_tip) (as_array r_tip)
        (as_array L_tip) (as_array g_factor) (as_array d_Q0) (as_array d_Q1) n_trapz (Some J) thr ri ra (as_array eps_env) = Ok result /\
    smallest_first result b.
Proof. exact C84_fdm_first_proof. Qed.
Print Assumptions C84_fdm_first.

(** C84. The response of the Taylor series to the reflection coefficient is at
    least its first coefficient: two lossless samples whose signals differ by
    delta have reflection coefficients that differ by at most delta / |c_1|, for
    any number of terms; noise in the signal is amplified by at most 1/|c_1|. *)
Theorem C84_fdm_stable :
  forall (laggauss : laggauss_t) (D : Defaults) (s s' : sample) (A_tip : R) (n : Z) (n_trapz : option nat)
    (z_tip r_tip L_tip : option R) (g_factor : option C) (d_Q0 d_Q1 d_Qa : option R) (n_lag : option nat) (g b b' : R),
  let N := given_or (d_n_trapz D) n_trapz in let z := given_or (d_z_tip D) z_tip in
  let r := given_or (d_r_tip D) r_tip in let L := given_or (d_L_tip D) L_tip in
  let d0 := given_or (131 / 100 * L / (L + 2 * r)) d_Q0 in let d1 := given_or (d_d_Q1 D) d_Q1 in
  given_or (d_g_factor D) g_factor = RtoC g ->
  multilayer s = false -> refl_coef_qs s (rr 0) = Ok (Some (RtoC b)) ->
  multilayer s' = false -> refl_coef_qs s' (rr 0) = Ok (Some (RtoC b')) ->
  N <> O -> 0 < A_tip -> 0 < r < 4 * L -> 0 < r + 4 * z + 2 * r * d0 -> 0 < r + 4 * z + 2 * r * d1 ->
  r + 2 * (z + 2 * A_tip) + r * d0 <= 2 * L * g -> r + 4 * (z + 2 * A_tip) + 2 * r * d0 <= 4 * L ->
  r + 2 * (z + 2 * A_tip) + r * d1 <= 2 * L * g -> r + 4 * (z + 2 * A_tip) + 2 * r * d1 <= 4 * L ->
  0 <= b -> 0 <= b' ->
  exists c1 : R, c1 <> 0 /\
    fdm_taylor_coef D z 1 A_tip n (rr r) (rr L) (Some (RtoC g)) (rr d0) (rr d1) n_trapz = Ok (Some (RtoC c1)) /\
    forall J, (2 <= J)%nat -> exists a a' : R,
      fdm_eff_pol_n_taylor laggauss D s A_tip n z_tip r_tip L_tip g_factor d_Q0 d_Q1 d_Qa n_lag None n_trapz (Some J) = Ok (Some (RtoC a)) /\
      fdm_eff_pol_n_taylor laggauss D s' A_tip n z_tip r_tip L_tip g_factor d_Q0 d_Q1 d_Qa n_lag None n_trapz (Some J) = Ok (Some (RtoC a')) /\
      Rabs c1 * Rabs (b' - b) <= Rabs (a' - a).
Proof. exact C84_fdm_stable_proof. Qed.
Print Assumptions C84_fdm_stable.

(** C84. Inverting the exact signal of a lossless sample with a truncated series
    overestimates the reflection coefficient: for every number of terms the
    truncated series has exactly one non-negative solution est J for the exact
    signal; it is larger than the true value (unless that is 0), decreases with
    the number of terms, is off by at most the truncation error divided by the
    first Taylor coefficient, tends to the true value, and is what the inverse
    returns first if it meets the requested restrictions. *)
Theorem C84_fdm_overestimates :
  forall eig sb sr (laggauss : laggauss_t) (D : Defaults) (s : sample) (A_tip : R) (n : Z) (n_trapz : option nat)
    (z_tip r_tip L_tip : option R) (g_factor : option C) (d_Q0 d_Q1 d_Qa : option R) (n_lag : option nat)
    (thr : option R) (ri ra : bool) (eps_env : option C) (g b : R),
  let N := given_or (d_n_trapz D) n_trapz in let z := given_or (d_z_tip D) z_tip in
  let r := given_or (d_r_tip D) r_tip in let L := given_or (d_L_tip D) L_tip in
  let d0 := given_or (131 / 100 * L / (L + 2 * r)) d_Q0 in let d1 := given_or (d_d_Q1 D) d_Q1 in
  library eig sb sr -> given_or (d_g_factor D) g_factor = RtoC g ->
  multilayer s = false -> refl_coef_qs s (rr 0) = Ok (Some (RtoC b)) ->
  N <> O -> resolved N n -> 0 < A_tip -> 0 < r < 4 * L -> 0 < r + 4 * z + 2 * r * d0 -> 0 < r + 4 * z + 2 * r * d1 ->
  r + 2 * (z + 2 * A_tip) + r * d0 <= 2 * L * g -> r + 4 * (z + 2 * A_tip) + 2 * r * d0 <= 4 * L ->
  r + 2 * (z + 2 * A_tip) + r * d1 <= 2 * L * g -> r + 4 * (z + 2 * A_tip) + 2 * r * d1 <= 4 * L ->
  0 <= b -> b * Re (fdm_f z d1 r L (RtoC g)) < 1 ->
  exists (a c1 : R) (est : nat -> R),
    fdm_eff_pol_n laggauss D s A_tip n z_tip n_trapz r_tip L_tip g_factor d_Q0 d_Q1 d_Qa n_lag None = Ok (Some (RtoC a)) /\
    fdm_taylor_coef D z 1 A_tip n (rr r) (rr L) (Some (RtoC g)) (rr d0) (rr d1) n_trapz = Ok (Some (RtoC c1)) /\ c1 <> 0 /\
    (forall J, (2 <= J)%nat ->
      b <= est J /\ (0 < b -> b < est J) /\ (forall J', (J <= J')%nat -> est J' <= est J) /\
      (exists t : R, fdm_eff_pol_n_taylor laggauss D s A_tip n z_tip r_tip L_tip g_factor d_Q0 d_Q1 d_Qa n_lag None n_trapz (Some J) = Ok (Some (RtoC t)) /\
         Rabs c1 * (est J - b) <= Rabs (a - t)) /\
      (admissible (given_or (d_beta_threshold D) thr) ri ra (given_or (d_eps_env D) eps_env) (RtoC (est J)) ->
       exists result,
         fdm_refl_coef_qs_from_eff_pol_n eig sb sr D (scalar (Some (RtoC a))) (scalar A_tip) (scalar n) (as_array z_tip) (as_array r_tip)
           (as_array L_tip) (as_array g_factor) (as_array d_Q0) (as_array d_Q1) n_trapz (Some J) thr ri ra (as_array eps_env) = Ok result /\
         smallest_first result (est J))) /\
    (forall eps, 0 < eps -> exists J0, forall J, (J0 <= J)%nat -> est J - b < eps).
Proof. exact C84_fdm_overestimates_proof. Qed.
Print Assumptions C84_fdm_overestimates.
