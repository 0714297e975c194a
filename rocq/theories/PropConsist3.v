(** * Properties (generated by tools/gen_prop.py from ProofsConsist3.v; statements
    only, each proved there) *)
From Coq Require Import String Reals Lra Lia ZArith List Bool Permutation Sorted.
From Coquelicot Require Import Rcomplements Complex.
From Verif Require Import Num NumLemmas LimLemmas ModelBase ModelSample ModelTip NArr SpecArr NArrLemmas ModelObj SpecObj
  ModelArr ModelArrTip ModelInv StackLemmas Spec SpecPoly SpecInv SpecNear FTA ArrSample
  ProofsStackQS ProofsStackQS2 ProofsPassive DemodLemmas ProofsDemod ProofsTip ProofsTip2 ProofsTip3 ProofsTaylor
  ProofsArr ProofsArr2 ProofsArrTip InvLemmas ProofsInv ProofsInv2 ProofsInv3 ProofsInv4 ProofsInv5
  ProofsNear ProofsConsist ProofsConsist2.
Import ListNotations.
Open Scope R_scope.
From Verif Require Import ProofsConsist3.

(** C65. ... and [permitivitty] of that value, in the sample's environment, is as
    close as desired to the permittivity of the sample. *)
Theorem C65_permittivity :
  forall eig sb sr (laggauss : laggauss_t) (D : Defaults) (e0 e1 : C) nu (A_tip : R) (n : Z) (n_trapz : option nat)
    (z_tip r_tip L_tip : option R) (g_factor : option C) (d_Q0 d_Q1 d_Qa : option R) (n_lag : option nat)
    (thr : option R) (ri ra : bool) (eps_env : option C) (response : C),
  let s := stack [e0; e1] [] nu in let beta := ((e1 - e0) / (e1 + e0))%C in
  let N := given_or (d_n_trapz D) n_trapz in let z := given_or (d_z_tip D) z_tip in
  let r := given_or (d_r_tip D) r_tip in let L := given_or (d_L_tip D) L_tip in
  let d0 := given_or (131 / 100 * L / (L + 2 * r)) d_Q0 in let d1 := given_or (d_d_Q1 D) d_Q1 in
  let f0 := fun x => fdm_f x d0 r L (given_or (d_g_factor D) g_factor) in
  let f1 := fun x => fdm_f x d1 r L (given_or (d_g_factor D) g_factor) in
  library eig sb sr -> e0 <> RtoC 0 -> e1 <> RtoC 0 -> (e0 + e1 <> 0)%C -> N <> O -> resolved N n ->
  (forall k, (k < N)%nat -> let x := tip_height z A_tip N k in
     fdm_regular x d0 r L /\ fdm_regular x d1 r L /\ Cmod (beta * f1 x)%C < 1) ->
  demod D (fun x => Ok (Some (f0 x / (2 * ((1 - beta * f1 x) * (1 - beta * f1 x))))%C)) (z + A_tip) A_tip n n_trapz
    = Ok (Some response) -> response <> RtoC 0 ->
  interior (given_or (d_beta_threshold D) thr) ri ra (given_or (d_eps_env D) eps_env) beta ->
  exists a : C,
    fdm_eff_pol_n laggauss D s A_tip n z_tip n_trapz r_tip L_tip g_factor d_Q0 d_Q1 d_Qa n_lag None = Ok (Some a) /\
    forall eps, 0 < eps -> exists J0, forall J, (J0 <= J)%nat -> exists result b e,
      fdm_refl_coef_qs_from_eff_pol_n eig sb sr D (scalar (Some a)) (scalar A_tip) (scalar n) (as_array z_tip) (as_array r_tip)
        (as_array L_tip) (as_array g_factor) (as_array d_Q0) (as_array d_Q1) n_trapz (Some J) thr ri ra (as_array eps_env) = Ok result /\
      elements result = [] /\ In b (unmasked result []) /\ permitivitty b (Some e0) = Some e /\ Cmod (e - e1)%C < eps.
Proof. exact C65_permittivity_proof. Qed.
Print Assumptions C65_permittivity.

(** C65. Example: a tip with r = L = 1, g = 11/4, tapping by 1/4 from contact with
    a sample of permittivity 3, first harmonic from two samples, with
    [reject_subvacuum_eps_abs]: all hypotheses hold; the response is -1. *)
Example C65_example : forall D,
  (exists eig sb sr, library eig sb sr) /\
  let beta := ((RtoC 3 - RtoC 1) / (RtoC 3 + RtoC 1))%C in
  let f := fun x => fdm_f x (1 / 2) 1 1 (RtoC (11 / 4)) in
  resolved 2 1 /\
  (forall k, (k < 2)%nat -> let x := tip_height 0 (1 / 4) 2 k in
     fdm_regular x (1 / 2) 1 1 /\ Cmod (beta * f x)%C < 1) /\
  demod D (fun x => Ok (Some (f x / (2 * ((1 - beta * f x) * (1 - beta * f x))))%C)) (0 + 1 / 4) (1 / 4) 1 (Some 2%nat)
    = Ok (Some (RtoC (-1))) /\
  interior 1 false true (RtoC 1) beta.
Proof. exact C65_example_proof. Qed.
