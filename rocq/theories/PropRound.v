(** * Properties (generated by tools/gen_prop.py from ProofsRound.v; statements
    only, each proved there) *)
From Coq Require Import String Reals Lra Lia ZArith List Bool Permutation Sorted.
From Coquelicot Require Import Rcomplements Complex.
From Verif Require Import Num NumLemmas LimLemmas ModelBase ModelSample ModelTip NArr SpecArr NArrLemmas ModelObj SpecObj
  ModelArr ModelArrTip ModelInv StackLemmas Spec SpecPoly SpecInv SpecNear FTA ArrSample
  ProofsStackQS ProofsStackQS2 ProofsPassive DemodLemmas ProofsDemod ProofsTip ProofsTip2 ProofsTip3 ProofsTaylor
  ProofsArr ProofsArr2 ProofsArrTip InvLemmas ProofsInv ProofsInv2 ProofsInv3 ProofsInv4 ProofsInv5 ProofsConsist3.
Import ListNotations.
Open Scope R_scope.
From Verif Require Import ProofsRound.

(** C66. A bulk sample whose reflection coefficient is returned unmasked by the
    finite dipole inverse produces the given signal (in the exact model, not in
    the Taylor approximation) up to B rho^(n_tayl - 1) / (2 (1 - rho)), if the
    product of the coefficient with the geometry functions is at most B and
    rho < 1 at the sampled heights. *)
Theorem C66_fdm_round_trip : forall eig sb sr (laggauss : laggauss_t) D alpha A n z r L g d_Q0 d_Q1 n_trapz n_tayl thr ri ra env result,
  library eig sb sr -> env_fits env (fdm_inverse_operands alpha A n z r L g d_Q0 d_Q1) ->
  fdm_refl_coef_qs_from_eff_pol_n eig sb sr D alpha A n z r L g d_Q0 d_Q1 n_trapz n_tayl thr ri ra env = Ok result ->
  forall i v, index_of (elements result) i -> In v (unmasked result i) ->
  exists b, v = Some b /\
    forall (e0 e1 : C) nu d_Qa n_lag (J : nat) (rho B : R),
    let N := given_or (d_n_trapz D) n_trapz in let z_i := given_or (d_z_tip D) (at_index z i) in
    let r_i := given_or (d_r_tip D) (at_index r i) in let L_i := given_or (d_L_tip D) (at_index L i) in
    let d0 := given_or (131 / 100 * L_i / (L_i + 2 * r_i)) (at_index d_Q0 i) in let d1 := given_or (d_d_Q1 D) (at_index d_Q1 i) in
    let g_i := given_or (d_g_factor D) (at_index g i) in
    e1 <> RtoC 0 -> (e0 + e1 <> 0)%C -> b = ((e1 - e0) / (e1 + e0))%C ->
    given_or (d_n_tayl D) n_tayl = S J -> N <> O -> resolved N (entry n i) -> rho < 1 ->
    (forall k, (k < N)%nat -> let x := tip_height z_i (entry A i) N k in
       fdm_regular x d0 r_i L_i /\ fdm_regular x d1 r_i L_i /\
       Cmod (b * fdm_f x d0 r_i L_i g_i)%C <= B /\ Cmod (b * fdm_f x d1 r_i L_i g_i)%C <= rho) ->
    exists al y,
      entry alpha i = Some al /\
      fdm_eff_pol_n laggauss D (stack [e0; e1] [] nu) (entry A i) (entry n i) (at_index z i) n_trapz (at_index r i) (at_index L i)
        (at_index g i) (at_index d_Q0 i) (at_index d_Q1 i) d_Qa n_lag None = Ok (Some y) /\
      Cmod (y - al)%C <= B * rho ^ J / (2 * (1 - rho)).
Proof. exact C66_fdm_round_trip_proof. Qed.
Print Assumptions C66_fdm_round_trip.

(** C66. The same for the point dipole inverse, with the signal in units of the
    tip polarisability: the error is at most rho^n_tayl / (1 - rho). *)
Theorem C66_pdm_round_trip : forall eig sb sr D alpha A n z r eps_tip alpha_tip n_trapz n_tayl thr ri ra env result,
  library eig sb sr -> env_fits env (pdm_inverse_operands alpha A n z r eps_tip alpha_tip) ->
  pdm_refl_coef_qs_from_eff_pol_n eig sb sr D alpha A n z r eps_tip alpha_tip n_trapz n_tayl thr ri ra env = Ok result ->
  forall i v, index_of (elements result) i -> In v (unmasked result i) ->
  exists b, v = Some b /\
    forall (s : sample) (a_i : C) (rho : R),
    let N := given_or (d_n_trapz D) n_trapz in let z_i := given_or (d_z_tip D) (at_index z i) in
    let r_i := given_or (d_r_tip D) (at_index r i) in
    refl_coef_qs s (rr 0) = Ok (Some b) -> tip_alpha r_i (at_index eps_tip i) (at_index alpha_tip i) a_i -> N <> O -> rho < 1 ->
    (forall k, (k < N)%nat -> let x := tip_height z_i (entry A i) N k in
       r_i + x <> 0 /\ Cmod (a_i / RtoC (16 * PI * (r_i + x) ^ 3) * b)%C <= rho) ->
    exists al c,
      entry alpha i = Some al /\
      pdm_eff_pol_n D s (entry A i) (entry n i) (at_index z i) n_trapz (at_index r i) (at_index eps_tip i) (at_index alpha_tip i)
        = Ok (Some (a_i * c)%C) /\
      Cmod (c - al)%C <= rho ^ given_or (d_n_tayl D) n_tayl / (1 - rho).
Proof. exact C66_pdm_round_trip_proof. Qed.
Print Assumptions C66_pdm_round_trip.

(** C66. Example: in the call of the example for C30 the value 1/2 is returned
    for the signal 11/8; the sample has permittivity 3, and B = rho = 1/2. *)
Example C66_example : forall D eig sb sr, library eig sb sr ->
  let alpha := mkArr [2%nat] (fun i => if Nat.eqb (hd 0%nat i) 0 then Some (RtoC (11 / 8)) else Some (RtoC 1)) in
  let env := Some (scalar (RtoC 1)) in
  (env_fits env (fdm_inverse_operands alpha (scalar 0%R) (scalar 0%Z) (Some (scalar 0%R)) (Some (scalar 1%R)) (Some (scalar 1%R))
    (Some (scalar (RtoC (11 / 4)))) (Some (scalar (1 / 2)%R)) (Some (scalar (1 / 2)%R))) /\
  exists r, fdm_refl_coef_qs_from_eff_pol_n eig sb sr D alpha
      (scalar 0%R) (scalar 0%Z) (Some (scalar 0%R)) (Some (scalar 1%R)) (Some (scalar 1%R)) (Some (scalar (RtoC (11 / 4))))
      (Some (scalar (1 / 2)%R)) (Some (scalar (1 / 2)%R)) (Some 1%nat) (Some 3%nat) (Some 1%R) true false env = Ok r /\
    index_of (elements r) [0%nat] /\ In (Some (RtoC (1 / 2))) (unmasked r [0%nat])) /\
  RtoC (1 / 2) = ((RtoC 3 - RtoC 1) / (RtoC 3 + RtoC 1))%C /\ resolved 1 0 /\
  forall k, (k < 1)%nat -> let x := tip_height 0 0 1 k in
    fdm_regular x (1 / 2) 1 1 /\ Cmod (RtoC (1 / 2) * fdm_f x (1 / 2) 1 1 (RtoC (11 / 4)))%C <= 1 / 2.
Proof. exact C66_example_proof. Qed.
