(** * Proofs: returned values reproduce the measured signal (C66) *)
From Coq Require Import String Reals Lra Lia ZArith List Bool Permutation Sorted.
From Coquelicot Require Import Rcomplements Complex.
From Verif Require Import Num NumLemmas LimLemmas ModelBase ModelSample ModelTip NArr SpecArr NArrLemmas ModelObj SpecObj
  ModelArr ModelArrTip ModelInv StackLemmas Spec SpecPoly SpecInv SpecNear FTA ArrSample
  ProofsStackQS ProofsStackQS2 ProofsPassive DemodLemmas ProofsDemod ProofsTip ProofsTip2 ProofsTip3 ProofsTaylor
  ProofsArr ProofsArr2 ProofsArrTip InvLemmas ProofsInv ProofsInv2 ProofsInv3 ProofsInv4 ProofsInv5 ProofsConsist3.
Import ListNotations.
Open Scope R_scope.

Lemma taylor_n_tayl lg D s A n z r L g d0 d1 da nl method nt ntay J : given_or (d_n_tayl D) ntay = J ->
  fdm_eff_pol_n_taylor lg D s A n z r L g d0 d1 da nl method nt ntay
  = fdm_eff_pol_n_taylor lg D s A n z r L g d0 d1 da nl method nt (Some J).
Proof. intros <-. unfold fdm_eff_pol_n_taylor. rewrite (dflt_given (d_n_tayl D)). reflexivity. Qed.
Lemma pdm_taylor_n_tayl D s A n z r e a nt ntay J : given_or (d_n_tayl D) ntay = J ->
  pdm_eff_pol_n_taylor D s A n z r e a nt ntay = pdm_eff_pol_n_taylor D s A n z r e a nt (Some J).
Proof. intros <-. unfold pdm_eff_pol_n_taylor. rewrite (dflt_given (d_n_tayl D)). reflexivity. Qed.

(** C66. A bulk sample whose reflection coefficient is returned unmasked by the
    finite dipole inverse produces the given signal (in the exact model, not in
    the Taylor approximation) up to B rho^(n_tayl - 1) / (2 (1 - rho)), if the
    product of the coefficient with the geometry functions is at most B and
    rho < 1 at the sampled heights. *)
Lemma C66_fdm_round_trip_proof : forall eig sb sr (laggauss : laggauss_t) D alpha A n z r L g d_Q0 d_Q1 n_trapz n_tayl thr ri ra env result,
  library eig sb sr -> env_fits env (fdm_inverse_operands alpha A n z r L g d_Q0 d_Q1) ->
  fdm_refl_coef_qs_from_eff_pol_n eig sb sr D alpha A n z r L g d_Q0 d_Q1 n_trapz n_tayl thr ri ra env = Ok result ->
  forall i v, index_of (elements result) i -> In v (unmasked result i) ->
  exists b, v = Some b /\
    forall (e0 e1 : C) nu d_Qa n_lag (J : nat) (rho B : R),
    let N := given_or (d_n_trapz D) n_trapz in let z_i := given_or (d_z_tip D) (at_index z i) in
    let r_i := given_or (d_r_tip D) (at_index r i) in let L_i := given_or (d_L_tip D) (at_index L i) in
    let d0 := given_or (131 / 100 * L_i / (L_i + 2 * r_i)) (at_index d_Q0 i) in let d1 := given_or (d_d_Q1 D) (at_index d_Q1 i) in
    let g_i := given_or (d_g_factor D) (at_index g i) in
    e1 <> RtoC 0 -> (e0 + e1 <> 0)%C -> b = ((e1 - e0) / (e1 + e0))%C ->
    given_or (d_n_tayl D) n_tayl = S J -> N <> O -> resolved N (entry n i) -> rho < 1 ->
    (forall k, (k < N)%nat -> let x := tip_height z_i (entry A i) N k in
       fdm_regular x d0 r_i L_i /\ fdm_regular x d1 r_i L_i /\
       Cmod (b * fdm_f x d0 r_i L_i g_i)%C <= B /\ Cmod (b * fdm_f x d1 r_i L_i g_i)%C <= rho) ->
    exists al y,
      entry alpha i = Some al /\
      fdm_eff_pol_n laggauss D (stack [e0; e1] [] nu) (entry A i) (entry n i) (at_index z i) n_trapz (at_index r i) (at_index L i)
        (at_index g i) (at_index d_Q0 i) (at_index d_Q1 i) d_Qa n_lag None = Ok (Some y) /\
      Cmod (y - al)%C <= B * rho ^ J / (2 * (1 - rho)).
Proof.
  intros eig sb sr lg D alpha A n z r L g d_Q0 d_Q1 nt ntay thr ri ra env result LIB HE HR i v Hi Hv.
  destruct (C30_fdm_sound_proof eig sb sr lg D alpha A n z r L g d_Q0 d_Q1 nt ntay thr ri ra env result LIB HE HR i v Hi Hv)
    as (b & Eb & _ & Hs).
  exists b. split; [exact Eb|]. intros e0 e1 nu d_Qa n_lag J rho B N z_i r_i L_i d0 d1 g_i H1 H2 Hb HJ HN Hn Hrho HK.
  assert (Hq : refl_coef_qs (stack [e0; e1] [] nu) (rr 0) = Ok (Some b)) by (rewrite Hb; apply bulk_qs; assumption).
  specialize (Hs (stack [e0; e1] [] nu) d_Qa n_lag eq_refl Hq). rewrite (taylor_n_tayl _ _ _ _ _ _ _ _ _ _ _ _ _ _ _ _ _ HJ) in Hs.
  destruct (C28_error_bound_proof lg D e0 e1 nu (entry A i) (entry n i) nt (at_index z i) (at_index r i) (at_index L i) (at_index g i)
    (at_index d_Q0 i) (at_index d_Q1 i) d_Qa n_lag rho B H1 H2 HN Hn Hrho) as (y & Hy & Ht).
  { rewrite <- Hb. exact HK. }
  destruct (Ht J) as (t & Et & Lt). rewrite Et in Hs. injection Hs as Hs. exists t, y. rewrite <- Hs. auto.
Qed.

(** C66. The same for the point dipole inverse, with the signal in units of the
    tip polarisability: the error is at most rho^n_tayl / (1 - rho). *)
Lemma C66_pdm_round_trip_proof : forall eig sb sr D alpha A n z r eps_tip alpha_tip n_trapz n_tayl thr ri ra env result,
  library eig sb sr -> env_fits env (pdm_inverse_operands alpha A n z r eps_tip alpha_tip) ->
  pdm_refl_coef_qs_from_eff_pol_n eig sb sr D alpha A n z r eps_tip alpha_tip n_trapz n_tayl thr ri ra env = Ok result ->
  forall i v, index_of (elements result) i -> In v (unmasked result i) ->
  exists b, v = Some b /\
    forall (s : sample) (a_i : C) (rho : R),
    let N := given_or (d_n_trapz D) n_trapz in let z_i := given_or (d_z_tip D) (at_index z i) in
    let r_i := given_or (d_r_tip D) (at_index r i) in
    refl_coef_qs s (rr 0) = Ok (Some b) -> tip_alpha r_i (at_index eps_tip i) (at_index alpha_tip i) a_i -> N <> O -> rho < 1 ->
    (forall k, (k < N)%nat -> let x := tip_height z_i (entry A i) N k in
       r_i + x <> 0 /\ Cmod (a_i / RtoC (16 * PI * (r_i + x) ^ 3) * b)%C <= rho) ->
    exists al c,
      entry alpha i = Some al /\
      pdm_eff_pol_n D s (entry A i) (entry n i) (at_index z i) n_trapz (at_index r i) (at_index eps_tip i) (at_index alpha_tip i)
        = Ok (Some (a_i * c)%C) /\
      Cmod (c - al)%C <= rho ^ given_or (d_n_tayl D) n_tayl / (1 - rho).
Proof.
  intros eig sb sr D alpha A n z r et at' nt ntay thr ri ra env result LIB HE HR i v Hi Hv.
  destruct (C30_pdm_sound_proof eig sb sr D alpha A n z r et at' nt ntay thr ri ra env result LIB HE HR i v Hi Hv)
    as (b & Eb & _ & Hs).
  exists b. split; [exact Eb|]. intros s a_i rho N z_i r_i Hq Ht HN Hrho HK.
  specialize (Hs s Hq). rewrite (pdm_taylor_n_tayl _ _ _ _ _ _ _ _ _ _ _ eq_refl) in Hs. set (J := given_or (d_n_tayl D) ntay) in *.
  set (f := fun x => (a_i / RtoC (16 * PI * (r_i + x) ^ 3))%C) in *.
  assert (HK' : forall k, (k < N)%nat -> let x := tip_height z_i (entry A i) N k in r_i + x <> 0 /\ (1 - f x * b <> 0)%C).
  { intros k Hk. destruct (HK k Hk) as [Q1 Q2]. cbv zeta. split; [exact Q1|]. apply (Cmod_1_minus _ rho Q2 Hrho). }
  destruct (C29_exact_remainder_proof D s (entry A i) (entry n i) (at_index z i) (at_index r i) nt (at_index et i) (at_index at' i)
    a_i b J Ht Hq HN HK') as (a & t & e & Ha & Et & Ee & E).
  rewrite Et in Hs. injection Hs as Hs. exists t, (t + e)%C. split; [rewrite <- Hs; reflexivity|]. split; [rewrite Ha, E; reflexivity|].
  replace (t + e - t)%C with e by ring.
  assert (X : e = tmean z_i (entry A i) (entry n i) N (fun x => Cpown (f x * b) J / (1 - f x * b))%C).
  { assert (X : demod D (fun x => Ok (Some (Cpown (f x * b) J / (1 - f x * b))%C)) (z_i + entry A i) (entry A i) (entry n i) nt
      = Ok (Some (tmean z_i (entry A i) (entry n i) N (fun x => Cpown (f x * b) J / (1 - f x * b))%C))).
    { apply demod_tip; [exact HN|eauto|]. reflexivity. }
    pose proof (eq_trans (eq_sym Ee) X) as Y. congruence. }
  rewrite X. apply tmean_bound; [exact HN|]. intros k Hk. destruct (HK k Hk) as [_ Q2]. set (x := tip_height z_i (entry A i) N k) in *.
  fold (f x) in Q2. destruct (Cmod_1_minus _ rho Q2 Hrho) as [N1 B1]. rewrite Cmod_div by exact N1. rewrite Cmod_pown.
  pose proof (Cmod_ge_0 (f x * b)%C). unfold Rdiv. apply Rmult_le_compat.
  - apply pow_le. lra.
  - apply Rlt_le, Rinv_0_lt_compat. lra.
  - apply pow_incr. lra.
  - apply Rinv_le_contravar; lra.
Qed.

(** C66. Example: in the call of the example for C30 the value 1/2 is returned
    for the signal 11/8; the sample has permittivity 3, and B = rho = 1/2. *)
Lemma C66_example_proof : forall D eig sb sr, library eig sb sr ->
  let alpha := mkArr [2%nat] (fun i => if Nat.eqb (hd 0%nat i) 0 then Some (RtoC (11 / 8)) else Some (RtoC 1)) in
  let env := Some (scalar (RtoC 1)) in
  (env_fits env (fdm_inverse_operands alpha (scalar 0%R) (scalar 0%Z) (Some (scalar 0%R)) (Some (scalar 1%R)) (Some (scalar 1%R))
    (Some (scalar (RtoC (11 / 4)))) (Some (scalar (1 / 2)%R)) (Some (scalar (1 / 2)%R))) /\
  exists r, fdm_refl_coef_qs_from_eff_pol_n eig sb sr D alpha
      (scalar 0%R) (scalar 0%Z) (Some (scalar 0%R)) (Some (scalar 1%R)) (Some (scalar 1%R)) (Some (scalar (RtoC (11 / 4))))
      (Some (scalar (1 / 2)%R)) (Some (scalar (1 / 2)%R)) (Some 1%nat) (Some 3%nat) (Some 1%R) true false env = Ok r /\
    index_of (elements r) [0%nat] /\ In (Some (RtoC (1 / 2))) (unmasked r [0%nat])) /\
  RtoC (1 / 2) = ((RtoC 3 - RtoC 1) / (RtoC 3 + RtoC 1))%C /\ resolved 1 0 /\
  forall k, (k < 1)%nat -> let x := tip_height 0 0 1 k in
    fdm_regular x (1 / 2) 1 1 /\ Cmod (RtoC (1 / 2) * fdm_f x (1 / 2) 1 1 (RtoC (11 / 4)))%C <= 1 / 2.
Proof.
  intros D eig sb sr LIB alpha env. split; [exact (C30_example_proof D eig sb sr LIB)|].
  split; [rewrite <- RtoC_minus, <- RtoC_plus, <- RtoC_div by lra; f_equal; field|]. split; [left; reflexivity|].
  intros k Hk x. replace x with 0 by (unfold x, tip_height; ring). split; [unfold fdm_regular; lra|].
  rewrite f_at_0, <- RtoC_minus, <- !RtoC_mult, Cmod_R, Rabs_pos_eq; lra.
Qed.
