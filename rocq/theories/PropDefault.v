(** * Properties (generated by tools/gen_prop.py from ProofsDefault.v; statements
    only, each proved there) *)
From Coq Require Import String Reals Lra Lia ZArith List Bool Permutation Sorted.
From Coquelicot Require Import Rcomplements Complex ElemFct.
From Verif Require Import Num NumLemmas LimLemmas ModelBase ModelSample ModelTip NArr SpecArr NArrLemmas ModelObj SpecObj
  ModelArr ModelArrTip ModelInv StackLemmas Spec SpecPoly SpecInv SpecNear FTA ArrSample
  ProofsStackQS ProofsStackQS2 ProofsPassive DemodLemmas ProofsDemod ProofsTip ProofsTip2 ProofsTip3 ProofsTaylor
  ProofsArr ProofsArr2 ProofsArrTip InvLemmas ProofsInv ProofsInv2 ProofsInv3 ProofsInv4 ProofsInv5 ProofsConsist3 ProofsRound.
Import ListNotations.
Open Scope R_scope.
From Verif Require Import ProofsDefault.

(** C78. With the default tip (and the default number of terms, 16),
    fdm.eff_pol_n_taylor differs from fdm.eff_pol_n by at most 10^-4 for every
    bulk sample the default beta_threshold admits, every amplitude and height
    that stays below 280 nm, every resolved harmonic. *)
Theorem C78_fdm_default : forall (laggauss : laggauss_t) (e0 e1 : C) nu (A_tip z : R) (n : Z) (n_trapz : option nat) d_Qa n_lag,
  let s := stack [e0; e1] [] nu in let N := given_or 32%nat n_trapz in
  e1 <> RtoC 0 -> (e0 + e1 <> 0)%C -> Cmod ((e1 - e0) / (e1 + e0))%C <= 101 / 100 ->
  N <> O -> resolved N n -> 0 <= z -> 0 <= A_tip -> z + 2 * A_tip <= 280 / 10 ^ 9 ->
  exists a t : C,
    fdm_eff_pol_n laggauss defaults0 s A_tip n (Some z) n_trapz None None None None None d_Qa n_lag None = Ok (Some a) /\
    fdm_eff_pol_n_taylor laggauss defaults0 s A_tip n (Some z) None None None None None d_Qa n_lag None n_trapz None = Ok (Some t) /\
    Cmod (a - t)%C <= 1 / 10 ^ 4.
Proof. exact C78_fdm_default_proof. Qed.
Print Assumptions C78_fdm_default.

(** C78. Hence whatever fdm.refl_coef_qs_from_eff_pol_n returns with the default tip
    and Taylor settings reproduces, as a bulk sample in the exact model, the
    signal it was computed from to 10^-4. *)
Theorem C78_fdm_inverse : forall eig sb sr (laggauss : laggauss_t) alpha A n z n_trapz ri ra env result,
  library eig sb sr -> env_fits env (fdm_inverse_operands alpha A n z None None None None None) ->
  fdm_refl_coef_qs_from_eff_pol_n eig sb sr defaults0 alpha A n z None None None None None n_trapz None None ri ra env = Ok result ->
  forall i v, index_of (elements result) i -> In v (unmasked result i) ->
  let N := given_or 32%nat n_trapz in let z_i := given_or 0 (at_index z i) in
  N <> O -> resolved N (entry n i) -> 0 <= z_i -> 0 <= entry A i -> z_i + 2 * entry A i <= 280 / 10 ^ 9 ->
  exists b, v = Some b /\
    forall (e0 e1 : C) nu d_Qa n_lag, e1 <> RtoC 0 -> (e0 + e1 <> 0)%C -> b = ((e1 - e0) / (e1 + e0))%C ->
    exists al y, entry alpha i = Some al /\
      fdm_eff_pol_n laggauss defaults0 (stack [e0; e1] [] nu) (entry A i) (entry n i) (at_index z i) n_trapz None None None None None
        d_Qa n_lag None = Ok (Some y) /\ Cmod (y - al)%C <= 1 / 10 ^ 4.
Proof. exact C78_fdm_inverse_proof. Qed.
Print Assumptions C78_fdm_inverse.

(** C78. With a perfectly conducting tip of any radius and the default number of
    terms, alpha_tip times pdm.eff_pol_n_taylor differs from pdm.eff_pol_n by at
    most 4 10^-10 alpha_tip for every sample the default beta_threshold admits,
    at every height, amplitude and harmonic. *)
Theorem C78_pdm_default : forall (s : sample) (beta : C) (A_tip z : R) (n : Z) (r_tip : option R) (n_trapz : option nat),
  let r := given_or (20 / 10 ^ 9) r_tip in
  refl_coef_qs s (rr 0) = Ok (Some beta) -> Cmod beta <= 101 / 100 -> given_or 32%nat n_trapz <> O ->
  0 < r -> 0 <= z -> 0 <= A_tip ->
  exists c t : C,
    pdm_eff_pol_n defaults0 s A_tip n (Some z) n_trapz r_tip None None = Ok (Some (RtoC (4 * PI * r ^ 3) * c)%C) /\
    pdm_eff_pol_n_taylor defaults0 s A_tip n (Some z) r_tip None None n_trapz None = Ok (Some t) /\
    Cmod (c - t)%C <= 4 / 10 ^ 10.
Proof. exact C78_pdm_default_proof. Qed.
Print Assumptions C78_pdm_default.

(** C78. What pdm.refl_coef_qs_from_eff_pol_n returns for such a tip reproduces the
    normalised signal to 4 10^-10. *)
Theorem C78_pdm_inverse : forall eig sb sr alpha A n z r n_trapz ri ra env result,
  library eig sb sr -> env_fits env (pdm_inverse_operands alpha A n z r None None) ->
  pdm_refl_coef_qs_from_eff_pol_n eig sb sr defaults0 alpha A n z r None None n_trapz None None ri ra env = Ok result ->
  forall i v, index_of (elements result) i -> In v (unmasked result i) ->
  let z_i := given_or 0 (at_index z i) in let r_i := given_or (20 / 10 ^ 9) (at_index r i) in
  given_or 32%nat n_trapz <> O -> 0 < r_i -> 0 <= z_i -> 0 <= entry A i ->
  exists b, v = Some b /\
    forall (s : sample), refl_coef_qs s (rr 0) = Ok (Some b) ->
    exists al c, entry alpha i = Some al /\
      pdm_eff_pol_n defaults0 s (entry A i) (entry n i) (at_index z i) n_trapz (at_index r i) None None
        = Ok (Some (RtoC (4 * PI * r_i ^ 3) * c)%C) /\
      Cmod (c - al)%C <= 4 / 10 ^ 10.
Proof. exact C78_pdm_inverse_proof. Qed.
Print Assumptions C78_pdm_inverse.

(** C78. The bound on the height cannot be dropped: 2 micrometres above a lossless
    sample (beta = 9/10), the same call of fdm.eff_pol_n_taylor is off by more
    than 10. *)
Theorem C78_high_tip_refuted : forall (laggauss : laggauss_t),
  let s := stack [RtoC 1; RtoC 19] [] None in let z := 2 / 10 ^ 6 in
  exists a t : C,
    fdm_eff_pol_n laggauss defaults0 s 0 0 (Some z) None None None None None None None None None = Ok (Some a) /\
    fdm_eff_pol_n_taylor laggauss defaults0 s 0 0 (Some z) None None None None None None None None None None = Ok (Some t) /\
    10 < Cmod (a - t)%C.
Proof. exact C78_high_tip_refuted_proof. Qed.
Print Assumptions C78_high_tip_refuted.

(** C78. Example: silicon (permittivity 12) in vacuum, tapping by 30 nm in contact,
    third harmonic: the hypotheses hold. *)
Example C78_default_example :
  RtoC 12 <> RtoC 0 /\ (RtoC 1 + RtoC 12 <> 0)%C /\ Cmod ((RtoC 12 - RtoC 1) / (RtoC 12 + RtoC 1))%C <= 101 / 100 /\
  resolved 32 3 /\ 0 + 2 * (30 / 10 ^ 9) <= 280 / 10 ^ 9 /\
  refl_coef_qs (stack [RtoC 1; RtoC 12] [] None) (rr 0) = Ok (Some (RtoC (11 / 13))).
Proof. exact C78_default_example_proof. Qed.
