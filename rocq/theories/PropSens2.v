(** * Properties (generated by tools/gen_prop.py from ProofsSens2.v; statements
    only, each proved there) *)
From Coq Require Import String Reals Lra Lia ZArith List Bool Permutation Sorted.
From Coquelicot Require Import Rcomplements Complex.
From Verif Require Import Num NumLemmas LimLemmas ModelBase ModelSample ModelTip NArr SpecArr NArrLemmas ModelObj SpecObj
  ModelArr ModelArrTip ModelInv StackLemmas Spec SpecPoly SpecInv SpecNear SpecSens FTA ArrSample
  ProofsStackQS ProofsStackQS2 ProofsPassive DemodLemmas ProofsDemod ProofsTip ProofsTip2 ProofsTip3 ProofsTaylor
  ProofsArr ProofsArr2 ProofsArrTip InvLemmas ProofsInv ProofsInv2 ProofsInv3 ProofsInv4 ProofsNear ProofsConsist ProofsConsist2.
Import ListNotations.
Open Scope R_scope.
From Verif Require Import ProofsSens2.

(** C89. Stability of the finite dipole inverse: let the same call be made for two
    arrays of signals.  Wherever the linear Taylor coefficient outweighs the others
    on the disc |beta| <= beta_threshold, by the margin m > 0 (or not), any value
    returned for the first array and any value returned for the second differ by at
    most (the difference of the signals) / m. *)
Theorem C89_fdm_taylor_stable : forall eig sb sr D alpha alpha' A n z r L g d_Q0 d_Q1 n_trapz n_tayl thr ri ra ri' ra' env
    result result' i (c : list C) (a a' b b' : C),
  library eig sb sr -> env_fits env (fdm_inverse_operands alpha A n z r L g d_Q0 d_Q1) ->
  env_fits env (fdm_inverse_operands alpha' A n z r L g d_Q0 d_Q1) ->
  fdm_refl_coef_qs_from_eff_pol_n eig sb sr D alpha A n z r L g d_Q0 d_Q1 n_trapz n_tayl thr ri ra env = Ok result ->
  fdm_refl_coef_qs_from_eff_pol_n eig sb sr D alpha' A n z r L g d_Q0 d_Q1 n_trapz n_tayl thr ri' ra' env = Ok result' ->
  index_of (elements result) i -> index_of (elements result') i ->
  length c = given_or (d_n_tayl D) n_tayl ->
  match fdm_defaults D (at_index r i) (at_index L i) (at_index g i) (at_index d_Q0 i) (at_index d_Q1 i) None with
  | (r, L, g, d_Q0, d_Q1, _) =>
    coefficients (fun j => fdm_taylor_coef D (given_or (d_z_tip D) (at_index z i)) j (entry A i) (entry n i)
                             (rr r) (rr L) (Some g) d_Q0 (rr d_Q1) n_trapz) c
  end ->
  entry alpha i = Some a -> entry alpha' i = Some a' ->
  In (Some b) (unmasked result i) -> In (Some b') (unmasked result' i) ->
  margin (given_or (d_beta_threshold D) thr) c * Cmod (b' - b)%C <= Cmod (a' - a)%C.
Proof. exact C89_fdm_taylor_stable_proof. Qed.
Print Assumptions C89_fdm_taylor_stable.

(** C89. Stability of the point dipole inverse. *)
Theorem C89_pdm_taylor_stable : forall eig sb sr D alpha alpha' A n z r eps_tip alpha_tip n_trapz n_tayl thr ri ra ri' ra' env
    result result' i (c : list C) r_i alpha_i (a a' b b' : C),
  library eig sb sr -> env_fits env (pdm_inverse_operands alpha A n z r eps_tip alpha_tip) ->
  env_fits env (pdm_inverse_operands alpha' A n z r eps_tip alpha_tip) ->
  pdm_refl_coef_qs_from_eff_pol_n eig sb sr D alpha A n z r eps_tip alpha_tip n_trapz n_tayl thr ri ra env = Ok result ->
  pdm_refl_coef_qs_from_eff_pol_n eig sb sr D alpha' A n z r eps_tip alpha_tip n_trapz n_tayl thr ri' ra' env = Ok result' ->
  index_of (elements result) i -> index_of (elements result') i ->
  length c = given_or (d_n_tayl D) n_tayl ->
  pdm_defaults D (at_index r i) (at_index eps_tip i) (at_index alpha_tip i) = Ok (r_i, alpha_i) ->
  coefficients (fun j => pdm_taylor_coef D (given_or (d_z_tip D) (at_index z i)) j (entry A i) (entry n i)
                           (rr r_i) alpha_i n_trapz) c ->
  entry alpha i = Some a -> entry alpha' i = Some a' ->
  In (Some b) (unmasked result i) -> In (Some b') (unmasked result' i) ->
  margin (given_or (d_beta_threshold D) thr) c * Cmod (b' - b)%C <= Cmod (a' - a)%C.
Proof. exact C89_pdm_taylor_stable_proof. Qed.
Print Assumptions C89_pdm_taylor_stable.

(** C89. Uniqueness: if the margin is positive for every element, the finite dipole
    inverse returns at most one value per element, of size at most
    |signal - c_0| / m; and exactly one for weak signals,
    d |signal - c_0| <= |c_1| beta_threshold (d the degree of the series), when no
    further restriction is requested. *)
Theorem C89_fdm_taylor_unique : forall eig sb sr D alpha A n z r L g d_Q0 d_Q1 n_trapz n_tayl thr ri ra env S
    (c : list nat -> list C) (al : list nat -> C) d,
  library eig sb sr -> env_fits env (fdm_inverse_operands alpha A n z r L g d_Q0 d_Q1) ->
  joint (fdm_inverse_operands alpha A n z r L g d_Q0 d_Q1) S -> (exists i, index_of S i) -> (1 <= d)%nat ->
  (forall i, index_of S i -> entry alpha i = Some (al i) /\ degree (c i) d /\ length (c i) = given_or (d_n_tayl D) n_tayl /\
     match fdm_defaults D (at_index r i) (at_index L i) (at_index g i) (at_index d_Q0 i) (at_index d_Q1 i) None with
     | (r, L, g, d_Q0, d_Q1, _) =>
       coefficients (fun j => fdm_taylor_coef D (given_or (d_z_tip D) (at_index z i)) j (entry A i) (entry n i)
                                (rr r) (rr L) (Some g) d_Q0 (rr d_Q1) n_trapz) (c i)
     end) ->
  exists result,
    fdm_refl_coef_qs_from_eff_pol_n eig sb sr D alpha A n z r L g d_Q0 d_Q1 n_trapz n_tayl thr ri ra env = Ok result /\
    elements result = S /\
    forall i, index_of S i -> let rho := given_or (d_beta_threshold D) thr in let m := margin rho (c i) in 0 < m ->
      (unmasked result i = [] \/
       exists b, unmasked result i = [Some b] /\ peval (c i) b = al i /\ m * Cmod b <= Cmod (al i - order0 (c i))%C) /\
      (ri = false -> ra = false -> 0 <= rho -> INR d * Cmod (al i - order0 (c i))%C <= rho * Cmod (nth 1 (c i) (RtoC 0)) ->
       unmasked result i <> []).
Proof. exact C89_fdm_taylor_unique_proof. Qed.
Print Assumptions C89_fdm_taylor_unique.

(** C89. Uniqueness for the point dipole inverse. *)
Theorem C89_pdm_taylor_unique : forall eig sb sr D alpha A n z r eps_tip alpha_tip n_trapz n_tayl thr ri ra env S
    (c : list nat -> list C) (al : list nat -> C) d,
  library eig sb sr -> env_fits env (pdm_inverse_operands alpha A n z r eps_tip alpha_tip) ->
  eps_tip = None \/ alpha_tip = None ->
  joint (pdm_inverse_operands alpha A n z r eps_tip alpha_tip) S -> (exists i, index_of S i) -> (1 <= d)%nat ->
  (forall i, index_of S i -> entry alpha i = Some (al i) /\ degree (c i) d /\ length (c i) = given_or (d_n_tayl D) n_tayl /\
     exists r_i alpha_i, pdm_defaults D (at_index r i) (at_index eps_tip i) (at_index alpha_tip i) = Ok (r_i, alpha_i) /\
       coefficients (fun j => pdm_taylor_coef D (given_or (d_z_tip D) (at_index z i)) j (entry A i) (entry n i)
                                (rr r_i) alpha_i n_trapz) (c i)) ->
  exists result,
    pdm_refl_coef_qs_from_eff_pol_n eig sb sr D alpha A n z r eps_tip alpha_tip n_trapz n_tayl thr ri ra env = Ok result /\
    elements result = S /\
    forall i, index_of S i -> let rho := given_or (d_beta_threshold D) thr in let m := margin rho (c i) in 0 < m ->
      (unmasked result i = [] \/
       exists b, unmasked result i = [Some b] /\ peval (c i) b = al i /\ m * Cmod b <= Cmod (al i - order0 (c i))%C) /\
      (ri = false -> ra = false -> 0 <= rho -> INR d * Cmod (al i - order0 (c i))%C <= rho * Cmod (nth 1 (c i) (RtoC 0)) ->
       unmasked result i <> []).
Proof. exact C89_pdm_taylor_unique_proof. Qed.
Print Assumptions C89_pdm_taylor_unique.
