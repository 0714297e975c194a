(** * Properties (generated by tools/gen_prop.py from ProofsInv4.v; statements
    only, each proved there) *)
From Coq Require Import String Reals Lra Lia ZArith List Bool Permutation Sorted.
From Coquelicot Require Import Rcomplements Complex.
From Verif Require Import Num NumLemmas ModelBase ModelSample ModelTip Spec NArr SpecArr NArrLemmas ModelObj
  ModelArr SpecObj ModelArrTip ModelInv SpecPoly SpecInv FTA ArrSample ProofsArr ProofsArr2 ProofsArrTip
  ProofsArrTip2 ProofsArrTip3 ProofsArrTip4 InvLemmas ProofsInv ProofsInv2 ProofsInv3.
Import ListNotations.
Open Scope nat_scope.
From Verif Require Import ProofsInv4.

(** Every unmasked entry is a finite number that satisfies the requested
    restrictions, and every bulk sample with this reflection coefficient has
    the requested effective polarisability (in the Taylor approximation). *)
Theorem C30_fdm_sound : forall eig sb sr lag D alpha A n z r L g d_Q0 d_Q1 n_trapz n_tayl thr ri ra env result,
  library eig sb sr -> env_fits env (fdm_inverse_operands alpha A n z r L g d_Q0 d_Q1) ->
  fdm_refl_coef_qs_from_eff_pol_n eig sb sr D alpha A n z r L g d_Q0 d_Q1 n_trapz n_tayl thr ri ra env = Ok result ->
  forall i v, index_of (elements result) i -> In v (unmasked result i) ->
  exists b, v = Some b /\
    admissible (given_or (d_beta_threshold D) thr) ri ra (given_or (d_eps_env D) (at_index env i)) b /\
    forall s d_Qa n_lag, multilayer s = false -> refl_coef_qs s (rr 0) = Ok (Some b) ->
      fdm_eff_pol_n_taylor lag D s (entry A i) (entry n i) (at_index z i) (at_index r i) (at_index L i) (at_index g i)
        (at_index d_Q0 i) (at_index d_Q1 i) d_Qa n_lag None n_trapz n_tayl = Ok (entry alpha i).
Proof. exact C30_fdm_sound_proof. Qed.
Print Assumptions C30_fdm_sound.

(** The same for the point dipole model. *)
Theorem C30_pdm_sound : forall eig sb sr D alpha A n z r eps_tip alpha_tip n_trapz n_tayl thr ri ra env result,
  library eig sb sr -> env_fits env (pdm_inverse_operands alpha A n z r eps_tip alpha_tip) ->
  pdm_refl_coef_qs_from_eff_pol_n eig sb sr D alpha A n z r eps_tip alpha_tip n_trapz n_tayl thr ri ra env = Ok result ->
  forall i v, index_of (elements result) i -> In v (unmasked result i) ->
  exists b, v = Some b /\
    admissible (given_or (d_beta_threshold D) thr) ri ra (given_or (d_eps_env D) (at_index env i)) b /\
    forall s, refl_coef_qs s (rr 0) = Ok (Some b) ->
      pdm_eff_pol_n_taylor D s (entry A i) (entry n i) (at_index z i) (at_index r i) (at_index eps_tip i)
        (at_index alpha_tip i) n_trapz n_tayl = Ok (entry alpha i).
Proof. exact C30_pdm_sound_proof. Qed.
Print Assumptions C30_pdm_sound.

(** If the Taylor coefficients are finite and the polynomials of all elements
    have one degree, at least one, the call succeeds, and every admissible number
    occurs unmasked as often as its multiplicity as a solution says. *)
Theorem C31_fdm_complete : forall eig sb sr D alpha A n z r L g d_Q0 d_Q1 n_trapz n_tayl thr ri ra env S
    (c : list nat -> list C) (al : list nat -> C) d,
  library eig sb sr -> env_fits env (fdm_inverse_operands alpha A n z r L g d_Q0 d_Q1) ->
  joint (fdm_inverse_operands alpha A n z r L g d_Q0 d_Q1) S -> (exists i, index_of S i) -> 1 <= d ->
  (forall i, index_of S i -> entry alpha i = Some (al i) /\ degree (c i) d /\ length (c i) = given_or (d_n_tayl D) n_tayl /\
     match fdm_defaults D (at_index r i) (at_index L i) (at_index g i) (at_index d_Q0 i) (at_index d_Q1 i) None with
     | (r, L, g, d_Q0, d_Q1, _) =>
       coefficients (fun j => fdm_taylor_coef D (given_or (d_z_tip D) (at_index z i)) j (entry A i) (entry n i)
                                (rr r) (rr L) (Some g) d_Q0 (rr d_Q1) n_trapz) (c i)
     end) ->
  exists result,
    fdm_refl_coef_qs_from_eff_pol_n eig sb sr D alpha A n z r L g d_Q0 d_Q1 n_trapz n_tayl thr ri ra env = Ok result /\
    elements result = S /\
    forall i b m, index_of S i ->
      admissible (given_or (d_beta_threshold D) thr) ri ra (given_or (d_eps_env D) (at_index env i)) b ->
      multiplicity (fun x => (peval (c i) x - al i)%C) b m -> occurrences (unmasked result i) b = m.
Proof. exact C31_fdm_complete_proof. Qed.
Print Assumptions C31_fdm_complete.

(** The same for the point dipole model. *)
Theorem C31_pdm_complete : forall eig sb sr D alpha A n z r eps_tip alpha_tip n_trapz n_tayl thr ri ra env S
    (c : list nat -> list C) (al : list nat -> C) d,
  library eig sb sr -> env_fits env (pdm_inverse_operands alpha A n z r eps_tip alpha_tip) ->
  eps_tip = None \/ alpha_tip = None ->
  joint (pdm_inverse_operands alpha A n z r eps_tip alpha_tip) S -> (exists i, index_of S i) -> 1 <= d ->
  (forall i, index_of S i -> entry alpha i = Some (al i) /\ degree (c i) d /\ length (c i) = given_or (d_n_tayl D) n_tayl /\
     exists r_i alpha_i, pdm_defaults D (at_index r i) (at_index eps_tip i) (at_index alpha_tip i) = Ok (r_i, alpha_i) /\
       coefficients (fun j => pdm_taylor_coef D (given_or (d_z_tip D) (at_index z i)) j (entry A i) (entry n i)
                                (rr r_i) alpha_i n_trapz) (c i)) ->
  exists result,
    pdm_refl_coef_qs_from_eff_pol_n eig sb sr D alpha A n z r eps_tip alpha_tip n_trapz n_tayl thr ri ra env = Ok result /\
    elements result = S /\
    forall i b m, index_of S i ->
      admissible (given_or (d_beta_threshold D) thr) ri ra (given_or (d_eps_env D) (at_index env i)) b ->
      multiplicity (fun x => (peval (c i) x - al i)%C) b m -> occurrences (unmasked result i) b = m.
Proof. exact C31_pdm_complete_proof. Qed.
Print Assumptions C31_pdm_complete.

(** Inverting the Taylor approximation for a bulk sample gives back the
    reflection coefficient of the sample, among the unmasked values. *)
Theorem C31_fdm_recovers : forall eig sb sr lag D alpha A n z r L g d_Q0 d_Q1 n_trapz n_tayl thr ri ra env S
    (c : list nat -> list C) d (s : list nat -> sample) (b : list nat -> C) d_Qa n_lag,
  library eig sb sr -> env_fits env (fdm_inverse_operands alpha A n z r L g d_Q0 d_Q1) ->
  joint (fdm_inverse_operands alpha A n z r L g d_Q0 d_Q1) S -> (exists i, index_of S i) -> 1 <= d ->
  (forall i, index_of S i -> degree (c i) d /\ length (c i) = given_or (d_n_tayl D) n_tayl /\
     match fdm_defaults D (at_index r i) (at_index L i) (at_index g i) (at_index d_Q0 i) (at_index d_Q1 i) None with
     | (r, L, g, d_Q0, d_Q1, _) =>
       coefficients (fun j => fdm_taylor_coef D (given_or (d_z_tip D) (at_index z i)) j (entry A i) (entry n i)
                                (rr r) (rr L) (Some g) d_Q0 (rr d_Q1) n_trapz) (c i)
     end) ->
  (forall i, index_of S i -> multilayer (s i) = false /\ refl_coef_qs (s i) (rr 0) = Ok (Some (b i)) /\
     admissible (given_or (d_beta_threshold D) thr) ri ra (given_or (d_eps_env D) (at_index env i)) (b i) /\
     fdm_eff_pol_n_taylor lag D (s i) (entry A i) (entry n i) (at_index z i) (at_index r i) (at_index L i) (at_index g i)
        (at_index d_Q0 i) (at_index d_Q1 i) d_Qa n_lag None n_trapz n_tayl = Ok (entry alpha i)) ->
  exists result,
    fdm_refl_coef_qs_from_eff_pol_n eig sb sr D alpha A n z r L g d_Q0 d_Q1 n_trapz n_tayl thr ri ra env = Ok result /\
    elements result = S /\ forall i, index_of S i -> In (Some (b i)) (unmasked result i).
Proof. exact C31_fdm_recovers_proof. Qed.
Print Assumptions C31_fdm_recovers.

(** The same for the point dipole model. *)
Theorem C31_pdm_recovers : forall eig sb sr D alpha A n z r eps_tip alpha_tip n_trapz n_tayl thr ri ra env S
    (c : list nat -> list C) d (s : list nat -> sample) (b : list nat -> C),
  library eig sb sr -> env_fits env (pdm_inverse_operands alpha A n z r eps_tip alpha_tip) ->
  eps_tip = None \/ alpha_tip = None ->
  joint (pdm_inverse_operands alpha A n z r eps_tip alpha_tip) S -> (exists i, index_of S i) -> 1 <= d ->
  (forall i, index_of S i -> degree (c i) d /\ length (c i) = given_or (d_n_tayl D) n_tayl /\
     exists r_i alpha_i, pdm_defaults D (at_index r i) (at_index eps_tip i) (at_index alpha_tip i) = Ok (r_i, alpha_i) /\
       coefficients (fun j => pdm_taylor_coef D (given_or (d_z_tip D) (at_index z i)) j (entry A i) (entry n i)
                                (rr r_i) alpha_i n_trapz) (c i)) ->
  (forall i, index_of S i -> refl_coef_qs (s i) (rr 0) = Ok (Some (b i)) /\
     admissible (given_or (d_beta_threshold D) thr) ri ra (given_or (d_eps_env D) (at_index env i)) (b i) /\
     pdm_eff_pol_n_taylor D (s i) (entry A i) (entry n i) (at_index z i) (at_index r i) (at_index eps_tip i)
        (at_index alpha_tip i) n_trapz n_tayl = Ok (entry alpha i)) ->
  exists result,
    pdm_refl_coef_qs_from_eff_pol_n eig sb sr D alpha A n z r eps_tip alpha_tip n_trapz n_tayl thr ri ra env = Ok result /\
    elements result = S /\ forall i, index_of S i -> In (Some (b i)) (unmasked result i).
Proof. exact C31_pdm_recovers_proof. Qed.
Print Assumptions C31_pdm_recovers.

(** The result and its mask have the joint shape of the arguments with one axis
    of solutions in front.  This axis is as long as the largest number of
    solutions of an element, in particular a call with scalars masks nothing.
    Every column is in increasing order of magnitude. *)
Theorem C32_fdm_layout : forall eig sb sr D alpha A n z r L g d_Q0 d_Q1 n_trapz n_tayl thr ri ra env result,
  library eig sb sr -> env_fits env (fdm_inverse_operands alpha A n z r L g d_Q0 d_Q1) ->
  fdm_refl_coef_qs_from_eff_pol_n eig sb sr D alpha A n z r L g d_Q0 d_Q1 n_trapz n_tayl thr ri ra env = Ok result ->
  joint (fdm_inverse_operands alpha A n z r L g d_Q0 d_Q1) (elements result) /\ shp (snd result) = shp (fst result) /\
  (forall i, index_of (elements result) i -> length (unmasked result i) <= n_rows result) /\
  (exists i, index_of (elements result) i /\ length (unmasked result i) = n_rows result) /\
  (elements result = [] -> unmasked result [] = entries result []) /\
  (forall i, index_of (elements result) i -> StronglySorted nan_last (map cabs (entries result i))).
Proof. exact C32_fdm_layout_proof. Qed.
Print Assumptions C32_fdm_layout.

(** The same for the point dipole model. *)
Theorem C32_pdm_layout : forall eig sb sr D alpha A n z r eps_tip alpha_tip n_trapz n_tayl thr ri ra env result,
  library eig sb sr -> env_fits env (pdm_inverse_operands alpha A n z r eps_tip alpha_tip) ->
  pdm_refl_coef_qs_from_eff_pol_n eig sb sr D alpha A n z r eps_tip alpha_tip n_trapz n_tayl thr ri ra env = Ok result ->
  joint (pdm_inverse_operands alpha A n z r eps_tip alpha_tip) (elements result) /\ shp (snd result) = shp (fst result) /\
  (forall i, index_of (elements result) i -> length (unmasked result i) <= n_rows result) /\
  (exists i, index_of (elements result) i /\ length (unmasked result i) = n_rows result) /\
  (elements result = [] -> unmasked result [] = entries result []) /\
  (forall i, index_of (elements result) i -> StronglySorted nan_last (map cabs (entries result i))).
Proof. exact C32_pdm_layout_proof. Qed.
Print Assumptions C32_pdm_layout.
