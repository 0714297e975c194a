(** * Properties (generated by tools/gen_prop.py from ProofsBulkFF.v; statements
    only, each proved there) *)
From Coq Require Import String Reals Lra Lia ZArith List Bool.
From Coquelicot Require Import Rcomplements Complex.
From Verif Require Import Num NumLemmas ModelBase ModelSample ModelTip StackLemmas Spec
  ProofsStackQS ProofsStackQS2 ProofsStackFF ProofsStackFF2.
Import ListNotations.
Open Scope R_scope.
From Verif Require Import ProofsBulkFF.

(** C19. For a bulk sample called with an angle, or with neither angle nor
    momentum, the wavenumber is irrelevant: whether it is given at the call,
    stored, both or absent, as long as it is positive. *)
Theorem C19_wavenumber_irrelevant :
  forall (e0 e1 : CV) (nu0 nu0' nu nu' : option R) (theta_in : option R) (polarization : string),
  positive_if_given nu0 -> positive_if_given nu0' -> positive_if_given nu -> positive_if_given nu' ->
  refl_coef (mkSample [e0; e1] [] nu0) None theta_in nu polarization
  = refl_coef (mkSample [e0; e1] [] nu0') None theta_in nu' polarization /\
  trans_coef (mkSample [e0; e1] [] nu0) None theta_in nu polarization
  = trans_coef (mkSample [e0; e1] [] nu0') None theta_in nu' polarization.
Proof. exact C19_wavenumber_irrelevant_proof. Qed.
Print Assumptions C19_wavenumber_irrelevant.

(** C19. With an explicit momentum and no wavenumber anywhere, a bulk sample
    silently computes with wavenumber 1. *)
Theorem C19_missing_wavenumber_is_one :
  forall (e0 e1 : CV) (q theta_in : option R) (polarization : string),
  transfer_matrix (mkSample [e0; e1] [] None) q theta_in None polarization
  = transfer_matrix (mkSample [e0; e1] [] None) q theta_in (Some 1) polarization.
Proof. exact C19_missing_wavenumber_is_one_proof. Qed.
Print Assumptions C19_missing_wavenumber_is_one.

(** C19. With an explicit nonzero momentum the wavenumber does matter: two
    different wavenumbers always give different (finite) coefficients. *)
Theorem C19_wavenumber_matters_for_explicit_q :
  forall (p : bool) (e0 e1 : C) nu0 (nu nu' q : R) (r r' : C),
  e0 <> e1 -> e0 <> RtoC 0 -> q <> 0 -> nu ^ 2 <> nu' ^ 2 ->
  refl_coef (stack [e0; e1] [] nu0) (Some q) None (Some nu) (pol p) = Ok (Some r) ->
  refl_coef (stack [e0; e1] [] nu0) (Some q) None (Some nu') (pol p) = Ok (Some r') ->
  r <> r'.
Proof. exact C19_wavenumber_matters_for_explicit_q_proof. Qed.
Print Assumptions C19_wavenumber_matters_for_explicit_q.

(** C20. t = 1 + r for every bulk sample, every argument combination
    (including which exception is raised) and both polarizations. *)
Theorem C20_trans_is_one_plus_refl :
  forall (e0 e1 : CV) (nu0 q theta_in nu : option R) (polarization : string),
  trans_coef (mkSample [e0; e1] [] nu0) q theta_in nu polarization
  = (let! r := refl_coef (mkSample [e0; e1] [] nu0) q theta_in nu polarization in
     Ok (rc 1 + r)%cv).
Proof. exact C20_trans_is_one_plus_refl_proof. Qed.
Print Assumptions C20_trans_is_one_plus_refl.

(** C20. The sign of the angle is irrelevant, for every sample. *)
Theorem C20_angle_sign_irrelevant :
  forall (s : sample) (theta : R) (nu : option R) (polarization : string),
  transfer_matrix s None (Some (- theta)) nu polarization
  = transfer_matrix s None (Some theta) nu polarization.
Proof. exact C20_angle_sign_irrelevant_proof. Qed.
Print Assumptions C20_angle_sign_irrelevant.

(** C20. Normal incidence, with n0, n1 the (principal) refractive indices. *)
Theorem C20_normal_incidence :
  forall (n0 n1 : C) nu0 (nu : R),
  principal n0 -> principal n1 -> n0 <> RtoC 0 -> (n0 + n1 <> 0)%C -> 0 < nu ->
  refl_coef (stack [n0 * n0; n1 * n1]%C [] nu0) None None (Some nu) "s"
  = Ok (Some ((n0 - n1) / (n0 + n1))%C) /\
  (n1 <> RtoC 0 ->
   refl_coef (stack [n0 * n0; n1 * n1]%C [] nu0) None None (Some nu) "p"
   = Ok (Some (- ((n0 - n1) / (n0 + n1)))%C)).
Proof. exact C20_normal_incidence_proof. Qed.
Print Assumptions C20_normal_incidence.

(** C20. Energy conservation at a lossless interface below the critical
    angle: k0, k1 > 0 are the two normal wavevectors, r^2 is the reflected
    and t^2 (k1/k0) (s) or t^2 (k1 eps0)/(k0 eps1) (p) the transmitted
    energy. *)
Theorem C20_energy_conservation :
  forall (p : bool) (e0 e1 nu q k0 k1 : R) nu0,
  0 < e0 -> 0 < e1 -> 0 < k0 -> 0 < k1 ->
  k0 ^ 2 = e0 * nu ^ 2 - q ^ 2 -> k1 ^ 2 = e1 * nu ^ 2 - q ^ 2 ->
  exists r t : R,
    refl_coef (stack [RtoC e0; RtoC e1] [] nu0) (Some q) None (Some nu) (pol p) = Ok (Some (RtoC r)) /\
    trans_coef (stack [RtoC e0; RtoC e1] [] nu0) (Some q) None (Some nu) (pol p) = Ok (Some (RtoC t)) /\
    r ^ 2 + t ^ 2 * (if p then (k1 * e0) / (k0 * e1) else k1 / k0) = 1.
Proof. exact C20_energy_conservation_proof. Qed.
Print Assumptions C20_energy_conservation.

(** C20. Total reflection: real permittivities, propagating in the
    environment, evanescent in the substrate (k1 is its decay constant; this
    includes perfect metals, e1 < 0). *)
Theorem C20_total_reflection :
  forall (p : bool) (e0 e1 nu q k0 k1 : R) nu0,
  0 < k0 -> 0 < k1 -> e1 <> 0 ->
  k0 ^ 2 = e0 * nu ^ 2 - q ^ 2 -> k1 ^ 2 = q ^ 2 - e1 * nu ^ 2 ->
  exists r : C,
    refl_coef (stack [RtoC e0; RtoC e1] [] nu0) (Some q) None (Some nu) (pol p) = Ok (Some r) /\
    Cmod r = 1.
Proof. exact C20_total_reflection_proof. Qed.
Print Assumptions C20_total_reflection.

(** C20. Non-vacuity: air/glass (eps 1 | 4), s, q = 0 -- r = -1/3, t = 2/3,
    r^2 + 2 t^2 = 1; and glass/air beyond the critical angle. *)
Example C20_example :
  refl_coef (stack [RtoC 1; RtoC 4] [] None) None None None "s" = Ok (Some (RtoC (-1/3))) /\
  (exists r, refl_coef (stack [RtoC 4; RtoC 1] [] None) (Some (3/2)) None (Some 1) "p" = Ok (Some r)
             /\ Cmod r = 1).
Proof. exact C20_example_proof. Qed.

(** C22. The angle selects the momentum nu sin|theta|, with no refractive
    index of the environment. *)
Theorem C22_angle_to_momentum :
  forall (s : sample) (theta nu : R) (polarization : string),
  transfer_matrix s None (Some theta) (Some nu) polarization
  = transfer_matrix s (Some (nu * sin (Rabs theta))) None (Some nu) polarization.
Proof. exact C22_angle_to_momentum_proof. Qed.
Print Assumptions C22_angle_to_momentum.

(** C22. Grazing incidence does not reflect everything when the environment
    is denser than vacuum: |r| < 1 strictly for every pair of real
    permittivities above 1. *)
Theorem C22_grazing_incidence_not_total :
  forall (p : bool) (e0 e1 nu : R) nu0, 1 < e0 -> 1 < e1 -> 0 < nu ->
  exists r : R,
    refl_coef (stack [RtoC e0; RtoC e1] [] nu0) None (Some (PI / 2)) (Some nu) (pol p)
    = Ok (Some (RtoC r)) /\ Rabs r < 1.
Proof. exact C22_grazing_incidence_not_total_proof. Qed.
Print Assumptions C22_grazing_incidence_not_total.

(** C22. A layer whose phase k t is a multiple of pi (no factor 2 pi) is
    invisible in reflection, anywhere in any stack. *)
Theorem C22_pi_phase_layer_invisible :
  forall (p : bool) (l1 l2 : list C) (t1 t2 : list R) (e : C) nu0 (nu q k t : R) (m : Z),
  length l1 = (length t1 + 1)%nat -> length l2 = (length t2 + 1)%nat ->
  Forall (fun e => (e * RtoC (nu ^ 2) - RtoC (q ^ 2) <> 0)%C) (l1 ++ e :: l2) ->
  (p = true -> nonzero_below (l1 ++ e :: l2)) ->
  is_kz nu q e (RtoC k) -> k * t = IZR m * PI ->
  refl_coef (stack (l1 ++ e :: l2) (t1 ++ t :: t2) nu0) (Some q) None (Some nu) (pol p)
  = refl_coef (stack (l1 ++ l2) (t1 ++ t2) nu0) (Some q) None (Some nu) (pol p).
Proof. exact C22_pi_phase_layer_invisible_proof. Qed.
Print Assumptions C22_pi_phase_layer_invisible.

(** C22. A half-wave film (optical thickness n nu t = 1/2 in wavelengths) is
    NOT invisible, for every real index n other than that of the
    surroundings. *)
Theorem C22_half_wave_film_not_invisible :
  forall (p : bool) (n nu t : R) nu0, 0 < n -> n <> 1 -> 0 < nu -> n * nu * t = 1 / 2 ->
  exists r : C,
    refl_coef (stack [RtoC 1; RtoC (n ^ 2); RtoC 1] [t] nu0) None None (Some nu) (pol p) = Ok (Some r) /\
    r <> RtoC 0.
Proof. exact C22_half_wave_film_not_invisible_proof. Qed.
Print Assumptions C22_half_wave_film_not_invisible.
