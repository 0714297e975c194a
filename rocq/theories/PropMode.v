(** * Properties (generated by tools/gen_prop.py from ProofsMode.v; statements
    only, each proved there) *)
From Coq Require Import String Reals Lra Lia ZArith List Bool.
From Coquelicot Require Import Coquelicot.
From Coq Require Import List.
From Verif Require Import Num NumLemmas LimLemmas ModelBase ModelSample ModelTip StackLemmas Spec
  ProofsStackQS ProofsStackQS2 ProofsStackFF ProofsStackFF2 SpecWave WaveLemmas WaveLemmas2 ProofsWave ProofsWave2
  ProofsBulkFF SpecFresnel ProofsFresnel SpecMode ModeLemmas.
Import ListNotations.
Open Scope R_scope.
From Verif Require Import ProofsMode.

(** C72. refl_coef and trans_coef are undefined (nan) exactly where the stack has a
    mode of its own: a field that solves Maxwell's equations without any incident
    wave. *)
Theorem C72_poles_are_modes :
  forall (p : bool) (e0 : C) (mid : list C) (en : C) (ts : list R) nu0 (nu q : R) (k0 kn : C),
  length mid = length ts -> Forall (fun t => 0 < t) ts ->
  Forall (fun e => (e * RtoC (nu ^ 2) - RtoC (q ^ 2) <> 0)%C) (e0 :: mid) ->
  (p = true -> Forall (fun e => e <> RtoC 0) (e0 :: mid ++ [en])) ->
  is_kz nu q e0 k0 -> principal k0 -> is_kz nu q en kn -> principal kn ->
  let has_mode := exists F G, mode (if p then maxwell_p nu q else maxwell_s nu q) (e0 :: mid ++ [en]) ts k0 kn F G in
  (refl_coef (stack (e0 :: mid ++ [en]) ts nu0) (Some q) None (Some nu) (pol p) = Ok None <-> has_mode) /\
  (trans_coef (stack (e0 :: mid ++ [en]) ts nu0) (Some q) None (Some nu) (pol p) = Ok None <-> has_mode).
Proof. exact C72_poles_are_modes_proof. Qed.
Print Assumptions C72_poles_are_modes.

(** C72. The same for the quasistatic coefficients and the electrostatic modes. *)
Theorem C72_qs_poles_are_modes :
  forall (e0 : C) (mid : list C) (en : C) (ts : list R) nu (q : R),
  length mid = length ts -> Forall (fun t => 0 < t) ts -> 0 < q ->
  Forall (fun t => q * t <= MAX_EXP_ARG) ts ->
  Forall (fun e => e <> RtoC 0) (e0 :: mid ++ [en]) ->
  let has_mode := exists V D, mode (electrostatic q) (e0 :: mid ++ [en]) ts (0, q) (0, q) V D in
  (refl_coef_qs (stack (e0 :: mid ++ [en]) ts nu) (rr q) = Ok None <-> has_mode) /\
  (trans_coef_qs (stack (e0 :: mid ++ [en]) ts nu) (rr q) = Ok None <-> has_mode).
Proof. exact C72_qs_poles_are_modes_proof. Qed.
Print Assumptions C72_qs_poles_are_modes.

(** C72. Light coming through a transparent environment: a stack without gain has
    no pole, both coefficients are always finite. *)
Theorem C72_propagating_finite :
  forall (p : bool) (e0 : R) (mid : list C) (en : C) (ts : list R) nu0 (nu q k0 : R),
  length mid = length ts -> Forall (fun t => 0 < t) ts ->
  0 < e0 -> 0 < k0 -> k0 ^ 2 = e0 * nu ^ 2 - q ^ 2 ->
  Forall (fun e => (e * RtoC (nu ^ 2) - RtoC (q ^ 2) <> 0)%C) mid ->
  (p = true -> Forall (fun e => e <> RtoC 0) (mid ++ [en])) ->
  Forall (fun e => 0 <= Im e) (mid ++ [en]) ->
  exists r t : C,
    refl_coef (stack (RtoC e0 :: mid ++ [en]) ts nu0) (Some q) None (Some nu) (pol p) = Ok (Some r) /\
    trans_coef (stack (RtoC e0 :: mid ++ [en]) ts nu0) (Some q) None (Some nu) (pol p) = Ok (Some t).
Proof. exact C72_propagating_finite_proof. Qed.
Print Assumptions C72_propagating_finite.

(** C72. Evanescent waves: any absorption anywhere in the stack removes all poles
    on the real momentum axis. *)
Theorem C72_evanescent_finite :
  forall (p : bool) (e0 : R) (mid : list C) (en : C) (ts : list R) nu0 (nu q kappa : R),
  length mid = length ts -> Forall (fun t => 0 < t) ts -> nu <> 0 ->
  e0 <> 0 -> 0 < kappa -> kappa ^ 2 = q ^ 2 - e0 * nu ^ 2 ->
  Forall (fun e => (e * RtoC (nu ^ 2) - RtoC (q ^ 2) <> 0)%C) mid ->
  (p = true -> Forall (fun e => e <> RtoC 0) (mid ++ [en])) ->
  Forall (fun e => 0 <= Im e) (mid ++ [en]) -> Exists (fun e => 0 < Im e) (mid ++ [en]) ->
  exists r t : C,
    refl_coef (stack (RtoC e0 :: mid ++ [en]) ts nu0) (Some q) None (Some nu) (pol p) = Ok (Some r) /\
    trans_coef (stack (RtoC e0 :: mid ++ [en]) ts nu0) (Some q) None (Some nu) (pol p) = Ok (Some t).
Proof. exact C72_evanescent_finite_proof. Qed.
Print Assumptions C72_evanescent_finite.

(** C72. A metal of permittivity -2 carries a surface mode at q = sqrt 2 (nu = 1), and
    the p coefficients are nan there; an absorbing film on it removes the pole. *)
Example C72_example :
  (exists F G, mode (maxwell_p 1 (sqrt 2)) [RtoC 1; RtoC (-2)] [] (0, 1) (0, 2) F G) /\
  refl_coef (stack [RtoC 1; RtoC (-2)] [] None) (Some (sqrt 2)) None (Some 1) "p" = Ok None /\
  (exists r t : C,
    refl_coef (stack [RtoC 1; (2, 1); RtoC (-2)] [1 / 2] None) (Some (sqrt 2)) None (Some 1) "p" = Ok (Some r) /\
    trans_coef (stack [RtoC 1; (2, 1); RtoC (-2)] [1 / 2] None) (Some (sqrt 2)) None (Some 1) "p" = Ok (Some t)) /\
  exists r t : C,
    refl_coef (stack [RtoC 1; RtoC 3; RtoC (-2)] [1 / 2] None) (Some (1 / 2)) None (Some 1) "p" = Ok (Some r) /\
    trans_coef (stack [RtoC 1; RtoC 3; RtoC (-2)] [1 / 2] None) (Some (1 / 2)) None (Some 1) "p" = Ok (Some t).
Proof. exact C72_example_proof. Qed.
