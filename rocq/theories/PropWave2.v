(** * Properties (generated by tools/gen_prop.py from ProofsWave2.v; statements
    only, each proved there) *)
From Coq Require Import String Reals Lra Lia ZArith List Bool.
From Coquelicot Require Import Coquelicot.
From Coq Require Import List.
From Verif Require Import Num NumLemmas LimLemmas ModelBase ModelSample ModelTip StackLemmas Spec
  ProofsStackQS ProofsStackQS2 ProofsStackFF ProofsStackFF2 SpecWave WaveLemmas WaveLemmas2 ProofsWave
  ModelRange RangeLemmas ProofsEx.
Import ListNotations.
Open Scope R_scope.
From Verif Require Import ProofsWave2.

(** C56. Energy balance.  Light coming through a transparent environment onto a
    stack whose inner layers do not amplify: the reflected plus the transmitted
    power is at most the incident power, and equal to it if the inner layers
    are lossless (also if they are metallic or evanescent). *)
Theorem C56_energy_balance :
  forall (p : bool) (e0 : R) (mid : list C) (en : C) (ts : list R) nu0 (nu q k0 : R) (kn r t : C),
  length mid = length ts -> Forall (fun t => 0 < t) ts ->
  0 < e0 -> 0 < k0 -> k0 ^ 2 = e0 * nu ^ 2 - q ^ 2 ->
  Forall (fun e => (e * RtoC (nu ^ 2) - RtoC (q ^ 2) <> 0)%C) mid ->
  (p = true -> Forall (fun e => e <> RtoC 0) (mid ++ [en])) ->
  is_kz nu q en kn -> principal kn ->
  Forall (fun e => 0 <= Im e) mid ->
  refl_coef (stack (RtoC e0 :: mid ++ [en]) ts nu0) (Some q) None (Some nu) (pol p) = Ok (Some r) ->
  trans_coef (stack (RtoC e0 :: mid ++ [en]) ts nu0) (Some q) None (Some nu) (pol p) = Ok (Some t) ->
  let reflected := Cmod r ^ 2 in
  let transmitted := (if p then e0 * Re (kn / en)%C else Re kn) / k0 * Cmod t ^ 2 in
  reflected + transmitted <= 1 /\
  (Forall (fun e => Im e = 0) mid -> reflected + transmitted = 1).
Proof. exact C56_energy_balance_proof. Qed.
Print Assumptions C56_energy_balance.

(** C56. Nothing passive reflects more than it receives; a lossless stack on a
    lossless substrate in which the wave cannot propagate reflects everything. *)
Theorem C56_reflects_at_most_everything :
  forall (p : bool) (e0 : R) (mid : list C) (en : C) (ts : list R) nu0 (nu q k0 : R) (kn r t : C),
  length mid = length ts -> Forall (fun t => 0 < t) ts ->
  0 < e0 -> 0 < k0 -> k0 ^ 2 = e0 * nu ^ 2 - q ^ 2 ->
  Forall (fun e => (e * RtoC (nu ^ 2) - RtoC (q ^ 2) <> 0)%C) mid ->
  (p = true -> Forall (fun e => e <> RtoC 0) (mid ++ [en])) ->
  is_kz nu q en kn -> principal kn ->
  Forall (fun e => 0 <= Im e) (mid ++ [en]) ->
  refl_coef (stack (RtoC e0 :: mid ++ [en]) ts nu0) (Some q) None (Some nu) (pol p) = Ok (Some r) ->
  trans_coef (stack (RtoC e0 :: mid ++ [en]) ts nu0) (Some q) None (Some nu) (pol p) = Ok (Some t) ->
  Cmod r <= 1 /\
  (Forall (fun e => Im e = 0) (mid ++ [en]) -> Re en * nu ^ 2 <= q ^ 2 -> Cmod r = 1).
Proof. exact C56_reflects_at_most_everything_proof. Qed.
Print Assumptions C56_reflects_at_most_everything.

(** C57. Evanescent waves (q beyond the light line of the environment): twice the
    imaginary part of the reflection coefficient is the power absorbed by
    the stack; it is never negative for a passive sample, and for lossless
    inner layers all of it goes into the substrate.  This is C14 at finite
    frequency and for both polarizations. *)
Theorem C57_evanescent_absorption :
  forall (p : bool) (e0 : R) (mid : list C) (en : C) (ts : list R) nu0 (nu q kappa : R) (kn r t : C),
  length mid = length ts -> Forall (fun t => 0 < t) ts -> nu <> 0 ->
  0 < e0 -> 0 < kappa -> kappa ^ 2 = q ^ 2 - e0 * nu ^ 2 ->
  Forall (fun e => (e * RtoC (nu ^ 2) - RtoC (q ^ 2) <> 0)%C) mid ->
  (p = true -> Forall (fun e => e <> RtoC 0) (mid ++ [en])) ->
  is_kz nu q en kn -> principal kn ->
  Forall (fun e => 0 <= Im e) mid ->
  refl_coef (stack (RtoC e0 :: mid ++ [en]) ts nu0) (Some q) None (Some nu) (pol p) = Ok (Some r) ->
  trans_coef (stack (RtoC e0 :: mid ++ [en]) ts nu0) (Some q) None (Some nu) (pol p) = Ok (Some t) ->
  let transmitted := (if p then e0 * Re (kn / en)%C else Re kn) / kappa * Cmod t ^ 2 in
  transmitted <= 2 * Im r /\
  (Forall (fun e => Im e = 0) mid -> transmitted = 2 * Im r) /\
  (0 <= Im en -> 0 <= Im r).
Proof. exact C57_evanescent_absorption_proof. Qed.
Print Assumptions C57_evanescent_absorption.

Example C54_example :
  exists E H, scattering (maxwell_s 1 0) [RtoC 1; RtoC 4; RtoC 9] [PI / 4] (RtoC 1) (RtoC 3)
                (RtoC (- 1 / 7)) (0, 4 / 7) E H.
Proof. exact C54_example_proof. Qed.

Example C56_example : Cmod (RtoC (- 1 / 7)) ^ 2 + Re (RtoC 3) / 1 * Cmod (0, 4 / 7) ^ 2 = 1.
Proof. exact C56_example_proof. Qed.

Example C55_example :
  exists V D, field_in (electrostatic 1) [RtoC 1; RtoC 5; RtoC 2] [ln 2] V D /\
    (forall z, z <= 0 -> V z = (RtoC (exp (- (1) * z)) - RtoC (47 / 78) * RtoC (exp (1 * z)))%C) /\
    (forall z, total_depth [ln 2] <= z ->
       V z = (RtoC 1 / RtoC 2 * RtoC (20 / 39) * RtoC (exp (- (1) * (z - total_depth [ln 2]))))%C).
Proof. exact C55_example_proof. Qed.

Example C57_example : Re (4, 4) / 4 * Cmod (4 / 5, 2 / 5) ^ 2 = 2 * Im (- 1 / 5, 2 / 5).
Proof. exact C57_example_proof. Qed.
