(** * Properties (generated by tools/gen_prop.py from ProofsWave.v; statements
    only, each proved there) *)
From Coq Require Import String Reals Lra Lia ZArith List Bool.
From Coquelicot Require Import Rcomplements Complex.
From Verif Require Import Num NumLemmas LimLemmas ModelBase ModelSample ModelTip StackLemmas Spec
  ProofsStackQS ProofsStackQS2 ProofsStackFF ProofsStackFF2 SpecWave WaveLemmas WaveLemmas2.
Import ListNotations.
Open Scope R_scope.
From Verif Require Import ProofsWave.

(** C54. The far-field reflection and transmission coefficients are exactly the
    amplitudes of THE solution of Maxwell's equations in the stack: for every r
    and t, the two calls return r and t if and only if there is a field, with
    continuous tangential components and obeying Maxwell's equations in every
    material, that consists of an incident wave of amplitude 1 and a reflected
    wave of amplitude r above the stack and of a single outgoing (or decaying)
    wave of amplitude t below it. *)
Theorem C54_maxwell :
  forall (p : bool) (e0 : C) (mid : list C) (en : C) (ts : list R) nu0 (nu q : R) (k0 kn r t : C),
  length mid = length ts -> Forall (fun t => 0 < t) ts ->
  Forall (fun e => (e * RtoC (nu ^ 2) - RtoC (q ^ 2) <> 0)%C) (e0 :: mid) ->
  (p = true -> Forall (fun e => e <> RtoC 0) (e0 :: mid ++ [en])) ->
  is_kz nu q e0 k0 -> principal k0 -> is_kz nu q en kn -> principal kn ->
  refl_coef (stack (e0 :: mid ++ [en]) ts nu0) (Some q) None (Some nu) (pol p) = Ok (Some r) /\
  trans_coef (stack (e0 :: mid ++ [en]) ts nu0) (Some q) None (Some nu) (pol p) = Ok (Some t)
  <->
  exists F G, scattering (if p then maxwell_p nu q else maxwell_s nu q) (e0 :: mid ++ [en]) ts k0 kn r t F G.
Proof. exact C54_maxwell_proof. Qed.
Print Assumptions C54_maxwell.

(** C55. The quasistatic coefficients are exactly those of the electrostatic
    boundary-value problem.  A potential e^{-q z} applied from above is
    reflected with amplitude MINUS beta; the transmitted potential is the
    returned transmission coefficient times e_env / e_substrate. *)
Theorem C55_electrostatic :
  forall (e0 : C) (mid : list C) (en : C) (ts : list R) nu (q : R) (beta t : C),
  length mid = length ts -> Forall (fun t => 0 < t) ts -> 0 < q ->
  Forall (fun t => q * t <= MAX_EXP_ARG) ts ->
  Forall (fun e => e <> RtoC 0) (e0 :: mid ++ [en]) ->
  refl_coef_qs (stack (e0 :: mid ++ [en]) ts nu) (rr q) = Ok (Some beta) /\
  trans_coef_qs (stack (e0 :: mid ++ [en]) ts nu) (rr q) = Ok (Some t)
  <->
  exists V D, field_in (electrostatic q) (e0 :: mid ++ [en]) ts V D /\
    (forall z, z <= 0 -> V z = (RtoC (exp (- q * z)) - beta * RtoC (exp (q * z)))%C) /\
    (forall z, total_depth ts <= z -> V z = (e0 / en * t * RtoC (exp (- q * (z - total_depth ts))))%C).
Proof. exact C55_electrostatic_proof. Qed.
Print Assumptions C55_electrostatic.
