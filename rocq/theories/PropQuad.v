(** * Properties (generated by tools/gen_prop.py from ProofsQuad.v; statements
    only, each proved there) *)
From Coq Require Import String Reals Lra Lia ZArith List Bool Permutation.
From Coquelicot Require Import Coquelicot.
From Coq Require Import List.
From Verif Require Import Num NumLemmas ModelBase ModelSample ModelTip StackLemmas Spec
  ProofsStackQS ProofsStackQS2 ProofsSym ProofsPassive SpecQuad Laguerre Laguerre2 QuadConv
  SpecWave WaveLemmas.
Import ListNotations.
Open Scope R_scope.
From Verif Require Import ProofsQuad.

(** C58. For every order the rule of the docstring (roots of the Laguerre
    polynomial, weights x / ((J+1) L_(J+1)(x))^2) exists ... *)
Theorem C58_documented_rule_exists :
  forall J, (0 < J)%nat -> exists rule, documented_rule J rule.
Proof. exact C58_documented_rule_exists_proof. Qed.
Print Assumptions C58_documented_rule_exists.

(** C58. ... is unique up to the order of its nodes ... *)
Theorem C58_documented_rule_unique :
  forall J rule rule', (0 < J)%nat -> documented_rule J rule -> documented_rule J rule' -> Permutation rule rule'.
Proof. exact C58_documented_rule_unique_proof. Qed.
Print Assumptions C58_documented_rule_unique.

Theorem C58_documented_rule_exact :
  forall J rule, (0 < J)%nat -> documented_rule J rule ->
  Forall (fun xw => 0 < fst xw /\ 0 < snd xw) rule /\
  (forall k, (k < 2 * J)%nat ->
     integral_to_infinity (fun x => x ^ k * exp (- x)) (Rsum (map (fun xw => snd xw * fst xw ^ k) rule))) /\
  laguerre_rule rule.
Proof. exact C58_documented_rule_exact_proof. Qed.
Print Assumptions C58_documented_rule_exact.

(** C59. surf_pot_and_field: both documented integrals exist and the sums of the
    code converge to them as n_lag grows. *)
Theorem C59_surf_pot_and_field_converges :
  forall (laggauss : laggauss_t) (D : Defaults) (e0 : C) (mid : list C) (en : C) (ts : list R) nu (z : R) (b : R -> C),
  (forall J, (0 < J)%nat -> documented_rule J (laggauss J)) ->
  length mid = length ts -> Forall (fun e => e <> RtoC 0) mid -> en <> RtoC 0 -> 0 < z ->
  (forall q, 0 <= q -> refl_coef_qs (stack (e0 :: mid ++ [en]) ts nu) (rr q) = Ok (Some (b q))) ->
  exists (phi E : C) (u v : nat -> C),
    Cintegral_to_infinity (fun q => b q * RtoC (exp (- 2 * z * q)))%C phi /\
    Cintegral_to_infinity (fun q => b q * RtoC (q * exp (- 2 * z * q)))%C E /\
    (forall n, surf_pot_and_field laggauss D (stack (e0 :: mid ++ [en]) ts nu) (rr z) (Some (S n)) = Ok (Some (u n), Some (v n))) /\
    Cseq_lim u phi /\ Cseq_lim v E.
Proof. exact C59_surf_pot_and_field_converges_proof. Qed.
Print Assumptions C59_surf_pot_and_field_converges.
