(** * Properties (generated by tools/gen_prop.py from ProofsLens3.v; statements
    only, each proved there) *)
From Coq Require Import String Reals Lra Lia ZArith List Bool.
From Coquelicot Require Import Coquelicot.
From Coq Require Import List.
From Verif Require Import Num NumLemmas ModelBase ModelSample ModelTip StackLemmas Spec SpecQuad SpecLens Laguerre2 ProofsStackQS ProofsStackQS2 ProofsSym ProofsPassive ProofsEx ProofsQuad2 ProofsLens ProofsLens2.
Import ListNotations.
Open Scope R_scope.
From Verif Require Import ProofsLens3.

(** C101. A lens at least as thick as the height of the charge: the documented average of the reflection coefficient does not exist
    (its integral diverges), and what refl_coef_qs_above_surf returns for n nodes is at least n (2n - 1) times the reflection of the
    sample below the lens: it grows without bound with n_lag. *)
Theorem C101_thick_lens :
  forall (laggauss : laggauss_t) (D : Defaults) (e en : C) nu (d z : R) (n : nat),
  let b := ((en - e) / (en + e))%C in
  (0 < n)%nat -> documented_rule n (laggauss n) -> e <> RtoC 0 -> en <> RtoC 0 -> (en + e <> 0)%C -> en <> e ->
  0 < z <= d -> Forall (fun xw => fst xw * d / (2 * z) <= MAX_EXP_ARG) (laggauss n) ->
  (exists v, refl_coef_qs_above_surf laggauss D (stack [e; (- e)%C; en] [d] nu) (rr z) (Some n) = Ok (Some v) /\
     INR n * (2 * INR n - 1) * Cmod b <= Cmod v) /\
  (forall q, 0 <= q -> q * d <= MAX_EXP_ARG -> refl_coef_qs (stack [e; (- e)%C; en] [d] nu) (rr q) = Ok (Some (RtoC (exp (2 * q * d)) * b)%C)) /\
  (forall l, ~ Cintegral_to_infinity (fun q => (RtoC (exp (2 * q * d)) * b) * RtoC (q * exp (- 2 * z * q)))%C l).
Proof. exact C101_thick_lens_proof. Qed.
Print Assumptions C101_thick_lens.

(** C101, a case: one node (x = w = 1), lens of permittivity -1 and thickness 2 on glass of permittivity 3, charge at height 1. *)
Example C101_thick_lens_example : forall (D : Defaults) nu,
  let lg : laggauss_t := fun _ => [(1, 1)] in
  documented_rule 1 (lg 1%nat) /\ Forall (fun xw => fst xw * 2 / (2 * 1) <= MAX_EXP_ARG) (lg 1%nat) /\
  exists v, refl_coef_qs_above_surf lg D (stack [RtoC 1; (- RtoC 1)%C; RtoC 3] [2] nu) (rr 1) (Some 1%nat) = Ok (Some v) /\ 1 / 2 <= Cmod v.
Proof. exact C101_thick_lens_example_proof. Qed.
