(** * Properties (generated by tools/gen_prop.py from ProofsQuad2.v; statements
    only, each proved there) *)
From Coq Require Import String Reals Lra Lia ZArith List Bool Permutation.
From Coquelicot Require Import Coquelicot.
From Coq Require Import List.
From Verif Require Import Num NumLemmas ModelBase ModelSample ModelTip StackLemmas Spec
  ProofsStackQS ProofsStackQS2 ProofsSym ProofsPassive SpecQuad Laguerre Laguerre2 QuadConv
  SpecWave WaveLemmas ProofsQuad.
Import ListNotations.
Open Scope R_scope.
From Verif Require Import ProofsQuad2.

(** C59. refl_coef_qs_above_surf converges to the quotient of integrals of its
    docstring. *)
Theorem C59_average_converges :
  forall (laggauss : laggauss_t) (D : Defaults) (e0 : C) (mid : list C) (en : C) (ts : list R) nu (z : R) (b : R -> C),
  (forall J, (0 < J)%nat -> documented_rule J (laggauss J)) ->
  length mid = length ts -> Forall (fun e => e <> RtoC 0) mid -> en <> RtoC 0 -> 0 < z ->
  (forall q, 0 <= q -> refl_coef_qs (stack (e0 :: mid ++ [en]) ts nu) (rr q) = Ok (Some (b q))) ->
  exists (N : C) (W : R) (r : nat -> C),
    Cintegral_to_infinity (fun q => b q * RtoC (q * exp (- 2 * z * q)))%C N /\
    integral_to_infinity (fun q => q * exp (- 2 * z * q)) W /\ 0 < W /\
    (forall n, refl_coef_qs_above_surf laggauss D (stack (e0 :: mid ++ [en]) ts nu) (rr z) (Some (S n)) = Ok (Some (r n))) /\
    Cseq_lim r (N / RtoC W)%C.
Proof. exact C59_average_converges_proof. Qed.
Print Assumptions C59_average_converges.

(** C59. image_depth_and_charge converges to the documented depth and charge of
    the two integrals, provided the field integral is not zero (from some n_lag on
    the sums are then not zero either, so that no nan appears). *)
Theorem C59_image_converges :
  forall (laggauss : laggauss_t) (D : Defaults) (e0 : C) (mid : list C) (en : C) (ts : list R) nu (z : R) (b : R -> C) (phi E : C),
  (forall J, (0 < J)%nat -> documented_rule J (laggauss J)) ->
  length mid = length ts -> Forall (fun e => e <> RtoC 0) mid -> en <> RtoC 0 -> 0 < z ->
  (forall q, 0 <= q -> refl_coef_qs (stack (e0 :: mid ++ [en]) ts nu) (rr q) = Ok (Some (b q))) ->
  Cintegral_to_infinity (fun q => b q * RtoC (exp (- 2 * z * q)))%C phi ->
  Cintegral_to_infinity (fun q => b q * RtoC (q * exp (- 2 * z * q)))%C E ->
  E <> RtoC 0 ->
  exists (N : nat) (d : nat -> R) (c : nat -> C),
    (forall n, (N <= n)%nat ->
       image_depth_and_charge laggauss D (stack (e0 :: mid ++ [en]) ts nu) (rr z) (Some n) = Ok (Some (d n), Some (c n))) /\
    is_lim_seq d (Cmod (phi / E)%C - z) /\ Cseq_lim c (phi * phi / E)%C.
Proof. exact C59_image_converges_proof. Qed.
Print Assumptions C59_image_converges.

(** C59. For a passive sample on a lossy substrate under a transparent medium
    nothing has to be assumed: every coefficient, every integral and every limit
    exists, and both integrals have a positive imaginary part. *)
Theorem C59_lossy_substrate_converges :
  forall (laggauss : laggauss_t) (D : Defaults) (e0 : R) (mid : list C) (en : C) (ts : list R) nu (z : R),
  (forall J, (0 < J)%nat -> documented_rule J (laggauss J)) ->
  length mid = length ts -> 0 < e0 ->
  Forall (fun e => e <> RtoC 0 /\ 0 <= Im e) mid -> 0 < Im en ->
  Forall (fun t => 0 <= t) ts -> 0 < z ->
  let s := stack (RtoC e0 :: mid ++ [en]) ts nu in
  exists (b : R -> C) (phi E : C) (u v r : nat -> C) (d : nat -> R) (c : nat -> C) (N : nat),
    (forall q, 0 <= q -> refl_coef_qs s (rr q) = Ok (Some (b q))) /\
    Cintegral_to_infinity (fun q => b q * RtoC (exp (- 2 * z * q)))%C phi /\
    Cintegral_to_infinity (fun q => b q * RtoC (q * exp (- 2 * z * q)))%C E /\
    0 < Im phi /\ 0 < Im E /\
    (forall n, surf_pot_and_field laggauss D s (rr z) (Some (S n)) = Ok (Some (u n), Some (v n))) /\
    Cseq_lim u phi /\ Cseq_lim v E /\
    (forall n, refl_coef_qs_above_surf laggauss D s (rr z) (Some (S n)) = Ok (Some (r n))) /\
    Cseq_lim r (RtoC (4 * z ^ 2) * E)%C /\
    (forall n, (N <= n)%nat -> image_depth_and_charge laggauss D s (rr z) (Some n) = Ok (Some (d n), Some (c n))) /\
    is_lim_seq d (Cmod (phi / E)%C - z) /\ Cseq_lim c (phi * phi / E)%C.
Proof. exact C59_lossy_substrate_converges_proof. Qed.
Print Assumptions C59_lossy_substrate_converges.

Example C58_example :
  documented_rule 1 [(1, 1)] /\ documented_rule 2 rule2 /\
  Rsum (map (fun xw => snd xw * fst xw ^ 3) rule2) = 6 /\
  integral_to_infinity (fun x => x ^ 3 * exp (- x)) 6 /\
  Rsum (map (fun xw => snd xw * fst xw ^ 4) rule2) = 20 /\
  integral_to_infinity (fun x => x ^ 4 * exp (- x)) 24.
Proof. exact C58_example_proof. Qed.

(** C59: a film with a resonance on a weakly absorbing substrate, charge at height 3/2 *)
Example C59_example : forall (D : Defaults),
  exists (laggauss : laggauss_t),
  (forall J, (0 < J)%nat -> documented_rule J (laggauss J)) /\
  let s := stack [RtoC 1; (-2, 1/10)%R; (11, 1/100)%R] [30] None in
  exists (b : R -> C) (phi E : C) (u v : nat -> C),
    (forall q, 0 <= q -> refl_coef_qs s (rr q) = Ok (Some (b q))) /\
    Cintegral_to_infinity (fun q => b q * RtoC (exp (- 2 * (3/2) * q)))%C phi /\
    Cintegral_to_infinity (fun q => b q * RtoC (q * exp (- 2 * (3/2) * q)))%C E /\
    E <> RtoC 0 /\
    (forall n, surf_pot_and_field laggauss D s (rr (3/2)) (Some (S n)) = Ok (Some (u n), Some (v n))) /\
    Cseq_lim u phi /\ Cseq_lim v E.
Proof. exact C59_example_proof. Qed.
