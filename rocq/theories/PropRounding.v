(** * Properties (generated by tools/gen_prop.py from ProofsRounding.v; statements
    only, each proved there) *)
From Coq Require Import String Reals Lra Lia ZArith List Bool Permutation.
From Coquelicot Require Import Rcomplements Complex.
From Verif Require Import Num NumLemmas ModelBase ModelSample ModelTip StackLemmas Spec ProofsSym DemodLemmas ProofsTaylor SpecRound ModelRound RoundLemmas RoundLemmas2.
Import ListNotations.
Open Scope R_scope.
From Verif Require Import ProofsRounding.

(** C73. demod computed in arithmetic of relative error u, in any order of summation: if the demodulated
    function is bounded by B on the sampled interval and computed within F (at heights perturbed by
    rounding), the harmonic is computed within 2 F + 2 S B, where S = (height of the summation tree + 36 +
    67 |n|) u. *)
Theorem C73_demod_error : forall D A u t f g fk x_0 amp n N B F,
  rounds u A -> 0 <= u <= 1 / 100 -> N <> O -> adds_up t N ->
  (forall x, Rabs (x - x_0) <= Rabs amp -> f x = Ok (Some (g x)) /\ Cmod (g x) <= B) ->
  (forall x x', Rabs (x - x_0) <= Rabs amp -> Rabs (x' - x) <= u * (Rabs x_0 + 67 * Rabs amp) ->
     Cmod (fk x' - g x)%C <= F) ->
  let S := (INR (order_height t) + 36 + 67 * Rabs (IZR n)) * u in
  S <= 1 / 2 ->
  exists d, demod D f x_0 amp n (Some N) = Ok (Some d) /\
    Cmod (k_demod A t fk x_0 amp n N - d)%C <= 2 * F + 2 * S * B.
Proof. exact C73_demod_error_proof. Qed.
Print Assumptions C73_demod_error.

(** C73. With u = 0 the rounded program is the exact model. *)
Theorem C73_exact_arithmetic : forall D A t f g x_0 amp n N,
  rounds 0 A -> N <> O -> adds_up t N ->
  (forall x, Rabs (x - x_0) <= Rabs amp -> f x = Ok (Some (g x))) ->
  demod D f x_0 amp n (Some N) = Ok (Some (k_demod A t g x_0 amp n N)).
Proof. exact C73_exact_arithmetic_proof. Qed.
Print Assumptions C73_exact_arithmetic.

(** C73. Noise floor: the exact harmonics of a constant vanish (n not a multiple of n_trapz); the computed
    ones are at most 2 S |c|. *)
Theorem C73_noise_floor : forall A u t c x_0 amp n N,
  rounds u A -> 0 <= u <= 1 / 100 -> N <> O -> adds_up t N -> ~ (Z.of_nat N | n)%Z ->
  let S := (INR (order_height t) + 36 + 67 * Rabs (IZR n)) * u in
  S <= 1 / 2 ->
  Cmod (k_demod A t (fun _ => c) x_0 amp n N) <= 2 * S * Cmod c.
Proof. exact C73_noise_floor_proof. Qed.
Print Assumptions C73_noise_floor.

(** C73. They need not vanish. *)
Theorem C73_constant_noise_refuted :
  ~ (forall A u t c x_0 amp n N, rounds u A -> 0 <= u <= 1 / 100 -> N <> O -> adds_up t N -> ~ (Z.of_nat N | n)%Z ->
       k_demod A t (fun _ => c) x_0 amp n N = RtoC 0).
Proof. exact C73_constant_noise_refuted_proof. Qed.
Print Assumptions C73_constant_noise_refuted.

(** C73. The second harmonic of x^2 around 1 with amplitude 1, N = 16, in the chopping
    arithmetic with 53 digits: within 2100 units of rounding of the exact one *)
Example C73_example :
  let A := chop_arith 53 in let u := / 2 ^ 53 in
  a_add A 1 (/ 2 ^ 54) = 1 /\
  exists d, demod defaults0 (fun x => Ok (Some (RtoC (x ^ 2)))) 1 1 2%Z (Some 16%nat) = Ok (Some d) /\
    Cmod (k_demod A (left_order 15) (fun x => RtoC (a_pow A x 2)) 1 1 2%Z 16 - d)%C <= 2100 * u.
Proof. exact C73_example_proof. Qed.
