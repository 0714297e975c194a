(** * Properties (generated by tools/gen_prop.py from ProofsThin3.v; statements
    only, each proved there) *)
From Coq Require Import String Reals Lra Lia ZArith List Bool.
From Coquelicot Require Import Coquelicot.
From Coq Require Import List.
From Verif Require Import Num NumLemmas ModelBase ModelSample ModelTip StackLemmas Spec SpecQuad SpecThin
  ProofsStackQS ProofsStackQS2 ProofsSym ProofsPassive Laguerre Laguerre2 QuadConv ProofsQuad ProofsQuad2 ProofsNlag ProofsFilm ProofsThin ProofsThin2.
Import ListNotations.
Open Scope R_scope.
From Verif Require Import ProofsThin3.

(** C91. The documented average of a film is the sum over its image charges: the
    values returned converge, as the number of nodes grows, to a limit which differs
    from the first [M] images [(-bc)^m K / (1 + (m+1) t/z)^2] by at most
    [|K| k^M / (1-k)] times [1 / (1 + t/z)^2], up to what the momentum clip changes.
    In particular ([M = 0]) the substrate is felt through a thick film as
    [(z / (z+t))^2], and not exponentially as with a fixed number of nodes. *)
Theorem C91_image_series :
  forall (laggauss : laggauss_t) (D : Defaults) (e0 e1 e2 : C) (t z k : R) nu,
  let b := image_factor e0 e1 in let c := image_factor e1 e2 in let K := film_contrast b c in
  (forall J, (0 < J)%nat -> documented_rule J (laggauss J)) ->
  (e1 + e0 <> 0)%C -> (e2 + e1 <> 0)%C -> e1 <> RtoC 0 -> e2 <> RtoC 0 ->
  Cmod b * Cmod c <= k -> k < 1 -> 0 < z -> 0 <= t ->
  exists (r : nat -> C) (l : C),
    (forall n, refl_coef_qs_above_surf laggauss D (stack [e0; e1; e2] [t] nu) (rr z) (Some (S n)) = Ok (Some (r n))) /\
    Cseq_lim r l /\
    forall M, Cmod (l - (b + K * Csum_to (fun m => Cpown (- (b * c)) m * RtoC (1 / (1 + INR (S m) * (t / z)) ^ 2)%R) M))%C
              <= Cmod K * (k ^ M / (1 - k) * (1 / (1 + t / z) ^ 2) + exp (- 2 * MAX_EXP_ARG) / (1 - k) ^ 2).
Proof. exact C91_image_series_proof. Qed.
Print Assumptions C91_image_series.
