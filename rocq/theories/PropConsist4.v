(** * Properties (generated by tools/gen_prop.py from ProofsConsist4.v; statements
    only, each proved there) *)
From Coq Require Import String Reals Lra Lia ZArith List Bool Permutation Sorted.
From Coquelicot Require Import Rcomplements Complex.
From Verif Require Import Num NumLemmas LimLemmas ModelBase ModelSample ModelTip NArr SpecArr NArrLemmas ModelObj SpecObj
  ModelArr ModelArrTip ModelInv StackLemmas Spec SpecPoly SpecInv SpecNear FTA ArrSample
  ProofsStackQS ProofsStackQS2 ProofsPassive DemodLemmas ProofsDemod ProofsTip ProofsTip2 ProofsTip3 ProofsTaylor
  ProofsArr ProofsArr2 ProofsArrTip InvLemmas ProofsInv ProofsInv2 ProofsInv3 ProofsInv4 ProofsInv5
  ProofsNear ProofsConsist ProofsConsist2 ProofsConsist3.
Import ListNotations.
Open Scope R_scope.
From Verif Require Import ProofsConsist4.

(** C65. Room to spare is needed.  A lossless sample (permittivity 3) meets the
    restriction [reject_negative_eps_imag] exactly.  With a complex g-factor
    there are arbitrarily large n_tayl for which the inverse, applied to the
    exact signal, returns nothing within 1/8 of its reflection coefficient 1/2. *)
Theorem C65_lossless_lost_refuted : forall eig sb sr (laggauss : laggauss_t) D, library eig sb sr ->
  let g := (3 / 4, -1)%R : C in let s := stack [RtoC 1; RtoC 3] [] None in let beta := RtoC (1 / 2) in
  let invert a J := fdm_refl_coef_qs_from_eff_pol_n eig sb sr D (scalar (Some a)) (scalar 0%R) (scalar 0%Z) (Some (scalar 0%R))
    (Some (scalar 1%R)) (Some (scalar 1%R)) (Some (scalar g)) (Some (scalar (1 / 2)%R)) (Some (scalar (1 / 2)%R))
    (Some 1%nat) (Some J) (Some 1%R) true false (Some (scalar (RtoC 1))) in
  refl_coef_qs s (rr 0) = Ok (Some beta) /\ admissible 1 true false (RtoC 1) beta /\
  exists a,
    fdm_eff_pol_n laggauss D s 0 0 (Some 0%R) (Some 1%nat) (Some 1%R) (Some 1%R) (Some g) (Some (1 / 2)%R) (Some (1 / 2)%R) None None None
      = Ok (Some a) /\
    forall J0, exists J result, (J0 <= J)%nat /\ invert a J = Ok result /\ elements result = [] /\
      forall b, In (Some b) (unmasked result []) -> 1 / 8 <= Cmod (b - beta)%C.
Proof. exact C65_lossless_lost_refuted_proof. Qed.
Print Assumptions C65_lossless_lost_refuted.
