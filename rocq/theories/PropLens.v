(** * Properties (generated by tools/gen_prop.py from ProofsLens.v; statements
    only, each proved there) *)
From Coq Require Import String Reals Lra Lia ZArith List Bool.
From Coquelicot Require Import Rcomplements Complex.
From Verif Require Import Num NumLemmas ModelBase ModelSample ModelTip StackLemmas Spec SpecLens ProofsStackQS ProofsStackQS2 ProofsSym ProofsTip3.
Import ListNotations.
Open Scope R_scope.
From Verif Require Import ProofsLens.

(** C101. Complementary media annihilate: any sequence of layers followed by its mirror image with negated permittivities, anywhere in
    a stack and at any momentum, leaves the quasistatic transfer matrix, reflection and transmission as if neither were there. *)
Theorem C101_complementary :
  forall (l1 l2 : list C) (t1 t2 : list R) (L : list (C * R)) nu (q : R),
  length l1 = (length t1 + 1)%nat -> length l2 = (length t2 + 1)%nat ->
  nonzero_below (l1 ++ map fst L ++ l2) ->
  let s := stack (l1 ++ map fst (L ++ complement L) ++ l2) (t1 ++ map snd (L ++ complement L) ++ t2) nu in
  let s' := stack (l1 ++ l2) (t1 ++ t2) nu in
  transfer_matrix_qs s (rr q) = transfer_matrix_qs s' (rr q) /\
  refl_coef_qs s (rr q) = refl_coef_qs s' (rr q) /\ trans_coef_qs s (rr q) = trans_coef_qs s' (rr q).
Proof. exact C101_complementary_proof. Qed.
Print Assumptions C101_complementary.
