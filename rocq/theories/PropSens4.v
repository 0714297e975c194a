(** * Properties (generated by tools/gen_prop.py from ProofsSens4.v; statements
    only, each proved there) *)
From Coq Require Import String Reals Lra Lia ZArith List Bool.
From Coquelicot Require Import Rcomplements Complex.
From Verif Require Import Num NumLemmas ModelBase ModelSample ModelTip NArr SpecArr ModelInv Spec SpecPoly SpecInv SpecSens
  DemodLemmas ProofsTip ProofsTaylor ProofsConsist2 ProofsConsist3 ProofsConsist4.
Import ListNotations.
Open Scope R_scope.
From Verif Require Import ProofsSens4.

(** C89. A tip at rest in contact, of radius and length 1, g = 5/4 and both charges
    at depth 1/2 (f_0 = f_1 = 1/4), has the first three Taylor coefficients
    1, 1/8, 1/32: for the default threshold 1.01 the margin is 1/8 - 1.01/16 > 0, and
    the signal 1 + 1/20 is weak enough for exactly one solution. *)
Example C89_taylor_example : forall D,
  let c := [RtoC 1; RtoC (1 / 8); RtoC (1 / 32)] in
  coefficients (fun j => fdm_taylor_coef D 0 j 0 0 (rr 1) (rr 1) (Some (RtoC (5 / 4))) (rr (1 / 2)) (rr (1 / 2)) (Some 1%nat)) c /\
  degree c 2 /\ margin (101 / 100) c = 1 / 8 - 101 / 1600 /\ 0 < margin (101 / 100) c /\
  INR 2 * Cmod (RtoC (21 / 20) - order0 c)%C <= 101 / 100 * Cmod (nth 1 c (RtoC 0)).
Proof. exact C89_taylor_example_proof. Qed.
