(** * Properties (generated by tools/gen_prop.py from ProofsCoating2.v; statements
    only, each proved there) *)
From Coq Require Import String Reals Lra Lia ZArith List Bool.
From Coquelicot Require Import Rcomplements Complex.
From Verif Require Import Num NumLemmas ModelBase ModelSample ModelTip StackLemmas Spec SpecCoating
  ProofsStackQS ProofsStackQS2 ProofsStackFF ProofsStackFF2 ProofsBulkFF ProofsCoating.
Import ListNotations.
Open Scope R_scope.
From Verif Require Import ProofsCoating2.

(** C99. A lossless coating between transparent media: the code returns both coefficients, and the transmitted power is
    4 y0 ys / (2 y0 ys + y0^2 A^2 + ys^2 D^2 + y0^2 ys^2 B^2 + C^2), (A, B, C, D) the characteristic matrix; the rest is reflected. *)
Theorem C99_lossless_coating :
  forall (p : bool) (nu q e0 k0 es ks : R) (ls : list layer) nu0,
  transparent nu q e0 k0 -> Forall (fun l => transparent nu q (lay_eps l) (lay_k l)) ls -> transparent nu q es ks ->
  let y0 := adm p e0 k0 in let ys := adm p es ks in let m := char_matrix p ls in
  let T := 4 * y0 * ys / (2 * y0 * ys + (y0 * rA m) ^ 2 + (ys * rD m) ^ 2 + (y0 * ys * rB m) ^ 2 + rC m ^ 2) in
  let s := stack (map RtoC (e0 :: map lay_eps ls ++ [es])) (map lay_t ls) nu0 in
  exists r t : C,
    refl_coef s (Some q) None (Some nu) (pol p) = Ok (Some r) /\
    trans_coef s (Some q) None (Some nu) (pol p) = Ok (Some t) /\
    ys / y0 * Cmod t ^ 2 = T /\ Cmod r ^ 2 = 1 - T /\ 0 < T <= 1.
Proof. exact C99_lossless_coating_proof. Qed.
Print Assumptions C99_lossless_coating.
