(** * Properties (generated by tools/gen_prop.py from ProofsCoating4.v; statements
    only, each proved there) *)
From Coq Require Import String Reals Lra Lia ZArith List Bool.
From Coquelicot Require Import Rcomplements Complex.
From Verif Require Import Num NumLemmas ModelBase ModelSample ModelTip StackLemmas Spec SpecCoating
  ProofsStackQS ProofsStackQS2 ProofsStackFF ProofsStackFF2 ProofsBulkFF ProofsCoating ProofsCoating2.
Import ListNotations.
Open Scope R_scope.
From Verif Require Import ProofsCoating4.

(** C99. Photonic band gaps: if half the trace of the characteristic matrix of a lossless unit cell exceeds 1 in magnitude, N periods of
    it transmit at most 8 y0 ys / min(y0, ys)^2 lambda^(-2N), lambda = |h| + sqrt(h^2 - 1) > 1: a perfect mirror in the limit. *)
Theorem C99_band_gap :
  forall (p : bool) (nu q e0 k0 es ks : R) (cell : list layer) (N : nat) nu0,
  transparent nu q e0 k0 -> Forall (fun l => transparent nu q (lay_eps l) (lay_k l)) cell -> transparent nu q es ks ->
  let y0 := adm p e0 k0 in let ys := adm p es ks in let h := half_trace (char_matrix p cell) in
  let ls := concat (repeat cell N) in let s := stack (map RtoC (e0 :: map lay_eps ls ++ [es])) (map lay_t ls) nu0 in
  1 < Rabs h ->
  let lambda := Rabs h + sqrt (h ^ 2 - 1) in
  1 < lambda /\
  exists r t : C,
    refl_coef s (Some q) None (Some nu) (pol p) = Ok (Some r) /\
    trans_coef s (Some q) None (Some nu) (pol p) = Ok (Some t) /\
    ys / y0 * Cmod t ^ 2 <= 8 * y0 * ys / (Rmin y0 ys ^ 2 * lambda ^ (2 * N)) /\
    1 - 8 * y0 * ys / (Rmin y0 ys ^ 2 * lambda ^ (2 * N)) <= Cmod r ^ 2 < 1.
Proof. exact C99_band_gap_proof. Qed.
Print Assumptions C99_band_gap.

(** C99. Pass bands: if half the trace is below 1 in magnitude, the transmitted power stays above one positive constant whatever the
    number of periods: no lossless stack is a mirror there however thick. *)
Theorem C99_pass_band :
  forall (p : bool) (nu q e0 k0 es ks : R) (cell : list layer),
  transparent nu q e0 k0 -> Forall (fun l => transparent nu q (lay_eps l) (lay_k l)) cell -> transparent nu q es ks ->
  Rabs (half_trace (char_matrix p cell)) < 1 ->
  exists c : R, 0 < c /\
  forall (N : nat) nu0,
  let ls := concat (repeat cell N) in let s := stack (map RtoC (e0 :: map lay_eps ls ++ [es])) (map lay_t ls) nu0 in
  exists r t : C,
    refl_coef s (Some q) None (Some nu) (pol p) = Ok (Some r) /\
    trans_coef s (Some q) None (Some nu) (pol p) = Ok (Some t) /\
    c <= adm p es ks / adm p e0 k0 * Cmod t ^ 2 /\ Cmod r ^ 2 <= 1 - c.
Proof. exact C99_pass_band_proof. Qed.
Print Assumptions C99_pass_band.

(** C99. Both cases occur: the quarter-wave cell with admittances 1 and 1/2 at normal incidence (half trace -5/4, lambda 2) is in a gap,
    and a single layer of phase pi/2 (half trace 0) is in a pass band. *)
Example C99_bands_example :
  let a : layer := (1, 1, PI / 2) in let b : layer := (4, 2, PI / 4) in
  transparent 1 0 (lay_eps a) (lay_k a) /\ transparent 1 0 (lay_eps b) (lay_k b) /\
  half_trace (char_matrix true [a; b]) = - (5 / 4) /\ half_trace (char_matrix true [b]) = 0.
Proof. exact C99_bands_example_proof. Qed.
