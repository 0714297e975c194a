(** * Properties (generated by tools/gen_prop.py from ProofsRangeFF.v; statements
    only, each proved there) *)
From Coq Require Import String Reals Lra Lia ZArith List Bool.
From Coquelicot Require Import Rcomplements Complex.
From Verif Require Import Num NumLemmas ModelBase ModelSample ModelTip StackLemmas Spec ModelRange SpecRange
  RangeLemmas ProofsStackQS ProofsStackFF ProofsOpaque ModelRangeFF SpecRangeFF ProofsRange.
Import ListNotations.
Open Scope R_scope.
From Verif Require Import ProofsRangeFF.

(** C68. The far-field transfer matrix has no clip on its exponents: if the
    attenuation exponent of one layer exceeds the logarithm of the largest
    double (by more than ln 2 / 2), the reflection and the transmission
    coefficient are nan for both polarizations, whatever the rest of the
    stack is. *)
Theorem C68_opaque_layer_nan_refuted :
  forall (p : bool) (es1 : list C) (e : C) (es2 : list C) (ts1 : list R) (t : R) (ts2 : list R) (nu q : R) (k : C),
  length es1 = S (length ts1) -> length es2 = S (length ts2) ->
  is_kz nu q e k -> principal k ->
  Cmod e * nu ^ 2 <= MAXF -> nu ^ 2 <= MAXF -> q ^ 2 <= MAXF -> Cmod k ^ 2 <= MAXF -> Cmod k * Rabs t <= MAXF ->
  MAX_EXP_ARG + ln 2 / 2 < Im k * t ->
  zrefl_ff p (map zof (es1 ++ e :: es2)) (map Fin (ts1 ++ t :: ts2)) (Fin nu) (Fin q) = Some (NaN, NaN) /\
  ztrans_ff p (map zof (es1 ++ e :: es2)) (map Fin (ts1 ++ t :: ts2)) (Fin nu) (Fin q) = Some (NaN, NaN).
Proof. exact C68_opaque_layer_nan_refuted_proof. Qed.
Print Assumptions C68_opaque_layer_nan_refuted.
