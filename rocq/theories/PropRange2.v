(** * Properties (generated by tools/gen_prop.py from ProofsRange2.v; statements
    only, each proved there) *)
From Coq Require Import String Reals Lra Lia ZArith List Bool.
From Coquelicot Require Import Rcomplements Complex.
From Verif Require Import Num NumLemmas ModelBase ModelSample ModelTip StackLemmas Spec ModelRange SpecRange
  RangeLemmas ProofsStackQS ProofsStackQS2 ProofsRange.
Import ListNotations.
Open Scope R_scope.
From Verif Require Import ProofsRange2.

(** C52. Two or more inner layers: once the clipped exponents of the topmost
    layers add up to more than the clipping limit (and ln 3 per layer), the
    reflection coefficient is nan, however well-behaved the exact value is. *)
Theorem C52_thick_stack_nan :
  forall (es ts1 ts2 : list R) (q : R),
  wf es (ts1 ++ ts2) -> Forall (fun e => 0 < e /\ tame (RtoC e)) es ->
  Forall (fun t => 1 <= q * t) ts1 ->
  MAXF * 3 ^ length ts1 < exp (total_exponent q ts1) ->
  zrefl_qs (map zof (map RtoC es)) (map Fin (ts1 ++ ts2)) (Fin q) = Some (NaN, NaN).
Proof. exact C52_thick_stack_nan_proof. Qed.
Print Assumptions C52_thick_stack_nan.
