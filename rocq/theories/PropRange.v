(** * Properties (generated by tools/gen_prop.py from ProofsRange.v; statements
    only, each proved there) *)
From Coq Require Import String Reals Lra Lia ZArith List Bool.
From Coquelicot Require Import Rcomplements Complex.
From Verif Require Import Num NumLemmas ModelBase ModelSample ModelTip StackLemmas Spec ModelRange SpecRange
  RangeLemmas ProofsStackQS.
Import ListNotations.
Open Scope R_scope.
From Verif Require Import ProofsRange.

(** C52. As long as the growth through the stack stays within the range of a
    double, nothing overflows: the range-limited arithmetic returns exactly
    the reflection coefficient of the exact one. *)
Theorem C52_safe_region :
  forall (es : list C) (ts : list R) nu (q : R) (r s : C),
  wf es ts -> ts <> [] -> Forall tame es -> Forall (fun t => 0 <= q * t) ts ->
  2 * amplification es * exp (total_exponent q ts) <= MAXF ->
  refl_coef_qs (stack es ts nu) (rr q) = Ok (Some r) -> 4 * Cmod r <= MAXF ->
  trans_coef_qs (stack es ts nu) (rr q) = Ok (Some s) -> 2 * Cmod s <= MAXF ->
  zrefl_qs (map zof es) (map Fin ts) (Fin q) = Some (zof r).
Proof. exact C52_safe_region_proof. Qed.
Print Assumptions C52_safe_region.
