(** * Properties (generated by tools/gen_prop.py from ProofsInf.v; statements
    only, each proved there) *)
From Coq Require Import String Reals Lra Lia ZArith List Bool.
From Coquelicot Require Import Rcomplements Complex.
From Verif Require Import Num NumLemmas ModelBase ModelSample ModelTip StackLemmas Spec ModelRange SpecRange
  RangeLemmas SpecInf ModelInf ProofsStackQS ProofsPassive ProofsRange.
Import ListNotations.
Open Scope R_scope.
From Verif Require Import ProofsInf.

(** C103. A substrate of infinite permittivity ([np.inf] or one infinite component): the code returns exactly the limit of the reflection coefficient as the
    permittivity grows, as long as the exact values stay in range: a perfectly conducting substrate works. *)
Theorem C103_perfect_conductor :
  forall (es : list C) (ts : list R) nu (q : R) (w : cflt) (r s : C),
  length es = (length ts + 1)%nat -> ts <> [] -> Forall tame es -> Forall (fun t => 0 <= q * t) ts -> infinite_eps w ->
  2 * amplification es * exp (total_exponent q ts) <= MAXF ->
  as_conductor (fun E => refl_coef_qs (stack (es ++ [E]) ts nu) (rr q)) r -> 4 * Cmod r <= MAXF ->
  as_conductor (fun E => trans_coef_qs (stack (es ++ [E]) ts nu) (rr q)) s -> 2 * Cmod s <= MAXF ->
  zrefl_qs (map zof es ++ [w]) (map Fin ts) (Fin q) = Some (zof r).
Proof. exact C103_perfect_conductor_proof. Qed.
Print Assumptions C103_perfect_conductor.
