(** * Properties (generated by tools/gen_prop.py from ProofsRangeFF2.v; statements
    only, each proved there) *)
From Coq Require Import String Reals Lra Lia ZArith List Bool.
From Coquelicot Require Import Rcomplements Complex.
From Verif Require Import Num NumLemmas ModelBase ModelSample ModelTip StackLemmas Spec ModelRange SpecRange
  RangeLemmas ProofsStackQS ProofsStackFF ProofsOpaque ModelRangeFF SpecRangeFF ProofsRange ProofsRangeFF.
Import ListNotations.
Open Scope R_scope.
From Verif Require Import ProofsRangeFF2.

(** C68. As long as the growth through the stack stays within the range of a
    double, the range-limited arithmetic returns exactly the far-field
    reflection and transmission coefficient of the exact one. *)
Theorem C68_safe_region :
  forall (p : bool) (first : C * C) (mid : list (C * C)) (last : C * C) (ts : list R) nu0 (nu q : R) (r s : C),
  length mid = length ts -> ts <> [] -> Rabs nu <= MILD -> Rabs q <= MILD ->
  Forall (fun l => is_kz nu q (fst l) (snd l) /\ principal (snd l) /\ mild (fst l) /\ mild (snd l)) (first :: mid ++ [last]) ->
  Forall (fun lt => 0 <= Im (snd (fst lt)) * snd lt /\ Cmod (snd (fst lt)) * Rabs (snd lt) <= MAXF) (combine mid ts) ->
  2 * amplification_ff p (first :: mid ++ [last]) * exp (attenuation mid ts) <= MAXF ->
  let es := map fst (first :: mid ++ [last]) in
  refl_coef (stack es ts nu0) (Some q) None (Some nu) (pol p) = Ok (Some r) -> 4 * Cmod r <= MAXF ->
  trans_coef (stack es ts nu0) (Some q) None (Some nu) (pol p) = Ok (Some s) -> 4 * Cmod s <= MAXF ->
  zrefl_ff p (map zof es) (map Fin ts) (Fin nu) (Fin q) = Some (zof r) /\
  ztrans_ff p (map zof es) (map Fin ts) (Fin nu) (Fin q) = Some (zof s).
Proof. exact C68_safe_region_proof. Qed.
Print Assumptions C68_safe_region.

(** example: vacuum / absorbing film of permittivity 3 + 4i, thickness 1 / the
    same material as substrate, at normal incidence *)
Example C68_safe_example :
  zrefl_ff false (map zof [RtoC 1; (3, 4)%R; (3, 4)%R]) [Fin 1] (Fin 1) (Fin 0) = Some (zof ((-1, -1)%R / (3, 1)%R)%C) /\
  ztrans_ff false (map zof [RtoC 1; (3, 4)%R; (3, 4)%R]) [Fin 1] (Fin 1) (Fin 0)
  = Some (zof (RtoC 2 / (3, 1)%R * Cexp (-1, 2)%R)%C).
Proof. exact C68_safe_example_proof. Qed.

(** example: the film of permittivity 3 + 4i of C67 on a substrate of
    permittivity 4.  In exact arithmetic it reflects like the interface vacuum
    / film; within the range of a double it returns nan. *)
Example C68_nan_example :
  exists K T, forall t, T <= t -> t <= 2 ^ 1000 -> exists r,
    refl_coef (stack [RtoC 1; (3, 4)%R; RtoC 4] [t] None) (Some 0) None (Some 1) "s" = Ok (Some r) /\
    Cmod (r - (-1, -1)%R / (3, 1)%R)%C <= K * exp (- (2 * 1) * t) /\
    zrefl_ff false (map zof [RtoC 1; (3, 4)%R; RtoC 4]) [Fin t] (Fin 1) (Fin 0) = Some (NaN, NaN).
Proof. exact C68_nan_example_proof. Qed.
