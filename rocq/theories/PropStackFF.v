(** * Properties (generated by tools/gen_prop.py from ProofsStackFF.v; statements
    only, each proved there) *)
From Coq Require Import String Reals Lra Lia ZArith List Bool.
From Coquelicot Require Import Rcomplements Complex.
From Verif Require Import Num NumLemmas ModelBase ModelSample ModelTip StackLemmas Spec
  ProofsStackQS ProofsStackQS2.
Import ListNotations.
Open Scope R_scope.
From Verif Require Import ProofsStackFF.

(** C11. The far-field reflection coefficient is given by the Airy/Parratt
    recursion over the Fresnel interface coefficients for ANY choice of
    square-root branch inside the finite layers; only environment and
    substrate must use the principal branch.  A layer is a pair
    (permittivity, normal wavevector). *)
Theorem C11_refl_coef_branch_independent :
  forall (p : bool) (first : C * C) (mid : list (C * C)) (last : C * C) (ts : list R) nu0 (nu q : R) (r : C),
  Forall (fun l => is_kz nu q (fst l) (snd l)) (first :: mid ++ [last]) ->
  principal (snd first) -> principal (snd last) ->
  parratt (if p then fresnel_p else fresnel_s) ff_round (first :: mid ++ [last]) ts r ->
  refl_coef (stack (map fst (first :: mid ++ [last])) ts nu0) (Some q) None (Some nu) (pol p)
  = Ok (Some r).
Proof. exact C11_refl_coef_branch_independent_proof. Qed.
Print Assumptions C11_refl_coef_branch_independent.

(** C08. refl_coef is the Airy/Parratt recursion over the Fresnel
    coefficients with wavevectors on the principal branch and round-trip
    phase e^{2 i k t}. *)
Theorem C08_refl_coef_is_fresnel_parratt :
  forall (p : bool) (ls : list (C * C)) (ts : list R) nu0 (nu q : R) (r : C),
  Forall (fun l => is_kz nu q (fst l) (snd l) /\ principal (snd l)) ls ->
  parratt (if p then fresnel_p else fresnel_s) ff_round ls ts r ->
  refl_coef (stack (map fst ls) ts nu0) (Some q) None (Some nu) (pol p) = Ok (Some r).
Proof. exact C08_refl_coef_is_fresnel_parratt_proof. Qed.
Print Assumptions C08_refl_coef_is_fresnel_parratt.
