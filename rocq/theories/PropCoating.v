(** * Properties (generated by tools/gen_prop.py from ProofsCoating.v; statements
    only, each proved there) *)
From Coq Require Import String Reals Lra Lia ZArith List Bool.
From Coquelicot Require Import Rcomplements Complex.
From Verif Require Import Num NumLemmas ModelBase ModelSample ModelTip StackLemmas Spec SpecCoating
  ProofsStackQS ProofsStackQS2 ProofsStackFF ProofsStackFF2 ProofsBulkFF.
Import ListNotations.
Open Scope R_scope.
From Verif Require Import ProofsCoating.

(** C99. The reflection and transmission coefficients of any stack, both polarizations, through the tangential fields on top
    of the coating. *)
Theorem C99_admittance :
  forall (p : bool) (a : C * C) (mid : list (C * C)) (b : C * C) (ts : list R) nu0 (nu q : R) (F G : C),
  length mid = length ts ->
  Forall (fun l => is_kz nu q (fst l) (snd l) /\ principal (snd l) /\ snd l <> RtoC 0) (a :: mid ++ [b]) ->
  (p = true -> Forall (fun l => fst l <> RtoC 0) (a :: mid ++ [b])) ->
  surface_fields p (mid ++ [b]) ts = (F, G) ->
  let y := admittance p a in (y * F + G <> 0)%C ->
  let s := stack (map fst (a :: mid ++ [b])) ts nu0 in
  refl_coef s (Some q) None (Some nu) (pol p) = Ok (Some ((y * F - G) / (y * F + G))%C) /\
  trans_coef s (Some q) None (Some nu) (pol p) = Ok (Some (2 * y / (y * F + G))%C).
Proof. exact C99_admittance_proof. Qed.
Print Assumptions C99_admittance.
