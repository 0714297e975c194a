(** * Properties (generated by tools/gen_prop.py from ProofsRounding3.v; statements
    only, each proved there) *)
From Coq Require Import String Reals Lra Lia ZArith List Bool Permutation.
From Coquelicot Require Import Rcomplements Complex.
From Verif Require Import Num NumLemmas ModelBase ModelSample ModelTip StackLemmas Spec ProofsPassive ProofsTip
  SpecRound SpecAccurate ModelRound ModelRound2 RoundLemmas RoundLemmas2 RoundTends RoundTends2 ProofsRounding ProofsRounding2.
Import ListNotations.
Open Scope R_scope.
From Verif Require Import ProofsRounding3.

(** C76. refl_coef_qs_single loses at most 16 units of rounding, relative to the result, for all permittivities. *)
Theorem C76_single : forall u m (e_i e_j : C),
  rounds u (m_arith m) -> 0 <= u <= 1 / 100 -> (e_i + e_j <> 0)%C ->
  let beta := ((e_j - e_i) / (e_j + e_i))%C in
  Cmod (k_refl_coef_qs_single m e_i e_j - beta)%C <= 16 * u * Cmod beta.
Proof. exact C76_single_proof. Qed.
Print Assumptions C76_single.

(** C76. refl_coef_qs of a bulk sample (through the transfer matrix): absolute error 320 u kappa^2, where
    kappa = (|e0| + |e1|) / |e0 + e1| grows only near the pole e1 = - e0. *)
Theorem C76_bulk : forall u m (e0 e1 : C) nu q,
  rounds u (m_arith m) -> 0 <= u -> e1 <> RtoC 0 -> (e0 + e1 <> 0)%C ->
  let kappa := ((Cmod e0 + Cmod e1) / Cmod (e0 + e1)%C)%R in
  140 * u * kappa <= 1 ->
  exists x, k_refl_coef_qs m (stack [e0; e1] [] nu) q = Ok x /\
    Cmod (x - (e1 - e0) / (e1 + e0))%C <= 320 * u * kappa ^ 2.
Proof. exact C76_bulk_proof. Qed.
Print Assumptions C76_bulk.

(** C76. Through the transfer matrix there is no bound relative to the result. *)
Theorem C76_bulk_relative_refuted :
  ~ (exists K u0, 0 < u0 /\ forall u m (e0 e1 : C), 0 <= u <= u0 -> rounding u m -> e1 <> RtoC 0 -> (e0 + e1 <> 0)%C ->
       exists x, k_refl_coef_qs m (stack [e0; e1] [] None) 0 = Ok x /\
         Cmod (x - (e1 - e0) / (e1 + e0))%C <= K * u * Cmod ((e1 - e0) / (e1 + e0))%C).
Proof. exact C76_bulk_relative_refuted_proof. Qed.
Print Assumptions C76_bulk_relative_refuted.

(** C76. On the same machine and sample the transfer matrix can return 0 where the direct formula is
    right to 16 percent (u = 1/100) or better. *)
Theorem C76_single_vs_transfer : forall u, 0 < u <= 1 / 100 ->
  exists m (e0 e1 : C), rounding u m /\ e1 <> RtoC 0 /\ (e0 + e1 <> 0)%C /\ (e1 - e0)%C <> RtoC 0 /\
    k_refl_coef_qs m (stack [e0; e1] [] None) 0 = Ok (RtoC 0) /\
    84 / 100 * Cmod ((e1 - e0) / (e1 + e0))%C <= Cmod (k_refl_coef_qs_single m e0 e1).
Proof. exact C76_single_vs_transfer_proof. Qed.
Print Assumptions C76_single_vs_transfer.

(** C76. Example: silicon under air in double precision: kappa = 1 *)
Example C76_example :
  exists x, k_refl_coef_qs (digits 53) (stack [RtoC 1; RtoC 12] [] None) 0 = Ok x /\ Cmod (x - RtoC (11 / 13))%C <= 320 / 2 ^ 53.
Proof. exact C76_example_proof. Qed.
