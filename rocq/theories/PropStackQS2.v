(** * Properties (generated by tools/gen_prop.py from ProofsStackQS2.v; statements
    only, each proved there) *)
From Coq Require Import String Reals Lra Lia ZArith List Bool.
From Coquelicot Require Import Rcomplements Complex.
From Verif Require Import Num NumLemmas ModelBase ModelSample ModelTip StackLemmas Spec ProofsStackQS.
Import ListNotations.
Open Scope R_scope.
From Verif Require Import ProofsStackQS2.

(** C16. The quasistatic transfer matrix has determinant eps_first/eps_last. *)
Theorem C16_det_transfer_matrix_qs :
  forall (e0 : C) (mid : list C) (en : C) (ts : list R) nu (q : R),
  length mid = length ts -> nonzero_below (e0 :: mid ++ [en]) ->
  exists M, transfer_matrix_qs (stack (e0 :: mid ++ [en]) ts nu) (rr q) = Ok M /\
            (m00 M * m11 M - m01 M * m10 M)%cv = Some (e0 / en)%C.
Proof. exact C16_det_transfer_matrix_qs_proof. Qed.
Print Assumptions C16_det_transfer_matrix_qs.

(** C16. Reversing the stack multiplies the transmission coefficient by
    eps_first/eps_last. *)
Theorem C16_reciprocity_qs :
  forall (e0 : C) (mid : list C) (en : C) (ts : list R) nu (q : R),
  length mid = length ts -> Forall (fun e => e <> RtoC 0) (e0 :: mid ++ [en]) ->
  trans_coef_qs (stack (rev (e0 :: mid ++ [en])) (rev ts) nu) (rr q)
  = (let! t := trans_coef_qs (stack (e0 :: mid ++ [en]) ts nu) (rr q) in
     Ok (Some (e0 / en)%C * t)%cv).
Proof. exact C16_reciprocity_qs_proof. Qed.
Print Assumptions C16_reciprocity_qs.

(** C13. If the reflection of everything below the top interface is bounded
    by B at momentum q, the whole stack's reflection is within
    2 B |1 - beta_0^2| e^{-2 min(q t_0, clip)} of the top interface's
    coefficient beta_0. *)
Theorem C13_top_interface_dominates :
  forall (e0 e1 : C) (rest : list C) (t : R) (ts : list R) nu (q : R) (r1 b : C) (B : R),
  wf (e1 :: rest) ts -> nonzero_below (e0 :: e1 :: rest) ->
  (e1 + e0 <> 0)%C -> b = ((e1 - e0) / (e1 + e0))%C ->
  refl_coef_qs (stack (e1 :: rest) ts nu) (rr q) = Ok (Some r1) -> Cmod r1 <= B ->
  0 <= q * t ->
  2 * (Cmod b * (B * exp (- 2 * Rmin (q * t) MAX_EXP_ARG))) <= 1 ->
  exists r, refl_coef_qs (stack (e0 :: e1 :: rest) (t :: ts) nu) (rr q) = Ok (Some r) /\
            Cmod (r - b)%C <= 2 * B * Cmod (1 - b * b)%C * exp (- 2 * Rmin (q * t) MAX_EXP_ARG).
Proof. exact C13_top_interface_dominates_proof. Qed.
Print Assumptions C13_top_interface_dominates.

(** C13. Without the clip (the Parratt recursion itself): if every inner
    layer has positive thickness and no two neighbouring permittivities
    cancel, the recursion is well defined for all large q and tends to the
    top interface's coefficient as q grows. *)
Theorem C13_limit_is_top_interface :
  forall (e0 e1 : C) (rest : list C) (ts : list R),
  wf (e0 :: e1 :: rest) ts -> Forall (fun t => 0 < t) ts ->
  nonzero_below (e0 :: e1 :: rest) ->
  Forall (fun p => fst p + snd p <> 0)%C (combine (e0 :: e1 :: rest) (e1 :: rest)) ->
  forall eps, 0 < eps ->
  exists Q, forall q, Q <= q ->
  exists r, parratt qs_iface (qs_round q) (e0 :: e1 :: rest) ts r /\
            Cmod (r - (e1 - e0) / (e1 + e0))%C < eps.
Proof. exact C13_limit_is_top_interface_proof. Qed.
Print Assumptions C13_limit_is_top_interface.

(** example: one film, q t = 1 *)
Example C13_example :
  exists r, refl_coef_qs (stack [RtoC 1; RtoC 3; RtoC 2] [1] None) (rr 1) = Ok (Some r) /\
            Cmod (r - RtoC (1/2))%C <= 2 * (1/5) * Cmod (1 - RtoC (1/2) * RtoC (1/2))%C * exp (- 2 * Rmin (1 * 1) MAX_EXP_ARG).
Proof. exact C13_example_proof. Qed.
