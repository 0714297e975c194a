(** * Properties (generated by tools/gen_prop.py from ProofsDual.v; statements
    only, each proved there) *)
From Coq Require Import String Reals Lra Lia ZArith List Bool.
From Coquelicot Require Import Rcomplements Complex.
From Verif Require Import Num NumLemmas ModelBase ModelSample ModelTip StackLemmas Spec SpecDual ProofsStackQS ProofsStackQS2 ProofsSym.
Import ListNotations.
Open Scope R_scope.
From Verif Require Import ProofsDual.

(** C86. Replacing every permittivity of a stack (real or complex, whether or not
    it has a resonance at this momentum) by its reciprocal changes the sign of
    the quasistatic reflection coefficient and multiplies the transmission
    coefficient by the ratio of the outer permittivities. *)
Theorem C86_reciprocal :
  forall (e0 en : C) (mid : list C) (ts : list R) nu (q : R),
  length mid = length ts -> Forall (fun e => e <> RtoC 0) (e0 :: mid ++ [en]) ->
  let s := stack (e0 :: mid ++ [en]) ts nu in
  let s' := stack (map Cinv (e0 :: mid ++ [en])) ts nu in
  refl_coef_qs s' (rr q) = map_res negV (refl_coef_qs s (rr q)) /\
  trans_coef_qs s' (rr q) = map_res (fun t => Some (e0 / en)%C * t)%cv (trans_coef_qs s (rr q)).
Proof. exact C86_reciprocal_proof. Qed.
Print Assumptions C86_reciprocal.

(** C86. Hence the averages over momenta, the potential and the field change sign;
    the image of a charge above the sample stays where it is and changes sign. *)
Theorem C86_reciprocal_image :
  forall (laggauss : laggauss_t) (D : Defaults) (e0 en : C) (mid : list C) (ts : list R) nu (z : R) (n_lag : option nat),
  length mid = length ts -> Forall (fun e => e <> RtoC 0) (e0 :: mid ++ [en]) -> z <> 0 ->
  let s := stack (e0 :: mid ++ [en]) ts nu in
  let s' := stack (map Cinv (e0 :: mid ++ [en])) ts nu in
  refl_coef_qs_above_surf laggauss D s' (rr z) n_lag = map_res negV (refl_coef_qs_above_surf laggauss D s (rr z) n_lag) /\
  surf_pot_and_field laggauss D s' (rr z) n_lag
    = map_res (fun pE => (negV (fst pE), negV (snd pE))) (surf_pot_and_field laggauss D s (rr z) n_lag) /\
  image_depth_and_charge laggauss D s' (rr z) n_lag
    = map_res (fun dc => (fst dc, negV (snd dc))) (image_depth_and_charge laggauss D s (rr z) n_lag).
Proof. exact C86_reciprocal_image_proof. Qed.
Print Assumptions C86_reciprocal_image.

(** C86. Example: an absorbing film (2 + 3i) on silicon carbide at resonance (-1 + i),
    and the stack of the reciprocal permittivities. *)
Example C86_example : forall q,
  refl_coef_qs (stack [RtoC 1; (2 / 13, - 3 / 13); (- 1 / 2, - 1 / 2)] [5] None) (rr q)
  = map_res negV (refl_coef_qs (stack [RtoC 1; (2, 3); (- 1, 1)] [5] None) (rr q)).
Proof. exact C86_example_proof. Qed.
