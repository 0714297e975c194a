(** * Properties (generated by tools/gen_prop.py from ProofsStackQS.v; statements
    only, each proved there) *)
From Coq Require Import String Reals Lra Lia ZArith List Bool.
From Coquelicot Require Import Rcomplements Complex.
From Verif Require Import Num NumLemmas ModelBase ModelSample ModelTip StackLemmas Spec.
Import ListNotations.
Open Scope R_scope.
From Verif Require Import ProofsStackQS.

(** C07. refl_coef_qs of a stack is the Airy/Parratt recursion over its
    interfaces with round-trip factor e^{-2 q t}, whenever no denominator of
    the recursion vanishes and no product q t reaches the overflow clip. *)
Theorem C07_refl_coef_qs_is_parratt :
  forall (es : list C) (ts : list R) nu (q : R) (r : C),
  parratt qs_iface (qs_round q) es ts r ->
  Forall (fun t => Rabs (q * t) <= MAX_EXP_ARG) ts ->
  refl_coef_qs (stack es ts nu) (rr q) = Ok (Some r).
Proof. exact C07_refl_coef_qs_is_parratt_proof. Qed.
Print Assumptions C07_refl_coef_qs_is_parratt.

(** example: a film of permittivity 3 and thickness 2 between 1 and 2, q = 1/2 *)
Example C07_example :
  parratt qs_iface (qs_round (1/2)) [RtoC 1; RtoC 3; RtoC 2] [2]
    ((RtoC (1/2) + RtoC (-1/5) * RtoC (exp (- 2 * (1/2) * 2)))
      / (1 + RtoC (1/2) * (RtoC (-1/5) * RtoC (exp (- 2 * (1/2) * 2)))))%C.
Proof. exact C07_example_proof. Qed.

(** C04. permitivitty undoes refl_coef_qs_single ... *)
Theorem C04_permitivitty_inverts_refl :
  forall ei ej : C, ei <> RtoC 0 -> (ei + ej)%C <> RtoC 0 ->
  permitivitty (refl_coef_qs_single (Some ei) (Some ej)) (Some ei) = Some ej.
Proof. exact C04_permitivitty_inverts_refl_proof. Qed.
Print Assumptions C04_permitivitty_inverts_refl.

(** C04. ... and conversely. *)
Theorem C04_refl_inverts_permitivitty :
  forall ei b : C, ei <> RtoC 0 -> b <> RtoC 1 ->
  refl_coef_qs_single (Some ei) (permitivitty (Some b) (Some ei)) = Some b.
Proof. exact C04_refl_inverts_permitivitty_proof. Qed.
Print Assumptions C04_refl_inverts_permitivitty.

(** C04. Antisymmetry: swapping the media flips the sign (and a vanishing
    denominator stays one). *)
Theorem C04_refl_antisymmetric :
  forall ei ej : C,
  refl_coef_qs_single (Some ej) (Some ei)
  = (rc (-1) * refl_coef_qs_single (Some ei) (Some ej))%cv.
Proof. exact C04_refl_antisymmetric_proof. Qed.
Print Assumptions C04_refl_antisymmetric.

(** C04. Only the ratio of the permittivities matters. *)
Theorem C04_refl_scale_invariant :
  forall k ei ej : C, k <> RtoC 0 ->
  refl_coef_qs_single (Some (k * ei)%C) (Some (k * ej)%C)
  = refl_coef_qs_single (Some ei) (Some ej).
Proof. exact C04_refl_scale_invariant_proof. Qed.
Print Assumptions C04_refl_scale_invariant.

(** C12. A bulk sample reflects the same at every momentum: the
    single-interface coefficient, which is also its only beta_stack entry. *)
Theorem C12_bulk_refl_independent_of_q :
  forall (e0 e1 : C) nu (q : RV), e1 <> RtoC 0 ->
  refl_coef_qs (stack [e0; e1] [] nu) q = Ok (refl_coef_qs_single (Some e0) (Some e1)) /\
  beta_stack (stack [e0; e1] [] nu) = [refl_coef_qs_single (Some e0) (Some e1)].
Proof. exact C12_bulk_refl_independent_of_q_proof. Qed.
Print Assumptions C12_bulk_refl_independent_of_q.

(** C12. ... with transmission 1 + reflection. *)
Theorem C12_bulk_trans_is_one_plus_refl :
  forall (e0 e1 : C) nu (q : RV) (r t : C), e1 <> RtoC 0 ->
  refl_coef_qs (stack [e0; e1] [] nu) q = Ok (Some r) ->
  trans_coef_qs (stack [e0; e1] [] nu) q = Ok (Some t) ->
  t = (1 + r)%C.
Proof. exact C12_bulk_trans_is_one_plus_refl_proof. Qed.
Print Assumptions C12_bulk_trans_is_one_plus_refl.

(** example: vacuum on permittivity 3: r = 1/2 and t = 3/2 at every q *)
Example C12_example : forall q : RV,
  refl_coef_qs (stack [RtoC 1; RtoC 3] [] None) q = Ok (rc (1/2)) /\
  trans_coef_qs (stack [RtoC 1; RtoC 3] [] None) q = Ok (rc (3/2)).
Proof. exact C12_example_proof. Qed.

(** C09. At q = 0 the reflection and transmission of any stack are those of
    the environment/substrate interface alone. *)
Theorem C09_zero_momentum_sees_only_ends :
  forall (e0 : C) (mid : list C) (en : C) (ts : list R) nu,
  length mid = length ts ->
  Forall (fun e => e <> RtoC 0) mid -> en <> RtoC 0 ->
  refl_coef_qs (stack (e0 :: mid ++ [en]) ts nu) (rr 0)
    = Ok (refl_coef_qs_single (Some e0) (Some en)) /\
  trans_coef_qs (stack (e0 :: mid ++ [en]) ts nu) (rr 0)
    = Ok (Some (2 * en)%C / Some (e0 + en)%C)%cv.
Proof. exact C09_zero_momentum_sees_only_ends_proof. Qed.
Print Assumptions C09_zero_momentum_sees_only_ends.

(** C09. Hence the point dipole model treats a multilayer sample exactly as
    its bare substrate: same values, same exceptions. *)
Theorem C09_pdm_ignores_inner_layers :
  forall D (e0 : C) (mid : list C) (en : C) (ts : list R) nu
         (A_tip : R) (n : Z) z_tip r_tip eps_tip alpha_tip n_trapz n_tayl,
  length mid = length ts ->
  Forall (fun e => e <> RtoC 0) mid -> en <> RtoC 0 ->
  pdm_eff_pol D (stack (e0 :: mid ++ [en]) ts nu) z_tip r_tip eps_tip alpha_tip
    = pdm_eff_pol D (stack [e0; en] [] nu) z_tip r_tip eps_tip alpha_tip /\
  pdm_eff_pol_n D (stack (e0 :: mid ++ [en]) ts nu) A_tip n z_tip n_trapz r_tip eps_tip alpha_tip
    = pdm_eff_pol_n D (stack [e0; en] [] nu) A_tip n z_tip n_trapz r_tip eps_tip alpha_tip /\
  pdm_eff_pol_n_taylor D (stack (e0 :: mid ++ [en]) ts nu) A_tip n z_tip r_tip eps_tip alpha_tip n_trapz n_tayl
    = pdm_eff_pol_n_taylor D (stack [e0; en] [] nu) A_tip n z_tip r_tip eps_tip alpha_tip n_trapz n_tayl.
Proof. exact C09_pdm_ignores_inner_layers_proof. Qed.
Print Assumptions C09_pdm_ignores_inner_layers.

(** C10. Inserting a layer of zero thickness anywhere between environment and
    substrate leaves the quasistatic transfer matrix unchanged.
    [l1]/[t1] are the materials and thicknesses above the insertion point
    (environment included), [l2]/[t2] those below (substrate included). *)
Theorem C10_zero_thickness_layer_invisible :
  forall (l1 l2 : list C) (t1 t2 : list R) (e : C) nu (q : R),
  length l1 = (length t1 + 1)%nat -> length l2 = (length t2 + 1)%nat ->
  nonzero_below (l1 ++ e :: l2) ->
  transfer_matrix_qs (stack (l1 ++ e :: l2) (t1 ++ 0 :: t2) nu) (rr q)
  = transfer_matrix_qs (stack (l1 ++ l2) (t1 ++ t2) nu) (rr q) /\
  refl_coef_qs (stack (l1 ++ e :: l2) (t1 ++ 0 :: t2) nu) (rr q)
  = refl_coef_qs (stack (l1 ++ l2) (t1 ++ t2) nu) (rr q) /\
  trans_coef_qs (stack (l1 ++ e :: l2) (t1 ++ 0 :: t2) nu) (rr q)
  = trans_coef_qs (stack (l1 ++ l2) (t1 ++ t2) nu) (rr q).
Proof. exact C10_zero_thickness_layer_invisible_proof. Qed.
Print Assumptions C10_zero_thickness_layer_invisible.

(** C10. Splitting a layer of thickness x + y into two layers of the same
    material of thicknesses x and y changes nothing. *)
Theorem C10_split_layer_invisible :
  forall (l1 l2 : list C) (t1 t2 : list R) (e : C) nu (q x y : R),
  length l1 = (length t1 + 1)%nat -> length l2 = (length t2 + 1)%nat ->
  nonzero_below (l1 ++ e :: l2) ->
  0 <= q * x -> 0 <= q * y -> q * (x + y) <= MAX_EXP_ARG ->
  transfer_matrix_qs (stack (l1 ++ e :: e :: l2) (t1 ++ x :: y :: t2) nu) (rr q)
  = transfer_matrix_qs (stack (l1 ++ e :: l2) (t1 ++ (x + y) :: t2) nu) (rr q) /\
  refl_coef_qs (stack (l1 ++ e :: e :: l2) (t1 ++ x :: y :: t2) nu) (rr q)
  = refl_coef_qs (stack (l1 ++ e :: l2) (t1 ++ (x + y) :: t2) nu) (rr q) /\
  trans_coef_qs (stack (l1 ++ e :: e :: l2) (t1 ++ x :: y :: t2) nu) (rr q)
  = trans_coef_qs (stack (l1 ++ e :: l2) (t1 ++ (x + y) :: t2) nu) (rr q).
Proof. exact C10_split_layer_invisible_proof. Qed.
Print Assumptions C10_split_layer_invisible.
