(** * Properties (generated by tools/gen_prop.py from ProofsStackFF2.v; statements
    only, each proved there) *)
From Coq Require Import String Reals Lra Lia ZArith List Bool.
From Coquelicot Require Import Rcomplements Complex.
From Verif Require Import Num NumLemmas ModelBase ModelSample ModelTip StackLemmas Spec
  ProofsStackQS ProofsStackQS2 ProofsStackFF.
Import ListNotations.
Open Scope R_scope.
From Verif Require Import ProofsStackFF2.

(** C11. Zero-thickness layers are invisible in the far field. *)
Theorem C11_zero_thickness_layer_invisible :
  forall (p : bool) (l1 l2 : list C) (t1 t2 : list R) (e : C) nu0 (nu q : R),
  length l1 = (length t1 + 1)%nat -> length l2 = (length t2 + 1)%nat ->
  Forall (fun e => (e * RtoC (nu ^ 2) - RtoC (q ^ 2) <> 0)%C) (l1 ++ e :: l2) ->
  (p = true -> nonzero_below (l1 ++ e :: l2)) ->
  transfer_matrix (stack (l1 ++ e :: l2) (t1 ++ 0 :: t2) nu0) (Some q) None (Some nu) (pol p)
  = transfer_matrix (stack (l1 ++ l2) (t1 ++ t2) nu0) (Some q) None (Some nu) (pol p).
Proof. exact C11_zero_thickness_layer_invisible_proof. Qed.
Print Assumptions C11_zero_thickness_layer_invisible.

(** C11. Splitting a layer in two is invisible in the far field. *)
Theorem C11_split_layer_invisible :
  forall (p : bool) (l1 l2 : list C) (t1 t2 : list R) (e : C) nu0 (nu q x y : R),
  length l1 = (length t1 + 1)%nat -> length l2 = (length t2 + 1)%nat ->
  Forall (fun e => (e * RtoC (nu ^ 2) - RtoC (q ^ 2) <> 0)%C) (l1 ++ e :: l2) ->
  (p = true -> nonzero_below (l1 ++ e :: l2)) ->
  transfer_matrix (stack (l1 ++ e :: e :: l2) (t1 ++ x :: y :: t2) nu0) (Some q) None (Some nu) (pol p)
  = transfer_matrix (stack (l1 ++ e :: l2) (t1 ++ (x + y) :: t2) nu0) (Some q) None (Some nu) (pol p).
Proof. exact C11_split_layer_invisible_proof. Qed.
Print Assumptions C11_split_layer_invisible.

(** C16. Determinant of the far-field transfer matrix; [k0], [kn] are the
    (principal) wavevectors of environment and substrate. *)
Theorem C16_det_transfer_matrix :
  forall (p : bool) (e0 : C) (mid : list C) (en : C) (ts : list R) nu0 (nu q : R) (k0 kn : C),
  length mid = length ts ->
  Forall (fun e => (e * RtoC (nu ^ 2) - RtoC (q ^ 2) <> 0)%C) (e0 :: mid ++ [en]) ->
  (p = true -> nonzero_below (e0 :: mid ++ [en])) ->
  is_kz nu q e0 k0 -> principal k0 -> is_kz nu q en kn -> principal kn ->
  exists M, transfer_matrix (stack (e0 :: mid ++ [en]) ts nu0) (Some q) None (Some nu) (pol p) = Ok M /\
    (m00 M * m11 M - m01 M * m10 M)%cv
    = Some (if p then e0 * kn / (en * k0) else kn / k0)%C.
Proof. exact C16_det_transfer_matrix_proof. Qed.
Print Assumptions C16_det_transfer_matrix.

(** C16. Reversing the stack multiplies the far-field transmission
    coefficient by the same ratio. *)
Theorem C16_reciprocity :
  forall (p : bool) (e0 : C) (mid : list C) (en : C) (ts : list R) nu0 (nu q : R) (k0 kn : C),
  length mid = length ts ->
  Forall (fun e => (e * RtoC (nu ^ 2) - RtoC (q ^ 2) <> 0)%C) (e0 :: mid ++ [en]) ->
  (p = true -> Forall (fun e => e <> RtoC 0) (e0 :: mid ++ [en])) ->
  is_kz nu q e0 k0 -> principal k0 -> is_kz nu q en kn -> principal kn ->
  trans_coef (stack (rev (e0 :: mid ++ [en])) (rev ts) nu0) (Some q) None (Some nu) (pol p)
  = (let! t := trans_coef (stack (e0 :: mid ++ [en]) ts nu0) (Some q) None (Some nu) (pol p) in
     Ok (Some (if p then e0 * kn / (en * k0) else kn / k0)%C * t)%cv).
Proof. exact C16_reciprocity_proof. Qed.
Print Assumptions C16_reciprocity.

(** C18. Which ValueError a far-field call raises, in order of precedence,
    and that it raises nothing else, for a sample with at least two layers. *)
Theorem C18_far_field_errors :
  forall (s : sample) (q theta_in nu : option R) (polarization : string),
  (2 <= n_layers s)%nat ->
  let missing_nu := nu = None /\ nu_vac s = None /\ (2 < n_layers s)%nat in
  let both := q <> None /\ theta_in <> None in
  let badpol := polarization <> "p"%string /\ polarization <> "s"%string in
  let call_raises := fun msg =>
    transfer_matrix s q theta_in nu polarization = Raise (ValueError msg) /\
    refl_coef s q theta_in nu polarization = Raise (ValueError msg) /\
    trans_coef s q theta_in nu polarization = Raise (ValueError msg) in
  (missing_nu -> call_raises "`nu_vac` must not be None for multilayer samples."%string) /\
  (~ missing_nu -> both -> call_raises "Either `theta_in` or `q` must be None."%string) /\
  (~ missing_nu -> ~ both -> badpol -> call_raises "`polarization` must be 's' or 'p'"%string) /\
  (~ missing_nu -> ~ both -> ~ badpol ->
     exists M r t, transfer_matrix s q theta_in nu polarization = Ok M /\
       refl_coef s q theta_in nu polarization = Ok r /\
       trans_coef s q theta_in nu polarization = Ok t).
Proof. exact C18_far_field_errors_proof. Qed.
Print Assumptions C18_far_field_errors.

(** C18. A wavenumber given at the call overrides the stored one; a missing
    one is taken from the sample. *)
Theorem C18_call_nu_overrides :
  forall es ts (nu0 nu1 : option R) (v : R) q theta_in polarization,
  transfer_matrix (mkSample es ts nu0) q theta_in (Some v) polarization
  = transfer_matrix (mkSample es ts nu1) q theta_in (Some v) polarization /\
  transfer_matrix (mkSample es ts (Some v)) q theta_in None polarization
  = transfer_matrix (mkSample es ts nu0) q theta_in (Some v) polarization.
Proof. exact C18_call_nu_overrides_proof. Qed.
Print Assumptions C18_call_nu_overrides.

(** C21. The quasistatic transfer matrix is exactly the p-polarized one at
    nu_vac = 0. *)
Theorem C21_quasistatic_is_zero_wavenumber :
  forall (es : list C) (ts : list R) nu0 (q : R),
  wf es ts -> nonzero_below es -> 0 < q ->
  Forall (fun t => Rabs (q * t) <= MAX_EXP_ARG) ts ->
  transfer_matrix (stack es ts nu0) (Some q) None (Some 0) "p" = transfer_matrix_qs (stack es ts nu0) (rr q) /\
  refl_coef (stack es ts nu0) (Some q) None (Some 0) "p" = refl_coef_qs (stack es ts nu0) (rr q) /\
  trans_coef (stack es ts nu0) (Some q) None (Some 0) "p" = trans_coef_qs (stack es ts nu0) (rr q).
Proof. exact C21_quasistatic_is_zero_wavenumber_proof. Qed.
Print Assumptions C21_quasistatic_is_zero_wavenumber.
