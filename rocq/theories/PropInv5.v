(** * Properties (generated by tools/gen_prop.py from ProofsInv5.v; statements
    only, each proved there) *)
From Coq Require Import String Reals Lra Lia ZArith List Bool Permutation Sorted.
From Coquelicot Require Import Rcomplements Complex.
From Verif Require Import Num NumLemmas ModelBase ModelSample ModelTip Spec NArr SpecArr NArrLemmas ModelObj
  ModelArr SpecObj ModelArrTip ModelInv SpecPoly SpecInv FTA ArrSample ProofsArr ProofsArr2 ProofsArrTip
  ProofsArrTip2 ProofsArrTip3 ProofsArrTip4 InvLemmas ProofsInv ProofsInv2 ProofsInv3 ProofsInv4
  ProofsStackQS ProofsTip.
Import ListNotations.
Open Scope nat_scope.
From Verif Require Import ProofsInv5.

(** With elements of different degrees a solution can be lost without notice, or
    the whole call fails.  The point dipole model, first harmonic: without
    oscillation there is no signal, hence no solution.  With amplitude 1 alone, the
    reflection coefficient 1/2 is found.  With amplitudes [0, 1] it is not
    reported; with amplitudes [1, 0] the call raises an exception. *)
Theorem C31_solution_lost_refuted : forall eig sb sr D, library eig sb sr ->
  let invert (A : arr R) := pdm_refl_coef_qs_from_eff_pol_n eig sb sr D (scalar (Some (RtoC (-13 / 54)))) A (scalar 1%Z)
    (Some (scalar 0%R)) (Some (scalar 1%R)) None (Some (scalar (RtoC (16 * PI)))) (Some 2) (Some 2) (Some 1%R) true true
    (Some (scalar (RtoC 1))) in
  let s := stack [RtoC 1; RtoC 3] [] None in let b := RtoC (1 / 2) in
  (refl_coef_qs s (rr 0) = Ok (Some b) /\ admissible 1 true true (RtoC 1) b /\
   pdm_eff_pol_n_taylor D s 1 1 (Some 0%R) (Some 1%R) None (Some (RtoC (16 * PI))) (Some 2) (Some 2)
   = Ok (Some (RtoC (-13 / 54)))) /\
  (exists r, invert (scalar 1%R) = Ok r /\ elements r = [] /\ In (Some b) (unmasked r [])) /\
  (exists r, invert (mkArr [2] (fun i => INR (hd 0 i))) = Ok r /\ elements r = [2] /\ unmasked r [1] = []) /\
  (exists m, invert (mkArr [2] (fun i => 1 - INR (hd 0%nat i))%R) = Raise (ValueError m)).
Proof. exact C31_solution_lost_refuted_proof. Qed.
Print Assumptions C31_solution_lost_refuted.

(** Example: tip parameters for which the Taylor polynomial is
    1 + x/2 + x^2/2, and the two signals [11/8, 1].  The solutions of the first are 1/2 and
    -3/2 (excluded by the threshold), those of the second 0 and -1. *)
Example C31_example : forall D,
  (exists eig sb sr, library eig sb sr) /\
  forall eig sb sr, library eig sb sr ->
  exists r, fdm_refl_coef_qs_from_eff_pol_n eig sb sr D
      (mkArr [2] (fun i => if Nat.eqb (hd 0 i) 0 then Some (RtoC (11 / 8)) else Some (RtoC 1)))
      (scalar 0%R) (scalar 0%Z) (Some (scalar 0%R)) (Some (scalar 1%R)) (Some (scalar 1%R)) (Some (scalar (RtoC (11 / 4))))
      (Some (scalar (1 / 2)%R)) (Some (scalar (1 / 2)%R)) (Some 1) (Some 3) (Some 1%R) true false (Some (scalar (RtoC 1))) = Ok r /\
    elements r = [2] /\
    occurrences (unmasked r [0]) (RtoC (1 / 2)) = 1 /\
    occurrences (unmasked r [1]) (RtoC 0) = 1 /\ occurrences (unmasked r [1]) (RtoC (-1)) = 1.
Proof. exact C31_example_proof. Qed.

(** Example: in this call 1/2 is returned for the first element. *)
Example C30_example : forall D eig sb sr, library eig sb sr ->
  let alpha := mkArr [2] (fun i => if Nat.eqb (hd 0 i) 0 then Some (RtoC (11 / 8)) else Some (RtoC 1)) in
  let env := Some (scalar (RtoC 1)) in
  env_fits env (fdm_inverse_operands alpha (scalar 0%R) (scalar 0%Z) (Some (scalar 0%R)) (Some (scalar 1%R)) (Some (scalar 1%R))
    (Some (scalar (RtoC (11 / 4)))) (Some (scalar (1 / 2)%R)) (Some (scalar (1 / 2)%R))) /\
  exists r, fdm_refl_coef_qs_from_eff_pol_n eig sb sr D alpha
      (scalar 0%R) (scalar 0%Z) (Some (scalar 0%R)) (Some (scalar 1%R)) (Some (scalar 1%R)) (Some (scalar (RtoC (11 / 4))))
      (Some (scalar (1 / 2)%R)) (Some (scalar (1 / 2)%R)) (Some 1) (Some 3) (Some 1%R) true false env = Ok r /\
    index_of (elements r) [0] /\ In (Some (RtoC (1 / 2))) (unmasked r [0]).
Proof. exact C30_example_proof. Qed.

(** Example: ... and there are two rows of solutions at least, as the second
    element has two. *)
Example C32_example : forall D eig sb sr, library eig sb sr ->
  let alpha := mkArr [2] (fun i => if Nat.eqb (hd 0 i) 0 then Some (RtoC (11 / 8)) else Some (RtoC 1)) in
  exists r, fdm_refl_coef_qs_from_eff_pol_n eig sb sr D alpha
      (scalar 0%R) (scalar 0%Z) (Some (scalar 0%R)) (Some (scalar 1%R)) (Some (scalar 1%R)) (Some (scalar (RtoC (11 / 4))))
      (Some (scalar (1 / 2)%R)) (Some (scalar (1 / 2)%R)) (Some 1) (Some 3) (Some 1%R) true false (Some (scalar (RtoC 1))) = Ok r /\
    elements r = [2] /\ 2 <= n_rows r.
Proof. exact C32_example_proof. Qed.
