(** * Properties (generated by tools/gen_prop.py from ProofsEx.v; statements
    only, each proved there) *)
From Coq Require Import String Reals Lra Lia ZArith List Bool.
From Coquelicot Require Import Rcomplements Complex.
From Verif Require Import Num NumLemmas LimLemmas ModelBase ModelSample ModelTip StackLemmas Spec
  ProofsStackQS ProofsStackQS2 ProofsStackFF ProofsStackFF2 ProofsBulkFF ProofsSym ProofsPassive
  DemodLemmas ProofsDemod ProofsTip ProofsTip2 ModelRange SpecRange RangeLemmas ProofsRange2.
Import ListNotations.
Open Scope R_scope.
From Verif Require Import ProofsEx.

(** C04.  Air above a material of permittivity 2 + 3i: beta = 2/3 + i/3, and back. *)
Example C04_example :
  refl_coef_qs_single (rc 1) (Some (2, 3)) = Some (2 / 3, 1 / 3) /\
  permitivitty (Some (2 / 3, 1 / 3)) (rc 1) = Some (2, 3).
Proof. exact C04_example_proof. Qed.

Example C08_example :
  refl_coef (stack [RtoC 1; RtoC 4; RtoC 9] [PI / 4] None) (Some 0) None (Some 1) "s"
  = Ok (Some (RtoC (- 1 / 7))).
Proof. exact C08_example_proof. Qed.

(** C09.  A film of permittivity 5 and thickness 3 on a lossy substrate 2 + 3i is
    invisible at q = 0; the point-dipole model never sees it. *)
Example C09_example :
  refl_coef_qs (stack [RtoC 1; RtoC 5; (2, 3)] [3] None) (rr 0) = Ok (Some (2 / 3, 1 / 3)) /\
  pdm_eff_pol defaults0 (stack [RtoC 1; RtoC 5; (2, 3)] [3] None) None None None None
  = pdm_eff_pol defaults0 (stack [RtoC 1; (2, 3)] [] None) None None None None.
Proof. exact C09_example_proof. Qed.

(** C10.  Splitting a film of thickness 3 into 1 + 2, and inserting a layer of
    thickness 0, at momentum 1/2. *)
Example C10_example :
  refl_coef_qs (stack [RtoC 1; RtoC 5; RtoC 5; (2, 3)] [1; 2] None) (rr (1 / 2))
  = refl_coef_qs (stack [RtoC 1; RtoC 5; (2, 3)] [1 + 2] None) (rr (1 / 2)) /\
  refl_coef_qs (stack [RtoC 1; RtoC 7; RtoC 5; (2, 3)] [0; 3] None) (rr (1 / 2))
  = refl_coef_qs (stack [RtoC 1; RtoC 5; (2, 3)] [3] None) (rr (1 / 2)).
Proof. exact C10_example_proof. Qed.

(** C11.  The quarter-wave film computed with the other square root in the film. *)
Example C11_example :
  parratt fresnel_s ff_round [(RtoC 1, RtoC 1); (RtoC 4, RtoC (-2)); (RtoC 9, RtoC 3)] [PI / 4] (RtoC (- 1 / 7)) /\
  is_kz 1 0 (RtoC 4) (RtoC (-2)) /\ ~ principal (RtoC (-2)) /\
  refl_coef (stack [RtoC 1; RtoC 4; RtoC 9] [PI / 4] None) (Some 0) None (Some 1) "s"
  = Ok (Some (RtoC (- 1 / 7))).
Proof. exact C11_example_proof. Qed.

(** C15.  Conjugating 2 + 3i conjugates the reflection 2/3 + i/3. *)
Example C15_example :
  refl_coef_qs (stack [RtoC 1; (2, 3)] [] None) (rr 1) = Ok (Some (2 / 3, 1 / 3)) /\
  conj_sample (stack [RtoC 1; (2, 3)] [] None) = stack [RtoC 1; (2, -3)] [] None /\
  refl_coef_qs (stack [RtoC 1; (2, -3)] [] None) (rr 1) = Ok (Some (2 / 3, - (1 / 3))) /\
  real_sample (stack [RtoC 1; RtoC 2; RtoC (-5)] [1] None).
Proof. exact C15_example_proof. Qed.

(** C16.  A film seen from both sides: at q = 0 the two transmissions are 4/3
    and 2/3 = (1/2) 4/3; for the quarter-wave film the ratio is 3. *)
Example C16_example :
  trans_coef_qs (stack [RtoC 1; RtoC 5; RtoC 2] [3] None) (rr 0) = Ok (rc (4 / 3)) /\
  trans_coef_qs (stack [RtoC 2; RtoC 5; RtoC 1] [3] None) (rr 0) = Ok (rc (2 / 3)) /\
  trans_coef (stack [RtoC 9; RtoC 4; RtoC 1] [PI / 4] None) (Some 0) None (Some 1) "s"
  = (let! t := trans_coef (stack [RtoC 1; RtoC 4; RtoC 9] [PI / 4] None) (Some 0) None (Some 1) "s" in
     Ok (rc 3 * t)%cv).
Proof. exact C16_example_proof. Qed.

(** C17.  A 20 nm film given in metres, and the same film in nanometres. *)
Example C17_example :
  let k := 10 ^ 9 in
  refl_coef_qs (stack [RtoC 1; RtoC 5; (2, 3)] [k * (20 / 10 ^ 9)] None) (rr (50000000 / k))
  = refl_coef_qs (stack [RtoC 1; RtoC 5; (2, 3)] [20 / 10 ^ 9] None) (rr 50000000) /\
  k * (20 / 10 ^ 9) = 20 /\ 50000000 / k = 1 / 20.
Proof. exact C17_example_proof. Qed.

(** C18.  A film without a wavenumber; momentum and angle both given; a
    misspelled polarization. *)
Example C18_example :
  let s := stack [RtoC 1; RtoC 4; RtoC 9] [PI / 4] None in
  refl_coef s (Some 0) (Some 0) None "P"
  = Raise (ValueError "`nu_vac` must not be None for multilayer samples.") /\
  refl_coef s (Some 0) (Some 0) (Some 1) "P" = Raise (ValueError "Either `theta_in` or `q` must be None.") /\
  refl_coef s (Some 0) None (Some 1) "P" = Raise (ValueError "`polarization` must be 's' or 'p'") /\
  refl_coef s (Some 0) None (Some 1) "s" = Ok (rc (- 1 / 7)).
Proof. exact C18_example_proof. Qed.

(** C19.  At normal incidence any wavenumber gives -1/3 for air on index 2; at
    the explicit momentum 12 the wavenumbers 20 and 15 give -13/45 and -5/13. *)
Example C19_example :
  refl_coef (stack [RtoC 1; RtoC 4] [] None) None None (Some 7) "s" = Ok (rc (- 1 / 3)) /\
  refl_coef (stack [RtoC 1; RtoC (197 / 80)] [] None) (Some 12) None (Some 20) "s" = Ok (rc (- 13 / 45)) /\
  refl_coef (stack [RtoC 1; RtoC (197 / 80)] [] None) (Some 12) None (Some 15) "s" = Ok (rc (- 5 / 13)).
Proof. exact C19_example_proof. Qed.

(** C21.  A film of permittivity 5 and thickness 2 on 2 + 3i at momentum 1/2. *)
Example C21_example :
  refl_coef (stack [RtoC 1; RtoC 5; (2, 3)] [2] None) (Some (1 / 2)) None (Some 0) "p"
  = refl_coef_qs (stack [RtoC 1; RtoC 5; (2, 3)] [2] None) (rr (1 / 2)).
Proof. exact C21_example_proof. Qed.

(** C22.  An index-2 film of thickness pi/2 at wavenumber 1 (phase pi) is
    invisible: r_s = (1 - 3) / (1 + 3); the half-wave film of thickness 1/4 is not. *)
Example C22_example :
  refl_coef (stack [RtoC 1; RtoC 4; RtoC 9] [PI / 2] None) (Some 0) None (Some 1) "s" = Ok (rc (- 1 / 2)) /\
  (exists r, refl_coef (stack [RtoC 1; RtoC (2 ^ 2); RtoC 1] [1 / 4] None) None None (Some 1) "s" = Ok (Some r)
             /\ r <> RtoC 0) /\
  (exists r : R, refl_coef (stack [RtoC 4; RtoC 9] [] None) None (Some (PI / 2)) (Some 1) "s" = Ok (rc r)
                 /\ Rabs r < 1).
Proof. exact C22_example_proof. Qed.

(** C24.  With one node the average over that film is its reflection at momentum
    1 / (2 z): for z = 1/2 that is q = 1. *)
Example C24_example :
  laguerre_rule (one_node 1%nat) /\
  refl_coef_qs_above_surf one_node defaults0 (stack [RtoC 1; RtoC 5; RtoC 2] [ln 2] None) (rr (1 / 2)) (Some 1%nat)
  = Ok (rc (47 / 78)).
Proof. exact C24_example_proof. Qed.

(** C25.  The three methods on silicon-like permittivity 12 under vacuum, with
    the default tip and one quadrature node. *)
Example C25_example :
  let alpha := fdm_eff_pol one_node defaults0 (stack [RtoC 1; RtoC 12] [] None)
                 None None None None None None None (Some 1%nat) in
  alpha (Some "Q_ave"%string) = alpha (Some "bulk"%string) /\
  alpha (Some "multi"%string) = alpha (Some "bulk"%string).
Proof. exact C25_example_proof. Qed.

(** C38.  With 5 intervals the seventh harmonic of (x - 7)^2 around 7 with
    amplitude 6 is minus the second, -9, instead of 0. *)
Example C38_example :
  demod defaults0 (fun x => Ok (Some (poly (fun m => if Nat.eqb m 2 then RtoC 1 else RtoC 0) 3 (x - 7)))) 7 6 7 (Some 5%nat)
  = Ok (Some (RtoC (- 9))).
Proof. exact C38_example_proof. Qed.

(** C41.  A film and its substrate give the same demodulated point-dipole signal;
    a tip that does not move has no second harmonic. *)
Example C41_example :
  pdm_eff_pol_n defaults0 (stack [RtoC 1; RtoC 5; (2, 3)] [3] None) (50 / 10 ^ 9) 2 (Some 0) None None None None
  = pdm_eff_pol_n defaults0 (stack [RtoC 1; (2, 3)] [] None) (50 / 10 ^ 9) 2 (Some 0) None None None None /\
  pdm_eff_pol_n defaults0 (stack [RtoC 1; RtoC 2; RtoC 3] [5 / 10 ^ 9] None) 0 2 (Some 0) None None None None
  = Ok (rc 0).
Proof. exact C41_example_proof. Qed.
