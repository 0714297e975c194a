(** * Properties (generated by tools/gen_prop.py from ProofsFresnel.v; statements
    only, each proved there) *)
From Coq Require Import String Reals Lra Lia ZArith List Bool.
From Coquelicot Require Import Rcomplements Complex.
From Verif Require Import Num NumLemmas ModelBase ModelSample ModelTip StackLemmas Spec
  ProofsStackQS ProofsStackQS2 ProofsStackFF ProofsStackFF2 ProofsBulkFF SpecFresnel WaveLemmas.
Import ListNotations.
Open Scope R_scope.
From Verif Require Import ProofsFresnel.

(** C71. refl_coef called with an angle is Fresnel's textbook formula, with the angles
    inside the two media fixed by n0 sin th0 = n1 sin th1 = sin|theta_in|: theta_in is
    the angle outside, in vacuum. *)
Theorem C71_fresnel_angles :
  forall (n0 n1 th0 th1 theta_in : R) (nu0 nu : option R),
  positive_if_given nu0 -> positive_if_given nu -> 0 < n0 -> 0 < n1 -> 0 < cos th0 -> 0 < cos th1 ->
  n0 * sin th0 = sin (Rabs theta_in) -> n1 * sin th1 = sin (Rabs theta_in) ->
  refl_coef (stack [RtoC (n0 ^ 2); RtoC (n1 ^ 2)] [] nu0) None (Some theta_in) nu "s" = Ok (Some (RtoC (fresnel_s n0 n1 th0 th1))) /\
  refl_coef (stack [RtoC (n0 ^ 2); RtoC (n1 ^ 2)] [] nu0) None (Some theta_in) nu "p" = Ok (Some (RtoC (fresnel_p n0 n1 th0 th1))).
Proof. exact C71_fresnel_angles_proof. Qed.
Print Assumptions C71_fresnel_angles.

(** C71. The guide's two formulas are exchanged: read with the angle of refraction, its
    r_p is what the code returns for s and its r_s what it returns for p, and the two
    differ for every pair of different media. *)
Theorem C71_guide_formulas_swapped_refuted :
  forall (n0 n1 th0 th1 theta_in : R) (nu0 nu : option R),
  positive_if_given nu0 -> positive_if_given nu -> 0 < n0 -> 0 < n1 -> 0 < cos th0 -> 0 < cos th1 ->
  n0 * sin th0 = sin (Rabs theta_in) -> n1 * sin th1 = sin (Rabs theta_in) -> n0 <> n1 ->
  let code := refl_coef (stack [RtoC (n0 ^ 2); RtoC (n1 ^ 2)] [] nu0) None (Some theta_in) nu in
  code "s"%string = Ok (Some (RtoC (guide_r_p n0 n1 th0 th1))) /\ code "p"%string <> Ok (Some (RtoC (guide_r_p n0 n1 th0 th1))) /\
  code "p"%string = Ok (Some (RtoC (guide_r_s n0 n1 th0 th1))) /\ code "s"%string <> Ok (Some (RtoC (guide_r_s n0 n1 th0 th1))).
Proof. exact C71_guide_formulas_swapped_refuted_proof. Qed.
Print Assumptions C71_guide_formulas_swapped_refuted.

(** C71. Which way every real interface is crossed without reflection: never for s
    unless the media are equal; for p exactly at Brewster's momentum. *)
Theorem C71_brewster :
  forall (e0 e1 nu q : R) nu0,
  0 < e0 -> 0 < e1 -> q ^ 2 < e0 * nu ^ 2 -> q ^ 2 < e1 * nu ^ 2 ->
  (refl_coef (stack [RtoC e0; RtoC e1] [] nu0) (Some q) None (Some nu) "p" = Ok (Some (RtoC 0)) <-> e0 = e1 \/ q ^ 2 * (e0 + e1) = nu ^ 2 * (e0 * e1)) /\
  (refl_coef (stack [RtoC e0; RtoC e1] [] nu0) (Some q) None (Some nu) "s" = Ok (Some (RtoC 0)) <-> e0 = e1).
Proof. exact C71_brewster_proof. Qed.
Print Assumptions C71_brewster.

(** C71. In terms of the angle: in vacuum p-polarised light is not reflected at
    tan theta = n (Brewster's angle) and at no other angle. *)
Theorem C71_brewster_angle :
  forall (n theta : R) (nu0 nu : option R),
  positive_if_given nu0 -> positive_if_given nu -> 1 < n -> 0 <= theta < PI / 2 ->
  (refl_coef (stack [RtoC 1; RtoC (n ^ 2)] [] nu0) None (Some theta) nu "p" = Ok (Some (RtoC 0)) <-> tan theta = n) /\
  refl_coef (stack [RtoC 1; RtoC (n ^ 2)] [] nu0) None (Some theta) nu "s" <> Ok (Some (RtoC 0)).
Proof. exact C71_brewster_angle_proof. Qed.
Print Assumptions C71_brewster_angle.

(** C71. With a dense environment theta_in cannot reach Brewster's angle: whenever
    1/e0 + 1/e1 < 1 no angle at all makes the p reflection vanish. *)
Theorem C71_dense_environment_no_brewster :
  forall (e0 e1 theta : R) (nu0 nu : option R),
  positive_if_given nu0 -> positive_if_given nu -> 1 < e0 -> 1 < e1 -> e0 <> e1 -> e0 + e1 < e0 * e1 ->
  refl_coef (stack [RtoC e0; RtoC e1] [] nu0) None (Some theta) nu "p" <> Ok (Some (RtoC 0)).
Proof. exact C71_dense_environment_no_brewster_proof. Qed.
Print Assumptions C71_dense_environment_no_brewster.

(** C71. Beyond both light lines the p reflection of a lossless interface is undefined
    exactly at the surface polariton: permittivities of opposite sign with
    q^2 (e0 + e1) = nu^2 e0 e1. For s it is always finite. *)
Theorem C71_surface_polariton :
  forall (e0 e1 nu q : R) nu0,
  e0 <> 0 -> e1 <> 0 -> e0 * nu ^ 2 < q ^ 2 -> e1 * nu ^ 2 < q ^ 2 ->
  (refl_coef (stack [RtoC e0; RtoC e1] [] nu0) (Some q) None (Some nu) "p" = Ok None <->
     e0 * e1 < 0 /\ q ^ 2 * (e0 + e1) = nu ^ 2 * (e0 * e1)) /\
  exists r : R, refl_coef (stack [RtoC e0; RtoC e1] [] nu0) (Some q) None (Some nu) "s" = Ok (Some (RtoC r)) /\ -1 < r < 1.
Proof. exact C71_surface_polariton_proof. Qed.
Print Assumptions C71_surface_polariton.

(** C71. The worked number of the guide: for Si (eps = 11.7) at 60 degrees the guide
    prints the far-field factor 1.173379279716862 for c_r = 0.9. The code's r_p gives
    more than 1.56 for that c_r; the printed number belongs to c_r = 0.3. *)
Theorem C71_guide_number_refuted :
  exists r : R, refl_coef (stack [RtoC 1; RtoC (117 / 10)] [] None) None (Some (PI / 3)) None "p" = Ok (Some (RtoC r)) /\
  1.56 < far_field_factor 0.9 r < 1.57 /\ Rabs (far_field_factor 0.3 r - 1.173379279716862) < / 10 ^ 12.
Proof. exact C71_guide_number_refuted_proof. Qed.
Print Assumptions C71_guide_number_refuted.

(** C71. Brewster's angle of n^2 = 3 is 60 degrees; none exists between 4 and 9; a
    metal of permittivity -2 has its surface polariton at q = sqrt 2 nu. *)
Example C71_example :
  refl_coef (stack [RtoC 1; RtoC (sqrt 3 ^ 2)] [] None) None (Some (PI / 3)) None "p" = Ok (Some (RtoC 0)) /\
  (forall theta, refl_coef (stack [RtoC 4; RtoC 9] [] None) None (Some theta) None "p" <> Ok (Some (RtoC 0))) /\
  refl_coef (stack [RtoC 1; RtoC (-2)] [] None) (Some (sqrt 2)) None (Some 1) "p" = Ok None /\
  refl_coef (stack [RtoC (1 ^ 2); RtoC (2 ^ 2)] [] None) None (Some 0) None "s" = Ok (Some (RtoC (fresnel_s 1 2 0 0))).
Proof. exact C71_example_proof. Qed.
