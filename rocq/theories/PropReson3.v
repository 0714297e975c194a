(** * Properties (generated by tools/gen_prop.py from ProofsReson3.v; statements
    only, each proved there) *)
From Coq Require Import String Reals Lra Lia ZArith List Bool.
From Coquelicot Require Import Rcomplements Complex.
From Verif Require Import Num NumLemmas ModelBase ModelSample ModelTip StackLemmas Spec SpecReson DemodLemmas
  ProofsStackQS ProofsStackQS2 ProofsSym ProofsPassive ProofsTip ProofsTip2 ProofsTip3 ProofsPerm ProofsDemod ProofsTaylor ProofsAbsorb
  ProofsConsist3 ProofsReson ProofsReson2.
Import ListNotations.
Open Scope R_scope.
From Verif Require Import ProofsReson3.

(** C90. A harmonic of the point dipole model over a lossless sample is not finite
    exactly if the sample resonates at one of the sampled heights. *)
Theorem C90_pdm_harmonics :
  forall (D : Defaults) (e0 e1 A_tip : R) (n : Z) nu z_tip n_trapz r_tip eps_tip alpha_tip (alpha : R),
  let z := given_or (d_z_tip D) z_tip in let r := given_or (d_r_tip D) r_tip in
  let N := given_or (d_n_trapz D) n_trapz in
  tip_alpha r eps_tip alpha_tip (RtoC alpha) -> 0 < e0 -> 0 < alpha -> 0 < r + z -> 0 <= A_tip ->
  coupling alpha (r + z) < 1 -> N <> O -> e1 <> 0 -> e1 <> - e0 ->
  (pdm_eff_pol_n D (stack [RtoC e0; RtoC e1] [] nu) A_tip n z_tip n_trapz r_tip eps_tip alpha_tip = Ok None
   <-> exists k, (k < N)%nat /\ e1 = resonant_eps e0 (coupling alpha (r + tip_height z A_tip N k))) /\
  (e1 < resonant_eps e0 (coupling alpha (r + z)) \/ resonant_eps e0 (coupling alpha (r + (z + 2 * A_tip))) < e1 ->
   exists a, pdm_eff_pol_n D (stack [RtoC e0; RtoC e1] [] nu) A_tip n z_tip n_trapz r_tip eps_tip alpha_tip = Ok (Some a)).
Proof. exact C90_pdm_harmonics_proof. Qed.
Print Assumptions C90_pdm_harmonics.

(** C90. The default conducting sphere touching the surface resonates with a sample
    of permittivity -5/3: the response is not finite for every lossless sample. *)
Theorem C90_always_finite_refuted :
  ~ (forall (D : Defaults) (e1 : R), e1 <> 0 -> e1 <> -1 -> 0 < d_r_tip D ->
       exists a, pdm_eff_pol D (stack [RtoC 1; RtoC e1] [] None) (Some 0) None None None = Ok (Some a)).
Proof. exact C90_always_finite_refuted_proof. Qed.
Print Assumptions C90_always_finite_refuted.

(** C90. Concrete cases: the sphere in contact (coupling 1/4), a metal with plasma
    frequency 2 and background 7/3 at frequency 1, and a finite dipole tip with a
    real [g_factor] over permittivity -3. *)
Example C90_contact_example :
  coupling (4 * PI * d_r_tip defaults0 ^ 3) (d_r_tip defaults0 + 0) = 1 / 4 /\ resonant_eps 1 (1 / 4) = - 5 / 3 /\
  drude_perm 1 2 0 (Some (7 / 3)) = Ok (Some (RtoC (- 5 / 3))) /\
  pdm_eff_pol defaults0 (stack [RtoC 1; RtoC (- 5 / 3)] [] None) (Some 0) None None None = Ok None /\
  (forall lg D, fdm_regular 0 (1 / 2) 1 1 /\ fdm_f 0 (1 / 2) 1 1 (RtoC (7 / 4)) = RtoC (1 / 2) /\
     fdm_eff_pol lg D (stack [RtoC 1; RtoC (-3)] [] None) (Some 0) (Some 1) (Some 1) (Some (RtoC (7 / 4))) (Some (1 / 2)) (Some (1 / 2)) None None None
     = Ok None).
Proof. exact C90_contact_example_proof. Qed.
