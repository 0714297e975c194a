(** * Properties (generated by tools/gen_prop.py from ProofsHarm.v; statements
    only, each proved there) *)
From Coq Require Import String Reals Lra Lia ZArith List Bool.
From Coquelicot Require Import Rcomplements Complex.
From Verif Require Import Num NumLemmas LimLemmas ModelBase ModelSample ModelTip StackLemmas Spec
  ProofsStackQS ProofsStackQS2 ProofsBulkFF ProofsSym ProofsPassive DemodLemmas ProofsDemod ProofsTip ProofsTip2 ProofsTip3
  ProofsTaylor PosDef ProofsContrast ProofsContrast2 ProofsMajor ProofsMajor2 UniMod.
Import ListNotations.
Open Scope R_scope.
From Verif Require Import ProofsHarm.

(** C106. Point dipole model, lossless tip and sample: of two harmonics up to half
    the number of samples, the lower one is the stronger. *)
Theorem C106_pdm_order :
  forall (D : Defaults) (s : sample) (A_tip : R) (n m : Z) (z_tip r_tip : option R) (n_trapz : option nat)
    (eps_tip alpha_tip : option C) (alpha b : R),
  let N := given_or (d_n_trapz D) n_trapz in let z := given_or (d_z_tip D) z_tip in
  let r := given_or (d_r_tip D) r_tip in
  tip_alpha r eps_tip alpha_tip (RtoC alpha) -> 0 < alpha -> refl_coef_qs s (rr 0) = Ok (Some (RtoC b)) ->
  N <> O -> 0 < A_tip -> 0 < r + z -> 0 < b -> alpha * b < 16 * PI * (r + z) ^ 3 ->
  (Z.abs n < Z.abs m)%Z -> (2 * Z.abs m <= Z.of_nat N)%Z ->
  exists a_n a_m : C,
    pdm_eff_pol_n D s A_tip n z_tip n_trapz r_tip eps_tip alpha_tip = Ok (Some a_n) /\
    pdm_eff_pol_n D s A_tip m z_tip n_trapz r_tip eps_tip alpha_tip = Ok (Some a_m) /\
    0 < Cmod a_m < Cmod a_n.
Proof. exact C106_pdm_order_proof. Qed.
Print Assumptions C106_pdm_order.

(** C106. Finite dipole model with a real g factor over a lossless bulk sample,
    under the conditions of C69 (the inequalities at the top of the stroke being
    strict): of two harmonics up to half the number of samples, the lower one is
    the stronger. *)
Theorem C106_fdm_order :
  forall (laggauss : laggauss_t) (D : Defaults) (s : sample) (A_tip : R) (n m : Z) (n_trapz : option nat)
    (z_tip r_tip L_tip : option R) (g_factor : option C) (d_Q0 d_Q1 d_Qa : option R) (n_lag : option nat) (g b : R),
  let N := given_or (d_n_trapz D) n_trapz in let z := given_or (d_z_tip D) z_tip in
  let r := given_or (d_r_tip D) r_tip in let L := given_or (d_L_tip D) L_tip in
  let d0 := given_or (131 / 100 * L / (L + 2 * r)) d_Q0 in let d1 := given_or (d_d_Q1 D) d_Q1 in
  given_or (d_g_factor D) g_factor = RtoC g ->
  multilayer s = false -> refl_coef_qs s (rr 0) = Ok (Some (RtoC b)) ->
  N <> O -> 0 < A_tip -> 0 < r < 4 * L -> 0 < r + 4 * z + 2 * r * d0 -> 0 < r + 4 * z + 2 * r * d1 ->
  r + 2 * (z + 2 * A_tip) + r * d0 < 2 * L * g -> r + 4 * (z + 2 * A_tip) + 2 * r * d0 < 4 * L ->
  r + 2 * (z + 2 * A_tip) + r * d1 < 2 * L * g -> r + 4 * (z + 2 * A_tip) + 2 * r * d1 < 4 * L ->
  0 < b -> b * Re (fdm_f z d1 r L (RtoC g)) < 1 ->
  (Z.abs n < Z.abs m)%Z -> (2 * Z.abs m <= Z.of_nat N)%Z ->
  forall method, method = None \/ method = Some "bulk"%string ->
  exists a_n a_m : C,
    fdm_eff_pol_n laggauss D s A_tip n z_tip n_trapz r_tip L_tip g_factor d_Q0 d_Q1 d_Qa n_lag method = Ok (Some a_n) /\
    fdm_eff_pol_n laggauss D s A_tip m z_tip n_trapz r_tip L_tip g_factor d_Q0 d_Q1 d_Qa n_lag method = Ok (Some a_m) /\
    0 < Cmod a_m < Cmod a_n.
Proof. exact C106_fdm_order_proof. Qed.
Print Assumptions C106_fdm_order.

(** C106. The restriction to half the number of samples is needed: harmonic
    N - n is an alias of harmonic n and equally strong. *)
Theorem C106_alias :
  forall (D : Defaults) (s : sample) (A_tip : R) (n : Z) (z_tip r_tip : option R) (n_trapz : option nat)
    (eps_tip alpha_tip : option C) (alpha b : R),
  let N := given_or (d_n_trapz D) n_trapz in let z := given_or (d_z_tip D) z_tip in
  let r := given_or (d_r_tip D) r_tip in
  tip_alpha r eps_tip alpha_tip (RtoC alpha) -> 0 < alpha -> refl_coef_qs s (rr 0) = Ok (Some (RtoC b)) ->
  N <> O -> 0 < A_tip -> 0 < r + z -> 0 < b -> alpha * b < 16 * PI * (r + z) ^ 3 ->
  exists a_n a_m : C,
    pdm_eff_pol_n D s A_tip n z_tip n_trapz r_tip eps_tip alpha_tip = Ok (Some a_n) /\
    pdm_eff_pol_n D s A_tip (Z.of_nat N - n) z_tip n_trapz r_tip eps_tip alpha_tip = Ok (Some a_m) /\
    0 < Cmod a_m /\ Cmod a_m = Cmod a_n.
Proof. exact C106_alias_proof. Qed.
Print Assumptions C106_alias.

(** C106. Absorbing samples: the higher harmonic is weaker than the lower harmonic
    of the lossless sample with the same (or a larger) modulus of the reflection
    coefficient. *)
Theorem C106_absorbing :
  forall (laggauss : laggauss_t) (D : Defaults) (s s0 : sample) (A_tip : R) (n m : Z) (n_trapz : option nat) (z_tip r_tip : option R) (rho : R) (b : C),
  let N := given_or (d_n_trapz D) n_trapz in let z := given_or (d_z_tip D) z_tip in
  let r := given_or (d_r_tip D) r_tip in
  multilayer s = false -> multilayer s0 = false ->
  refl_coef_qs s (rr 0) = Ok (Some b) -> refl_coef_qs s0 (rr 0) = Ok (Some (RtoC rho)) -> Cmod b <= rho -> 0 < rho ->
  N <> O -> 0 < A_tip -> (Z.abs n < Z.abs m)%Z -> (2 * Z.abs m <= Z.of_nat N)%Z ->
  (forall eps_tip alpha_tip (alpha : R), tip_alpha r eps_tip alpha_tip (RtoC alpha) -> 0 < alpha -> 0 < r + z -> alpha * rho < 16 * PI * (r + z) ^ 3 ->
   exists a_n a_m : C,
    pdm_eff_pol_n D s0 A_tip n z_tip n_trapz r_tip eps_tip alpha_tip = Ok (Some a_n) /\
    pdm_eff_pol_n D s A_tip m z_tip n_trapz r_tip eps_tip alpha_tip = Ok (Some a_m) /\ Cmod a_m < Cmod a_n) /\
  (forall (L_tip : option R) (g_factor : option C) (d_Q0 d_Q1 d_Qa : option R) (n_lag : option nat) (g : R),
   let L := given_or (d_L_tip D) L_tip in
   let d0 := given_or (131 / 100 * L / (L + 2 * r)) d_Q0 in let d1 := given_or (d_d_Q1 D) d_Q1 in
   given_or (d_g_factor D) g_factor = RtoC g -> 0 < r < 4 * L -> 0 < r + 4 * z + 2 * r * d0 -> 0 < r + 4 * z + 2 * r * d1 ->
   r + 2 * (z + 2 * A_tip) + r * d0 < 2 * L * g -> r + 4 * (z + 2 * A_tip) + 2 * r * d0 < 4 * L ->
   r + 2 * (z + 2 * A_tip) + r * d1 < 2 * L * g -> r + 4 * (z + 2 * A_tip) + 2 * r * d1 < 4 * L ->
   rho * Re (fdm_f z d1 r L (RtoC g)) < 1 ->
   forall method, method = None \/ method = Some "bulk"%string ->
   exists a_n a_m : C,
    fdm_eff_pol_n laggauss D s0 A_tip n z_tip n_trapz r_tip L_tip g_factor d_Q0 d_Q1 d_Qa n_lag method = Ok (Some a_n) /\
    fdm_eff_pol_n laggauss D s A_tip m z_tip n_trapz r_tip L_tip g_factor d_Q0 d_Q1 d_Qa n_lag method = Ok (Some a_m) /\ Cmod a_m < Cmod a_n).
Proof. exact C106_absorbing_proof. Qed.
Print Assumptions C106_absorbing.

(** C106. The approach-curve script (docs/examples/scripts/si_approach.py:7-12 and
    19-24): silicon, amplitude 20 nm, default tip, harmonics 2, 3, 4: on every
    height of the curve the point-dipole harmonics are ordered, each falls
    strictly along the curve, and after the division by the value at the first
    height (line 29) every later point of the plotted curve lies strictly
    between 0 and 1. *)
Theorem C106_script :
  forall nu (n : Z) (z : R), n = 2%Z \/ n = 3%Z \/ n = 4%Z -> 0 < z ->
  let s := stack [RtoC 1; RtoC (117 / 10)] [] nu in
  exists a0 a a' : C,
    pdm_eff_pol_n defaults0 s (20 / 10 ^ 9) n (Some 0) None None None None = Ok (Some a0) /\
    pdm_eff_pol_n defaults0 s (20 / 10 ^ 9) n (Some z) None None None None = Ok (Some a) /\
    pdm_eff_pol_n defaults0 s (20 / 10 ^ 9) (n + 1) (Some z) None None None None = Ok (Some a') /\
    0 < Cmod a' < Cmod a /\ 0 < Cmod (a / a0)%C < 1.
Proof. exact C106_script_proof. Qed.
Print Assumptions C106_script.

(** C106, example: finite dipole with g = 0.7, otherwise default tip, tapping at
    20 nm on eps = 12: the third harmonic is weaker than the second. *)
Example C106_example :
  forall laggauss, exists a2 a3,
    fdm_eff_pol_n laggauss defaults0 (stack [RtoC 1; RtoC 12] [] None) (20 / 10 ^ 9) 2 None None None None (Some (RtoC (7 / 10))) None None None None None = Ok (Some a2) /\
    fdm_eff_pol_n laggauss defaults0 (stack [RtoC 1; RtoC 12] [] None) (20 / 10 ^ 9) 3 None None None None (Some (RtoC (7 / 10))) None None None None None = Ok (Some a3) /\
    0 < Cmod a3 < Cmod a2.
Proof. exact C106_example_proof. Qed.
