(** * Properties (generated by tools/gen_prop.py from ProofsHarm2.v; statements
    only, each proved there) *)
From Coq Require Import String Reals Lra Lia ZArith List Bool.
From Coquelicot Require Import Rcomplements Complex.
From Verif Require Import Num NumLemmas LimLemmas ModelBase ModelSample ModelTip StackLemmas Spec
  ProofsStackQS ProofsPassive DemodLemmas ProofsDemod ProofsTip ProofsTip2 ProofsTip3
  ProofsTaylor PosDef ProofsContrast ProofsContrast2 PosPoly ProofsFirst ProofsFirst2 ProofsFirst3 UniMod ProofsHarm.
Import ListNotations.
Open Scope R_scope.
From Verif Require Import ProofsHarm2.

(** C106. Point dipole model, lossless tip: every Taylor coefficient beyond the
    first, and every truncated series over a lossless sample (whatever the loop
    gain), is stronger in the lower harmonic. *)
Theorem C106_pdm_taylor :
  forall (D : Defaults) (A_tip : R) (n m : Z) (z_tip r_tip : option R) (n_trapz : option nat)
    (eps_tip alpha_tip : option C) (alpha : R),
  let N := given_or (d_n_trapz D) n_trapz in let z := given_or (d_z_tip D) z_tip in
  let r := given_or (d_r_tip D) r_tip in
  tip_alpha r eps_tip alpha_tip (RtoC alpha) -> 0 < alpha -> N <> O -> 0 < A_tip -> 0 < r + z ->
  (Z.abs n < Z.abs m)%Z -> (2 * Z.abs m <= Z.of_nat N)%Z ->
  (forall j, exists c_n c_m : C,
     pdm_taylor_coef D z (S j) A_tip n (rr r) (Some (RtoC alpha)) n_trapz = Ok (Some c_n) /\
     pdm_taylor_coef D z (S j) A_tip m (rr r) (Some (RtoC alpha)) n_trapz = Ok (Some c_m) /\ 0 < Cmod c_m < Cmod c_n) /\
  (forall (s : sample) (b : R) (J : nat), refl_coef_qs s (rr 0) = Ok (Some (RtoC b)) -> 0 < b ->
   exists a_n a_m : C,
     pdm_eff_pol_n_taylor D s A_tip n z_tip r_tip eps_tip alpha_tip n_trapz (Some (S (S J))) = Ok (Some a_n) /\
     pdm_eff_pol_n_taylor D s A_tip m z_tip r_tip eps_tip alpha_tip n_trapz (Some (S (S J))) = Ok (Some a_m) /\ 0 < Cmod a_m < Cmod a_n).
Proof. exact C106_pdm_taylor_proof. Qed.
Print Assumptions C106_pdm_taylor.

(** C106. The same for the finite dipole model with a real g factor, the stroke
    below the sign changes of the geometry functions. *)
Theorem C106_fdm_taylor :
  forall (laggauss : laggauss_t) (D : Defaults) (A_tip : R) (n m : Z) (n_trapz : option nat)
    (z_tip r_tip L_tip : option R) (g_factor : option C) (d_Q0 d_Q1 d_Qa : option R) (n_lag : option nat) (g : R),
  let N := given_or (d_n_trapz D) n_trapz in let z := given_or (d_z_tip D) z_tip in
  let r := given_or (d_r_tip D) r_tip in let L := given_or (d_L_tip D) L_tip in
  let d0 := given_or (131 / 100 * L / (L + 2 * r)) d_Q0 in let d1 := given_or (d_d_Q1 D) d_Q1 in
  given_or (d_g_factor D) g_factor = RtoC g ->
  N <> O -> 0 < A_tip -> 0 < r < 4 * L -> 0 < r + 4 * z + 2 * r * d0 -> 0 < r + 4 * z + 2 * r * d1 ->
  r + 2 * (z + 2 * A_tip) + r * d0 < 2 * L * g -> r + 4 * (z + 2 * A_tip) + 2 * r * d0 < 4 * L ->
  r + 2 * (z + 2 * A_tip) + r * d1 < 2 * L * g -> r + 4 * (z + 2 * A_tip) + 2 * r * d1 < 4 * L ->
  (Z.abs n < Z.abs m)%Z -> (2 * Z.abs m <= Z.of_nat N)%Z ->
  (forall j, exists c_n c_m : C,
     fdm_taylor_coef D z (S j) A_tip n (rr r) (rr L) (Some (RtoC g)) (rr d0) (rr d1) n_trapz = Ok (Some c_n) /\
     fdm_taylor_coef D z (S j) A_tip m (rr r) (rr L) (Some (RtoC g)) (rr d0) (rr d1) n_trapz = Ok (Some c_m) /\ 0 < Cmod c_m < Cmod c_n) /\
  (forall (s : sample) (b : R) (J : nat), multilayer s = false -> refl_coef_qs s (rr 0) = Ok (Some (RtoC b)) -> 0 < b ->
   exists a_n a_m : C,
     fdm_eff_pol_n_taylor laggauss D s A_tip n z_tip r_tip L_tip g_factor d_Q0 d_Q1 d_Qa n_lag None n_trapz (Some (S (S J))) = Ok (Some a_n) /\
     fdm_eff_pol_n_taylor laggauss D s A_tip m z_tip r_tip L_tip g_factor d_Q0 d_Q1 d_Qa n_lag None n_trapz (Some (S (S J))) = Ok (Some a_m) /\
     0 < Cmod a_m < Cmod a_n).
Proof. exact C106_fdm_taylor_proof. Qed.
Print Assumptions C106_fdm_taylor.

(** C106, example: conducting sphere of 20 nm, amplitude 20 nm, default sampling:
    the fourth harmonic of the third Taylor coefficient is weaker than the second. *)
Example C106_taylor_example :
  exists c_2 c_4 : C,
    pdm_taylor_coef defaults0 0 3 (20 / 10 ^ 9) 2 (rr (20 / 10 ^ 9)) (Some (RtoC (4 * PI * (20 / 10 ^ 9) ^ 3))) None = Ok (Some c_2) /\
    pdm_taylor_coef defaults0 0 3 (20 / 10 ^ 9) 4 (rr (20 / 10 ^ 9)) (Some (RtoC (4 * PI * (20 / 10 ^ 9) ^ 3))) None = Ok (Some c_4) /\
    0 < Cmod c_4 < Cmod c_2.
Proof. exact C106_taylor_example_proof. Qed.
