(** * Properties (generated by tools/gen_prop.py from ProofsTip3.v; statements
    only, each proved there) *)
From Coq Require Import String Reals Lra Lia ZArith List Bool.
From Coquelicot Require Import Rcomplements Complex.
From Verif Require Import Num NumLemmas LimLemmas ModelBase ModelSample ModelTip StackLemmas Spec
  ProofsStackQS ProofsStackQS2 ProofsSym ProofsPassive DemodLemmas ProofsDemod ProofsTip ProofsTip2.
Import ListNotations.
Open Scope R_scope.
From Verif Require Import ProofsTip3.

(** C34. demodulate.demod: leaving n_trapz out is passing the current default,
    and with n_trapz explicit the default table is not read (D' is any other
    table). *)
Theorem C34_demod :
  forall (D D' : Defaults) f x_0 x_amplitude n n_trapz,
  demod D f x_0 x_amplitude n n_trapz = demod D' f x_0 x_amplitude n (Some (given_or (d_n_trapz D) n_trapz)).
Proof. exact C34_demod_proof. Qed.
Print Assumptions C34_demod.

(** C34. The same for n_lag in the three height averages of Sample. *)
Theorem C34_sample_averages :
  forall (laggauss : laggauss_t) (D D' : Defaults) (s : sample) (z_Q : RV) (n_lag : option nat),
  let n := Some (given_or (d_n_lag D) n_lag) in
  refl_coef_qs_above_surf laggauss D s z_Q n_lag = refl_coef_qs_above_surf laggauss D' s z_Q n /\
  surf_pot_and_field laggauss D s z_Q n_lag = surf_pot_and_field laggauss D' s z_Q n /\
  image_depth_and_charge laggauss D s z_Q n_lag = image_depth_and_charge laggauss D' s z_Q n.
Proof. exact C34_sample_averages_proof. Qed.
Print Assumptions C34_sample_averages.

(** C34. Finite dipole model: whatever subset of the arguments is left out,
    each function gives what it gives with the missing ones filled in from
    the current table - d_Q0 from the r_tip and L_tip actually used - and then
    the table does not matter. *)
Theorem C34_fdm :
  forall (laggauss : laggauss_t) (D D' : Defaults) (s : sample) (A_tip : R) (n : Z) (z_tip r_tip L_tip : option R)
    (g_factor : option C) (d_Q0 d_Q1 d_Qa : option R) (n_lag n_trapz n_tayl : option nat) (method : option string)
    (alpha : CV),
  let r := given_or (d_r_tip D) r_tip in let L := given_or (d_L_tip D) L_tip in
  let z' := Some (given_or (d_z_tip D) z_tip) in let r' := Some r in let L' := Some L in
  let g' := Some (given_or (d_g_factor D) g_factor) in
  let d0' := Some (given_or (131 / 100 * L / (L + 2 * r)) d_Q0) in
  let d1' := Some (given_or (d_d_Q1 D) d_Q1) in let da' := Some (given_or (d_d_Qa D) d_Qa) in
  let n_lag' := Some (given_or (d_n_lag D) n_lag) in
  let n_trapz' := Some (given_or (d_n_trapz D) n_trapz) in
  let n_tayl' := Some (given_or (d_n_tayl D) n_tayl) in
  L + 2 * r <> 0 ->
  fdm_eff_pol laggauss D s z_tip r_tip L_tip g_factor d_Q0 d_Q1 d_Qa n_lag method
    = fdm_eff_pol laggauss D' s z' r' L' g' d0' d1' da' n_lag' method /\
  fdm_eff_pol_n laggauss D s A_tip n z_tip n_trapz r_tip L_tip g_factor d_Q0 d_Q1 d_Qa n_lag method
    = fdm_eff_pol_n laggauss D' s A_tip n z' n_trapz' r' L' g' d0' d1' da' n_lag' method /\
  fdm_eff_pol_n_taylor laggauss D s A_tip n z_tip r_tip L_tip g_factor d_Q0 d_Q1 d_Qa n_lag method n_trapz n_tayl
    = fdm_eff_pol_n_taylor laggauss D' s A_tip n z' r' L' g' d0' d1' da' n_lag' method n_trapz' n_tayl' /\
  fdm_refl_coef_qs_from_eff_pol D alpha z_tip r_tip L_tip g_factor d_Q0 d_Q1
    = fdm_refl_coef_qs_from_eff_pol D' alpha z' r' L' g' d0' d1'.
Proof. exact C34_fdm_proof. Qed.
Print Assumptions C34_fdm.

(** C34. Point dipole model: likewise. *)
Theorem C34_pdm :
  forall (D D' : Defaults) (s : sample) (A_tip : R) (n : Z) (z_tip r_tip : option R)
    (eps_tip alpha_tip : option C) (n_trapz n_tayl : option nat) (alpha : CV),
  let z' := Some (given_or (d_z_tip D) z_tip) in let r' := Some (given_or (d_r_tip D) r_tip) in
  let n_trapz' := Some (given_or (d_n_trapz D) n_trapz) in
  let n_tayl' := Some (given_or (d_n_tayl D) n_tayl) in
  pdm_eff_pol D s z_tip r_tip eps_tip alpha_tip = pdm_eff_pol D' s z' r' eps_tip alpha_tip /\
  pdm_eff_pol_n D s A_tip n z_tip n_trapz r_tip eps_tip alpha_tip
    = pdm_eff_pol_n D' s A_tip n z' n_trapz' r' eps_tip alpha_tip /\
  pdm_eff_pol_n_taylor D s A_tip n z_tip r_tip eps_tip alpha_tip n_trapz n_tayl
    = pdm_eff_pol_n_taylor D' s A_tip n z' r' eps_tip alpha_tip n_trapz' n_tayl' /\
  pdm_refl_coef_qs_from_eff_pol D alpha z_tip r_tip eps_tip alpha_tip
    = pdm_refl_coef_qs_from_eff_pol D' alpha z' r' eps_tip alpha_tip.
Proof. exact C34_pdm_proof. Qed.
Print Assumptions C34_pdm.

(** C34. Example: an explicit height 0 is kept although the table says 7. *)
Example C34_example :
  let D := mkDefaults (RtoC 1) 7 1 10 (RtoC 1) (1/2) (1/2) 8 8 8 1 in
  pdm_eff_pol D (stack [RtoC 1; RtoC 3] [] None) (Some 0) None None (Some (RtoC PI))
  = Ok (rc (32 * PI / 31)).
Proof. exact C34_example_proof. Qed.

(** C35. Point dipole tip material: with eps_tip the tip polarizability is
    4 pi r^3 (eps-1)/(eps+2), with neither it is 4 pi r^3 (perfect
    conductor), i.e. each function gives what it gives for that alpha_tip. *)
Theorem C35_material :
  forall (D : Defaults) (s : sample) (A_tip : R) (n : Z) (z_tip r_tip : option R) (eps_tip : option C)
    (n_trapz n_tayl : option nat) (a : CV) (alpha : C),
  let r := given_or (d_r_tip D) r_tip in
  match eps_tip with
  | None => alpha = RtoC (4 * PI * r ^ 3)
  | Some e => (e <> -(2) /\ alpha = RtoC (4 * PI * r ^ 3) * ((e - 1) / (e + 2)))%C
  end ->
  pdm_eff_pol D s z_tip r_tip eps_tip None = pdm_eff_pol D s z_tip r_tip None (Some alpha) /\
  pdm_eff_pol_n D s A_tip n z_tip n_trapz r_tip eps_tip None
    = pdm_eff_pol_n D s A_tip n z_tip n_trapz r_tip None (Some alpha) /\
  pdm_eff_pol_n_taylor D s A_tip n z_tip r_tip eps_tip None n_trapz n_tayl
    = pdm_eff_pol_n_taylor D s A_tip n z_tip r_tip None (Some alpha) n_trapz n_tayl /\
  pdm_refl_coef_qs_from_eff_pol D a z_tip r_tip eps_tip None
    = pdm_refl_coef_qs_from_eff_pol D a z_tip r_tip None (Some alpha).
Proof. exact C35_material_proof. Qed.
Print Assumptions C35_material.

(** C35. Giving both raises ValueError in every function (although the
    documentation says eps_tip is then ignored). *)
Theorem C35_both_raise :
  forall (D : Defaults) (s : sample) (A_tip : R) (n : Z) (z_tip r_tip : option R) (eps_tip alpha_tip : C)
    (n_trapz n_tayl : option nat) (a : CV),
  let ex := ValueError "Either `alpha_tip` or `eps_tip` must be None." in
  pdm_eff_pol D s z_tip r_tip (Some eps_tip) (Some alpha_tip) = Raise ex /\
  pdm_eff_pol_n D s A_tip n z_tip n_trapz r_tip (Some eps_tip) (Some alpha_tip) = Raise ex /\
  pdm_eff_pol_n_taylor D s A_tip n z_tip r_tip (Some eps_tip) (Some alpha_tip) n_trapz n_tayl = Raise ex /\
  pdm_refl_coef_qs_from_eff_pol D a z_tip r_tip (Some eps_tip) (Some alpha_tip) = Raise ex.
Proof. exact C35_both_raise_proof. Qed.
Print Assumptions C35_both_raise.

(** C35. The default tip is the limit of ever better dielectrics: the
    effective polarizability with eps_tip = e tends to the one with neither
    argument as |e| grows, in every direction. *)
Theorem C35_conductor_limit :
  forall (D : Defaults) (s : sample) (z_tip r_tip : option R) (a : C),
  pdm_eff_pol D s z_tip r_tip None None = Ok (Some a) ->
  forall eps, 0 < eps -> exists M, forall e : C, M < Cmod e ->
  exists a', pdm_eff_pol D s z_tip r_tip (Some e) None = Ok (Some a') /\ Cmod (a' - a)%C < eps.
Proof. exact C35_conductor_limit_proof. Qed.
Print Assumptions C35_conductor_limit.

(** C35. Example: the hypothesis holds, e.g. for C27's sample *)
Example C35_example :
  let s := stack [RtoC 1; RtoC 2; RtoC 3] [5 / 10 ^ 9] None in
  exists a, pdm_eff_pol defaults0 s None None None None = Ok (Some a) /\ a <> RtoC 0.
Proof. exact C35_example_proof. Qed.

(** C43. A sample whose layers all have the environment's permittivity is
    invisible: at every height the finite dipole model with method 'Q_ave'
    (or 'bulk', the default, if there is no inner layer) gives 1 wherever its
    geometry functions are defined, and the point dipole model gives the bare
    tip polarizability. *)
Theorem C43_no_sample :
  forall (laggauss : laggauss_t) (D : Defaults) (e : C) (ts : list R) nu (z_tip r_tip L_tip : option R)
    (g_factor : option C) (d_Q0 d_Q1 d_Qa : option R) (n_lag : option nat) (eps_tip alpha_tip : option C) (alpha : C),
  let s := stack (repeat e (length ts + 2)) ts nu in
  let z := given_or (d_z_tip D) z_tip in let r := given_or (d_r_tip D) r_tip in
  let L := given_or (d_L_tip D) L_tip in
  let d0 := given_or (131 / 100 * L / (L + 2 * r)) d_Q0 in
  let d1 := given_or (d_d_Q1 D) d_Q1 in let da := given_or (d_d_Qa D) d_Qa in
  e <> RtoC 0 ->
  (fdm_regular z d0 r L -> fdm_regular z d1 r L -> given_or (d_n_lag D) n_lag <> O -> z + r * da <> 0 ->
   fdm_eff_pol laggauss D s z_tip r_tip L_tip g_factor d_Q0 d_Q1 d_Qa n_lag (Some "Q_ave"%string) = Ok (rc 1)) /\
  (fdm_regular z d0 r L -> fdm_regular z d1 r L -> ts = [] ->
   fdm_eff_pol laggauss D s z_tip r_tip L_tip g_factor d_Q0 d_Q1 d_Qa n_lag None = Ok (rc 1)) /\
  (tip_alpha r eps_tip alpha_tip alpha -> r + z <> 0 ->
   pdm_eff_pol D s z_tip r_tip eps_tip alpha_tip = Ok (Some alpha)).
Proof. exact C43_no_sample_proof. Qed.
Print Assumptions C43_no_sample.

(** C43. Hence no harmonic: each harmonic that the number of intervals does
    not divide is 0, wherever the tip moves. *)
Theorem C43_no_harmonics :
  forall (laggauss : laggauss_t) (D : Defaults) (e : C) (ts : list R) nu (A_tip : R) (n : Z)
    (z_tip r_tip L_tip : option R)
    (g_factor : option C) (d_Q0 d_Q1 d_Qa : option R) (n_lag n_trapz : option nat) (eps_tip alpha_tip : option C) (alpha : C),
  let s := stack (repeat e (length ts + 2)) ts nu in
  let z := given_or (d_z_tip D) z_tip in let r := given_or (d_r_tip D) r_tip in
  let L := given_or (d_L_tip D) L_tip in
  let d0 := given_or (131 / 100 * L / (L + 2 * r)) d_Q0 in
  let d1 := given_or (d_d_Q1 D) d_Q1 in let da := given_or (d_d_Qa D) d_Qa in
  let N := given_or (d_n_trapz D) n_trapz in
  e <> RtoC 0 -> N <> O -> ~ (Z.of_nat N | n)%Z ->
  0 <= z -> 0 <= A_tip -> 0 < r ->
  (0 < L -> r <> 4 * L -> 0 < d0 -> 0 < d1 -> 0 < da -> given_or (d_n_lag D) n_lag <> O ->
   fdm_eff_pol_n laggauss D s A_tip n z_tip n_trapz r_tip L_tip g_factor d_Q0 d_Q1 d_Qa n_lag (Some "Q_ave"%string)
   = Ok (rc 0) /\
   (ts = [] ->
    fdm_eff_pol_n laggauss D s A_tip n z_tip n_trapz r_tip L_tip g_factor d_Q0 d_Q1 d_Qa n_lag None = Ok (rc 0))) /\
  (tip_alpha r eps_tip alpha_tip alpha ->
   pdm_eff_pol_n D s A_tip n z_tip n_trapz r_tip eps_tip alpha_tip = Ok (rc 0)).
Proof. exact C43_no_harmonics_proof. Qed.
Print Assumptions C43_no_harmonics.

(** C43. Example: three layers of the environment's material (permittivity 2) *)
Example C43_example : forall laggauss,
  fdm_eff_pol_n laggauss defaults0 (stack [RtoC 2; RtoC 2; RtoC 2] [7 / 10 ^ 9] None) (30 / 10 ^ 9) 3
    None None None None None None None None None (Some "Q_ave"%string) = Ok (rc 0).
Proof. exact C43_example_proof. Qed.

(** C43. But method 'multi' - the default for a multilayer sample - does not
    give 1 there: the image charge is 0/0, and the result is not finite. *)
Theorem C43_multi_method_refuted :
  forall (laggauss : laggauss_t) (D : Defaults) (e : C) (ts : list R) nu (z_tip r_tip L_tip : option R)
    (g_factor : option C) (d_Q0 d_Q1 d_Qa : option R) (n_lag : option nat),
  let s := stack (repeat e (length ts + 2)) ts nu in
  let z := given_or (d_z_tip D) z_tip in let r := given_or (d_r_tip D) r_tip in
  let L := given_or (d_L_tip D) L_tip in
  let d0 := given_or (131 / 100 * L / (L + 2 * r)) d_Q0 in
  let d1 := given_or (d_d_Q1 D) d_Q1 in
  e <> RtoC 0 -> 0 < r -> 0 < L -> 0 <= z -> 0 < d0 -> 0 < d1 -> given_or (d_n_lag D) n_lag <> O -> ts <> [] ->
  fdm_eff_pol laggauss D s z_tip r_tip L_tip g_factor d_Q0 d_Q1 d_Qa n_lag None = Ok None.
Proof. exact C43_multi_method_refuted_proof. Qed.
Print Assumptions C43_multi_method_refuted.
