(** * Properties (generated by tools/gen_prop.py from ProofsLoop.v; statements
    only, each proved there) *)
From Coq Require Import String Reals Lra Lia ZArith List Bool.
From Coquelicot Require Import Rcomplements Complex.
From Verif Require Import Num NumLemmas LimLemmas ModelBase ModelSample ModelTip StackLemmas Spec SpecTip
  ProofsStackQS ProofsStackQS2 ProofsBulkFF ProofsSym ProofsPassive DemodLemmas ProofsDemod ProofsTip ProofsTip2 ProofsTip3
  ProofsTaylor ProofsAbsorb SpecQuad ProofsNlag ProofsEx ProofsContrast ProofsContrast2.
Import ListNotations.
Open Scope R_scope.
From Verif Require Import ProofsLoop.

(** C70. pdm.eff_pol is the response p/E of the point dipole in equilibrium with
    its own image: if it is finite, the loop equation has exactly the solution
    p = a E; if it is not, a driven dipole has no equilibrium. *)
Theorem C70_pdm_self_consistent :
  forall (D : Defaults) (s : sample) (z_tip r_tip : option R) (eps_tip alpha_tip : option C) (alpha beta : C),
  let z := given_or (d_z_tip D) z_tip in let r := given_or (d_r_tip D) r_tip in
  tip_alpha r eps_tip alpha_tip alpha -> alpha <> RtoC 0 -> r + z <> 0 -> refl_coef_qs s (rr 0) = Ok (Some beta) ->
  (forall a, pdm_eff_pol D s z_tip r_tip eps_tip alpha_tip = Ok (Some a) ->
     forall E p, dipole_balance alpha beta (r + z) E p <-> p = (a * E)%C) /\
  (pdm_eff_pol D s z_tip r_tip eps_tip alpha_tip = Ok None ->
     forall E p, E <> RtoC 0 -> ~ dipole_balance alpha beta (r + z) E p).
Proof. exact C70_pdm_self_consistent_proof. Qed.
Print Assumptions C70_pdm_self_consistent.

(** C70. Applying the reflections one after the other leads to pdm.eff_pol if the
    loop gain is below 1 and diverges if it is above 1 (where the closed form is
    still finite). *)
Theorem C70_pdm_rounds :
  forall (D : Defaults) (s : sample) (z_tip r_tip : option R) (eps_tip alpha_tip : option C) (alpha beta E : C),
  let z := given_or (d_z_tip D) z_tip in let r := given_or (d_r_tip D) r_tip in
  tip_alpha r eps_tip alpha_tip alpha -> alpha <> RtoC 0 -> E <> RtoC 0 -> r + z <> 0 ->
  refl_coef_qs s (rr 0) = Ok (Some beta) ->
  let gain := Cmod (alpha * beta)%C / (16 * PI * Rabs (r + z) ^ 3) in
  (gain < 1 -> exists a, pdm_eff_pol D s z_tip r_tip eps_tip alpha_tip = Ok (Some a) /\
     forall eps, 0 < eps -> exists K, forall k, (K <= k)%nat -> Cmod (dipole_rounds alpha beta (r + z) E k - a * E)%C < eps) /\
  (1 < gain -> (exists a, pdm_eff_pol D s z_tip r_tip eps_tip alpha_tip = Ok (Some a)) /\
     forall B, exists K, forall k, (K <= k)%nat -> B < Cmod (dipole_rounds alpha beta (r + z) E k)).
Proof. exact C70_pdm_rounds_proof. Qed.
Print Assumptions C70_pdm_rounds.

(** C70. The point-dipole Taylor series cut after J + 1 terms is the demodulated
    response (over alpha) after J reflections. *)
Theorem C70_pdm_taylor_rounds :
  forall (D : Defaults) (s : sample) (A_tip : R) (n : Z) (z_tip r_tip : option R) (eps_tip alpha_tip : option C)
    (n_trapz : option nat) (alpha beta E : C) (J : nat),
  let N := given_or (d_n_trapz D) n_trapz in let z := given_or (d_z_tip D) z_tip in
  let r := given_or (d_r_tip D) r_tip in
  tip_alpha r eps_tip alpha_tip alpha -> alpha <> RtoC 0 -> E <> RtoC 0 -> refl_coef_qs s (rr 0) = Ok (Some beta) -> N <> O ->
  (forall k, (k < N)%nat -> r + tip_height z A_tip N k <> 0) ->
  pdm_eff_pol_n_taylor D s A_tip n z_tip r_tip eps_tip alpha_tip n_trapz (Some (S J))
  = demod D (fun x => Ok (Some (dipole_rounds alpha beta (r + x) E J / (alpha * E))%C)) (z + A_tip) A_tip n n_trapz.
Proof. exact C70_pdm_taylor_rounds_proof. Qed.
Print Assumptions C70_pdm_taylor_rounds.

(** C70. fdm.eff_pol, for each method, is the dipole moment (over that of the
    isolated tip, with dipole lengths approximated by 2 L and L as in the guide)
    of the charges in equilibrium with their images; where it is not finite there
    is no equilibrium. *)
Theorem C70_fdm_self_consistent :
  forall (laggauss : laggauss_t) (D : Defaults) (s : sample) (z_tip r_tip L_tip : option R) (g_factor : option C)
    (d_Q0 d_Q1 d_Qa : option R) (n_lag : option nat) (method : option string) (b0 b1 f0 f1 : C),
  let z := given_or (d_z_tip D) z_tip in let r := given_or (d_r_tip D) r_tip in
  let L := given_or (d_L_tip D) L_tip in
  let d0 := given_or (131 / 100 * L / (L + 2 * r)) d_Q0 in
  let d1 := given_or (d_d_Q1 D) d_Q1 in let da := given_or (d_d_Qa D) d_Qa in
  let G := given_or (d_g_factor D) g_factor in
  images laggauss D s z r L G d0 d1 da n_lag method b0 b1 f0 f1 ->
  (forall a, fdm_eff_pol laggauss D s z_tip r_tip L_tip g_factor d_Q0 d_Q1 d_Qa n_lag method = Ok (Some a) ->
     forall Q0 Q1, charge_balance b0 b1 f0 f1 Q0 Q1 <-> tip_dipole L 0 0 Q0 Q1 = (a * tip_dipole L 0 0 Q0 0)%C) /\
  (fdm_eff_pol laggauss D s z_tip r_tip L_tip g_factor d_Q0 d_Q1 d_Qa n_lag method = Ok None ->
     forall Q0 Q1, b0 <> RtoC 0 -> f0 <> RtoC 0 -> Q0 <> RtoC 0 -> ~ charge_balance b0 b1 f0 f1 Q0 Q1).
Proof. exact C70_fdm_self_consistent_proof. Qed.
Print Assumptions C70_fdm_self_consistent.

(** C70. Reflection by reflection. *)
Theorem C70_fdm_rounds :
  forall (laggauss : laggauss_t) (D : Defaults) (s : sample) (z_tip r_tip L_tip : option R) (g_factor : option C)
    (d_Q0 d_Q1 d_Qa : option R) (n_lag : option nat) (method : option string) (b0 b1 f0 f1 Q0 : C),
  let z := given_or (d_z_tip D) z_tip in let r := given_or (d_r_tip D) r_tip in
  let L := given_or (d_L_tip D) L_tip in
  let d0 := given_or (131 / 100 * L / (L + 2 * r)) d_Q0 in
  let d1 := given_or (d_d_Q1 D) d_Q1 in let da := given_or (d_d_Qa D) d_Qa in
  let G := given_or (d_g_factor D) g_factor in
  images laggauss D s z r L G d0 d1 da n_lag method b0 b1 f0 f1 -> b0 <> RtoC 0 -> f0 <> RtoC 0 -> Q0 <> RtoC 0 ->
  let gain := Cmod (b1 * f1)%C in
  (gain < 1 -> exists a, fdm_eff_pol laggauss D s z_tip r_tip L_tip g_factor d_Q0 d_Q1 d_Qa n_lag method = Ok (Some a) /\
     forall eps, 0 < eps -> exists K, forall k, (K <= k)%nat ->
       Cmod (tip_dipole L 0 0 Q0 (charge_rounds b0 b1 f0 f1 Q0 k) - a * tip_dipole L 0 0 Q0 0)%C < eps) /\
  (1 < gain -> (exists a, fdm_eff_pol laggauss D s z_tip r_tip L_tip g_factor d_Q0 d_Q1 d_Qa n_lag method = Ok (Some a)) /\
     forall B, exists K, forall k, (K <= k)%nat -> B < Cmod (charge_rounds b0 b1 f0 f1 Q0 k)).
Proof. exact C70_fdm_rounds_proof. Qed.
Print Assumptions C70_fdm_rounds.

(** C70. The finite-dipole Taylor series cut at n_tayl = J + 1 is the demodulated
    response after J reflections. *)
Theorem C70_fdm_taylor_rounds :
  forall (laggauss : laggauss_t) (D : Defaults) (s : sample) (A_tip : R) (n : Z) (n_trapz : option nat)
    (z_tip r_tip L_tip : option R) (g_factor : option C) (d_Q0 d_Q1 d_Qa : option R) (n_lag : option nat) (beta Q0 : C) (J : nat),
  let N := given_or (d_n_trapz D) n_trapz in let z := given_or (d_z_tip D) z_tip in
  let r := given_or (d_r_tip D) r_tip in let L := given_or (d_L_tip D) L_tip in
  let d0 := given_or (131 / 100 * L / (L + 2 * r)) d_Q0 in let d1 := given_or (d_d_Q1 D) d_Q1 in
  let G := given_or (d_g_factor D) g_factor in
  multilayer s = false -> refl_coef_qs s (rr 0) = Ok (Some beta) -> N <> O -> resolved N n -> Q0 <> RtoC 0 ->
  (forall k, (k < N)%nat -> let x := tip_height z A_tip N k in fdm_regular x d0 r L /\ fdm_regular x d1 r L) ->
  forall method, method = None \/ method = Some "bulk"%string ->
  fdm_eff_pol_n_taylor laggauss D s A_tip n z_tip r_tip L_tip g_factor d_Q0 d_Q1 d_Qa n_lag method n_trapz (Some (S J))
  = demod D (fun x => Ok (Some (tip_dipole L 0 0 Q0 (charge_rounds beta beta (fdm_f x d0 r L G) (fdm_f x d1 r L G) Q0 J) / tip_dipole L 0 0 Q0 0)%C))
      (z + A_tip) A_tip n n_trapz.
Proof. exact C70_fdm_taylor_rounds_proof. Qed.
Print Assumptions C70_fdm_taylor_rounds.

(** C70. Keeping the lengths 2 (L - z_Q0) and L - z_Q1 of the two dipoles, which
    the guide approximates by 2 L and L, only multiplies every harmonic by the
    constant (L - z_Q1)/(L - z_Q0): normalised signals are exact in this respect. *)
Theorem C70_fdm_lengths :
  forall (laggauss : laggauss_t) (D : Defaults) (s : sample) (A_tip : R) (n : Z) (n_trapz : option nat)
    (z_tip r_tip L_tip : option R) (g_factor : option C) (d_Q0 d_Q1 d_Qa : option R) (n_lag : option nat) (beta : C) (exact : R -> C),
  let N := given_or (d_n_trapz D) n_trapz in let z := given_or (d_z_tip D) z_tip in
  let r := given_or (d_r_tip D) r_tip in let L := given_or (d_L_tip D) L_tip in
  let d0 := given_or (131 / 100 * L / (L + 2 * r)) d_Q0 in let d1 := given_or (d_d_Q1 D) d_Q1 in
  let G := given_or (d_g_factor D) g_factor in
  multilayer s = false -> refl_coef_qs s (rr 0) = Ok (Some beta) -> N <> O -> n <> 0%Z -> resolved N n -> r * d0 <> L ->
  (forall k, (k < N)%nat -> let x := tip_height z A_tip N k in
     fdm_regular x d0 r L /\ fdm_regular x d1 r L /\ (1 - beta * fdm_f x d1 r L G <> 0)%C /\
     forall Q0 Q1, charge_balance beta beta (fdm_f x d0 r L G) (fdm_f x d1 r L G) Q0 Q1 ->
       tip_dipole L (r * d0) (r * d1) Q0 Q1 = (exact x * tip_dipole L (r * d0) (r * d1) Q0 0)%C) ->
  forall method, method = None \/ method = Some "bulk"%string ->
  exists sn : C,
    fdm_eff_pol_n laggauss D s A_tip n z_tip n_trapz r_tip L_tip g_factor d_Q0 d_Q1 d_Qa n_lag method = Ok (Some sn) /\
    demod D (fun x => Ok (Some (exact x))) (z + A_tip) A_tip n n_trapz = Ok (Some (RtoC ((L - r * d1) / (L - r * d0)) * sn)%C).
Proof. exact C70_fdm_lengths_proof. Qed.
Print Assumptions C70_fdm_lengths.

(** C70, concrete cases: a substrate with eps = 3, default tips.  Reflections
    settle for a metallic sphere and diverge for a sphere 16 times as polarizable;
    the charges of the default ellipsoid have exactly one equilibrium. *)
Example C70_example :
  forall laggauss,
  let s := stack [RtoC 1; RtoC 3] [] None in let r := 20 / 10 ^ 9 in
  (exists a, pdm_eff_pol defaults0 s None None None None = Ok (Some a) /\
     (forall p, dipole_balance (RtoC (4 * PI * r ^ 3)) (RtoC (1 / 2)) r (RtoC 1) p <-> p = a) /\
     forall eps, 0 < eps -> exists K, forall k, (K <= k)%nat -> Cmod (dipole_rounds (RtoC (4 * PI * r ^ 3)) (RtoC (1 / 2)) r (RtoC 1) k - a)%C < eps) /\
  (let alpha := RtoC (64 * PI * r ^ 3) in
   (exists a, pdm_eff_pol defaults0 s None None None (Some alpha) = Ok (Some a)) /\
   forall B, exists K, forall k, (K <= k)%nat -> B < Cmod (dipole_rounds alpha (RtoC (1 / 2)) r (RtoC 1) k)) /\
  (exists a f0 f1, fdm_eff_pol laggauss defaults0 s None None None (Some (RtoC (7 / 10))) None None None None None = Ok (Some a) /\
     forall Q0 Q1, charge_balance (RtoC (1 / 2)) (RtoC (1 / 2)) f0 f1 Q0 Q1
       <-> tip_dipole (300 / 10 ^ 9) 0 0 Q0 Q1 = (a * tip_dipole (300 / 10 ^ 9) 0 0 Q0 0)%C).
Proof. exact C70_example_proof. Qed.
