(** * Properties (generated by tools/gen_prop.py from ProofsScatter2.v; statements
    only, each proved there) *)
From Coq Require Import String Reals Lra Lia ZArith List Bool.
From Coquelicot Require Import Rcomplements Complex.
From Verif Require Import Num NumLemmas ModelBase ModelSample ModelTip StackLemmas Spec
  ProofsStackQS ProofsStackQS2 ProofsStackFF ProofsStackFF2 ProofsBulkFF SpecFresnel SpecWave WaveLemmas
  ProofsFresnel ProofsPassive ProofsTip4 ProofsContrast ProofsContrast2 ProofsContrast3 ModelScatter SpecScatter ProofsScatter.
Import ListNotations.
Open Scope R_scope.
From Verif Require Import ProofsScatter2.

(** C95. Lossless bulk samples and references (point dipole model): at every angle, for
    both polarizations and for every harmonic the normalised contrast is a non-negative
    real number, so its phase is zero; with p polarization and 0 <= c_r < 1 it grows
    strictly with the permittivity from 2 sin(theta)^2 upwards. *)
Theorem C95_pdm_lossless :
  forall (D : Defaults) (e0 e1 e2 e3 nu theta c_r A_tip : R) (n : Z) (z_tip r_tip : option R) (n_trapz : option nat) (eps_tip : option R),
  let N := given_or (d_n_trapz D) n_trapz in let z := given_or (d_z_tip D) z_tip in
  let r := given_or (d_r_tip D) r_tip in
  let signal := fun s => pdm_eff_pol_n D s A_tip n z_tip n_trapz r_tip (option_map RtoC eps_tip) None in
  let eta := fun e => normalised signal (stack [RtoC e0; RtoC e] [] (Some nu)) (stack [RtoC e0; RtoC e3] [] (Some nu)) (Some theta) c_r in
  0 < nu -> 0 < e0 -> e0 <= e1 < e2 -> e0 < e3 -> sin theta ^ 2 < e0 -> Rabs c_r < 1 ->
  N <> O -> 0 < A_tip -> 0 < r -> 0 <= z -> (forall e, eps_tip = Some e -> 1 < e) ->
  forall p, exists x1 x2 : R, eta e1 (pol p) = Ok (Some (RtoC x1)) /\ eta e2 (pol p) = Ok (Some (RtoC x2)) /\
    0 <= x1 /\ 0 < x2 /\ (0 <= c_r -> 2 * sin theta ^ 2 <= e1 -> p = true -> x1 < x2).
Proof. exact C95_pdm_lossless_proof. Qed.
Print Assumptions C95_pdm_lossless.

(** C95. The same for the finite dipole model, in the range of tips of C69. *)
Theorem C95_fdm_lossless :
  forall (laggauss : laggauss_t) (D : Defaults) (e0 e1 e2 e3 nu theta c_r A_tip : R) (n : Z) (n_trapz : option nat)
    (z_tip r_tip L_tip : option R) (g_factor : option C) (d_Q0 d_Q1 d_Qa : option R) (n_lag : option nat) (method : option string) (g : R),
  let N := given_or (d_n_trapz D) n_trapz in let z := given_or (d_z_tip D) z_tip in
  let r := given_or (d_r_tip D) r_tip in let L := given_or (d_L_tip D) L_tip in
  let d0 := given_or (131 / 100 * L / (L + 2 * r)) d_Q0 in let d1 := given_or (d_d_Q1 D) d_Q1 in
  let signal := fun s => fdm_eff_pol_n laggauss D s A_tip n z_tip n_trapz r_tip L_tip g_factor d_Q0 d_Q1 d_Qa n_lag method in
  let eta := fun e => normalised signal (stack [RtoC e0; RtoC e] [] (Some nu)) (stack [RtoC e0; RtoC e3] [] (Some nu)) (Some theta) c_r in
  0 < nu -> 0 < e0 -> e0 <= e1 < e2 -> e0 < e3 -> sin theta ^ 2 < e0 -> Rabs c_r < 1 ->
  given_or (d_g_factor D) g_factor = RtoC g ->
  N <> O -> 0 < A_tip -> 0 < r < 4 * L -> 0 < r + 4 * z + 2 * r * d0 -> 0 < r + 4 * z + 2 * r * d1 ->
  r + 2 * (z + 2 * A_tip) + r * d0 <= 2 * L * g -> r + 4 * (z + 2 * A_tip) + 2 * r * d0 <= 4 * L ->
  r + 2 * (z + 2 * A_tip) + r * d1 <= 2 * L * g -> r + 4 * (z + 2 * A_tip) + 2 * r * d1 <= 4 * L ->
  Re (fdm_f z d1 r L (RtoC g)) <= 1 -> method = None \/ method = Some "bulk"%string ->
  forall p, exists x1 x2 : R, eta e1 (pol p) = Ok (Some (RtoC x1)) /\ eta e2 (pol p) = Ok (Some (RtoC x2)) /\
    0 <= x1 /\ 0 < x2 /\ (0 <= c_r -> 2 * sin theta ^ 2 <= e1 -> p = true -> x1 < x2).
Proof. exact C95_fdm_lossless_proof. Qed.
Print Assumptions C95_fdm_lossless.

(** C95. The phase of a corrected spectrum is not a sign of absorption: a lossless film
    (permittivity 4 on 9) has a real near-field signal, yet its corrected contrast against
    its own substrate has a positive imaginary part, whatever the (real, equally signed)
    signals are and however small c_r > 0 is. *)
Theorem C95_phase_is_absorption_refuted :
  forall (signal : sample -> res CV) (a a' c_r : R),
  let film := stack [RtoC 1; RtoC 4; RtoC 9] [PI / 8] (Some 1) in
  let substrate := stack [RtoC 1; RtoC 9] [] (Some 1) in
  0 < c_r -> signal film = Ok (Some (RtoC a)) -> signal substrate = Ok (Some (RtoC a')) -> 0 < a / a' -> a' <> 0 ->
  exists eta : C, normalised signal film substrate (Some 0) c_r "p" = Ok (Some eta) /\ 0 < Im eta.
Proof. exact C95_phase_is_absorption_refuted_proof. Qed.
Print Assumptions C95_phase_is_absorption_refuted.

(** C95. An instance: with the default point-dipole tip the film of the previous theorem
    is indistinguishable from its substrate before the correction (contrast exactly 1) and
    has a phase after it; the bulk crystals 4 and 9 at 60 degrees with c_r = 0.3 have a
    corrected contrast between 0 and 1. *)
Example C95_film_example :
  let signal := fun s => pdm_eff_pol_n defaults0 s (20 / 10 ^ 9) 3 None None None None None in
  let film := stack [RtoC 1; RtoC 4; RtoC 9] [PI / 8] (Some 1) in
  let substrate := stack [RtoC 1; RtoC 9] [] (Some 1) in
  uncorrected signal film substrate = Ok (Some (RtoC 1)) /\
  (exists eta : C, normalised signal film substrate (Some 0) (3 / 10) "p" = Ok (Some eta) /\ 0 < Im eta) /\
  (exists x : R, normalised signal (stack [RtoC 1; RtoC 4] [] (Some 1)) substrate (Some (PI / 3)) (3 / 10) "p" = Ok (Some (RtoC x)) /\ 0 <= x < 1).
Proof. exact C95_film_example_proof. Qed.

(** C95. An instance of the bound: absorbing film on silicon against a metal at 60
    degrees; c_r = 0.3 changes the modulus by at most a factor 169/49. *)
Example C95_bound_example :
  forall (signal : sample -> res CV) (a a' : C),
  let s := stack [RtoC 1; (2, 1); RtoC (117 / 10)] [1 / 2] (Some 1) in
  let ref := stack [RtoC 1; (-50, 10)] [] (Some 1) in
  signal s = Ok (Some a) -> signal ref = Ok (Some a') -> a' <> RtoC 0 ->
  exists rho phi : R, normalised signal s ref (Some (PI / 3)) (3 / 10) "p" = Ok (Some (polar rho phi * (a / a'))%C) /\
    49 / 169 <= rho <= 169 / 49 /\ Rabs phi <= 4 * asin (3 / 10).
Proof. exact C95_bound_example_proof. Qed.
