(** * Properties (generated by tools/gen_prop.py from ProofsScatter.v; statements
    only, each proved there) *)
From Coq Require Import String Reals Lra Lia ZArith List Bool.
From Coquelicot Require Import Rcomplements Complex.
From Verif Require Import Num NumLemmas ModelBase ModelSample ModelTip StackLemmas Spec
  ProofsStackQS ProofsStackQS2 ProofsStackFF ProofsStackFF2 ProofsBulkFF SpecFresnel SpecWave WaveLemmas
  ProofsFresnel ProofsWave2 ProofsMode ProofsSym ProofsTip4 ModelScatter SpecScatter.
Import ListNotations.
Open Scope R_scope.
From Verif Require Import ProofsScatter.

(** C95. The far-field correction of the guide is bounded: for samples and references
    that do not amplify light, any angle at which the beam reaches them and any |c_r| < 1,
    the corrected contrast exists and differs from the uncorrected one by a factor between
    ((1-c)/(1+c))^2 and ((1+c)/(1-c))^2 in modulus and by at most 4 arcsin c in phase. *)
Theorem C95_bounded_correction :
  forall (signal : sample -> res CV) (p : bool) (e0 e0' nu theta c_r : R) (mid mid' : list C) (en en' : C) (ts ts' : list R) (a a' : C),
  let s := stack (RtoC e0 :: mid ++ [en]) ts (Some nu) in
  let ref := stack (RtoC e0' :: mid' ++ [en']) ts' (Some nu) in
  let c := Rabs c_r in
  0 < nu -> 0 < e0 -> 0 < e0' -> sin theta ^ 2 < e0 -> sin theta ^ 2 < e0' -> c < 1 ->
  passive_below p theta mid en ts -> passive_below p theta mid' en' ts' ->
  signal s = Ok (Some a) -> signal ref = Ok (Some a') -> a' <> RtoC 0 ->
  exists rho phi : R,
    uncorrected signal s ref = Ok (Some (a / a')%C) /\
    normalised signal s ref (Some theta) c_r (pol p) = Ok (Some (polar rho phi * (a / a'))%C) /\
    ((1 - c) / (1 + c)) ^ 2 <= rho <= ((1 + c) / (1 - c)) ^ 2 /\ Rabs phi <= 4 * asin c.
Proof. exact C95_bounded_correction_proof. Qed.
Print Assumptions C95_bounded_correction.

(** C95. A sample measured against itself: the contrast is exactly 1, unless the
    harmonic vanishes (nothing but environment below the tip), when it is nan. *)
Theorem C95_self_reference :
  forall (signal : sample -> res CV) (p : bool) (e0 nu theta c_r : R) (mid : list C) (en : C) (ts : list R) (a : C),
  let s := stack (RtoC e0 :: mid ++ [en]) ts (Some nu) in
  0 < nu -> 0 < e0 -> sin theta ^ 2 < e0 -> Rabs c_r < 1 -> passive_below p theta mid en ts ->
  signal s = Ok (Some a) ->
  (a <> RtoC 0 -> normalised signal s s (Some theta) c_r (pol p) = Ok (Some (RtoC 1))) /\
  (a = RtoC 0 -> normalised signal s s (Some theta) c_r (pol p) = Ok None).
Proof. exact C95_self_reference_proof. Qed.
Print Assumptions C95_self_reference.

(** C95. Units of length cancel from the whole calculation, with the finite-dipole
    and with the point-dipole signal. *)
Theorem C95_units :
  forall (laggauss : laggauss_t) (k : R) (D : Defaults) (s ref : sample) (A_tip : R) (n : Z) (z_tip r_tip L_tip : option R)
    (g_factor : option C) (d_Q0 d_Q1 d_Qa : option R) (n_lag n_trapz : option nat) (method : option string) (eps_tip alpha_tip : option C)
    (theta : option R) (c_r : R) (polarization : string),
  let D' := rescale_defaults k D in let s' := rescale_sample k s in let ref' := rescale_sample k ref in
  let z' := in_length k z_tip in let r' := in_length k r_tip in let L' := in_length k L_tip in let a' := in_volume k alpha_tip in
  0 < k -> nu_vac s <> None -> nu_vac ref <> None -> given_or (d_L_tip D) L_tip + 2 * given_or (d_r_tip D) r_tip <> 0 ->
  normalised (fun x => fdm_eff_pol_n laggauss D' x (k * A_tip) n z' n_trapz r' L' g_factor d_Q0 d_Q1 d_Qa n_lag method) s' ref' theta c_r polarization
  = normalised (fun x => fdm_eff_pol_n laggauss D x A_tip n z_tip n_trapz r_tip L_tip g_factor d_Q0 d_Q1 d_Qa n_lag method) s ref theta c_r polarization /\
  normalised (fun x => pdm_eff_pol_n D' x (k * A_tip) n z' n_trapz r' eps_tip a') s' ref' theta c_r polarization
  = normalised (fun x => pdm_eff_pol_n D x A_tip n z_tip n_trapz r_tip eps_tip alpha_tip) s ref theta c_r polarization.
Proof. exact C95_units_proof. Qed.
Print Assumptions C95_units.
