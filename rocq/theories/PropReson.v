(** * Properties (generated by tools/gen_prop.py from ProofsReson.v; statements
    only, each proved there) *)
From Coq Require Import String Reals Lra Lia ZArith List Bool.
From Coquelicot Require Import Rcomplements Complex.
From Verif Require Import Num NumLemmas ModelBase ModelSample ModelTip StackLemmas Spec SpecReson
  ProofsStackQS ProofsStackQS2 ProofsSym ProofsPassive ProofsTip ProofsTip2 ProofsTip3 ProofsPerm ProofsAbsorb.
Import ListNotations.
Open Scope R_scope.
From Verif Require Import ProofsReson.

(** C90. Over a bulk sample of any complex permittivity the point dipole model with
    a real polarisability has one pole, at the (real, negative) permittivity
    [resonant_eps]: the response is not finite exactly there, and is
    [alpha / (1 - f) * (e1 + e0) / (e1 - resonant_eps)] elsewhere. *)
Theorem C90_pdm_pole :
  forall (D : Defaults) (e0 : R) (e1 : C) nu z_tip r_tip eps_tip alpha_tip (alpha : R),
  let z := given_or (d_z_tip D) z_tip in let r := given_or (d_r_tip D) r_tip in
  let f := coupling alpha (r + z) in
  tip_alpha r eps_tip alpha_tip (RtoC alpha) -> r + z <> 0 -> f <> 1 ->
  e1 <> RtoC 0 -> (RtoC e0 + e1 <> 0)%C ->
  (pdm_eff_pol D (stack [RtoC e0; e1] [] nu) z_tip r_tip eps_tip alpha_tip = Ok None <-> e1 = RtoC (resonant_eps e0 f)) /\
  (e1 <> RtoC (resonant_eps e0 f) ->
   pdm_eff_pol D (stack [RtoC e0; e1] [] nu) z_tip r_tip eps_tip alpha_tip
   = Ok (Some (RtoC (alpha / (1 - f)) * (e1 + RtoC e0) / (e1 - RtoC (resonant_eps e0 f)))%C)).
Proof. exact C90_pdm_pole_proof. Qed.
Print Assumptions C90_pdm_pole.

(** C90. For a positive coupling below one each height has exactly one lossless
    sample that resonates; its permittivity is below minus that of the environment. *)
Theorem C90_pdm_one_resonance :
  forall (D : Defaults) (e0 : R) nu z_tip r_tip eps_tip alpha_tip (alpha : R),
  let z := given_or (d_z_tip D) z_tip in let r := given_or (d_r_tip D) r_tip in
  tip_alpha r eps_tip alpha_tip (RtoC alpha) -> 0 < e0 -> 0 < alpha -> 0 < r + z ->
  coupling alpha (r + z) < 1 ->
  exists e1 : R, e1 < - e0 /\
    forall e : R, e <> 0 -> e <> - e0 ->
      (pdm_eff_pol D (stack [RtoC e0; RtoC e] [] nu) z_tip r_tip eps_tip alpha_tip = Ok None <-> e = e1).
Proof. exact C90_pdm_one_resonance_proof. Qed.
Print Assumptions C90_pdm_one_resonance.

(** C90. The approach curve: at the smaller height the resonating lossless sample
    has the smaller permittivity, and all are below minus that of the environment. *)
Theorem C90_pdm_approach :
  forall (D : Defaults) (e0 e1 e1' z z' : R) nu r_tip eps_tip alpha_tip (alpha : R),
  let r := given_or (d_r_tip D) r_tip in
  tip_alpha r eps_tip alpha_tip (RtoC alpha) -> 0 < e0 -> 0 < alpha -> 0 < r + z -> z < z' ->
  coupling alpha (r + z) < 1 -> e1 <> 0 -> e1 <> - e0 -> e1' <> 0 -> e1' <> - e0 ->
  pdm_eff_pol D (stack [RtoC e0; RtoC e1] [] nu) (Some z) r_tip eps_tip alpha_tip = Ok None ->
  pdm_eff_pol D (stack [RtoC e0; RtoC e1'] [] nu) (Some z') r_tip eps_tip alpha_tip = Ok None ->
  e1 < e1' < - e0.
Proof. exact C90_pdm_approach_proof. Qed.
Print Assumptions C90_pdm_approach.

(** C90. Sign: a lossless sample responds with a real number, positive unless its
    permittivity lies between the resonance and minus that of the environment. *)
Theorem C90_pdm_sign :
  forall (D : Defaults) (e0 e1 : R) nu z_tip r_tip eps_tip alpha_tip (alpha : R),
  let z := given_or (d_z_tip D) z_tip in let r := given_or (d_r_tip D) r_tip in
  let f := coupling alpha (r + z) in
  tip_alpha r eps_tip alpha_tip (RtoC alpha) -> 0 < e0 -> 0 < alpha -> 0 < r + z -> f < 1 ->
  e1 <> 0 -> e1 <> - e0 -> e1 <> resonant_eps e0 f ->
  exists a : R, pdm_eff_pol D (stack [RtoC e0; RtoC e1] [] nu) z_tip r_tip eps_tip alpha_tip = Ok (Some (RtoC a)) /\
    (a < 0 <-> resonant_eps e0 f < e1 < - e0) /\ a <> 0.
Proof. exact C90_pdm_sign_proof. Qed.
Print Assumptions C90_pdm_sign.

(** C90. Loss: along a line of constant loss [g > 0] the absorption is a Lorentzian
    in the real part of the permittivity centred on the resonance of the lossless
    sample, of half width [g]. *)
Theorem C90_pdm_lorentzian :
  forall (D : Defaults) (e0 x g : R) nu z_tip r_tip eps_tip alpha_tip (alpha : R),
  let z := given_or (d_z_tip D) z_tip in let r := given_or (d_r_tip D) r_tip in
  let f := coupling alpha (r + z) in
  tip_alpha r eps_tip alpha_tip (RtoC alpha) -> r + z <> 0 -> f <> 1 -> g <> 0 ->
  exists a : C, pdm_eff_pol D (stack [RtoC e0; (x, g)] [] nu) z_tip r_tip eps_tip alpha_tip = Ok (Some a) /\
    Im a = 2 * alpha * e0 * f / (1 - f) ^ 2 * (g / ((x - resonant_eps e0 f) ^ 2 + g ^ 2)).
Proof. exact C90_pdm_lorentzian_proof. Qed.
Print Assumptions C90_pdm_lorentzian.
