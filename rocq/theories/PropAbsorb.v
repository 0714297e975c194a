(** * Properties (generated by tools/gen_prop.py from ProofsAbsorb.v; statements
    only, each proved there) *)
From Coq Require Import String Reals Lra Lia ZArith List Bool.
From Coquelicot Require Import Rcomplements Complex.
From Verif Require Import Num NumLemmas ModelBase ModelSample ModelTip StackLemmas Spec
  ProofsStackQS ProofsStackQS2 ProofsSym ProofsPassive ProofsTip ProofsTip2 ProofsTip3 ProofsPerm.
Import ListNotations.
Open Scope R_scope.
From Verif Require Import ProofsAbsorb.

(** C63. Point dipole: if neither tip nor sample amplifies and one of them
    absorbs, the effective polarizability is finite and absorbs. *)
Theorem C63_pdm_absorbs :
  forall (D : Defaults) (s : sample) (z_tip r_tip : option R) (eps_tip alpha_tip : option C) (alpha beta : C),
  let z := given_or (d_z_tip D) z_tip in let r := given_or (d_r_tip D) r_tip in
  tip_alpha r eps_tip alpha_tip alpha -> 0 < r + z -> alpha <> RtoC 0 ->
  refl_coef_qs s (rr 0) = Ok (Some beta) ->
  0 <= Im alpha -> 0 <= Im beta -> 0 < Im alpha \/ 0 < Im beta ->
  exists a : C, pdm_eff_pol D s z_tip r_tip eps_tip alpha_tip = Ok (Some a) /\ 0 < Im a.
Proof. exact C63_pdm_absorbs_proof. Qed.
Print Assumptions C63_pdm_absorbs.

(** C63. In particular over every passive stack on a lossy substrate under a
    transparent medium, for a perfectly conducting tip or one of any passive
    permittivity (other than that of vacuum). *)
Theorem C63_pdm_passive_stack :
  forall (D : Defaults) (e0 : R) (mid : list C) (en : C) (ts : list R) nu (z_tip r_tip : option R) (eps_tip : option C),
  let z := given_or (d_z_tip D) z_tip in let r := given_or (d_r_tip D) r_tip in
  length mid = length ts -> 0 < e0 -> Forall (fun e => e <> RtoC 0 /\ 0 <= Im e) mid -> 0 < Im en ->
  Forall (fun t => 0 <= t) ts -> 0 < r -> 0 < r + z ->
  (forall e, eps_tip = Some e -> 0 <= Im e /\ e <> RtoC 1 /\ e <> RtoC (-2)) ->
  exists a : C, pdm_eff_pol D (stack (RtoC e0 :: mid ++ [en]) ts nu) z_tip r_tip eps_tip None = Ok (Some a) /\ 0 < Im a.
Proof. exact C63_pdm_passive_stack_proof. Qed.
Print Assumptions C63_pdm_passive_stack.

(** C63. Finite dipole, bulk or Q_ave, passive stack on a lossy substrate under a
    transparent medium, g_factor without negative imaginary part, tip closer than
    the height where the logarithm changes sign: the effective polarizability
    is finite.  If g_factor is real and the geometry factor of charge 0 positive
    it absorbs. *)
Theorem C63_fdm_absorbs :
  forall (laggauss : laggauss_t) (D : Defaults) (e0 : R) (mid : list C) (en : C) (ts : list R) nu
    (z_tip r_tip L_tip : option R) (g_factor : option C) (d_Q0 d_Q1 d_Qa : option R) (n_lag : option nat),
  let s := stack (RtoC e0 :: mid ++ [en]) ts nu in
  let z := given_or (d_z_tip D) z_tip in let r := given_or (d_r_tip D) r_tip in
  let L := given_or (d_L_tip D) L_tip in
  let d0 := given_or (131 / 100 * L / (L + 2 * r)) d_Q0 in
  let d1 := given_or (d_d_Q1 D) d_Q1 in let da := given_or (d_d_Qa D) d_Qa in
  let g := given_or (d_g_factor D) g_factor in let n := given_or (d_n_lag D) n_lag in
  length mid = length ts -> 0 < e0 -> Forall (fun e => e <> RtoC 0 /\ 0 <= Im e) mid -> 0 < Im en ->
  Forall (fun t => 0 <= t) ts ->
  0 < r < 4 * L -> 0 <= Im g -> 0 < r + 4 * z + 2 * r * d0 -> 0 < r + 4 * z + 2 * r * d1 < 4 * L ->
  forall method,
  (ts = [] /\ (method = None \/ method = Some "bulk"%string)) \/
  (method = Some "Q_ave"%string /\ n <> O /\ laguerre_rule (laggauss n) /\ 0 < z + r * da) ->
  exists a : C, fdm_eff_pol laggauss D s z_tip r_tip L_tip g_factor d_Q0 d_Q1 d_Qa n_lag method = Ok (Some a) /\
    (Im g = 0 -> r + 4 * z + 2 * r * d0 < 4 * L -> (r + 2 * z + r * d0) / (2 * L) < Re g -> 0 < Im a).
Proof. exact C63_fdm_absorbs_proof. Qed.
Print Assumptions C63_fdm_absorbs.

(** C63. Above that height the opposite holds whenever g_factor has a positive
    imaginary part, as the default has: the sign of the logarithm turns the loop
    into an amplifier, and at every such height some absorbing substrate makes
    the effective polarizability non-finite. *)
Theorem C63_far_resonance_refuted :
  forall (laggauss : laggauss_t) (D : Defaults) (z r L : R) (g : C) (d0 d1 : R) d_Qa n_lag,
  0 < r < 4 * L -> 0 < Im g -> 0 < r + 4 * z + 2 * r * d0 -> 4 * L < r + 4 * z + 2 * r * d1 ->
  exists e1 : C, 0 < Im e1 /\
    fdm_eff_pol laggauss D (stack [RtoC 1; e1] [] None) (Some z) (Some r) (Some L) (Some g) (Some d0) (Some d1) d_Qa n_lag None = Ok None.
Proof. exact C63_far_resonance_refuted_proof. Qed.
Print Assumptions C63_far_resonance_refuted.

(** C63. Example: everything at its shipped default over a polar crystal near its
    resonance (permittivity -2 + 0.1 i): finite. *)
Example C63_example_defaults : forall laggauss,
  exists a, fdm_eff_pol laggauss defaults0 (stack [RtoC 1; (-2, 1/10)%R] [] None) None None None None None None None None None = Ok (Some a).
Proof. exact C63_example_defaults_proof. Qed.

(** C63. Example: real g_factor, film over a lossy substrate, two quadrature nodes: absorbs *)
Example C63_example_film :
  exists a, fdm_eff_pol laggauss12 defaults0 (stack [RtoC 1; (-2, 1/10)%R; (11, 1/100)%R] [30] None)
     (Some 1) (Some 20) (Some 300) (Some (RtoC (7/10))) (Some (1/2)) (Some (1/2)) (Some (7/5)) (Some 2%nat) (Some "Q_ave"%string) = Ok (Some a) /\
  0 < Im a.
Proof. exact C63_example_film_proof. Qed.

(** C63. Example: metal tip (eps -5000 + 800 i), the same film *)
Example C63_example_pdm :
  exists a, pdm_eff_pol defaults0 (stack [RtoC 1; (-2, 1/10)%R; (11, 1/100)%R] [30] None) (Some 1) (Some 20) (Some (-5000, 800)%R) None = Ok (Some a) /\ 0 < Im a.
Proof. exact C63_example_pdm_proof. Qed.

(** C63. Example: default tip one micrometre above the surface *)
Example C63_example_far : forall laggauss,
  exists e1 : C, 0 < Im e1 /\
    fdm_eff_pol laggauss defaults0 (stack [RtoC 1; e1] [] None) (Some (1000 / 10 ^ 9)) (Some (20 / 10 ^ 9)) (Some (300 / 10 ^ 9))
      (Some (d_g_factor defaults0)) (Some 1) (Some (1/2)) None None None = Ok None.
Proof. exact C63_example_far_proof. Qed.
