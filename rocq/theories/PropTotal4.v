(** * Properties (generated by tools/gen_prop.py from ProofsTotal4.v; statements
    only, each proved there) *)
From Coq Require Import String Reals Lra Lia ZArith List Bool Permutation.
From Coquelicot Require Import Coquelicot.
From Coq Require Import List.
From Verif Require Import Num NumLemmas ModelBase ModelSample ModelTip StackLemmas Spec SpecSampling DemodLemmas ProofsTip ProofsTip2 ProofsTip3 ProofsTip5
  SpecRound ModelRound ModelRound2 RoundLemmas RoundLemmas2 ProofsPassive ProofsTaylor ProofsDefault ProofsRounding ProofsRounding2 ProofsRounding3
  ProofsSampling3 ProofsSampling5 ProofsTotal ProofsTotal2 ProofsTotal3.
Import ListNotations.
Open Scope R_scope.
From Verif Require Import ProofsTotal4.

(** C98. The default Taylor series of the point-dipole signal as computed: on any machine of relative precision u, adding in
    any order, alpha_tip times what pdm.eff_pol_n_taylor returns is within (10^-7 + 4 10^-10 + 1420 u + delta) alpha_tip of the
    documented integral. *)
Theorem C98_pdm_taylor : forall u (m : machine) (s : sample) (beta b : C) (delta A_tip z : R) (n : Z) (r_tip : option R),
  let r := given_or (20 / 10 ^ 9) r_tip in let alpha := RtoC (4 * PI * r ^ 3) in
  rounding u m -> 0 <= u <= / 10 ^ 6 ->
  refl_coef_qs s (rr 0) = Ok (Some beta) -> k_refl_coef_qs m s 0 = Ok b -> Cmod (b - beta)%C <= delta -> delta <= / 10 ^ 4 ->
  Cmod beta <= 101 / 100 -> (Z.abs n <= 4)%Z -> 0 < r -> 0 <= z -> 0 < A_tip <= 3 / 2 * r ->
  exists w : C, k_pdm_eff_pol_n_taylor m defaults0 s A_tip n (Some z) r_tip None None None None = Ok w /\
    Cmod (alpha * w - fourier_coefficient (fun x => alpha / (1 - alpha / RtoC (16 * PI * (r + x) ^ 3) * beta))%C (z + A_tip) A_tip n)%C
    <= (/ 10 ^ 7 + 4 / 10 ^ 10 + 1420 * u + delta) * (4 * PI * r ^ 3).
Proof. exact C98_pdm_taylor_proof. Qed.
Print Assumptions C98_pdm_taylor.

(** C98. The default Taylor series of the finite-dipole signal as computed: on any machine of relative precision u, adding in
    any order, fdm.eff_pol_n_taylor is within 1.2 10^-4 + 3600 u + 2 delta of the documented integral. *)
Theorem C98_fdm_taylor : forall u (m : machine) (laggauss : laggauss_t) (e0 e1 b : C) nu (delta A_tip z : R) (n : Z) d_Qa n_lag,
  let s := stack [e0; e1] [] nu in let beta := ((e1 - e0) / (e1 + e0))%C in
  let r := 20 / 10 ^ 9 in let L := 300 / 10 ^ 9 in let g := Cmult (RtoC (7 / 10)) (Cexp (0, 6 / 100)) in
  let f := fun d x => fdm_f x d r L g in
  rounding u m -> 0 <= u <= / 10 ^ 6 ->
  k_refl_coef_qs m s 0 = Ok b -> Cmod (b - beta)%C <= delta -> delta <= / 10 ^ 4 ->
  e1 <> RtoC 0 -> (e0 + e1 <> 0)%C -> Cmod beta <= 101 / 100 -> (Z.abs n <= 4)%Z ->
  0 <= z -> 0 < A_tip <= 30 / 10 ^ 9 -> z + 2 * A_tip <= 280 / 10 ^ 9 ->
  exists w : C,
    k_fdm_eff_pol_n_taylor m laggauss defaults0 s A_tip n (Some z) None None None None None d_Qa n_lag None None None = Ok w /\
    Cmod (w - fourier_coefficient (fun x => 1 + beta * f (131 / 100 * L / (L + 2 * r))%R x / (2 * (1 - beta * f (5 / 10)%R x)))%C
                (z + A_tip) A_tip n)%C <= 12 / 10 ^ 5 + 3600 * u + 2 * delta.
Proof. exact C98_fdm_taylor_proof. Qed.
Print Assumptions C98_fdm_taylor.

(** C98. Bulk samples, finite dipole, permittivities e0 (environment) and e1: within 2 10^-5 + 4760 u kappa^2 of the
    documented integral, kappa = (|e0| + |e1|) / |e0 + e1|. *)
Theorem C98_fdm_bulk : forall u (m : machine) (laggauss : laggauss_t) (e0 e1 : C) nu (A_tip z : R) (n : Z) d_Qa n_lag,
  let beta := ((e1 - e0) / (e1 + e0))%C in let kappa := ((Cmod e0 + Cmod e1) / Cmod (e0 + e1)%C)%R in
  let r := 20 / 10 ^ 9 in let L := 300 / 10 ^ 9 in let g := Cmult (RtoC (7 / 10)) (Cexp (0, 6 / 100)) in
  let f := fun d x => fdm_f x d r L g in
  rounding u m -> 0 <= u -> 10 ^ 5 * u * kappa ^ 2 <= 1 ->
  e1 <> RtoC 0 -> (e0 + e1 <> 0)%C -> Cmod beta <= 101 / 100 -> (Z.abs n <= 4)%Z ->
  0 <= z -> 0 < A_tip <= 30 / 10 ^ 9 -> z + 2 * A_tip <= 280 / 10 ^ 9 ->
  exists w : C,
    k_fdm_eff_pol_n m laggauss defaults0 (stack [e0; e1] [] nu) A_tip n (Some z) None None None None None None d_Qa n_lag None = Ok w /\
    Cmod (w - fourier_coefficient (fun x => 1 + beta * f (131 / 100 * L / (L + 2 * r))%R x / (2 * (1 - beta * f (5 / 10)%R x)))%C
                (z + A_tip) A_tip n)%C <= 2 / 10 ^ 5 + 4760 * u * kappa ^ 2.
Proof. exact C98_fdm_bulk_proof. Qed.
Print Assumptions C98_fdm_bulk.

(** C98. Bulk samples, both Taylor series. *)
Theorem C98_taylor_bulk : forall u (m : machine) (laggauss : laggauss_t) (e0 e1 : C) nu (A_tip z : R) (n : Z) d_Qa n_lag,
  let beta := ((e1 - e0) / (e1 + e0))%C in let kappa := ((Cmod e0 + Cmod e1) / Cmod (e0 + e1)%C)%R in
  let r := 20 / 10 ^ 9 in let L := 300 / 10 ^ 9 in let g := Cmult (RtoC (7 / 10)) (Cexp (0, 6 / 100)) in
  let f := fun d x => fdm_f x d r L g in let alpha := RtoC (4 * PI * r ^ 3) in
  rounding u m -> 0 <= u -> 32 * 10 ^ 5 * u * kappa ^ 2 <= 1 ->
  e1 <> RtoC 0 -> (e0 + e1 <> 0)%C -> Cmod beta <= 101 / 100 -> (Z.abs n <= 4)%Z ->
  0 <= z -> 0 < A_tip <= 30 / 10 ^ 9 -> z + 2 * A_tip <= 280 / 10 ^ 9 ->
  exists w p : C,
    k_fdm_eff_pol_n_taylor m laggauss defaults0 (stack [e0; e1] [] nu) A_tip n (Some z) None None None None None d_Qa n_lag None None None = Ok w /\
    k_pdm_eff_pol_n_taylor m defaults0 (stack [e0; e1] [] nu) A_tip n (Some z) None None None None None = Ok p /\
    Cmod (w - fourier_coefficient (fun x => 1 + beta * f (131 / 100 * L / (L + 2 * r))%R x / (2 * (1 - beta * f (5 / 10)%R x)))%C
                (z + A_tip) A_tip n)%C <= 12 / 10 ^ 5 + 4240 * u * kappa ^ 2 /\
    Cmod (alpha * p - fourier_coefficient (fun x => alpha / (1 - alpha / RtoC (16 * PI * (r + x) ^ 3) * beta))%C (z + A_tip) A_tip n)%C
      <= (/ 10 ^ 7 + 4 / 10 ^ 10 + 1740 * u * kappa ^ 2) * (4 * PI * r ^ 3).
Proof. exact C98_taylor_bulk_proof. Qed.
Print Assumptions C98_taylor_bulk.

(** C98. Both finite-dipole signals in double precision, permittivities away from resonance. *)
Theorem C98_fdm_double : forall (m : machine) (laggauss : laggauss_t) (e0 e1 : C) nu (A_tip z : R) (n : Z) d_Qa n_lag,
  let beta := ((e1 - e0) / (e1 + e0))%C in
  let r := 20 / 10 ^ 9 in let L := 300 / 10 ^ 9 in let g := Cmult (RtoC (7 / 10)) (Cexp (0, 6 / 100)) in
  let f := fun d x => fdm_f x d r L g in
  let integral := fourier_coefficient (fun x => 1 + beta * f (131 / 100 * L / (L + 2 * r))%R x / (2 * (1 - beta * f (5 / 10)%R x)))%C (z + A_tip) A_tip n in
  rounding (/ 2 ^ 53) m -> e1 <> RtoC 0 -> (e0 + e1 <> 0)%C -> Cmod e0 + Cmod e1 <= 100 * Cmod (e0 + e1)%C ->
  Cmod beta <= 101 / 100 -> (Z.abs n <= 4)%Z ->
  0 <= z -> 0 < A_tip <= 30 / 10 ^ 9 -> z + 2 * A_tip <= 280 / 10 ^ 9 ->
  exists w t : C,
    k_fdm_eff_pol_n m laggauss defaults0 (stack [e0; e1] [] nu) A_tip n (Some z) None None None None None None d_Qa n_lag None = Ok w /\
    k_fdm_eff_pol_n_taylor m laggauss defaults0 (stack [e0; e1] [] nu) A_tip n (Some z) None None None None None d_Qa n_lag None None None = Ok t /\
    Cmod (w - integral)%C <= 2001 / 10 ^ 8 /\ Cmod (t - integral)%C <= 12001 / 10 ^ 8.
Proof. exact C98_fdm_double_proof. Qed.
Print Assumptions C98_fdm_double.

(** C98, a case: silicon-like permittivity 12 + i in air, second harmonic, 30 nm amplitude, in contact, on the machine that
    keeps 53 binary digits. *)
Example C98_double_example : forall (laggauss : laggauss_t),
  let beta := (((12, 1)%R - RtoC 1) / ((12, 1)%R + RtoC 1))%C in
  let r := 20 / 10 ^ 9 in let L := 300 / 10 ^ 9 in let g := Cmult (RtoC (7 / 10)) (Cexp (0, 6 / 100)) in
  let f := fun d x => fdm_f x d r L g in let alpha := RtoC (4 * PI * r ^ 3) in
  let fdm_integral := fourier_coefficient (fun x => 1 + beta * f (131 / 100 * L / (L + 2 * r))%R x / (2 * (1 - beta * f (5 / 10)%R x)))%C (0 + 30 / 10 ^ 9) (30 / 10 ^ 9) 2 in
  let pdm_integral := fourier_coefficient (fun x => alpha / (1 - alpha / RtoC (16 * PI * (r + x) ^ 3) * beta))%C (0 + 30 / 10 ^ 9) (30 / 10 ^ 9) 2 in
  let s := stack [RtoC 1; (12, 1)] [] None in
  exists w t p : C,
    k_fdm_eff_pol_n (digits 53) laggauss defaults0 s (30 / 10 ^ 9) 2 (Some 0) None None None None None None None None None = Ok w /\
    k_fdm_eff_pol_n_taylor (digits 53) laggauss defaults0 s (30 / 10 ^ 9) 2 (Some 0) None None None None None None None None None None = Ok t /\
    k_pdm_eff_pol_n (digits 53) defaults0 s (30 / 10 ^ 9) 2 (Some 0) None None None None = Ok p /\
    Cmod (w - fdm_integral)%C <= 2001 / 10 ^ 8 /\ Cmod (t - fdm_integral)%C <= 12001 / 10 ^ 8 /\
    Cmod (p - pdm_integral)%C <= 102 / 100 * / 10 ^ 7 * (4 * PI * r ^ 3).
Proof. exact C98_double_example_proof. Qed.
