(** * Properties (generated by tools/gen_prop.py from ProofsNlag.v; statements
    only, each proved there) *)
From Coq Require Import String Reals Lra Lia ZArith List Bool.
From Coquelicot Require Import Coquelicot.
From Coq Require Import List.
From Verif Require Import Num NumLemmas ModelBase ModelSample ModelTip StackLemmas Spec
  ProofsStackQS ProofsStackQS2 ProofsSym ProofsPassive DemodLemmas ProofsDemod ProofsTip ProofsTip2
  ProofsTaylor SpecQuad QuadConv ProofsQuad ProofsQuad2.
Import ListNotations.
Open Scope R_scope.
From Verif Require Import ProofsNlag.

(** C60. method "Q_ave": as n_lag grows the effective polarizability tends to the
    one with the documented average (quotient of two integrals) in place of the
    quadrature sum. *)
Theorem C60_q_ave_converges :
  forall (laggauss : laggauss_t) (D : Defaults) (e0 : C) (mid : list C) (en : C) (ts : list R) nu
    (z r L : R) (g : C) (d0 d1 da : R) (b : R -> C) (num : C) (den : R),
  (forall J, (0 < J)%nat -> documented_rule J (laggauss J)) ->
  length mid = length ts -> Forall (fun e => e <> RtoC 0) mid -> en <> RtoC 0 ->
  (forall q, 0 <= q -> refl_coef_qs (stack (e0 :: mid ++ [en]) ts nu) (rr q) = Ok (Some (b q))) ->
  let zQ := z + r * da in
  0 < zQ -> fdm_regular z d0 r L -> fdm_regular z d1 r L ->
  Cintegral_to_infinity (fun q => b q * RtoC (q * exp (- 2 * zQ * q)))%C num ->
  integral_to_infinity (fun q => q * exp (- 2 * zQ * q)) den ->
  let beta := (num / RtoC den)%C in
  (1 - beta * fdm_f z d1 r L g <> 0)%C ->
  exists (N : nat) (a : nat -> C),
    (forall n, (N <= n)%nat ->
       fdm_eff_pol laggauss D (stack (e0 :: mid ++ [en]) ts nu) (Some z) (Some r) (Some L) (Some g)
         (Some d0) (Some d1) (Some da) (Some n) (Some "Q_ave"%string) = Ok (Some (a n))) /\
    Cseq_lim a (1 + beta * fdm_f z d0 r L g / (2 * (1 - beta * fdm_f z d1 r L g)))%C.
Proof. exact C60_q_ave_converges_proof. Qed.
Print Assumptions C60_q_ave_converges.

(** C60. method "multi": as n_lag grows the effective polarizability tends to the
    one with the documented depths |phi/E| - z_Q and charges phi^2/E of the two
    documented integrals in place of the quadrature sums. *)
Theorem C60_multi_converges :
  forall (laggauss : laggauss_t) (D : Defaults) (e0 : C) (mid : list C) (en : C) (ts : list R) nu
    (z r L : R) (g : C) (d0 d1 da : R) (b : R -> C) (phi0 E0 phi1 E1 : C),
  (forall J, (0 < J)%nat -> documented_rule J (laggauss J)) ->
  length mid = length ts -> Forall (fun e => e <> RtoC 0) mid -> en <> RtoC 0 ->
  (forall q, 0 <= q -> refl_coef_qs (stack (e0 :: mid ++ [en]) ts nu) (rr q) = Ok (Some (b q))) ->
  let z0 := z + r * d0 in let z1 := z + r * d1 in
  0 < z0 -> 0 < z1 -> 0 < r -> 0 < L -> r <> 4 * L ->
  Cintegral_to_infinity (fun q => b q * RtoC (exp (- 2 * z0 * q)))%C phi0 ->
  Cintegral_to_infinity (fun q => b q * RtoC (q * exp (- 2 * z0 * q)))%C E0 -> E0 <> RtoC 0 ->
  Cintegral_to_infinity (fun q => b q * RtoC (exp (- 2 * z1 * q)))%C phi1 ->
  Cintegral_to_infinity (fun q => b q * RtoC (q * exp (- 2 * z1 * q)))%C E1 -> E1 <> RtoC 0 ->
  let im0 := Cmod (phi0 / E0)%C - z0 in let im1 := Cmod (phi1 / E1)%C - z1 in
  0 < r + 2 * z + 2 * im0 -> 0 < r + 2 * z + 2 * im1 ->
  let f0 := fdm_f_image z im0 r L g in let f1 := fdm_f_image z im1 r L g in
  (1 - phi1 * phi1 / E1 * f1 <> 0)%C ->
  exists (N : nat) (a : nat -> C),
    (forall n, (N <= n)%nat ->
       fdm_eff_pol laggauss D (stack (e0 :: mid ++ [en]) ts nu) (Some z) (Some r) (Some L) (Some g)
         (Some d0) (Some d1) (Some da) (Some n) (Some "multi"%string) = Ok (Some (a n))) /\
    Cseq_lim a (1 + phi0 * phi0 / E0 * f0 / (2 * (1 - phi1 * phi1 / E1 * f1)))%C.
Proof. exact C60_multi_converges_proof. Qed.
Print Assumptions C60_multi_converges.

(** C60. Hence the demodulated signal of a multilayer sample converges as well:
    if eff_pol converges at every sampled tip height, eff_pol_n converges to the
    harmonic of the limits. *)
Theorem C60_harmonics_converge :
  forall (laggauss : laggauss_t) (D : Defaults) (s : sample) (A : R) (h : Z) (z : R) (n_trapz : option nat)
    (r L : R) (g : C) (d0 d1 da : R) (m : string) (alpha : R -> C),
  let N := given_or (d_n_trapz D) n_trapz in
  (0 < N)%nat -> (2 <= length (eps_stack s))%nat -> m = "multi"%string \/ m = "Q_ave"%string ->
  (forall k, (k < N)%nat -> exists (M : nat) (a : nat -> C),
     (forall n, (M <= n)%nat ->
        fdm_eff_pol laggauss D s (Some (tip_height z A N k)) (Some r) (Some L) (Some g)
          (Some d0) (Some d1) (Some da) (Some n) (Some m) = Ok (Some (a n))) /\
     Cseq_lim a (alpha (tip_height z A N k))) ->
  exists (M : nat) (a : nat -> C),
    (forall n, (M <= n)%nat ->
       fdm_eff_pol_n laggauss D s A h (Some z) n_trapz (Some r) (Some L) (Some g)
          (Some d0) (Some d1) (Some da) (Some n) (Some m) = Ok (Some (a n))) /\
    Cseq_lim a (Csum_to (fun k => let theta := (2 * PI * INR k / INR N - PI)%R in
                           alpha (tip_height z A N k) * (cos (IZR h * theta), - sin (IZR h * theta))%R)%C N / RtoC (INR N))%C.
Proof. exact C60_harmonics_converge_proof. Qed.
Print Assumptions C60_harmonics_converge.

(** C60. The Taylor version with the averaged coefficient converges without any
    condition on denominators. *)
Theorem C60_taylor_converges :
  forall (laggauss : laggauss_t) (D : Defaults) (e0 : C) (mid : list C) (en : C) (ts : list R) nu
    (A : R) (h : Z) (z r L : R) (g : C) (d0 d1 da : R) (n_trapz : option nat) (J : nat) (c : nat -> C)
    (b : R -> C) (num : C) (den : R),
  (forall J, (0 < J)%nat -> documented_rule J (laggauss J)) ->
  length mid = length ts -> Forall (fun e => e <> RtoC 0) mid -> en <> RtoC 0 ->
  (forall q, 0 <= q -> refl_coef_qs (stack (e0 :: mid ++ [en]) ts nu) (rr q) = Ok (Some (b q))) ->
  let zQ := z + r * da in
  0 < zQ ->
  Cintegral_to_infinity (fun q => b q * RtoC (q * exp (- 2 * zQ * q)))%C num ->
  integral_to_infinity (fun q => q * exp (- 2 * zQ * q)) den ->
  (forall j, (j < J)%nat -> fdm_taylor_coef D z j A h (rr r) (rr L) (Some g) (rr d0) (rr d1) n_trapz = Ok (Some (c j))) ->
  let beta := (num / RtoC den)%C in
  exists a : nat -> C,
    (forall n, fdm_eff_pol_n_taylor laggauss D (stack (e0 :: mid ++ [en]) ts nu) A h (Some z) (Some r) (Some L) (Some g)
         (Some d0) (Some d1) (Some da) (Some (S n)) (Some "Q_ave"%string) n_trapz (Some J) = Ok (Some (a n))) /\
    Cseq_lim a (Csum_to (fun j => c j * Cpown beta j)%C J).
Proof. exact C60_taylor_converges_proof. Qed.
Print Assumptions C60_taylor_converges.

(** C60: concrete cases, both for a resonant film on a weakly absorbing substrate *)
Example C60_example_q_ave : forall (D : Defaults),
  exists (laggauss : laggauss_t) (beta : C) (N : nat) (a : nat -> C),
  (forall J, (0 < J)%nat -> documented_rule J (laggauss J)) /\ 0 < Im beta /\
  (forall n, (N <= n)%nat ->
     fdm_eff_pol laggauss D (stack [RtoC 1; (-2, 1/10)%R; (11, 1/100)%R] [30] None)
       (Some 1) (Some 20) (Some 300) (Some (RtoC (7/10))) (Some (1/2)) (Some (1/2)) (Some (7/5)) (Some n) (Some "Q_ave"%string)
     = Ok (Some (a n))) /\
  Cseq_lim a (1 + beta * fdm_f 1 (1/2) 20 300 (RtoC (7/10)) / (2 * (1 - beta * fdm_f 1 (1/2) 20 300 (RtoC (7/10)))))%C.
Proof. exact C60_example_q_ave_proof. Qed.

Example C60_example_multi : forall (D : Defaults),
  exists (laggauss : laggauss_t) (g : C) (l : C) (N : nat) (a : nat -> C),
  (forall J, (0 < J)%nat -> documented_rule J (laggauss J)) /\
  (forall n, (N <= n)%nat ->
     fdm_eff_pol laggauss D (stack [RtoC 1; (-2, 1/10)%R; (11, 1/100)%R] [30] None)
       (Some 1) (Some 20) (Some 300) (Some g) (Some (1/2)) (Some (1/2)) None (Some n) (Some "multi"%string)
     = Ok (Some (a n))) /\
  Cseq_lim a l.
Proof. exact C60_example_multi_proof. Qed.

(** C60: third harmonic of a tapping tip over that film *)
Example C60_example_harmonics : forall (D : Defaults),
  exists (laggauss : laggauss_t) (l : C) (M : nat) (a : nat -> C),
  (forall n, (M <= n)%nat ->
     fdm_eff_pol_n laggauss D (stack [RtoC 1; (-2, 1/10)%R; (11, 1/100)%R] [30] None) 25 3 (Some 1) (Some 32%nat)
       (Some 20) (Some 300) (Some (RtoC (7/10))) (Some (1/2)) (Some (1/2)) (Some (7/5)) (Some n) (Some "Q_ave"%string)
     = Ok (Some (a n))) /\ Cseq_lim a l.
Proof. exact C60_example_harmonics_proof. Qed.
