(** * Properties (generated by tools/gen_prop.py from ProofsDemod.v; statements
    only, each proved there) *)
From Coq Require Import String Reals Lra Lia ZArith List Bool.
From Coquelicot Require Import Coquelicot.
From Verif Require Import Num NumLemmas ModelBase ModelSample ModelTip StackLemmas Spec ProofsSym DemodLemmas.
Import ListNotations.
Open Scope R_scope.
From Verif Require Import ProofsDemod.

(** C36. Demodulation is linear: if f and g demodulate to u and v, then
    a f + b g demodulates to a u + b v (non-finite values included). *)
Theorem C36_linear :
  forall (D : Defaults) (f g : R -> res CV) (a b : C) (x_0 x_amplitude : R) (n : Z) (n_trapz : option nat) (u v : CV),
  demod D f x_0 x_amplitude n n_trapz = Ok u ->
  demod D g x_0 x_amplitude n n_trapz = Ok v ->
  demod D (fun x => let! y := f x in let! z := g x in Ok (Some a * y + Some b * z)%cv) x_0 x_amplitude n n_trapz
  = Ok (Some a * u + Some b * v)%cv.
Proof. exact C36_linear_proof. Qed.
Print Assumptions C36_linear.

(** C36. Constants: with N >= 1 intervals a constant demodulates to itself at
    n = 0, and to 0 at every harmonic N does not divide; the same holds for
    any function if the amplitude is 0. *)
Theorem C36_zero_amplitude :
  forall (D : Defaults) (f : R -> res CV) (c : C) (x_0 : R) (n : Z) (n_trapz : option nat),
  let N := match n_trapz with Some N => N | None => d_n_trapz D end in
  N <> O -> f x_0 = Ok (Some c) ->
  (n = 0%Z -> demod D f x_0 0 n n_trapz = Ok (Some c)) /\
  (~ (Z.of_nat N | n)%Z -> demod D f x_0 0 n n_trapz = Ok (Some (RtoC 0))).
Proof. exact C36_zero_amplitude_proof. Qed.
Print Assumptions C36_zero_amplitude.

Theorem C36_constants :
  forall (D : Defaults) (c : C) (x_0 x_amplitude : R) (n : Z) (n_trapz : option nat),
  let N := match n_trapz with Some N => N | None => d_n_trapz D end in
  N <> O ->
  (n = 0%Z -> demod D (fun _ => Ok (Some c)) x_0 x_amplitude n n_trapz = Ok (Some c)) /\
  (~ (Z.of_nat N | n)%Z -> demod D (fun _ => Ok (Some c)) x_0 x_amplitude n n_trapz = Ok (Some (RtoC 0))).
Proof. exact C36_constants_proof. Qed.
Print Assumptions C36_constants.

(** C36. Example: third harmonic of a constant with the default 32 intervals *)
Example C36_example :
  demod defaults0 (fun _ => Ok (Some (2, 5)%R)) 7 1 3 None = Ok (Some (RtoC 0)).
Proof. exact C36_example_proof. Qed.

(** C38. Aliasing: with N intervals, demodulating any function at harmonic
    n + p N gives (-1)^(p N) times the result at harmonic n. *)
Theorem C38_aliasing :
  forall (D : Defaults) (f : R -> res CV) (x_0 x_amplitude : R) (n p : Z) (n_trapz : option nat),
  let N := match n_trapz with Some N => N | None => d_n_trapz D end in
  demod D f x_0 x_amplitude (n + p * Z.of_nat N) n_trapz
  = map_res (fun v => rc (sgn_pow (p * Z.of_nat N)) * v)%cv (demod D f x_0 x_amplitude n n_trapz).
Proof. exact C38_aliasing_proof. Qed.
Print Assumptions C38_aliasing.

(** C38. With the default 32 intervals the 32nd harmonic of any constant
    signal is that constant instead of 0. *)
Theorem C38_default_aliases_mean :
  forall c x_0 x_amplitude,
  demod defaults0 (fun _ => Ok (Some c)) x_0 x_amplitude 32 None = Ok (Some c).
Proof. exact C38_default_aliases_mean_proof. Qed.
Print Assumptions C38_default_aliases_mean.

(** C39. Demodulation at -n equals demodulation at n, for every function. *)
Theorem C39_negative_harmonic :
  forall (D : Defaults) (f : R -> res CV) (x_0 x_amplitude : R) (n : Z) (n_trapz : option nat),
  demod D f x_0 x_amplitude (- n) n_trapz = demod D f x_0 x_amplitude n n_trapz.
Proof. exact C39_negative_harmonic_proof. Qed.
Print Assumptions C39_negative_harmonic.

(** C39. Conjugating the function conjugates the result. *)
Theorem C39_conjugation :
  forall (D : Defaults) (f : R -> res CV) (x_0 x_amplitude : R) (n : Z) (n_trapz : option nat),
  demod D (fun x => map_res conjV (f x)) x_0 x_amplitude n n_trapz
  = map_res conjV (demod D f x_0 x_amplitude n n_trapz).
Proof. exact C39_conjugation_proof. Qed.
Print Assumptions C39_conjugation.

(** C39. A real-valued function has real harmonics. *)
Theorem C39_real :
  forall (D : Defaults) (f : R -> R) (x_0 x_amplitude : R) (n : Z) (n_trapz : option nat),
  match n_trapz with Some N => N | None => d_n_trapz D end <> O ->
  exists r : R, demod D (fun x => Ok (rc (f x))) x_0 x_amplitude n n_trapz = Ok (rc r).
Proof. exact C39_real_proof. Qed.
Print Assumptions C39_real.

(** C39. With an even number of intervals, flipping the sign of the amplitude
    multiplies the n-th harmonic by (-1)^n. *)
Theorem C39_amplitude_sign :
  forall (D : Defaults) (f : R -> res CV) (x_0 x_amplitude : R) (n : Z) (n_trapz : option nat) (v : CV),
  let N := match n_trapz with Some N => N | None => d_n_trapz D end in
  Nat.even N = true -> N <> O ->
  demod D f x_0 x_amplitude n n_trapz = Ok v ->
  demod D f x_0 (- x_amplitude) n n_trapz = Ok (rc (sgn_pow n) * v)%cv.
Proof. exact C39_amplitude_sign_proof. Qed.
Print Assumptions C39_amplitude_sign.

(** C39. Example (the hypotheses hold for the identity function, default
    settings): the first harmonic is odd in the amplitude. *)
Example C39_example : forall v,
  demod defaults0 (fun x => Ok (rc x)) 3 2 1 None = Ok v ->
  demod defaults0 (fun x => Ok (rc x)) 3 (-2) 1 None = Ok (rc (-1) * v)%cv.
Proof. exact C39_example_proof. Qed.

(** C37. Polynomials are demodulated exactly: for f(x) = sum of
    c_m (x - x_0)^m over m < d, and at least d + |n| intervals (degree d - 1
    plus |n| plus 1), the result is the sum of c_m A^m times the n-th Fourier
    coefficient of cos^m. *)
Theorem C37_polynomials_exact :
  forall (D : Defaults) (c : nat -> C) (d : nat) (x_0 A : R) (n : Z) (n_trapz : option nat),
  let N := match n_trapz with Some N => N | None => d_n_trapz D end in
  (d + Z.abs_nat n <= N)%nat -> N <> O ->
  demod D (fun x => Ok (Some (poly c d (x - x_0)))) x_0 A n n_trapz
  = Ok (Some (Csum_to (fun m => c m * RtoC (A ^ m) * RtoC (cos_power_harmonic m n))%C d)).
Proof. exact C37_polynomials_exact_proof. Qed.
Print Assumptions C37_polynomials_exact.

(** C37. In particular harmonics above the degree vanish. *)
Theorem C37_high_harmonics_vanish :
  forall (D : Defaults) (c : nat -> C) (d : nat) (x_0 A : R) (n : Z) (n_trapz : option nat),
  let N := match n_trapz with Some N => N | None => d_n_trapz D end in
  (d <= Z.abs_nat n)%nat -> (d + Z.abs_nat n <= N)%nat -> N <> O ->
  demod D (fun x => Ok (Some (poly c d (x - x_0)))) x_0 A n n_trapz = Ok (Some (RtoC 0)).
Proof. exact C37_high_harmonics_vanish_proof. Qed.
Print Assumptions C37_high_harmonics_vanish.

(** C37. Example: x^2 at the second harmonic is A^2/4 (4 intervals give an
    alias, 5 are enough). *)
Example C37_example :
  demod defaults0 (fun x => Ok (Some (poly (fun m => if Nat.eqb m 2 then RtoC 1 else RtoC 0) 3 (x - 7)))) 7 6 2 (Some 5%nat)
  = Ok (Some (RtoC 9)).
Proof. exact C37_example_proof. Qed.

(** C40. For every f continuous on the swept interval, as n_trapz grows the
    result converges to the documented integral
    1/(2 pi) int_{-pi}^{pi} f(x_0 + A cos t) e^{-i n t} dt. *)
Theorem C40_converges_to_fourier_integral :
  forall (D : Defaults) (f : R -> C) (x_0 A : R) (n : Z),
  continuous_between (x_0 - Rabs A) (x_0 + Rabs A) f ->
  exists v : nat -> C,
    (forall N, N <> O -> demod D (fun x => Ok (Some (f x))) x_0 A n (Some N) = Ok (Some (v N))) /\
    ex_RInt (fun t => Re (fourier_integrand f x_0 A n t)) (- PI) PI /\
    ex_RInt (fun t => Im (fourier_integrand f x_0 A n t)) (- PI) PI /\
    is_lim_seq (fun N => Re (v N)) (RInt (fun t => Re (fourier_integrand f x_0 A n t)) (- PI) PI / (2 * PI)) /\
    is_lim_seq (fun N => Im (v N)) (RInt (fun t => Im (fourier_integrand f x_0 A n t)) (- PI) PI / (2 * PI)).
Proof. exact C40_converges_to_fourier_integral_proof. Qed.
Print Assumptions C40_converges_to_fourier_integral.

(** C40. Example: the hypothesis holds for a non-polynomial function *)
Example C40_example : continuous_between (5 - Rabs 2) (5 + Rabs 2) (fun x => RtoC (/ x)).
Proof. exact C40_example_proof. Qed.

(** C41. fdm.eff_pol_n only looks at heights in [z_tip, z_tip + 2 A_tip]: two
    samples (or tip settings) whose effective polarizabilities agree there
    have the same harmonics. *)
Theorem C41_fdm_tapping_range :
  forall (laggauss : laggauss_t) (D : Defaults) (s s' : sample) (z_tip A_tip : R) (n : Z) n_trapz
    r_tip L_tip g_factor d_Q0 d_Q1 d_Qa n_lag method r_tip' L_tip' g_factor' d_Q0' d_Q1' d_Qa' n_lag' method',
  0 <= A_tip ->
  (forall z, z_tip <= z <= z_tip + 2 * A_tip ->
     fdm_eff_pol laggauss D s (Some z) r_tip L_tip g_factor d_Q0 d_Q1 d_Qa n_lag method
     = fdm_eff_pol laggauss D s' (Some z) r_tip' L_tip' g_factor' d_Q0' d_Q1' d_Qa' n_lag' method') ->
  fdm_eff_pol_n laggauss D s A_tip n (Some z_tip) n_trapz r_tip L_tip g_factor d_Q0 d_Q1 d_Qa n_lag method
  = fdm_eff_pol_n laggauss D s' A_tip n (Some z_tip) n_trapz r_tip' L_tip' g_factor' d_Q0' d_Q1' d_Qa' n_lag' method'.
Proof. exact C41_fdm_tapping_range_proof. Qed.
Print Assumptions C41_fdm_tapping_range.

(** C41. The same for pdm.eff_pol_n. *)
Theorem C41_pdm_tapping_range :
  forall (D : Defaults) (s s' : sample) (z_tip A_tip : R) (n : Z) n_trapz
    r_tip eps_tip alpha_tip r_tip' eps_tip' alpha_tip',
  0 <= A_tip ->
  (forall z, z_tip <= z <= z_tip + 2 * A_tip ->
     pdm_eff_pol D s (Some z) r_tip eps_tip alpha_tip = pdm_eff_pol D s' (Some z) r_tip' eps_tip' alpha_tip') ->
  pdm_eff_pol_n D s A_tip n (Some z_tip) n_trapz r_tip eps_tip alpha_tip
  = pdm_eff_pol_n D s' A_tip n (Some z_tip) n_trapz r_tip' eps_tip' alpha_tip'.
Proof. exact C41_pdm_tapping_range_proof. Qed.
Print Assumptions C41_pdm_tapping_range.

(** C41. The lowest height is always sampled, and the highest one if the
    number of intervals is even: a non-finite value there makes the harmonic
    non-finite. *)
Theorem C41_ends_are_reached :
  forall (laggauss : laggauss_t) (D : Defaults) (s : sample) (z_tip A_tip : R) (n : Z) n_trapz
    r_tip L_tip g_factor d_Q0 d_Q1 d_Qa n_lag method v,
  let N := match n_trapz with Some N => N | None => d_n_trapz D end in
  let alpha := fun z => fdm_eff_pol laggauss D s (Some z) r_tip L_tip g_factor d_Q0 d_Q1 d_Qa n_lag method in
  N <> O ->
  fdm_eff_pol_n laggauss D s A_tip n (Some z_tip) n_trapz r_tip L_tip g_factor d_Q0 d_Q1 d_Qa n_lag method = Ok v ->
  (alpha z_tip = Ok None -> v = None) /\
  (Nat.even N = true -> alpha (z_tip + 2 * A_tip) = Ok None -> v = None).
Proof. exact C41_ends_are_reached_proof. Qed.
Print Assumptions C41_ends_are_reached.

(** C41. Without tapping (A_tip = 0) the zeroth harmonic is eff_pol itself and
    every other one (not divisible by the number of intervals) is 0; for both
    models. *)
Theorem C41_no_tapping :
  forall (laggauss : laggauss_t) (D : Defaults) (s : sample) (z_tip : R) (n : Z) n_trapz
    r_tip L_tip g_factor d_Q0 d_Q1 d_Qa n_lag method eps_tip alpha_tip (a : C),
  let N := match n_trapz with Some N => N | None => d_n_trapz D end in
  N <> O -> (n = 0%Z \/ ~ (Z.of_nat N | n)%Z) ->
  let expected := Ok (Some (if Z.eqb n 0 then a else RtoC 0)) in
  (fdm_eff_pol laggauss D s (Some z_tip) r_tip L_tip g_factor d_Q0 d_Q1 d_Qa n_lag method = Ok (Some a) ->
   fdm_eff_pol_n laggauss D s 0 n (Some z_tip) n_trapz r_tip L_tip g_factor d_Q0 d_Q1 d_Qa n_lag method = expected) /\
  (pdm_eff_pol D s (Some z_tip) r_tip eps_tip alpha_tip = Ok (Some a) ->
   pdm_eff_pol_n D s 0 n (Some z_tip) n_trapz r_tip eps_tip alpha_tip = expected).
Proof. exact C41_no_tapping_proof. Qed.
Print Assumptions C41_no_tapping.
