(** * Independent specifications

    Small definitions in the language of the physics / documentation; none of
    them mentions a definition of the model (only the input type [sample]). *)
From Coq Require Import String Reals Lra Lia ZArith List Bool.
From Coquelicot Require Import Complex.
From Verif Require Import Num ModelBase ModelSample.
Import ListNotations.
Open Scope R_scope.

(** A sample with finite permittivities [es] (top to bottom), inner-layer
    thicknesses [ts] and stored wavenumber [nu]. *)
Definition stack (es : list C) (ts : list R) (nu : option R) : sample :=
  mkSample (map Some es) ts nu.

(** A well-formed stack: one thickness per inner layer. *)
Definition wf {L : Type} (es : list L) (ts : list R) : Prop := length es = (length ts + 2)%nat.

(** Every material below the environment has nonzero permittivity. *)
Definition nonzero_below (es : list C) : Prop := Forall (fun e => e <> RtoC 0) (tl es).

(** ** Airy / Parratt recursion

    [parratt iface round ls ts r]: [r] is the reflection coefficient of the
    stack of layers [ls] (thicknesses [ts] for the inner ones) obtained by
    combining, from the bottom up, the reflection coefficient of each single
    interface ([iface a b r0]) with the reflection [r1] of everything below
    it, attenuated by the round-trip factor of the layer in between:
    r = (r0 + r1 X) / (1 + r0 r1 X). *)
Inductive parratt {L : Type} (iface : L -> L -> C -> Prop) (round : L -> R -> C)
  : list L -> list R -> C -> Prop :=
| parratt_bottom a b r :
    iface a b r -> parratt iface round [a; b] [] r
| parratt_layer a b rest t ts r0 r1 :
    iface a b r0 ->
    parratt iface round (b :: rest) ts r1 ->
    (1 + r0 * (r1 * round b t) <> 0)%C ->
    parratt iface round (a :: b :: rest) (t :: ts)
            ((r0 + r1 * round b t) / (1 + r0 * (r1 * round b t)))%C.

(** Electrostatic image factor of an interface (permittivity a above, b below) *)
Definition qs_iface (a b r : C) : Prop :=
  (b <> 0 /\ b + a <> 0 /\ r = (b - a) / (b + a))%C.
(** Evanescent round trip through thickness t at momentum q *)
Definition qs_round (q : R) (_ : C) (t : R) : C := RtoC (exp (- 2 * q * t)).

(** ** Fresnel coefficients.  A layer is a pair (permittivity, normal
    wavevector). *)
Definition fresnel_p (a b : C * C) (r : C) : Prop :=
  let '(ea, ka) := a in let '(eb, kb) := b in
  (eb <> 0 /\ ka <> 0 /\ eb * ka + ea * kb <> 0 /\
   r = (eb * ka - ea * kb) / (eb * ka + ea * kb))%C.
Definition fresnel_s (a b : C * C) (r : C) : Prop :=
  let '(_, ka) := a in let '(_, kb) := b in
  (ka <> 0 /\ ka + kb <> 0 /\ r = (ka - kb) / (ka + kb))%C.
(** Propagating round trip: e^{2 i k t} *)
Definition ff_round (l : C * C) (t : R) : C := Cexp (2 * (0, 1)%R * snd l * RtoC t)%C.

(** [k] is a normal wavevector for permittivity [e]: k^2 = e nu^2 - q^2 *)
Definition is_kz (nu q : R) (e k : C) : Prop :=
  (k * k = e * RtoC (nu ^ 2) - RtoC (q ^ 2))%C.
(** the principal square root: right half plane, or upper imaginary axis *)
Definition principal (k : C) : Prop := 0 < Re k \/ (Re k = 0 /\ 0 <= Im k).

(** the polarization argument *)
Definition pol (p : bool) : string := if p then "p"%string else "s"%string.

(** ** Transformations of inputs *)
(** complex conjugate of a (possibly non-finite) value *)
Definition conjV (x : CV) : CV := match x with Some z => Some (Cconj z) | None => None end.
(** the sample with every permittivity conjugated *)
Definition conj_sample (s : sample) : sample :=
  mkSample (map conjV (eps_stack s)) (t_stack s) (nu_vac s).
(** conjugate of an optional argument *)
Definition conjO (o : option C) : option C := match o with Some c => Some (Cconj c) | None => None end.
(** a lossless sample: every permittivity is a (finite) real number *)
Definition real_sample (s : sample) : Prop := Forall (fun e => exists x, e = rc x) (eps_stack s).
(** the result of a call, transformed if it is not an exception *)
Definition map_res {A B} (f : A -> B) (r : res A) : res B :=
  match r with Ok a => Ok (f a) | Raise e => Raise e end.
(** the same sample in a length unit [k] times smaller: lengths are [k] times
    bigger numbers, wavenumbers [k] times smaller ones *)
Definition rescale_sample (k : R) (s : sample) : sample :=
  mkSample (eps_stack s) (map (fun t => k * t) (t_stack s))
           (match nu_vac s with Some v => Some (v / k) | None => None end).
Definition per_length (k : R) (o : option R) : option R :=
  match o with Some v => Some (v / k) | None => None end.
Definition in_length (k : R) (o : option R) : option R :=
  match o with Some v => Some (k * v) | None => None end.

(** ** Quadrature rules *)
Definition Rsum (l : list R) : R := fold_right Rplus 0 l.
(** A Gauss-Laguerre rule: positive nodes and weights, at least one node,
    exact for the weight function e^-x times 1 and times x (both integrals
    over [0, oo) are 1). *)
Definition laguerre_rule (rule : list (R * R)) : Prop :=
  Forall (fun xw => 0 < fst xw /\ 0 < snd xw) rule /\
  Rsum (map snd rule) = 1 /\
  Rsum (map (fun xw => snd xw * fst xw) rule) = 1.

(** ** Harmonics *)
(** sum of the first d terms of a sequence *)
Fixpoint Csum_to (a : nat -> C) (d : nat) : C :=
  match d with O => RtoC 0 | S d' => (Csum_to a d' + a d')%C end.
(** polynomial with coefficients c_0 ... c_(d-1) *)
Definition poly (c : nat -> C) (d : nat) (x : R) : C := Csum_to (fun m => (c m * RtoC (x ^ m))%C) d.
(** n-th Fourier coefficient of cos^m: 2^-m binom(m, (m-|n|)/2) if m-|n| is
    even and not negative, otherwise 0 *)
Definition cos_power_harmonic (m : nat) (n : Z) : R :=
  let a := Z.abs_nat n in
  if (Nat.leb a m && Nat.even (m - a))%bool
  then Binomial.C m ((m - a) / 2) / 2 ^ m
  else 0.
(** (-1)^k for an integer k *)
Definition sgn_pow (k : Z) : R := if Z.even k then 1 else -1.
(** continuity on a closed interval (one-sided at its ends) *)
Definition continuous_between (a b : R) (f : R -> C) : Prop :=
  forall x, a <= x <= b -> forall eps, 0 < eps ->
  exists delta, 0 < delta /\
    forall y, a <= y <= b -> Rabs (y - x) < delta -> Cmod (f y - f x)%C < eps.
(** the integrand of the n-th Fourier coefficient of f(x0 + A cos t) *)
Definition fourier_integrand (f : R -> C) (x0 A : R) (n : Z) (t : R) : C :=
  (f (x0 + A * cos t)%R * (cos (IZR n * t), - sin (IZR n * t))%R)%C.

(** ** Tip models *)
(** the value an optional argument takes: itself, or the stored default *)
Definition given_or {A} (default : A) (o : option A) : A :=
  match o with Some a => a | None => default end.
(** finite-dipole geometry function, as documented (fdm.py docs), for
    arguments where every logarithm is defined *)
Definition fdm_f (z d r L : R) (g : C) : C :=
  ((g - RtoC ((r + 2 * z + r * d) / (2 * L)))
   * RtoC (ln (4 * L / (r + 4 * z + 2 * r * d)) / ln (4 * L / r)))%C.
(** ... namely: *)
Definition fdm_regular (z d r L : R) : Prop :=
  0 < r /\ 0 < L /\ 0 < r + 4 * z + 2 * r * d /\ r <> 4 * L.
(** polarizability of the tip, where the documentation defines it *)
Inductive tip_alpha (r : R) : option C -> option C -> C -> Prop :=
| tip_conductor : tip_alpha r None None (RtoC (4 * PI * r ^ 3))
| tip_given a : tip_alpha r None (Some a) a
| tip_dielectric e : (e + 2 <> 0)%C -> tip_alpha r (Some e) None (RtoC (4 * PI * r ^ 3) * ((e - 1) / (e + 2)))%C.
(** the default table in a length unit [k] times smaller *)
Definition rescale_defaults (k : R) (D : Defaults) : Defaults :=
  mkDefaults (d_eps_env D) (k * d_z_tip D) (k * d_r_tip D) (k * d_L_tip D) (d_g_factor D)
    (d_d_Q1 D) (d_d_Qa D) (d_n_trapz D) (d_n_lag D) (d_n_tayl D) (d_beta_threshold D).
(** polarizabilities are volumes *)
Definition in_volume (k : R) (o : option C) : option C :=
  match o with Some a => Some (RtoC (k ^ 3) * a)%C | None => None end.
(** the N sampled heights of a tip tapping with amplitude A, z at its lowest
    point: z + A (1 - cos (2 pi k / N)), k < N *)
Definition tip_height (z A : R) (N k : nat) : R := z + A * (1 - cos (2 * PI * INR k / INR N)).
(** harmonic n is resolved by N samples: it is the mean, or not an alias of it *)
Definition resolved (N : nat) (n : Z) : Prop := n = 0%Z \/ ~ (Z.of_nat N | n)%Z.
