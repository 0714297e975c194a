(** * Specification: exact Fourier coefficients and sampling error *)
From Coq Require Import Reals ZArith.
From Coquelicot Require Import Coquelicot.
From Verif Require Import Num Spec.
Open Scope R_scope.

(** n-th Fourier coefficient of f(x_0 + A cos t), the integral that
    demodulate.py documents *)
Definition fourier_coefficient (f : R -> C) (x_0 A : R) (n : Z) : C :=
  (RInt (fun t => Re (fourier_integrand f x_0 A n t)) (- PI) PI / (2 * PI),
   RInt (fun t => Im (fourier_integrand f x_0 A n t)) (- PI) PI / (2 * PI)).

(** p_1, p_2, p_3 are the cube roots of kappa *)
Definition cube_roots (kappa p1 p2 p3 : C) : Prop :=
  forall y : C, ((y - p1) * (y - p2) * (y - p3))%C = (y * y * y - kappa)%C.
(** the circle inside the unit circle that the map a = - (w + 1/w)/2 takes to a *)
Definition inner_image (a w : C) : Prop :=
  w <> RtoC 0 /\ Cmod w < 1 /\ a = (- ((w + / w) / 2))%C.
(** n-th Fourier coefficient of 1 / (a + cos t) *)
Definition kernel_harmonic (w : C) (n : Z) : C :=
  (- (2 * w / (1 - w * w)) * Cpown w (Z.abs_nat n))%C.
(** ... and what N equidistant samples from -pi on give instead, |n| < N: the sum
    of the coefficients n + p N with sign (-1)^(p N) *)
Definition kernel_sampled (w : C) (N : nat) (n : Z) : C :=
  let sg := RtoC (sgn_pow (Z.of_nat N)) in
  (- (2 * w / (1 - w * w)) * ((Cpown w (Z.abs_nat n) + sg * Cpown w (N - Z.abs_nat n)) / (1 - sg * Cpown w N)))%C.
