(** * The code in arithmetic that rounds

    Everything here is parametrised by an [arith] (SpecRound.v), one rounded
    operation for each operation of the Python source, in the order of the
    source.  No overflow or underflow, no signed zero; scalar arguments.  Signs
    and comparisons are exact, and so are the small integers 1, 2, 4, 16, n,
    n_trapz. *)
From Coq Require Import Reals List ZArith.
From Coquelicot Require Import Complex.
From Verif Require Import SpecRound.
Import ListNotations.
Open Scope R_scope.

(** ** NumPy's complex loops: componentwise sums, the naive product, Smith's division *)
Definition kadd (A : arith) (x y : C) : C := (a_add A (Re x) (Re y), a_add A (Im x) (Im y)).
Definition ksub (A : arith) (x y : C) : C := (a_sub A (Re x) (Re y), a_sub A (Im x) (Im y)).
Definition kmul (A : arith) (x y : C) : C :=
  (a_sub A (a_mul A (Re x) (Re y)) (a_mul A (Im x) (Im y)),
   a_add A (a_mul A (Re x) (Im y)) (a_mul A (Im x) (Re y))).
Definition kdiv (A : arith) (x y : C) : C :=
  if Rle_dec (Rabs (Im y)) (Rabs (Re y)) then
    let rat := a_div A (Im y) (Re y) in
    let scl := a_div A 1 (a_add A (Re y) (a_mul A (Im y) rat)) in
    (a_mul A (a_add A (Re x) (a_mul A (Im x) rat)) scl,
     a_mul A (a_sub A (Im x) (a_mul A (Re x) rat)) scl)
  else
    let rat := a_div A (Re y) (Im y) in
    let scl := a_div A 1 (a_add A (Im y) (a_mul A (Re y) rat)) in
    (a_mul A (a_add A (a_mul A (Re x) rat) (Im x)) scl,
     a_mul A (a_sub A (a_mul A (Im x) rat) (Re x)) scl).

(** [np.sum] in the order [t] *)
Fixpoint ksum (A : arith) (t : order) (v : nat -> C) : C :=
  match t with Leaf k => v k | Node l r => kadd A (ksum A l v) (ksum A r v) end.

(** ** demodulate.py *)
(** demodulate.py:106 [np.linspace(-np.pi, np.pi, n_trapz + 1)]: arange * step + start,
    the last of several entries replaced by stop; a single point is the start *)
Definition k_theta (A : arith) (N k : nat) : R :=
  let pi := a_lit A PI in
  if Nat.eqb N 0 then a_add A (a_mul A (INR k) (a_sub A pi (- pi))) (- pi)
  else if Nat.eqb k N then pi
  else a_add A (a_mul A (INR k) (a_div A (a_sub A pi (- pi)) (INR N))) (- pi).
(** demodulate.py:109 [x_0 + np.cos(theta) * x_amplitude] *)
Definition k_position (A : arith) (x_0 x_amplitude theta : R) : R :=
  a_add A x_0 (a_mul A (a_cos A theta) x_amplitude).
(** demodulate.py:109-111: the products with the zero components of [-1j * n] and of
    theta (as a complex number) are exact zeros; [np.exp] of an imaginary number is
    the pair of cosine and sine *)
Definition k_integrand (A : arith) (f : R -> C) (x_0 x_amplitude : R) (n : Z) (theta : R) : C :=
  let y := a_mul A (- IZR n) theta in
  kmul A (f (k_position A x_0 x_amplitude theta)) (a_cos A y, a_sin A y).
(** demodulate.py:112 [trapezoid(integrand, axis=0) / n_trapz]; NumPy's trapezoid is
    [(1.0 * (y[1:] + y[:-1]) / 2.0).sum(axis)].  [f] is the computed [f_x]. *)
Definition k_demod (A : arith) (t : order) (f : R -> C) (x_0 x_amplitude : R) (n : Z) (N : nat) : C :=
  let y := fun k => k_integrand A f x_0 x_amplitude n (k_theta A N k) in
  kdiv A (ksum A t (fun k => kdiv A (kmul A (RtoC 1) (kadd A (y (S k)) (y k))) (RtoC 2))) (RtoC (INR N)).
