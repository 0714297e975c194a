(** * Specification: light lines, and half of the digits

    The vacuum wavenumber and the in-plane wavenumber a far-field call works
    with; a layer is at its light line when its permittivity times the square of
    the first is the square of the second (normal component zero). *)
From Coq Require Import Reals List.
From Coquelicot Require Import Complex.
From Verif Require Import Num ModelSample SpecRound.
Open Scope R_scope.

Definition wavenumber (s : sample) (nu : option R) (k : R) : Prop :=
  nu = Some k \/ nu = None /\ (nu_vac s = Some k \/ nu_vac s = None /\ k = 1).
Definition momentum (k : R) (q theta_in : option R) (q0 : R) : Prop :=
  (theta_in = None /\ q = Some q0) \/ (theta_in = None /\ q = None /\ q0 = 0) \/
  (exists a, theta_in = Some a /\ q = None /\ q0 = k * sin (Rabs a)).
Definition light_line_free (s : sample) (q theta_in nu : option R) : Prop :=
  forall k q0 e, wavenumber s nu k -> momentum k q theta_in q0 -> In (Some e) (eps_stack s) ->
    (e * RtoC (k ^ 2))%C <> RtoC (q0 ^ 2).

(** as [accurate] and [tracks] of SpecAccurate.v, with the square root of the
    relative error: half as many digits *)
Definition half_accurate (run : machine -> res C) (d : C) : Prop :=
  exists K u0, 0 <= K /\ 0 < u0 /\
    forall u m, 0 <= u <= u0 -> rounding u m -> exists x, run m = Ok x /\ Cmod (x - d)%C <= K * sqrt u.
Definition half_tracks (exact : res CV) (run : machine -> res C) : Prop :=
  (forall e, exact = Raise e -> forall m, run m = Raise e) /\
  (forall v, exact = Ok v -> forall m, exists x, run m = Ok x) /\
  (forall d, exact = Ok (Some d) -> half_accurate run d).
