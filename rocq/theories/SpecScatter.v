(** * Specification: what the far-field correction of a spectrum may look like *)
From Coq Require Import Reals List.
From Coquelicot Require Import Complex.
Import ListNotations.
Open Scope R_scope.

(** Layers below the environment that do not amplify light, of positive
    thickness, none of them exactly at the light line of the angle [theta]
    (and, for p polarization, none of permittivity zero). *)
Definition passive_below (p : bool) (theta : R) (mid : list C) (en : C) (ts : list R) : Prop :=
  length mid = length ts /\ Forall (fun t => 0 < t) ts /\
  Forall (fun e => e <> RtoC (sin theta ^ 2)) mid /\
  (p = true -> Forall (fun e => e <> RtoC 0) (mid ++ [en])) /\
  Forall (fun e => 0 <= Im e) (mid ++ [en]).

(** the complex number of modulus rho and phase phi *)
Definition polar (rho phi : R) : C := (rho * cos phi, rho * sin phi).
