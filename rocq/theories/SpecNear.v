(** * Specification: consistency of the root-finding inverses *)
From Coq Require Import Reals.
From Coquelicot Require Import Complex.
From Verif Require Import Num ModelSample NArr.
Open Scope R_scope.

(** [b] meets the requested restrictions with room to spare *)
Definition interior (beta_threshold : R) (negative_imag subvacuum_abs : bool) (env b : C) : Prop :=
  Cmod b < beta_threshold /\
  (negative_imag = true -> exists e, permitivitty (Some b) (Some env) = Some e /\ 0 < Im e) /\
  (subvacuum_abs = true -> exists e, permitivitty (Some b) (Some env) = Some e /\ 1 < Cmod e).
(** a number as an argument of an array function *)
Definition as_array {A} (o : option A) : option (arr A) :=
  match o with Some a => Some (scalar a) | None => None end.
