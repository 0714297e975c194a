(** * Specification: programs run on a machine that rounds

    A program run on a machine returns a number or raises.  [accurate run d]:
    the result differs from [d] by at most a constant times the machine's
    relative error, once that is small enough; the constant and the threshold do
    not depend on the machine.  [tracks exact run]: [run] raises exactly when
    [exact] does, with the same exception, and is accurate wherever [exact] is
    finite. *)
From Coq Require Import Reals.
From Coquelicot Require Import Complex.
From Verif Require Import Num SpecRound.
Open Scope R_scope.

Definition accurate (run : machine -> res C) (d : C) : Prop :=
  exists K u0, 0 <= K /\ 0 < u0 /\
    forall u m, 0 <= u <= u0 -> rounding u m -> exists x, run m = Ok x /\ Cmod (x - d)%C <= K * u.

Definition tracks (exact : res CV) (run : machine -> res C) : Prop :=
  (forall e, exact = Raise e -> forall m, run m = Raise e) /\
  (forall v, exact = Ok v -> forall m, exists x, run m = Ok x) /\
  (forall d, exact = Ok (Some d) -> accurate run d).
