(** * Specification: modes of a layered medium *)
From Coq Require Import Reals List.
From Coquelicot Require Import Coquelicot.
From Verif Require Import Num SpecWave.
Open Scope R_scope.

(** A mode is a field that nothing drives: it obeys the law of the medium, is not
    identically zero, and consists above the stack of the upgoing wave only and
    below it of the downgoing wave only (waves that decay away from the stack if
    they are evanescent). *)
Definition mode (law : C -> (R -> C) -> (R -> C) -> R -> Prop)
    (es : list C) (ts : list R) (k0 kn : C) (F G : R -> C) : Prop :=
  field_in law es ts F G /\
  (exists r : C, forall z, z <= 0 -> F z = (r * Cexp ((0, -1)%R * k0 * RtoC z))%C) /\
  (exists t : C, forall z, total_depth ts <= z -> F z = (t * Cexp ((0, 1)%R * kn * RtoC (z - total_depth ts)))%C) /\
  exists z, F z <> RtoC 0.
