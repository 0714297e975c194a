(** * Specification: infinite arguments (C103) *)
From Coq Require Import Reals List.
From Coquelicot Require Import Complex.
From Verif Require Import Num ModelBase ModelRange.
Open Scope R_scope.

(** a permittivity of infinite magnitude as a float: one component infinite, the other finite ([np.inf], [-np.inf], [complex(1, np.inf)], ...) *)
Definition infinite_eps (w : cflt) : Prop :=
  (exists y, w = (PInf, Fin y) \/ w = (NInf, Fin y) \/ w = (Fin y, PInf) \/ w = (Fin y, NInf)).
(** what a quantity tends to when a permittivity grows without bound, whatever its phase *)
Definition as_conductor (F : C -> res CV) (r : C) : Prop :=
  forall eps, 0 < eps -> exists B, forall E, B <= Cmod E -> exists v, F E = Ok (Some v) /\ Cmod (v - r)%C <= eps.
