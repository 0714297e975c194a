(** * Specification: electrostatics of the tip, as derived in the user guide
    (docs/guide/pdm.rst, docs/guide/fdm.rst), before it is solved for the
    effective polarizability *)
From Coq Require Import Reals.
From Coquelicot Require Import Complex.
Open Scope R_scope.

(** field (over 1/eps_0) of a vertical point dipole p on its axis, at distance d *)
Definition on_axis_field (p : C) (d : R) : C := (p / RtoC (2 * PI * d ^ 3))%C.
(** point dipole: a dipole p with polarizability alpha at height h above the
    surface feels the incident field E and the field of its image beta p at
    depth h, 2 h away *)
Definition dipole_balance (alpha beta : C) (h : R) (E p : C) : Prop :=
  p = (alpha * (E + on_axis_field (beta * p) (2 * h)))%C.
(** the same, one reflection after the other: the tip first feels E only, and
    then E and the image of what it was *)
Fixpoint dipole_rounds (alpha beta : C) (h : R) (E : C) (k : nat) : C :=
  match k with
  | O => (alpha * E)%C
  | S k' => (alpha * (E + on_axis_field (beta * dipole_rounds alpha beta h E k') (2 * h)))%C
  end.
(** finite dipole: the charge Q1 induced in the tip by the images of Q0 and of
    itself (guide, equation q_1; separate image strengths in the multilayer
    method) *)
Definition charge_balance (b0 b1 f0 f1 Q0 Q1 : C) : Prop := Q1 = (b0 * f0 * Q0 + b1 * f1 * Q1)%C.
Fixpoint charge_rounds (b0 b1 f0 f1 Q0 : C) (k : nat) : C :=
  match k with
  | O => RtoC 0
  | S k' => (b0 * f0 * Q0 + b1 * f1 * charge_rounds b0 b1 f0 f1 Q0 k')%C
  end.
(** dipole moment of +-Q0 at the ends and +-Q1 at one end and in the middle of
    an ellipsoid with half-axis L, the charges z0 and z1 inside (guide,
    equations p_0 and p_1) *)
Definition tip_dipole (L z0 z1 : R) (Q0 Q1 : C) : C :=
  (RtoC (2 * (L - z0)) * Q0 + RtoC (L - z1) * Q1)%C.
