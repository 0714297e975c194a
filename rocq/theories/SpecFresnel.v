(** * Specification: Fresnel's formulas, as in optics textbooks and as in the guide *)
From Coq Require Import Reals.
Open Scope R_scope.

(** Textbook Fresnel reflection coefficients of the electric field (s) and of the
    magnetic field (p) between media of refractive index n0 (incidence side) and n1,
    with angle of incidence th0 and angle of refraction th1. *)
Definition fresnel_s (n0 n1 th0 th1 : R) : R :=
  (n0 * cos th0 - n1 * cos th1) / (n0 * cos th0 + n1 * cos th1).
Definition fresnel_p (n0 n1 th0 th1 : R) : R :=
  (n1 * cos th0 - n0 * cos th1) / (n1 * cos th0 + n0 * cos th1).

(** docs/guide/far-field.rst:55-56, with a second angle th (written theta_r there). *)
Definition guide_r_p (n0 n1 th_in th : R) : R :=
  (n0 * cos th_in - n1 * cos th) / (n0 * cos th_in + n1 * cos th).
Definition guide_r_s (n0 n1 th_in th : R) : R :=
  (n1 * cos th_in - n0 * cos th) / (n1 * cos th_in + n0 * cos th).
(** docs/guide/far-field.rst:106: the far-field factor. *)
Definition far_field_factor (c_r r : R) : R := (1 + c_r * r) ^ 2.
