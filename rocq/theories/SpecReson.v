(** * Specification: the resonance of tip and sample (C90) *)
From Coq Require Import Reals.
Open Scope R_scope.

(** strength of the coupling of a point dipole of polarisability [alpha] at height
    [h] above the surface with its own image *)
Definition coupling (alpha h : R) : R := alpha / (16 * PI * h ^ 3).
(** the permittivity of the sample at which the response diverges: the one whose
    surface returns exactly what the coupling [f] takes away *)
Definition resonant_eps (e0 f : R) : R := - e0 * (1 + f) / (1 - f).
(** square of the frequency at which a lossless oscillator of strength [A] at
    [nu_j] takes that value *)
Definition resonant_nu2 (nu_j A eps_inf e0 f : R) : R := nu_j ^ 2 + A / (eps_inf - resonant_eps e0 f).
