(** * Model: the documented calculation of a normalised spectrum
    docs/examples/scripts/t_dependent_spectra.py:35-51 and
    docs/guide/far-field.rst:104-192 *)
From Coq Require Import String Reals List.
From Coquelicot Require Import Complex.
From Verif Require Import Num ModelBase ModelSample.
Import ListNotations.
Open Scope R_scope.

(** t_dependent_spectra.py:41 [(1 + c_r * r_coef) ** 2 * alpha_eff] *)
Definition scattered (c_r : R) (r alpha : CV) : CV :=
  (cpown (rc 1 + rc c_r * r) 2 * alpha)%cv.

(** t_dependent_spectra.py:35-51: the signal of the sample, its reflection
    coefficient, the same for the reference, and the ratio of the two
    scattered fields.  [signal] is the call of eff_pol_n (lines 36-38 and 44-46),
    the same call for both samples; the script leaves [polarization] at "p". *)
Definition normalised (signal : sample -> res CV) (s ref : sample) (theta_in : option R) (c_r : R) (pol : string)
  : res CV :=
  let! alpha := signal s in
  let! r := refl_coef s None theta_in None pol in
  let! alpha_ref := signal ref in
  let! r_ref := refl_coef ref None theta_in None pol in
  Ok (scattered c_r r alpha / scattered c_r r_ref alpha_ref)%cv.

(** far-field.rst:185 [eta_uncorr = alpha_eff_pmma_si / alpha_eff_si] *)
Definition uncorrected (signal : sample -> res CV) (s ref : sample) : res CV :=
  let! alpha := signal s in
  let! alpha_ref := signal ref in
  Ok (alpha / alpha_ref)%cv.
