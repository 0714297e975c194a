(** * Properties (generated by tools/gen_prop.py from ProofsInt2.v; statements
    only, each proved there) *)
From Coq Require Import String Reals Lra Lia ZArith List Bool.
From Coquelicot Require Import Rcomplements Complex.
From Verif Require Import Num ModelBase ModelSample ModelTip ModelInt SpecInt ProofsInt.
Import ListNotations.
Open Scope R_scope.
From Verif Require Import ProofsInt2.

(** Out of range, only the low bits of the squares matter: integers whose squares
    agree in them give the same transfer matrix, whatever the sample.  *)
Theorem C88_only_low_bits : forall w sg s q q' nu nu' pol,
  same_bits w (q ^ 2) (q' ^ 2) -> same_bits w (nu ^ 2) (nu' ^ 2) ->
  i_transfer_matrix (Word w sg) s (Some (I q)) None (Some (I nu)) pol
  = i_transfer_matrix (Word w sg) s (Some (I q')) None (Some (I nu')) pol.
Proof. exact C88_only_low_bits_proof. Qed.
Print Assumptions C88_only_low_bits.

(** A momentum whose square is a multiple of 2^bits is treated as normal incidence. *)
Theorem C88_normal_incidence : forall w sg s q nu pol, (0 < w)%nat ->
  same_bits w (q ^ 2) 0 -> power_fits (Word w sg) 2 nu ->
  opt_ok (power_fits (Word w sg) 2) (i_nu_vac s) ->
  i_refl_coef (Word w sg) s (Some (I q)) None (Some nu) pol
    = refl_coef (in_floats s) (Some 0) None (Some (real_of nu)) pol /\
  i_trans_coef (Word w sg) s (Some (I q)) None (Some nu) pol
    = trans_coef (in_floats s) (Some 0) None (Some (real_of nu)) pol.
Proof. exact C88_normal_incidence_proof. Qed.
Print Assumptions C88_normal_incidence.

(** A wavenumber whose square is a multiple of 2^bits counts as zero: at normal
    incidence every far-field coefficient of every sample is nan. *)
Theorem C88_wavenumber_lost : forall w sg s nu pol, (0 < w)%nat ->
  same_bits w (nu ^ 2) 0 -> (2 <= length (i_eps_stack s))%nat -> (pol = "p"%string \/ pol = "s"%string) ->
  i_refl_coef (Word w sg) s None None (Some (I nu)) pol = Ok None /\
  i_trans_coef (Word w sg) s None None (Some (I nu)) pol = Ok None.
Proof. exact C88_wavenumber_lost_proof. Qed.
Print Assumptions C88_wavenumber_lost.

(** For wavenumbers whose square needs the sign bit, the square is stored as a
    negative number: at normal incidence, light in a lossless stack is treated as
    evanescent, and the coefficients are real for every thickness: no
    interference.  (For a 32-bit integer these are the wavenumbers from 46341 to
    65535 per metre, that is 464 to 655 per centimetre.) *)
Theorem C88_no_interference : forall w s nu pol r, (0 < w)%nat ->
  Forall (fun e => exists x, 0 < x /\ e = Some (RtoC x)) (i_eps_stack s) ->
  (2 ^ Z.of_nat w <= 2 * nu ^ 2 < 2 * 2 ^ Z.of_nat w)%Z ->
  (i_refl_coef (Word w true) s None None (Some (I nu)) pol = Ok (Some r) \/
   i_trans_coef (Word w true) s None None (Some (I nu)) pol = Ok (Some r)) -> Im r = 0.
Proof. exact C88_no_interference_proof. Qed.
Print Assumptions C88_no_interference.
