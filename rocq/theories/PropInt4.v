(** * Properties (generated by tools/gen_prop.py from ProofsInt4.v; statements
    only, each proved there) *)
From Coq Require Import String Reals Lra Lia ZArith List Bool.
From Coquelicot Require Import Rcomplements Complex.
From Verif Require Import Num ModelBase ModelSample ModelTip NumLemmas ModelInt SpecInt ProofsInt ProofsInt2 ProofsInt3.
Import ListNotations.
Open Scope R_scope.
From Verif Require Import ProofsInt4.

(** An integer does not always give what the equal float gives: not even if it is
    stored exactly, in 64 bits. *)
Theorem C88_integers_are_floats_refuted : ~ (forall s q nu pol,
  fits (Word 64 true) q -> fits (Word 64 true) nu ->
  i_refl_coef (Word 64 true) s (Some (I q)) None (Some (I nu)) pol
  = refl_coef (in_floats s) (Some (IZR q)) None (Some (IZR nu)) pol).
Proof. exact C88_integers_are_floats_refuted_proof. Qed.
Print Assumptions C88_integers_are_floats_refuted.

(** A quarter-wave film of permittivity 4 in vacuum, wavenumber 50000 per metre
    (500 per centimetre): it reflects -3/5 of the amplitude; with the same wavenumber
    as a 32-bit integer, less than 1/3, as would any other thickness. *)
Example C88_no_interference_example :
  (2 ^ Z.of_nat 32 <= 2 * 50000 ^ 2 < 2 * 2 ^ Z.of_nat 32)%Z /\
  (forall d, 0 < d ->
    exists r : R, i_refl_coef (Word 32 true) (mkIS [rc 1; rc 4; rc 1] [F d] None) None None (Some (I 50000)) "s"
                  = Ok (Some (RtoC r)) /\ - 1 / 3 < r < 0) /\
  refl_coef (mkSample [rc 1; rc 4; rc 1] [PI / (4 * 50000)] None) None None (Some 50000) "s"
  = Ok (Some (RtoC (- 3 / 5))).
Proof. exact C88_no_interference_example_proof. Qed.

(** Concrete cases: 8-bit unsigned permittivities 3 and 1 give the reflection
    coefficient 63.5; a 32-bit momentum 65536 counts as normal incidence, a 32-bit
    wavenumber 65536 as none; a 48 nm sphere at 2000 nm has no finite polarisability,
    whatever the sample; and ordinary numbers stay in range. *)
Example C88_example :
  i_refl_coef_qs_single (Word 8 false) (I 3) (I 1) = rc (127 / 2) /\
  same_bits 32 (65536 ^ 2) 0 /\ same_bits 32 ((48 + 2000) ^ 3) 0 /\
  i_refl_coef (Word 32 true) (mkIS [rc 1; rc 4; rc 1] [F 1] None) None None (Some (I 65536)) "p" = Ok None /\
  i_pdm_eff_pol (Word 32 true) defaults0 (mkSample [rc 1; rc 3] [] None) (Some (I 2000)) (Some (I 48)) None None = Ok None /\
  power_fits (Word 64 true) 2 (I 100000) /\ product_fits (Word 64 true) (I 10000000) (I 5) /\
  power_fits (Word 32 true) 3 (I 120).
Proof. exact C88_example_proof. Qed.
