(** * Properties (generated by tools/gen_prop.py from ProofsRounding4.v; statements
    only, each proved there) *)
From Coq Require Import String Reals Lra Lia ZArith List Bool Permutation.
From Coquelicot Require Import Rcomplements Complex.
From Verif Require Import Num NumLemmas ModelBase ModelSample StackLemmas Spec SpecRound ModelRound ModelRound2 ModelRound3
  RoundLemmas RoundLemmas2 RoundTends RoundTends2 RoundTends3 SpecAccurate SpecLightLine ProofsRounding ProofsRounding2.
Import ListNotations.
Open Scope R_scope.
From Verif Require Import ProofsRounding4.

(** C77. Away from the light lines refl_coef raises the same exceptions in rounding
    arithmetic as in exact arithmetic and has an error of order u, for every
    stack, both polarizations, every angle or momentum, absorbing, metallic and
    evanescent layers included. *)
Theorem C77_refl_coef : forall s q theta_in nu pol, light_line_free s q theta_in nu ->
  tracks (refl_coef s q theta_in nu pol) (fun m => k_refl_coef m s q theta_in nu pol).
Proof. exact C77_refl_coef_proof. Qed.
Print Assumptions C77_refl_coef.

(** C77. trans_coef: likewise. *)
Theorem C77_trans_coef : forall s q theta_in nu pol, light_line_free s q theta_in nu ->
  tracks (trans_coef s q theta_in nu pol) (fun m => k_trans_coef m s q theta_in nu pol).
Proof. exact C77_trans_coef_proof. Qed.
Print Assumptions C77_trans_coef.

(** C77. In every case, light lines included, half of the digits survive. *)
Theorem C77_half_digits : forall s q theta_in nu pol,
  half_tracks (refl_coef s q theta_in nu pol) (fun m => k_refl_coef m s q theta_in nu pol) /\
  half_tracks (trans_coef s q theta_in nu pol) (fun m => k_trans_coef m s q theta_in nu pol).
Proof. exact C77_half_digits_proof. Qed.
Print Assumptions C77_half_digits.

(** C77. At the light line (here: a lossless interface at the critical angle) no more than half of the
    digits survive: the error is not of order u. *)
Theorem C77_light_line_refuted :
  exists s q nu d, refl_coef s (Some q) None (Some nu) "s" = Ok (Some d) /\
    ~ accurate (fun m => k_refl_coef m s (Some q) None (Some nu) "s") d.
Proof. exact C77_light_line_refuted_proof. Qed.
Print Assumptions C77_light_line_refuted.

(** C77. The hypotheses hold: a metal film on a lossy substrate, oblique incidence *)
Example C77_free_example : let s := stack [RtoC 1; (-10, 1); (4, 1)] [1 / 10] (Some 1) in
  light_line_free s None (Some (PI / 6)) None /\ rounding (/ 2 ^ 53) (digits 53).
Proof. exact C77_free_example_proof. Qed.
