(** * Properties (generated by tools/gen_prop.py from ProofsRange3.v; statements
    only, each proved there) *)
From Coq Require Import String Reals Lra Lia ZArith List Bool.
From Coquelicot Require Import Rcomplements Complex.
From Verif Require Import Num NumLemmas ModelBase ModelSample ModelTip StackLemmas Spec ModelRange SpecRange
  RangeLemmas ProofsStackQS ProofsStackQS2 ProofsRange ProofsRange2.
Import ListNotations.
Open Scope R_scope.
From Verif Require Import ProofsRange3.

(** C52. A film of real permittivity between those of the environment and of
    the substrate is safe at every thickness and momentum: the clip keeps the
    whole computation in range. *)
Theorem C52_graded_film_safe :
  forall (e0 e1 e2 t : R) nu (q : R),
  0 < e0 -> e0 <= e1 -> e1 <= e2 ->
  tame (RtoC e0) -> tame (RtoC e1) -> tame (RtoC e2) -> 0 <= q * t ->
  exists r, refl_coef_qs (stack [RtoC e0; RtoC e1; RtoC e2] [t] nu) (rr q) = Ok (Some r) /\
            zrefl_qs (map zof [RtoC e0; RtoC e1; RtoC e2]) [Fin t] (Fin q) = Some (zof r).
Proof. exact C52_graded_film_safe_proof. Qed.
Print Assumptions C52_graded_film_safe.

(** C52. A thick film in front of a substrate of lower permittivity: the
    denominator of the reflection coefficient overflows and the numerator does
    not, so that the method silently returns 0, although the exact value is
    within 2 MAX^-2 of the reflection coefficient of the top interface. *)
Theorem C52_thick_film_reflects_nothing_refuted :
  forall (e0 e1 e2 t : R) nu (q : R),
  0 < e0 -> e0 <= e1 -> 0 < e2 ->
  tame (RtoC e0) -> tame (RtoC e1) -> tame (RtoC e2) -> MAX_EXP_ARG <= q * t ->
  4 * (e1 * e2) < (e1 + e0) * (e1 + e2) -> (e1 - e0) * (e1 + e2) <= 3 * (e1 * e2) ->
  zrefl_qs (map zof [RtoC e0; RtoC e1; RtoC e2]) [Fin t] (Fin q) = Some (zof (RtoC 0)) /\
  exists r, refl_coef_qs (stack [RtoC e0; RtoC e1; RtoC e2] [t] nu) (rr q) = Ok (Some r) /\
            Cmod (r - RtoC ((e1 - e0) / (e1 + e0)))%C <= 2 * exp (- 2 * MAX_EXP_ARG).
Proof. exact C52_thick_film_reflects_nothing_refuted_proof. Qed.
Print Assumptions C52_thick_film_reflects_nothing_refuted.

(** C52. With a still lower substrate, or a film of lower permittivity than the
    environment, the thick film's reflection coefficient is nan. *)
Theorem C52_thick_film_nan_refuted :
  forall (e0 e1 e2 t : R) (q : R),
  0 < e0 -> 0 < e1 -> 0 < e2 ->
  tame (RtoC e0) -> tame (RtoC e1) -> tame (RtoC e2) -> MAX_EXP_ARG <= q * t ->
  e1 < e0 \/ 4 * (e1 * e2) < (e1 - e0) * (e1 + e2) ->
  zrefl_qs (map zof [RtoC e0; RtoC e1; RtoC e2]) [Fin t] (Fin q) = Some (NaN, NaN).
Proof. exact C52_thick_film_nan_refuted_proof. Qed.
Print Assumptions C52_thick_film_nan_refuted.

(** example: vacuum, a film of permittivity 5 and a substrate of permittivity
    2 at q t = 1100: 0 is returned, the exact value is next to 2/3 *)
Example C52_example_silent_zero :
  zrefl_qs (map zof [RtoC 1; RtoC 5; RtoC 2]) [Fin 1] (Fin 1100) = Some (zof (RtoC 0)) /\
  exists r, refl_coef_qs (stack [RtoC 1; RtoC 5; RtoC 2] [1] None) (rr 1100) = Ok (Some r) /\
            Cmod (r - RtoC (2 / 3))%C <= 2 * exp (- 2 * MAX_EXP_ARG).
Proof. exact C52_example_silent_zero_proof. Qed.

(** example: vacuum, a film of permittivity 12 and a substrate of permittivity
    2 at q t = 1100 give nan *)
Example C52_example_film_nan :
  zrefl_qs (map zof [RtoC 1; RtoC 12; RtoC 2]) [Fin 1] (Fin 1100) = Some (NaN, NaN).
Proof. exact C52_example_film_nan_proof. Qed.

(** example: four media of permittivity 1, 2, 3, 4, two inner layers, q t = 600
    for each *)
Example C52_example_stack_nan :
  zrefl_qs (map zof (map RtoC [1; 2; 3; 4])) (map Fin ([1; 1] ++ [])) (Fin 600) = Some (NaN, NaN).
Proof. exact C52_example_stack_nan_proof. Qed.

(** example: a film of permittivity 3 between 1 and 4 at q t = 800 *)
Example C52_example_graded :
  exists r, refl_coef_qs (stack [RtoC 1; RtoC 3; RtoC 4] [2] None) (rr 400) = Ok (Some r) /\
            zrefl_qs (map zof [RtoC 1; RtoC 3; RtoC 4]) [Fin 2] (Fin 400) = Some (zof r).
Proof. exact C52_example_graded_proof. Qed.

(** example of the safe region: a film of permittivity 3 between 1 and 2 at
    q t = 1, well below the clip *)
Example C52_example_safe_region :
  exists r, refl_coef_qs (stack [RtoC 1; RtoC 3; RtoC 2] [2] None) (rr (1 / 2)) = Ok (Some r) /\
            zrefl_qs (map zof [RtoC 1; RtoC 3; RtoC 2]) [Fin 2] (Fin (1 / 2)) = Some (zof r).
Proof. exact C52_example_safe_region_proof. Qed.
