(** * Properties (generated by tools/gen_prop.py from ProofsThin2.v; statements
    only, each proved there) *)
From Coq Require Import String Reals Lra Lia ZArith List Bool.
From Coquelicot Require Import Coquelicot.
From Coq Require Import List.
From Verif Require Import Num NumLemmas ModelBase ModelSample ModelTip StackLemmas Spec SpecQuad SpecThin
  ProofsStackQS ProofsStackQS2 ProofsSym ProofsPassive Laguerre Laguerre2 ProofsFilm ProofsTip ProofsTip3 ProofsAbsorb ProofsThin.
Import ListNotations.
Open Scope R_scope.
From Verif Require Import ProofsThin2.

(** C91. Thin films.  With the documented quadrature of at least two nodes the
    averaged coefficient of a film of thickness [t] below a charge at height [z]
    differs from that of the bare substrate by at most
    [2 K / (1-k)^2 t/z], and from the first-order value
    [s - 2 K / (1+bc)^2 t/z] by at most [6 |K| / (1-k)^3 (t/z)^2]; the number of
    nodes does not enter.  [b], [c] are the image factors of the two interfaces,
    [K = c (1 - b^2)]. *)
Theorem C91_thin_film :
  forall (laggauss : laggauss_t) (D : Defaults) (e0 e1 e2 : C) (t z k : R) nu n_lag,
  let n := given_or (d_n_lag D) n_lag in
  let b := image_factor e0 e1 in let c := image_factor e1 e2 in let K := film_contrast b c in
  (2 <= n)%nat -> documented_rule n (laggauss n) ->
  (e1 + e0 <> 0)%C -> (e2 + e1 <> 0)%C -> (e2 + e0 <> 0)%C -> e1 <> RtoC 0 -> e2 <> RtoC 0 ->
  Cmod b * Cmod c <= k -> k < 1 -> 0 < z -> 0 <= t ->
  exists B : C, refl_coef_qs_above_surf laggauss D (stack [e0; e1; e2] [t] nu) (rr z) n_lag = Ok (Some B) /\
    Cmod (B - image_factor e0 e2)%C <= 2 * (Cmod K / (1 - k) ^ 2) * (t / z) /\
    Cmod (B - (image_factor e0 e2 - RtoC (2 * (t / z)) * K / ((1 + b * c) * (1 + b * c))))%C <= 6 * (Cmod K / (1 - k) ^ 3) * (t / z) ^ 2.
Proof. exact C91_thin_film_proof. Qed.
Print Assumptions C91_thin_film.

(** C91. Thick films.  The averaged coefficient differs from that of the bare film
    material by at most [|K| / (1-k)] times [z/t], and also times
    [exp (- t / (n z))] for the documented rule of [n] nodes (up to the floor the
    momentum clip leaves): what is below is lost exponentially. *)
Theorem C91_thick_film :
  forall (laggauss : laggauss_t) (D : Defaults) (e0 e1 e2 : C) (t z k : R) nu n_lag,
  let n := given_or (d_n_lag D) n_lag in
  let b := image_factor e0 e1 in let c := image_factor e1 e2 in let K := film_contrast b c in
  (1 <= n)%nat -> documented_rule n (laggauss n) ->
  (e1 + e0 <> 0)%C -> (e2 + e1 <> 0)%C -> e1 <> RtoC 0 -> e2 <> RtoC 0 ->
  Cmod b * Cmod c <= k -> k < 1 -> 0 < z -> 0 < t ->
  exists B : C, refl_coef_qs_above_surf laggauss D (stack [e0; e1; e2] [t] nu) (rr z) n_lag = Ok (Some B) /\
    Cmod (B - b)%C <= Cmod K / (1 - k) * (z / t + exp (- 2 * MAX_EXP_ARG)) /\
    Cmod (B - b)%C <= Cmod K / (1 - k) * (exp (- (t / (INR n * z))) + exp (- 2 * MAX_EXP_ARG)).
Proof. exact C91_thick_film_proof. Qed.
Print Assumptions C91_thick_film.

(** C91. The finite dipole model with method Q_ave sees a thin film with a strength
    proportional to its thickness over the height of the averaging charge (the point
    dipole model does not see it at all, C09). *)
Theorem C91_fdm_thin_film :
  forall (laggauss : laggauss_t) (D : Defaults) (e0 e1 e2 : C) (t k p : R) nu z_tip r_tip L_tip g_factor d_Q0 d_Q1 d_Qa n_lag,
  let n := given_or (d_n_lag D) n_lag in
  let b := image_factor e0 e1 in let c := image_factor e1 e2 in
  let z := given_or (d_z_tip D) z_tip in let r := given_or (d_r_tip D) r_tip in let L := given_or (d_L_tip D) L_tip in
  let d0 := given_or (131 / 100 * L / (L + 2 * r)) d_Q0 in let d1 := given_or (d_d_Q1 D) d_Q1 in
  let g := given_or (d_g_factor D) g_factor in let zQ := z + r * given_or (d_d_Qa D) d_Qa in
  let delta := 2 * (Cmod (film_contrast b c) / (1 - k) ^ 2) * (t / zQ) in
  (2 <= n)%nat -> documented_rule n (laggauss n) ->
  (e1 + e0 <> 0)%C -> (e2 + e1 <> 0)%C -> (e2 + e0 <> 0)%C -> e1 <> RtoC 0 -> e2 <> RtoC 0 ->
  Cmod b * Cmod c <= k -> k < 1 -> 0 < zQ -> 0 <= t ->
  fdm_regular z d0 r L -> fdm_regular z d1 r L ->
  (Cmod (image_factor e0 e2) + delta) * Cmod (fdm_f z d1 r L g) <= p -> p < 1 ->
  exists a a' : C,
    fdm_eff_pol laggauss D (stack [e0; e1; e2] [t] nu) z_tip r_tip L_tip g_factor d_Q0 d_Q1 d_Qa n_lag (Some "Q_ave"%string) = Ok (Some a) /\
    fdm_eff_pol laggauss D (stack [e0; e2] [] nu) z_tip r_tip L_tip g_factor d_Q0 d_Q1 d_Qa n_lag (Some "Q_ave"%string) = Ok (Some a') /\
    Cmod (a - a')%C <= Cmod (fdm_f z d0 r L g) / (2 * (1 - p) ^ 2) * delta.
Proof. exact C91_fdm_thin_film_proof. Qed.
Print Assumptions C91_fdm_thin_film.
