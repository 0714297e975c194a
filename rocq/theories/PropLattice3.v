(** * Properties (generated by tools/gen_prop.py from ProofsLattice3.v; statements
    only, each proved there) *)
From Coq Require Import String Reals Lra Lia ZArith List Bool.
From Coquelicot Require Import Coquelicot.
From Coq Require Import List.
From Verif Require Import Num NumLemmas ModelBase ModelSample ModelTip StackLemmas Spec SpecQuad SpecThin SpecLattice
  ProofsStackQS ProofsStackQS2 ProofsSym ProofsPassive Laguerre Laguerre2 QuadConv ProofsQuad ProofsQuad2 ProofsFilm ProofsTip ProofsTip3 ProofsAbsorb ProofsThin ProofsThin2 ProofsThin4 ProofsCompare ProofsEx ProofsInv5 ProofsConsist3 ProofsLattice ProofsLattice2.
Import ListNotations.
Open Scope R_scope.
From Verif Require Import ProofsLattice3.

(** C94. The averaged coefficient at height [z], documented rule of at least two
    nodes: the difference is at most [9/2 (M/m)^4 (T/z)^2 / N] plus the floor the
    clip leaves, whatever the number of nodes. *)
Theorem C94_average :
  forall (laggauss : laggauss_t) (D : Defaults) (c : list (R * R)) (e0 es m M z : R) nu nu' (N : nat) n_lag,
  let n := given_or (d_n_lag D) n_lag in
  (2 <= n)%nat -> documented_rule n (laggauss n) ->
  (0 < N)%nat -> 0 < e0 -> 0 < m -> m <= es <= M -> Forall (fun l => m <= fst l <= M /\ 0 <= snd l) c -> 0 < total_thickness c -> 0 < z ->
  exists B B' : C,
    refl_coef_qs_above_surf laggauss D (stack (map RtoC (e0 :: map fst (periods N c) ++ [es])) (map snd (periods N c)) nu) (rr z) n_lag = Ok (Some B) /\
    refl_coef_qs_above_surf laggauss D (stack [RtoC e0; RtoC (film_eps c); RtoC es] [film_thickness c] nu') (rr z) n_lag = Ok (Some B') /\
    Cmod (B - B')%C <= 9 / 2 * (M / m) ^ 4 * ((total_thickness c / z) ^ 2 / INR N) + (M / m) ^ 2 * exp (- 2 * MAX_EXP_ARG).
Proof. exact C94_average_proof. Qed.
Print Assumptions C94_average.

(** C94. So does the finite dipole model (method Q_ave): a tip cannot tell a fine
    superlattice from the single film. *)
Theorem C94_fdm :
  forall (laggauss : laggauss_t) (D : Defaults) (c : list (R * R)) (e0 es m M p : R) nu nu' (N : nat) z_tip r_tip L_tip g_factor d_Q0 d_Q1 d_Qa n_lag,
  let n := given_or (d_n_lag D) n_lag in
  let z := given_or (d_z_tip D) z_tip in let r := given_or (d_r_tip D) r_tip in let L := given_or (d_L_tip D) L_tip in
  let d0 := given_or (131 / 100 * L / (L + 2 * r)) d_Q0 in let d1 := given_or (d_d_Q1 D) d_Q1 in
  let g := given_or (d_g_factor D) g_factor in let zQ := z + r * given_or (d_d_Qa D) d_Qa in
  (2 <= n)%nat -> documented_rule n (laggauss n) ->
  (0 < N)%nat -> 0 < e0 -> 0 < m -> m <= es <= M -> Forall (fun l => m <= fst l <= M /\ 0 <= snd l) c -> 0 < total_thickness c -> 0 < zQ ->
  fdm_regular z d0 r L -> fdm_regular z d1 r L -> Cmod (fdm_f z d1 r L g) <= p -> p < 1 ->
  exists a a' : C,
    fdm_eff_pol laggauss D (stack (map RtoC (e0 :: map fst (periods N c) ++ [es])) (map snd (periods N c)) nu) z_tip r_tip L_tip g_factor d_Q0 d_Q1 d_Qa n_lag (Some "Q_ave"%string) = Ok (Some a) /\
    fdm_eff_pol laggauss D (stack [RtoC e0; RtoC (film_eps c); RtoC es] [film_thickness c] nu') z_tip r_tip L_tip g_factor d_Q0 d_Q1 d_Qa n_lag (Some "Q_ave"%string) = Ok (Some a') /\
    Cmod (a - a')%C <= Cmod (fdm_f z d0 r L g) / (2 * (1 - p) ^ 2) * (9 / 2 * (M / m) ^ 4 * ((total_thickness c / zQ) ^ 2 / INR N) + (M / m) ^ 2 * exp (- 2 * MAX_EXP_ARG)).
Proof. exact C94_fdm_proof. Qed.
Print Assumptions C94_fdm.

(** C94. The film is not the one of the mean permittivity: for one superlattice the
    coefficient stays away from that of a film of the mean permittivity and the
    total thickness, however fine the periods. *)
Theorem C94_mean_permittivity_refuted :
  ~ (forall (c : list (R * R)) (e0 es q delta : R), 0 < e0 -> 0 < es -> Forall (fun l => 0 < fst l /\ 0 <= snd l) c -> 0 < total_thickness c -> 0 <= q -> 0 < delta ->
     exists N r r', (0 < N)%nat /\ (forall k, (N <= k)%nat ->
       refl_coef_qs (stack (map RtoC (e0 :: map fst (periods k c) ++ [es])) (map snd (periods k c)) None) (rr q) = Ok (Some (RtoC (r k)))) /\
       refl_coef_qs (stack [RtoC e0; RtoC (mean_eps c); RtoC es] [total_thickness c] None) (rr q) = Ok (Some (RtoC r')) /\
       forall k, (N <= k)%nat -> Rabs (r k - r') <= delta).
Proof. exact C94_mean_permittivity_refuted_proof. Qed.
Print Assumptions C94_mean_permittivity_refuted.

(** C94. A concrete superlattice: a thousand periods of permittivities 2 and 8 on a
    substrate of permittivity 4 (the geometric mean). *)
Example C94_superlattice_example :
  exists r : R,
  refl_coef_qs (stack (map RtoC (1 :: map fst (periods 1000 [(2, 1); (8, 1)]) ++ [4])) (map snd (periods 1000 [(2, 1); (8, 1)])) None) (rr (1 / 10)) = Ok (Some (RtoC r)) /\
  film_eps [(2, 1); (8, 1)] = 4 /\ film_thickness [(2, 1); (8, 1)] = 5 / 2 /\
  Rabs (r - 3 / 5) <= 1 / 32.
Proof. exact C94_superlattice_example_proof. Qed.

(** C94. The same superlattice below a concrete charge (height 10) and a concrete tip
    (radius and semi-axis 1), 32 nodes. *)
Example C94_tip_example :
  exists (laggauss : laggauss_t) (B B' a a' : C),
  let super := stack (map RtoC (1 :: map fst (periods 1000 [(2, 1); (8, 1)]) ++ [5])) (map snd (periods 1000 [(2, 1); (8, 1)])) None in
  let film := stack [RtoC 1; RtoC (film_eps [(2, 1); (8, 1)]); RtoC 5] [film_thickness [(2, 1); (8, 1)]] None in
  let run s := fdm_eff_pol laggauss defaults0 s (Some 0) (Some 1) (Some 1) (Some (RtoC (7 / 4))) (Some (1 / 2)) (Some (1 / 2)) (Some 10) (Some 32%nat) (Some "Q_ave"%string) in
  refl_coef_qs_above_surf laggauss defaults0 super (rr 10) (Some 32%nat) = Ok (Some B) /\
  refl_coef_qs_above_surf laggauss defaults0 film (rr 10) (Some 32%nat) = Ok (Some B') /\
  Cmod (B - B')%C <= 1 / 20 /\
  run super = Ok (Some a) /\ run film = Ok (Some a') /\ Cmod (a - a')%C <= 1 / 20.
Proof. exact C94_tip_example_proof. Qed.
