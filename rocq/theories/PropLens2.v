(** * Properties (generated by tools/gen_prop.py from ProofsLens2.v; statements
    only, each proved there) *)
From Coq Require Import String Reals Lra Lia ZArith List Bool.
From Coquelicot Require Import Rcomplements Complex.
From Verif Require Import Num NumLemmas ModelBase ModelSample ModelTip StackLemmas Spec SpecLens ProofsStackQS ProofsStackQS2 ProofsSym ProofsDemod ProofsTip3 ProofsLens.
Import ListNotations.
Open Scope R_scope.
From Verif Require Import ProofsLens2.

(** C101. Neither tip model sees a pair of complementary blocks: the averages, image charges, effective polarizabilities and signals are
    those of the sample without the pair, in all methods that accept layered samples. *)
Theorem C101_invisible_to_the_tip :
  forall (laggauss : laggauss_t) (D : Defaults) (l1 l2 : list C) (t1 t2 : list R) (L : list (C * R)) nu (A_tip : R) (n : Z)
    z_tip r_tip L_tip g_factor d_Q0 d_Q1 d_Qa n_lag method n_trapz n_tayl,
  length l1 = (length t1 + 1)%nat -> length l2 = (length t2 + 1)%nat ->
  nonzero_below (l1 ++ map fst L ++ l2) ->
  let s := stack (l1 ++ map fst (L ++ complement L) ++ l2) (t1 ++ map snd (L ++ complement L) ++ t2) nu in
  let s' := stack (l1 ++ l2) (t1 ++ t2) nu in
  let z := given_or (d_z_tip D) z_tip in let r := given_or (d_r_tip D) r_tip in let Lt := given_or (d_L_tip D) L_tip in
  (forall h, h <> 0 ->
    refl_coef_qs_above_surf laggauss D s (rr h) n_lag = refl_coef_qs_above_surf laggauss D s' (rr h) n_lag /\
    surf_pot_and_field laggauss D s (rr h) n_lag = surf_pot_and_field laggauss D s' (rr h) n_lag /\
    image_depth_and_charge laggauss D s (rr h) n_lag = image_depth_and_charge laggauss D s' (rr h) n_lag) /\
  (0 <= z -> 0 < r -> 0 < Lt -> 0 <= A_tip ->
   0 < given_or (131 / 100 * Lt / (Lt + 2 * r)) d_Q0 -> 0 < given_or (d_d_Q1 D) d_Q1 -> 0 < given_or (d_d_Qa D) d_Qa ->
   method = "multi"%string \/ method = "Q_ave"%string ->
   fdm_eff_pol laggauss D s z_tip r_tip L_tip g_factor d_Q0 d_Q1 d_Qa n_lag (Some method)
   = fdm_eff_pol laggauss D s' z_tip r_tip L_tip g_factor d_Q0 d_Q1 d_Qa n_lag (Some method) /\
   fdm_eff_pol_n laggauss D s A_tip n z_tip n_trapz r_tip L_tip g_factor d_Q0 d_Q1 d_Qa n_lag (Some method)
   = fdm_eff_pol_n laggauss D s' A_tip n z_tip n_trapz r_tip L_tip g_factor d_Q0 d_Q1 d_Qa n_lag (Some method) /\
   fdm_eff_pol_n_taylor laggauss D s A_tip n z_tip r_tip L_tip g_factor d_Q0 d_Q1 d_Qa n_lag (Some method) n_trapz n_tayl
   = fdm_eff_pol_n_taylor laggauss D s' A_tip n z_tip r_tip L_tip g_factor d_Q0 d_Q1 d_Qa n_lag (Some method) n_trapz n_tayl).
Proof. exact C101_invisible_to_the_tip_proof. Qed.
Print Assumptions C101_invisible_to_the_tip.

(** C101. The near-field lens: a film of permittivity minus that of the environment, put on any sample (layers included), multiplies its
    reflection by e^(2qd) and its transmission by e^(qd): it undoes the decay over a gap as thick as the film. *)
Theorem C101_lens_amplifies :
  forall (e : C) (rest : list C) (ts : list R) nu (d q : R) (r t : C),
  length rest = (length ts + 1)%nat -> e <> RtoC 0 -> Forall (fun x => x <> RtoC 0) rest -> Rabs (q * d) <= MAX_EXP_ARG ->
  refl_coef_qs (stack (e :: rest) ts nu) (rr q) = Ok (Some r) -> trans_coef_qs (stack (e :: rest) ts nu) (rr q) = Ok (Some t) ->
  refl_coef_qs (stack (e :: (- e)%C :: rest) (d :: ts) nu) (rr q) = Ok (Some (RtoC (exp (2 * q * d)) * r)%C) /\
  trans_coef_qs (stack (e :: (- e)%C :: rest) (d :: ts) nu) (rr q) = Ok (Some (RtoC (exp (q * d)) * t)%C).
Proof. exact C101_lens_amplifies_proof. Qed.
Print Assumptions C101_lens_amplifies.

(** C101. The lens alone, in its own environment, is invisible in reflection and amplifies every evanescent wave. *)
Theorem C101_perfect_lens :
  forall (e : C) nu (d q : R), e <> RtoC 0 -> Rabs (q * d) <= MAX_EXP_ARG ->
  refl_coef_qs (stack [e; (- e)%C; e] [d] nu) (rr q) = Ok (Some (RtoC 0)) /\
  trans_coef_qs (stack [e; (- e)%C; e] [d] nu) (rr q) = Ok (Some (RtoC (exp (q * d)))).
Proof. exact C101_perfect_lens_proof. Qed.
Print Assumptions C101_perfect_lens.

(** C101. Losses set the resolution: for permittivity -1 + i delta in vacuum the transmission at momentum q differs from e^(qd) by at most
    delta^2 (e^(2qd) - 1)/4 of it, never exceeds it, and is below 4 sqrt(1 + delta^2)/(delta^2 (e^(2qd) - 1)) of it: the lens works
    exactly for e^(qd) small compared with 2/delta. *)
Theorem C101_resolution :
  forall nu (d q delta : R), 0 < q -> 0 < d -> q * d <= MAX_EXP_ARG -> delta <> 0 ->
  exists t, trans_coef_qs (stack [RtoC 1; (-1, delta); RtoC 1] [d] nu) (rr q) = Ok (Some t) /\
    let a := exp (q * d) in
    Cmod (t - RtoC a)%C <= delta ^ 2 * (a ^ 2 - 1) / 4 * a /\ Cmod t <= a /\
    Cmod t <= 4 * sqrt (1 + delta ^ 2) / (delta ^ 2 * (a ^ 2 - 1)) * a.
Proof. exact C101_resolution_proof. Qed.
Print Assumptions C101_resolution.

(** C101, cases: the lens of permittivity -1 in vacuum, 50 nm thick, on glass, on and off a gap of its own thickness. *)
Example C101_example : forall nu q, Rabs (q * 50) <= MAX_EXP_ARG ->
  refl_coef_qs (stack [RtoC 1; (- RtoC 1)%C; RtoC 1; RtoC 3] [50; 50] nu) (rr q) = refl_coef_qs (stack [RtoC 1; RtoC 3] [] nu) (rr q) /\
  refl_coef_qs (stack [RtoC 1; (- RtoC 1)%C; RtoC 3] [50] nu) (rr q) = Ok (Some (RtoC (exp (2 * q * 50)) * RtoC (1 / 2))%C) /\
  complement [((2, 1), 10); (RtoC 5, 20)] = [((- 5, - 0), 20); ((- 2, - 1), 10)].
Proof. exact C101_example_proof. Qed.
