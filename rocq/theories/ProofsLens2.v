(** * Complementary media seen by the tip, and the perfect lens (C101, continued) *)
From Coq Require Import String Reals Lra Lia ZArith List Bool.
From Coquelicot Require Import Rcomplements Complex.
From Verif Require Import Num NumLemmas ModelBase ModelSample ModelTip StackLemmas Spec SpecLens ProofsStackQS ProofsStackQS2 ProofsSym ProofsDemod ProofsTip3 ProofsLens.
Import ListNotations.
Open Scope R_scope.

(** C101. Neither tip model sees a pair of complementary blocks: the averages, image charges, effective polarizabilities and signals are
    those of the sample without the pair, in all methods that accept layered samples. *)
Lemma C101_invisible_to_the_tip_proof :
  forall (laggauss : laggauss_t) (D : Defaults) (l1 l2 : list C) (t1 t2 : list R) (L : list (C * R)) nu (A_tip : R) (n : Z)
    z_tip r_tip L_tip g_factor d_Q0 d_Q1 d_Qa n_lag method n_trapz n_tayl,
  length l1 = (length t1 + 1)%nat -> length l2 = (length t2 + 1)%nat ->
  nonzero_below (l1 ++ map fst L ++ l2) ->
  let s := stack (l1 ++ map fst (L ++ complement L) ++ l2) (t1 ++ map snd (L ++ complement L) ++ t2) nu in
  let s' := stack (l1 ++ l2) (t1 ++ t2) nu in
  let z := given_or (d_z_tip D) z_tip in let r := given_or (d_r_tip D) r_tip in let Lt := given_or (d_L_tip D) L_tip in
  (forall h, h <> 0 ->
    refl_coef_qs_above_surf laggauss D s (rr h) n_lag = refl_coef_qs_above_surf laggauss D s' (rr h) n_lag /\
    surf_pot_and_field laggauss D s (rr h) n_lag = surf_pot_and_field laggauss D s' (rr h) n_lag /\
    image_depth_and_charge laggauss D s (rr h) n_lag = image_depth_and_charge laggauss D s' (rr h) n_lag) /\
  (0 <= z -> 0 < r -> 0 < Lt -> 0 <= A_tip ->
   0 < given_or (131 / 100 * Lt / (Lt + 2 * r)) d_Q0 -> 0 < given_or (d_d_Q1 D) d_Q1 -> 0 < given_or (d_d_Qa D) d_Qa ->
   method = "multi"%string \/ method = "Q_ave"%string ->
   fdm_eff_pol laggauss D s z_tip r_tip L_tip g_factor d_Q0 d_Q1 d_Qa n_lag (Some method)
   = fdm_eff_pol laggauss D s' z_tip r_tip L_tip g_factor d_Q0 d_Q1 d_Qa n_lag (Some method) /\
   fdm_eff_pol_n laggauss D s A_tip n z_tip n_trapz r_tip L_tip g_factor d_Q0 d_Q1 d_Qa n_lag (Some method)
   = fdm_eff_pol_n laggauss D s' A_tip n z_tip n_trapz r_tip L_tip g_factor d_Q0 d_Q1 d_Qa n_lag (Some method) /\
   fdm_eff_pol_n_taylor laggauss D s A_tip n z_tip r_tip L_tip g_factor d_Q0 d_Q1 d_Qa n_lag (Some method) n_trapz n_tayl
   = fdm_eff_pol_n_taylor laggauss D s' A_tip n z_tip r_tip L_tip g_factor d_Q0 d_Q1 d_Qa n_lag (Some method) n_trapz n_tayl).
Proof.
  intros lg D l1 l2 t1 t2 L nu A n z_tip r_tip L_tip g d_Q0 d_Q1 d_Qa n_lag method n_trapz n_tayl H1 H2 Hn s s' z r Lt.
  assert (SR : forall q, refl_coef_qs s (rr q) = refl_coef_qs s' (rr q)) by (intros q; now apply C101_complementary_proof).
  split; [intros h Hh; now apply same_image|]. intros Hz Hr HL HA H0 H1' Ha Hm.
  assert (P : forall zt, 0 <= given_or (d_z_tip D) zt ->
    fdm_eff_pol lg D s zt r_tip L_tip g d_Q0 d_Q1 d_Qa n_lag (Some method) = fdm_eff_pol lg D s' zt r_tip L_tip g d_Q0 d_Q1 d_Qa n_lag (Some method)).
  { intros zt Hzt. unfold fdm_eff_pol. rewrite (fdm_defaults_explicit D D) by (fold r Lt; lra). unfold fdm_defaults. cbn [dflt].
    fold r Lt. set (d0 := given_or _ d_Q0) in *. set (d1 := given_or _ d_Q1) in *. set (da := given_or _ d_Qa) in *.
    change (dflt (d_z_tip D) zt) with (given_or (d_z_tip D) zt). set (zz := given_or (d_z_tip D) zt) in *.
    assert (K : forall d, 0 < d -> (rr zz + rr r * rr d)%rv = rr (zz + r * d) /\ zz + r * d <> 0).
    { intros d Hd. split; [reflexivity|]. assert (0 < r * d) by (now apply Rmult_lt_0_compat). lra. }
    destruct (K d0 H0) as [E0 N0]. destruct (K d1 H1') as [E1 N1]. destruct (K da Ha) as [Ea Na].
    destruct Hm as [-> | ->].
    - change (String.eqb "multi" "bulk") with false. change (String.eqb "multi" "multi") with true. cbn iota. rewrite E0, E1.
      destruct (same_image lg D s s' (zz + r * d0) n_lag N0 SR) as (_ & _ & ->). destruct (same_image lg D s s' (zz + r * d1) n_lag N1 SR) as (_ & _ & ->). reflexivity.
    - change (String.eqb "Q_ave" "bulk") with false. change (String.eqb "Q_ave" "multi") with false. change (String.eqb "Q_ave" "Q_ave") with true. cbn iota. rewrite Ea.
      destruct (same_image lg D s s' (zz + r * da) n_lag Na SR) as (-> & _). reflexivity. }
  split; [apply P; exact Hz|]. split.
  - unfold fdm_eff_pol_n. change (dflt (d_z_tip D) z_tip) with z. apply demod_local. intros x Hx. apply P. cbn [given_or]. rewrite Rabs_pos_eq in Hx by exact HA. lra.
  - unfold fdm_eff_pol_n_taylor. rewrite (fdm_defaults_explicit D D) by (fold r Lt; lra). unfold fdm_defaults. cbn [dflt].
    fold r Lt. set (d0 := given_or _ d_Q0) in *. set (d1 := given_or _ d_Q1) in *. set (da := given_or _ d_Qa) in *.
    change (dflt (d_z_tip D) z_tip) with z.
    assert (Na : z + r * da <> 0) by (assert (0 < r * da) by (now apply Rmult_lt_0_compat); lra).
    destruct Hm as [-> | ->].
    + reflexivity.
    + change (String.eqb "Q_ave" "bulk") with false. change (String.eqb "Q_ave" "Q_ave") with true. cbn iota. change (rr z + rr r * rr da)%rv with (rr (z + r * da)).
      destruct (same_image lg D s s' (z + r * da) n_lag Na SR) as (-> & _). reflexivity.
Qed.

Lemma lens_M q e rest : forall d en, e <> RtoC 0 -> Forall (fun x => x <> RtoC 0) (map fst rest ++ [en]) ->
  Mqs q e ((- e, d)%C :: rest) en = pmul (pP (RtoC (exp (- clipR (q * d)))) (RtoC (exp (clipR (q * d))))) (Mqs q e rest en).
Proof.
  intros d en He H. assert (Ho : (- e)%C <> RtoC 0) by (intros X; apply He; replace e with (- (- e))%C by ring; rewrite X; ring).
  rewrite !Mqs_Np; [|exact H|cbn [map fst app]; now constructor]. cbn [Np]. rewrite Nl_opp by exact He. rewrite !pmul_assoc.
  rewrite <- (pmul_assoc (pT e) (pT (/ e)%C)), pT_mul, Cinv_r by exact He. rewrite pT_1, pmul_I_l. reflexivity.
Qed.

(** C101. The near-field lens: a film of permittivity minus that of the environment, put on any sample (layers included), multiplies its
    reflection by e^(2qd) and its transmission by e^(qd): it undoes the decay over a gap as thick as the film. *)
Lemma C101_lens_amplifies_proof :
  forall (e : C) (rest : list C) (ts : list R) nu (d q : R) (r t : C),
  length rest = (length ts + 1)%nat -> e <> RtoC 0 -> Forall (fun x => x <> RtoC 0) rest -> Rabs (q * d) <= MAX_EXP_ARG ->
  refl_coef_qs (stack (e :: rest) ts nu) (rr q) = Ok (Some r) -> trans_coef_qs (stack (e :: rest) ts nu) (rr q) = Ok (Some t) ->
  refl_coef_qs (stack (e :: (- e)%C :: rest) (d :: ts) nu) (rr q) = Ok (Some (RtoC (exp (2 * q * d)) * r)%C) /\
  trans_coef_qs (stack (e :: (- e)%C :: rest) (d :: ts) nu) (rr q) = Ok (Some (RtoC (exp (q * d)) * t)%C).
Proof.
  intros e rest ts nu d q r t Hl He Hn Hc Hr Ht. assert (Ho : (- e)%C <> RtoC 0) by (intros X; apply He; replace e with (- (- e))%C by ring; rewrite X; ring).
  destruct (split_decomp [e] rest [] ts eq_refl Hl) as (a & i1 & i2 & b & Ea & Ei & -> & ->).
  destruct i1; [|discriminate]. injection Ea as <-.
  assert (S1 : stack (e :: map fst i2 ++ [b]) (map snd i2) nu = qs_sample e i2 b nu) by reflexivity.
  assert (S2 : stack (e :: (- e)%C :: map fst i2 ++ [b]) (d :: map snd i2) nu = qs_sample e ((- e, d)%C :: i2) b nu) by reflexivity.
  assert (Hn2 : Forall (fun x => x <> RtoC 0) (map fst ((- e, d)%C :: i2) ++ [b])) by (cbn [map fst app]; now constructor).
  rewrite S1 in Hr, Ht. rewrite S2. rewrite refl_coef_qs_struct in Hr by exact Hn. rewrite trans_coef_qs_struct in Ht by exact Hn.
  rewrite refl_coef_qs_struct, trans_coef_qs_struct by exact Hn2. rewrite lens_M by assumption. rewrite clipR_id by exact Hc.
  set (M := Mqs q e i2 b) in *. cbn [pmul pP c00 c01 c10 c11].
  destruct (Ceq_dec (c00 M) (RtoC 0)) as [Z|Z]; [rewrite Z, cdiv_zero in Hr; discriminate|].
  unfold rc in *. rewrite cdiv_ok in Hr, Ht by exact Z.
  assert (Er : (c10 M / c00 M)%C = r) by congruence. assert (Et : (1 / c00 M)%C = t) by congruence.
  assert (X1 : RtoC (exp (- (q * d))) <> RtoC 0) by (intros X; apply RtoC_inj in X; pose proof (exp_pos (- (q * d))); lra).
  assert (X2 : (RtoC (exp (- (q * d))) * RtoC (exp (q * d)))%C = RtoC 1) by (rewrite <- RtoC_mult, <- exp_plus, Rplus_opp_l, exp_0; reflexivity).
  assert (Z2 : (RtoC (exp (- (q * d))) * c00 M + 0 * c10 M)%C <> RtoC 0) by (rewrite Cmult_0_l, Cplus_0_r; now apply Cmult_neq_0).
  rewrite !cdiv_ok by exact Z2. replace (RtoC (exp (2 * q * d))) with (RtoC (exp (q * d)) * RtoC (exp (q * d)))%C by (rewrite <- RtoC_mult, <- exp_plus; do 2 f_equal; ring).
  rewrite <- Er, <- Et. set (A := RtoC (exp (- (q * d)))) in *. set (B := RtoC (exp (q * d))) in *. assert (EB : B = (/ A)%C) by (replace B with (/ A * (A * B))%C by (field; exact X1); rewrite X2; ring).
  rewrite EB. split; do 2 f_equal; field; auto.
Qed.

(** C101. The lens alone, in its own environment, is invisible in reflection and amplifies every evanescent wave. *)
Lemma C101_perfect_lens_proof :
  forall (e : C) nu (d q : R), e <> RtoC 0 -> Rabs (q * d) <= MAX_EXP_ARG ->
  refl_coef_qs (stack [e; (- e)%C; e] [d] nu) (rr q) = Ok (Some (RtoC 0)) /\
  trans_coef_qs (stack [e; (- e)%C; e] [d] nu) (rr q) = Ok (Some (RtoC (exp (q * d)))).
Proof.
  intros e nu d q He Hc.
  assert (B : refl_coef_qs (stack [e; e] [] nu) (rr q) = Ok (Some (RtoC 0)) /\ trans_coef_qs (stack [e; e] [] nu) (rr q) = Ok (Some (RtoC 1))).
  { change (stack [e; e] [] nu) with (qs_sample e [] e nu). rewrite refl_coef_qs_struct, trans_coef_qs_struct by (repeat constructor; exact He).
    unfold Mqs. cbn [stackM]. rewrite pT_self by exact He. unfold rc. cbn [pI c00 c10].
    assert (N1 : RtoC 1 <> RtoC 0) by (intros X; apply RtoC_inj in X; lra). rewrite !cdiv_ok by exact N1. split; do 2 f_equal; field; exact N1. }
  destruct B as [B1 B2].
  destruct (C101_lens_amplifies_proof e [e] [] nu d q (RtoC 0) (RtoC 1) eq_refl He ltac:(repeat constructor; exact He) Hc B1 B2) as [E1 E2].
  rewrite E1, E2. split; do 2 f_equal; ring.
Qed.

(** C101. Losses set the resolution: for permittivity -1 + i delta in vacuum the transmission at momentum q differs from e^(qd) by at most
    delta^2 (e^(2qd) - 1)/4 of it, never exceeds it, and is below 4 sqrt(1 + delta^2)/(delta^2 (e^(2qd) - 1)) of it: the lens works
    exactly for e^(qd) small compared with 2/delta. *)
Lemma C101_resolution_proof :
  forall nu (d q delta : R), 0 < q -> 0 < d -> q * d <= MAX_EXP_ARG -> delta <> 0 ->
  exists t, trans_coef_qs (stack [RtoC 1; (-1, delta); RtoC 1] [d] nu) (rr q) = Ok (Some t) /\
    let a := exp (q * d) in
    Cmod (t - RtoC a)%C <= delta ^ 2 * (a ^ 2 - 1) / 4 * a /\ Cmod t <= a /\
    Cmod t <= 4 * sqrt (1 + delta ^ 2) / (delta ^ 2 * (a ^ 2 - 1)) * a.
Proof.
  intros nu d q delta Hq Hd Hc Hdl. assert (Hqd : 0 < q * d) by (now apply Rmult_lt_0_compat).
  set (a := exp (q * d)). assert (A1 : 1 < a) by (unfold a; rewrite <- exp_0; now apply exp_increasing).
  change (stack [RtoC 1; (-1, delta); RtoC 1] [d] nu) with (qs_sample (RtoC 1) [((-1, delta), d)] (RtoC 1) nu).
  assert (E0 : ((-1, delta) : C) <> RtoC 0) by (intros X; apply (f_equal Re) in X; cbn in X; lra).
  assert (N1 : RtoC 1 <> RtoC 0) by (intros X; apply RtoC_inj in X; lra).
  rewrite trans_coef_qs_struct by (repeat constructor; assumption).
  unfold Mqs. cbn [stackM]. unfold Tqs, Pqs. rewrite clipR_id by (rewrite Rabs_pos_eq; lra). fold a. rewrite exp_Ropp. fold a.
  set (w := (1, - delta) : C). assert (W0 : w <> RtoC 0) by (intros X; apply (f_equal Re) in X; cbn in X; lra).
  assert (Ew : ((-1, delta) : C) = (- w)%C) by (unfold w; apply injective_projections; cbn; ring).
  assert (Ho : (- w)%C <> RtoC 0) by (rewrite <- Ew; exact E0).
  set (kk := delta ^ 2 * (a ^ 2 - 1) / 4). assert (Pd : 0 < delta ^ 2) by (apply pow2_gt_0; exact Hdl).
  assert (a * 1 < a * a) by (apply Rmult_lt_compat_l; lra). assert (Pk : 0 < kk) by (unfold kk; apply Rdiv_lt_0_compat; [apply Rmult_lt_0_compat|]; nra).
  set (K := (RtoC kk / w)%C).
  assert (Ra : RtoC a <> RtoC 0) by (intros X; apply RtoC_inj in X; lra).
  assert (Dd : RtoC (delta ^ 2) = (- ((1 - w) * (1 - w)))%C) by (unfold w; apply injective_projections; cbn; ring).
  match goal with |- context [c00 ?M] => replace (c00 M) with ((1 + K) / RtoC a)%C end.
  2:{ cbn [pmul pT pP c00 c01 c10 c11]. rewrite Ew. unfold K, kk. rewrite RtoC_inv by lra. unfold Rdiv. rewrite !RtoC_mult, RtoC_minus, RtoC_inv by lra. rewrite Dd.
      replace (RtoC (a ^ 2)) with (RtoC a * RtoC a)%C by (rewrite <- RtoC_mult; f_equal; ring). replace (RtoC 4) with (2 * 2)%C by (rewrite <- RtoC_mult; f_equal; ring). field. repeat split; auto. }
  assert (S2 : Cmod w = sqrt (1 + delta ^ 2)) by (unfold w, Cmod; cbn [fst snd]; f_equal; ring).
  assert (W1 : 1 <= Cmod w) by (rewrite S2; rewrite <- sqrt_1 at 1; apply sqrt_le_1; lra).
  assert (RK : Re K = kk / (1 + delta ^ 2)) by (unfold K, w; cbn; field; nra).
  assert (PK : 0 < Re K) by (rewrite RK; apply Rdiv_lt_0_compat; lra).
  assert (MK : Cmod K = kk / Cmod w) by (unfold K; rewrite Cmod_div, Cmod_R, Rabs_pos_eq by (auto; lra); reflexivity).
  assert (Q : forall z : C, Cmod z ^ 2 = Re z ^ 2 + Im z ^ 2).
  { intros z. unfold Cmod. rewrite pow2_sqrt by nra. unfold Re, Im. ring. }
  assert (SQ : forall x y, 0 <= y -> x ^ 2 <= y ^ 2 -> x <= y) by (intros x y Hy Hxy; destruct (Rle_dec x y); [assumption|nra]).
  assert (Q1 : Cmod (1 + K)%C ^ 2 = (1 + Re K) ^ 2 + Im K ^ 2) by (rewrite Q; destruct K; cbn; ring).
  assert (B1 : 1 <= Cmod (1 + K)%C) by (apply SQ; [apply Cmod_ge_0|]; rewrite Q1; nra).
  assert (B2 : Cmod K <= Cmod (1 + K)%C) by (apply SQ; [apply Cmod_ge_0|]; rewrite Q1, Q; nra).
  assert (K1 : (1 + K)%C <> RtoC 0) by (apply Cmod_gt_0; lra).
  assert (Z : ((1 + K) / RtoC a)%C <> RtoC 0) by (apply Cdiv_neq_0; assumption).
  unfold rc. rewrite cdiv_ok by exact Z. exists (RtoC a / (1 + K))%C. split; [do 2 f_equal; field; auto|]. cbv zeta.
  assert (P1 : 0 < Cmod (1 + K)%C) by lra. assert (PK0 : 0 < Cmod K) by (rewrite MK; apply Rdiv_lt_0_compat; lra).
  split; [|split].
  - replace (RtoC a / (1 + K) - RtoC a)%C with (- (RtoC a * K / (1 + K)))%C by (field; auto).
    rewrite Cmod_opp, Cmod_div, Cmod_mult, Cmod_R, (Rabs_pos_eq a) by (auto; lra). apply Rle_div_l; [exact P1|].
    assert (Cmod K <= kk) by (rewrite MK; apply Rle_div_l; nra). fold kk. assert (a * Cmod K <= a * kk) by (apply Rmult_le_compat_l; lra).
    assert (kk * a * 1 <= kk * a * Cmod (1 + K)%C) by (apply Rmult_le_compat_l; [apply Rmult_le_pos; lra|exact B1]). lra.
  - rewrite Cmod_div, Cmod_R, (Rabs_pos_eq a) by (auto; lra). apply Rle_div_l; [exact P1|]. assert (a * 1 <= a * Cmod (1 + K)%C) by (apply Rmult_le_compat_l; lra). lra.
  - rewrite Cmod_div, Cmod_R, (Rabs_pos_eq a) by (auto; lra). apply Rle_trans with (a / Cmod K).
    + unfold Rdiv. apply Rmult_le_compat_l; [lra|]. apply Rinv_le_contravar; assumption.
    + rewrite MK, <- S2. apply Req_le. unfold kk. field. repeat split; nra.
Qed.

(** C101, cases: the lens of permittivity -1 in vacuum, 50 nm thick, on glass, on and off a gap of its own thickness. *)
Lemma C101_example_proof : forall nu q, Rabs (q * 50) <= MAX_EXP_ARG ->
  refl_coef_qs (stack [RtoC 1; (- RtoC 1)%C; RtoC 1; RtoC 3] [50; 50] nu) (rr q) = refl_coef_qs (stack [RtoC 1; RtoC 3] [] nu) (rr q) /\
  refl_coef_qs (stack [RtoC 1; (- RtoC 1)%C; RtoC 3] [50] nu) (rr q) = Ok (Some (RtoC (exp (2 * q * 50)) * RtoC (1 / 2))%C) /\
  complement [((2, 1), 10); (RtoC 5, 20)] = [((- 5, - 0), 20); ((- 2, - 1), 10)].
Proof.
  intros nu q Hq. assert (N1 : RtoC 1 <> RtoC 0) by (intros X; apply RtoC_inj in X; lra). assert (N3 : RtoC 3 <> RtoC 0) by (intros X; apply RtoC_inj in X; lra).
  assert (N0 : (- RtoC 1)%C <> RtoC 0) by (intros X; apply N1; replace (RtoC 1) with (- (- RtoC 1))%C by ring; rewrite X; ring).
  split; [|split].
  - pose proof (C101_complementary_proof [RtoC 1] [RtoC 3] [] [] [((- RtoC 1)%C, 50)] nu q eq_refl eq_refl) as H.
    cbn [map fst snd complement rev app] in H. replace (- - RtoC 1)%C with (RtoC 1) in H by ring. apply H. unfold nonzero_below. cbn [tl]. repeat constructor; assumption.
  - destruct (C12_example_proof (rr q)) as [E1 E2].
    assert (B : refl_coef_qs (stack [RtoC 1; RtoC 3] [] nu) (rr q) = Ok (Some (RtoC (1 / 2))) /\ trans_coef_qs (stack [RtoC 1; RtoC 3] [] nu) (rr q) = Ok (Some (RtoC (3 / 2)))) by (split; assumption).
    destruct B as [B1 B2]. apply (C101_lens_amplifies_proof (RtoC 1) [RtoC 3] [] nu 50 q (RtoC (1 / 2)) (RtoC (3 / 2)) eq_refl N1); try assumption. repeat constructor; assumption.
  - reflexivity.
Qed.
