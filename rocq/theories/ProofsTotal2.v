(** * C98: how far a computed signal is from the documented integral (finite dipole model) *)
From Coq Require Import String Reals Lra Lia ZArith List Bool Permutation.
From Coquelicot Require Import Coquelicot.
From Coq Require Import List.
From Verif Require Import Num NumLemmas ModelBase ModelSample ModelTip StackLemmas Spec SpecSampling DemodLemmas ProofsTip ProofsTip3 ProofsTip5
  SpecRound ModelRound ModelRound2 RoundLemmas RoundLemmas2 ProofsPassive ProofsTaylor ProofsDefault ProofsRounding ProofsRounding2 ProofsRounding3
  ProofsSampling3 ProofsSampling5 ProofsTotal.
Import ListNotations.
Open Scope R_scope.

Lemma near_add a x x' y y' : 0 <= x -> 0 <= y -> near a x x' -> near a y y' -> near a (x + y) (x' + y').
Proof.
  unfold near. intros Hx Hy H1 H2. rewrite (Rabs_pos_eq x) in H1 by lra. rewrite (Rabs_pos_eq y) in H2 by lra. rewrite (Rabs_pos_eq (x + y)) by lra.
  replace (x' + y' - (x + y)) with ((x' - x) + (y' - y)) by ring. eapply Rle_trans; [apply Rabs_triang|]. lra.
Qed.
Lemma near_ln a x y : 0 <= a <= 1 / 10 -> 0 < x -> near a x y -> Rabs (ln y - ln x) <= 10 / 9 * a.
Proof.
  intros Ha Hx H. destruct (near_ex _ _ _ (proj1 Ha) H) as (d & D1 & ->). assert (D : - a <= d <= a) by (apply Rabs_le_between; lra).
  rewrite ln_mult by lra. replace (ln x + ln (1 + d) - ln x) with (ln (1 + d)) by ring.
  assert (U : ln (1 + d) <= d). { rewrite <- (ln_exp d) at 2. apply ln_le; [lra|]. apply one_plus_le_exp. }
  assert (Lw : - ln (1 + d) <= / (1 + d) - 1).
  { rewrite <- ln_Rinv by lra. rewrite <- (ln_exp (/ (1 + d) - 1)). assert (0 < / (1 + d)) by (apply Rinv_0_lt_compat; lra).
    apply ln_le; [assumption|]. pose proof (one_plus_le_exp (/ (1 + d) - 1)). lra. }
  assert (I : / (1 + d) - 1 <= 10 / 9 * a).
  { replace (/ (1 + d) - 1) with (- d / (1 + d)) by (field; lra). apply Rle_div_l; [lra|]. nra. }
  apply Rabs_le. lra.
Qed.
(** the logarithm of a computed number, as computed *)
Lemma near_log u m a x y M : rounds u m -> 0 <= u <= / 10 ^ 5 -> 0 <= a <= 1 / 10 -> 0 < x -> near a x y -> Rabs (ln x) <= M ->
  Rabs (a_log m y - ln x) <= 10 / 9 * a + u * (M + 10 / 9 * a).
Proof.
  intros Hm Hu Ha Hx H HM. pose proof (near_ln a x y Ha Hx H) as HL.
  pose proof (near_pos a x y ltac:(lra) Hx H) as Py. pose proof (r_log u m Hm y Py) as HR. unfold near in HR.
  assert (Rabs (ln y) <= M + 10 / 9 * a).
  { replace (ln y) with ((ln y - ln x) + ln x) by ring. eapply Rle_trans; [apply Rabs_triang|]. lra. }
  assert (u * Rabs (ln y) <= u * (M + 10 / 9 * a)) by (apply Rmult_le_compat_l; lra).
  replace (a_log m y - ln x) with ((a_log m y - ln y) + (ln y - ln x)) by ring. eapply Rle_trans; [apply Rabs_triang|]. lra.
Qed.
(** c + k x', x' a computed height *)
Lemma near_height u m k x x' e : rounds u m -> 0 <= u <= / 10 ^ 5 -> 1 <= k <= 4 -> 0 <= x -> Rabs (x' - x) <= e * u * r0 -> 1 <= e <= 200 ->
  near ((k * e + 12 / 10) * u) (r0 + k * x) (a_add m r0 (a_mul m k x')).
Proof.
  intros Hm [Hu Hu1] Hk Hx Hx' He. assert (P : 0 < r0) by (unfold r0; lra).
  assert (U2 : 0 <= u * u <= / 10 ^ 5 * u) by (split; [apply Rmult_le_pos; lra|apply Rmult_le_compat_r; lra]).
  assert (KX : Rabs (k * x' - k * x) <= k * e * u * r0).
  { replace (k * x' - k * x) with (k * (x' - x)) by ring. rewrite Rabs_mult, (Rabs_pos_eq k) by lra.
    replace (k * e * u * r0) with (k * (e * u * r0)) by ring. apply Rmult_le_compat_l; lra. }
  pose proof (r_mul u m Hm k x') as M1. unfold near in M1.
  assert (KE : 0 <= k * e <= 800) by nra.
  assert (UR : 0 <= u * r0) by (apply Rmult_le_pos; lra).
  assert (W : k * e * u * r0 <= 800 * (u * r0)) by (replace (k * e * u * r0) with (k * e * (u * r0)) by ring; apply Rmult_le_compat_r; lra).
  assert (KX0 : 0 <= k * x) by (apply Rmult_le_pos; lra).
  assert (A1 : Rabs (k * x') <= k * x + 800 * (u * r0)).
  { replace (k * x') with ((k * x' - k * x) + k * x) by ring. eapply Rle_trans; [apply Rabs_triang|]. rewrite (Rabs_pos_eq (k * x)) by lra. lra. }
  assert (A2 : u * Rabs (k * x') <= u * (k * x) + 8 / 1000 * (u * r0)).
  { apply Rle_trans with (u * (k * x + 800 * (u * r0))); [apply Rmult_le_compat_l; lra|]. 
    replace (u * (k * x + 800 * (u * r0))) with (u * (k * x) + 800 * (u * u * r0)) by ring.
    assert (u * u * r0 <= / 10 ^ 5 * u * r0) by (apply Rmult_le_compat_r; lra). lra. }
  assert (N1 : near ((k * e + 1 / 100) * u) (r0 + k * x) (r0 + a_mul m k x')).
  { unfold near. rewrite (Rabs_pos_eq (r0 + k * x)) by lra.
    replace (r0 + a_mul m k x' - (r0 + k * x)) with ((a_mul m k x' - k * x') + (k * x' - k * x)) by ring.
    eapply Rle_trans; [apply Rabs_triang|].
    assert (X : 0 <= (k * e - 1) * (u * (k * x))).
    { apply Rmult_le_pos; [nra|]. apply Rmult_le_pos; lra. }
    assert (0 <= u * (k * x)) by (apply Rmult_le_pos; lra).
    replace ((k * e + 1 / 100) * u * (r0 + k * x)) with (k * e * u * r0 + 1 / 100 * (u * r0) + ((k * e - 1) * (u * (k * x)) + (1 + 1 / 100) * (u * (k * x)))) by field.
    lra. }
  eapply near_le; [|eapply near_trans; [exact Hu|exact N1|apply (r_add u m Hm)]].
  assert ((k * e + 1 / 100) * u * u <= 801 * (u * u)) by (rewrite Rmult_assoc; apply Rmult_le_compat_r; lra). lra.
Qed.

Lemma ln60_range : 3 <= ln 60 <= 441 / 100.
Proof.
  pose proof ln30_le. split.
  - rewrite <- (ln_exp 3). apply ln_le; [apply exp_pos|]. replace 3 with (1 + (1 + 1)) by ring. rewrite !exp_plus. pose proof exp_le_3. pose proof (exp_pos 1).
    assert (exp 1 * exp 1 <= 3 * 3) by (apply Rmult_le_compat; lra). assert (exp 1 * (exp 1 * exp 1) <= 3 * (3 * 3)) by (apply Rmult_le_compat; nra). lra.
  - rewrite ln60_split. assert (ln 2 <= 1); [|lra]. rewrite <- (ln_exp 1). apply ln_le; [lra|]. pose proof (one_plus_le_exp 1). lra.
Qed.

Lemma fdm_geom_near u (m : machine) x x' d d' : rounds u m -> 0 <= u <= / 10 ^ 5 -> 0 <= x <= 280 / 10 ^ 9 -> Rabs (x' - x) <= 129 * u * r0 ->
  1 / 2 <= d <= 116 / 100 -> near (6 * u) d d' ->
  Cmod (k_fdm_geom_func m x' d' r0 L0 g0 - fdm_f x d r0 L0 g0)%C <= 500 * u.
Proof.
  intros Hm Hu0 Hx Hx' Hd Hd'. pose proof Hu0 as [Hu Hu1]. assert (P : 0 < r0) by (unfold r0; lra). assert (PL : 0 < L0) by (unfold L0; lra).
  assert (U2 : 0 <= u * u <= / 10 ^ 5 * u) by (split; [apply Rmult_le_pos; lra|apply Rmult_le_compat_r; lra]).
  assert (NR : near 0 r0 r0) by (unfold near; rewrite Rminus_eq_0, Rabs_R0; lra).
  assert (NL : near 0 L0 L0) by (unfold near; rewrite Rminus_eq_0, Rabs_R0; lra).
  (* the linear factor *)
  pose proof (near_height u m 2 x x' 129 Hm Hu0 ltac:(lra) (proj1 Hx) Hx' ltac:(lra)) as H2.
  assert (HD : near (71 / 10 * u) (d * r0) (a_mul m d' r0)).
  { eapply near_le; [|eapply near_trans; [exact Hu|apply (near_mul (6 * u) 0 _ _ _ _ ltac:(lra) (Rle_refl 0) Hd' NR)|apply (r_mul u m Hm)]]. lra. }
  assert (S1 : near (260 * u) (r0 + 2 * x + d * r0) (a_add m r0 (a_mul m 2 x') + a_mul m d' r0)).
  { apply near_add; [lra|apply Rmult_le_pos; lra|eapply near_le; [|exact H2]; lra|eapply near_le; [|exact HD]; lra]. }
  assert (S2 : near (2611 / 10 * u) (r0 + 2 * x + d * r0) (a_add m (a_add m r0 (a_mul m 2 x')) (a_mul m d' r0))).
  { eapply near_le; [|eapply near_trans; [exact Hu|exact S1|apply (r_add u m Hm)]]. lra. }
  assert (N2 : near 0 2 2) by (unfold near; rewrite Rminus_eq_0, Rabs_R0; lra).
  assert (N4 : near 0 4 4) by (unfold near; rewrite Rminus_eq_0, Rabs_R0; lra).
  assert (DEN2 : near u (2 * L0) (a_mul m 2 L0)) by apply (r_mul u m Hm).
  pose proof (near_div (2611 / 10 * u) u _ _ (2 * L0) _ ltac:(lra) ltac:(lra) ltac:(lra) S2 DEN2) as S3.
  assert (S4 : near (293 * u) ((r0 + 2 * x + d * r0) / (2 * L0)) (a_div m (a_add m (a_add m r0 (a_mul m 2 x')) (a_mul m d' r0)) (a_mul m 2 L0))).
  { eapply near_le; [|eapply near_trans; [exact Hu|exact S3|apply (r_div u m Hm)]].
    - lra.
    - pose proof (near_pos u (2 * L0) _ ltac:(lra) ltac:(lra) DEN2). lra. }
  set (c := (r0 + 2 * x + d * r0) / (2 * L0)) in *.
  set (c' := a_div m (a_add m (a_add m r0 (a_mul m 2 x')) (a_mul m d' r0)) (a_mul m 2 L0)) in *.
  assert (C1 : 5 / 100 <= c <= 101 / 100) by (unfold c, r0, L0; split; [apply Rle_div_r; lra|apply Rle_div_l; lra]).
  assert (S5 : Cmod (RtoC c' - RtoC c)%C <= 296 * u).
  { rewrite <- RtoC_minus, Cmod_R. unfold near in S4. rewrite (Rabs_pos_eq c) in S4 by lra. eapply Rle_trans; [exact S4|]. assert (u * c <= u * (101 / 100)) by (apply Rmult_le_compat_l; lra). lra. }
  pose proof (g0_dist c C1) as BG.
  assert (G1 : Cmod ((g0 - RtoC c') - (g0 - RtoC c))%C <= 296 * u) by (replace ((g0 - RtoC c') - (g0 - RtoC c))%C with (- (RtoC c' - RtoC c))%C by ring; now rewrite Cmod_opp).
  pose proof (Cmod_near_upper _ _ _ G1) as BG1.
  pose proof (ksub_near u m Hu Hm g0 (RtoC c')) as G2. unfold cnear in G2.
  assert (G2' : Cmod (ksub m g0 (RtoC c') - (g0 - RtoC c'))%C <= 7 / 10 * u).
  { eapply Rle_trans; [exact G2|]. rewrite Rmult_comm. apply Rmult_le_compat_r; lra. }
  pose proof (Cmod_chain _ _ _ _ _ G1 G2') as G3. set (G := (g0 - RtoC c)%C) in *. set (G' := ksub m g0 (RtoC c')) in *.
  pose proof (Cmod_near_upper _ _ _ G3) as BG'.
  (* the logarithm *)
  pose proof (near_height u m 4 x x' 129 Hm Hu0 ltac:(lra) (proj1 Hx) Hx' ltac:(lra)) as H4.
  assert (HE0 : near (71 / 10 * u) (2 * d) (a_mul m 2 d')).
  { eapply near_le; [|eapply near_trans; [exact Hu|apply (near_mul 0 (6 * u) _ _ _ _ (Rle_refl 0) ltac:(lra) N2 Hd')|apply (r_mul u m Hm)]]. lra. }
  assert (HE : near (82 / 10 * u) (2 * d * r0) (a_mul m (a_mul m 2 d') r0)).
  { eapply near_le; [|eapply near_trans; [exact Hu|apply (near_mul (71 / 10 * u) 0 _ _ _ _ ltac:(lra) (Rle_refl 0) HE0 NR)|apply (r_mul u m Hm)]]. lra. }
  assert (DR : 0 <= 2 * d * r0) by (apply Rmult_le_pos; lra).
  assert (T1 : near (518 * u) (r0 + 4 * x + 2 * d * r0) (a_add m r0 (a_mul m 4 x') + a_mul m (a_mul m 2 d') r0)).
  { apply near_add; [lra|exact DR|eapply near_le; [|exact H4]; lra|eapply near_le; [|exact HE]; lra]. }
  assert (T2 : near (520 * u) (r0 + 4 * x + 2 * d * r0) (a_add m (a_add m r0 (a_mul m 4 x')) (a_mul m (a_mul m 2 d') r0))).
  { eapply near_le; [|eapply near_trans; [exact Hu|exact T1|apply (r_add u m Hm)]]. lra. }
  assert (F4 : near u (4 * L0) (a_mul m 4 L0)) by apply (r_mul u m Hm).
  assert (PX : 0 < r0 + 4 * x + 2 * d * r0) by lra.
  pose proof (near_div u (520 * u) _ _ _ _ Hu ltac:(lra) PX F4 T2) as T3.
  set (X' := a_add m (a_add m r0 (a_mul m 4 x')) (a_mul m (a_mul m 2 d') r0)) in *.
  pose proof (near_pos (520 * u) _ _ ltac:(lra) PX T2) as PX'.
  set (R := 4 * L0 / (r0 + 4 * x + 2 * d * r0)) in *.
  assert (T4 : near (580 * u) R (a_div m (a_mul m 4 L0) X')).
  { eapply near_le; [|eapply near_trans; [exact Hu|exact T3|apply (r_div u m Hm); lra]]. lra. }
  assert (R1 : 1 <= R <= 30) by (unfold R, r0, L0; split; [apply Rle_div_r; unfold r0 in *; lra|apply Rle_div_l; unfold r0 in *; lra]).
  assert (LR : 0 <= ln R <= 341 / 100).
  { split; [rewrite <- ln_1; apply ln_le; lra|]. apply Rle_trans with (ln 30); [apply ln_le; lra|exact ln30_le]. }
  pose proof (near_log u m (580 * u) R _ (341 / 100) Hm Hu0 ltac:(lra) ltac:(lra) T4 ltac:(rewrite Rabs_pos_eq; lra)) as T5.
  set (l' := a_log m (a_div m (a_mul m 4 L0) X')) in *.
  assert (T6 : Cmod (RtoC l' - RtoC (ln R))%C <= 6481 / 10 * u) by (rewrite <- RtoC_minus, Cmod_R; lra).
  assert (BL : Cmod (RtoC (ln R)) <= 341 / 100) by (rewrite Cmod_R, Rabs_pos_eq; lra).
  (* the normalisation *)
  assert (V1 : near (212 / 100 * u) (4 * L0 / r0) (a_div m (a_mul m 4 L0) r0)).
  { eapply near_le; [|eapply near_trans; [exact Hu|apply (near_div u 0 _ _ _ _ Hu ltac:(lra) P F4 NR)|apply (r_div u m Hm); lra]]. lra. }
  assert (E60 : 4 * L0 / r0 = 60) by (unfold L0, r0; field). rewrite E60 in V1.
  pose proof ln60_range as L60.
  pose proof (near_log u m (212 / 100 * u) 60 _ (441 / 100) Hm Hu0 ltac:(lra) ltac:(lra) V1 ltac:(rewrite Rabs_pos_eq; lra)) as V2.
  set (M' := a_log m (a_div m (a_mul m 4 L0) r0)) in *.
  assert (V3 : Cmod (RtoC M' - RtoC (ln 60))%C <= 7 * u) by (rewrite <- RtoC_minus, Cmod_R; lra).
  assert (B60 : 3 <= Cmod (RtoC (ln 60))) by (rewrite Cmod_R, Rabs_pos_eq; lra).
  pose proof (Cmod_near_lower _ _ _ V3) as BM.
  (* the product and the quotient *)
  pose proof (prod_err _ _ _ _ _ _ _ _ G3 T6 ltac:(apply Rle_trans with (656 / 1000); [lra|apply Rle_refl]) BL) as Q1.
  assert (BP : Cmod (G * RtoC (ln R))%C <= 2224 / 1000).
  { rewrite Cmod_mult. eapply Rle_trans; [apply Rmult_le_compat; [apply Cmod_ge_0|apply Cmod_ge_0|exact BG|exact BL]|lra]. }
  pose proof (Cmod_near_upper _ _ _ Q1) as BP1.
  pose proof (kmul_near u m Hu ltac:(lra) Hm G' (RtoC l')) as Q2. unfold cnear in Q2.
  assert (Q2' : Cmod (kmul m G' (RtoC l') - G' * RtoC l')%C <= 10 * u).
  { eapply Rle_trans; [exact Q2|]. assert (u * Cmod (G' * RtoC l')%C <= u * (25 / 10)) by (apply Rmult_le_compat_l; lra). lra. }
  pose proof (Cmod_chain _ _ _ _ _ Q1 Q2') as Q3.
  destruct (quot_err _ _ _ _ _ _ 3 (299 / 100) (2224 / 1000) Q3 V3 ltac:(lra) B60 ltac:(lra) ltac:(lra) BP) as [NM Q4].
  pose proof (kdiv_near u m Hu ltac:(lra) Hm (kmul m G' (RtoC l')) (RtoC M') NM) as Q5. unfold cnear in Q5.
  assert (Q4' : Cmod (kmul m G' (RtoC l') / RtoC M' - G * RtoC (ln R) / RtoC (ln 60))%C <= 488 * u).
  { eapply Rle_trans; [exact Q4|]. unfold Rdiv. rewrite !Rinv_mult. lra. }
  assert (BQ : Cmod (G * RtoC (ln R) / RtoC (ln 60))%C <= 75 / 100).
  { assert (N60 : RtoC (ln 60) <> RtoC 0) by (apply RtoC_neq_0; lra). rewrite Cmod_div by exact N60. apply Rle_div_l; [lra|]. lra. }
  pose proof (Cmod_near_upper _ _ _ Q4') as BQ'.
  assert (Q5' : Cmod (kdiv m (kmul m G' (RtoC l')) (RtoC M') - kmul m G' (RtoC l') / RtoC M')%C <= 10 * u).
  { eapply Rle_trans; [exact Q5|]. assert (u * Cmod (kmul m G' (RtoC l') / RtoC M')%C <= u * (76 / 100)) by (apply Rmult_le_compat_l; lra). lra. }
  pose proof (Cmod_chain _ _ _ _ _ Q4' Q5') as Q6.
  replace (fdm_f x d r0 L0 g0) with (G * RtoC (ln R) / RtoC (ln 60))%C.
  - eapply Rle_trans; [exact Q6|]. lra.
  - unfold fdm_f. rewrite E60. replace (r0 + 4 * x + 2 * r0 * d) with (r0 + 4 * x + 2 * d * r0) by ring. fold R. replace (r0 + 2 * x + r0 * d) with (r0 + 2 * x + d * r0) by ring. fold c G.
    rewrite RtoC_div by lra. unfold Cdiv. ring.
Qed.

Definition d00 := 131 / 100 * L0 / (L0 + 2 * r0).
Lemma d00_range : 1 / 2 <= d00 <= 116 / 100.
Proof. unfold d00, L0, r0; split; [apply Rle_div_r; lra|apply Rle_div_l; lra]. Qed.
Lemma d00_near u m : rounds u m -> 0 <= u <= / 10 ^ 5 ->
  near (6 * u) d00 (a_div m (a_mul m (a_lit m (131 / 100)) L0) (a_add m L0 (a_mul m 2 r0))).
Proof.
  intros Hm [Hu Hu1]. assert (P : 0 < r0) by (unfold r0; lra). assert (PL : 0 < L0) by (unfold L0; lra).
  assert (U2 : 0 <= u * u <= / 10 ^ 5 * u) by (split; [apply Rmult_le_pos; lra|apply Rmult_le_compat_r; lra]).
  assert (NL : near 0 L0 L0) by (unfold near; rewrite Rminus_eq_0, Rabs_R0; lra).
  assert (N1 : near (201 / 100 * u) (131 / 100 * L0) (a_mul m (a_lit m (131 / 100)) L0)).
  { eapply near_le; [|eapply near_trans; [exact Hu|apply (near_mul u 0 _ _ _ _ Hu (Rle_refl 0) (r_lit u m Hm _) NL)|apply (r_mul u m Hm)]]. lra. }
  assert (N2 : near u (L0 + 2 * r0) (L0 + a_mul m 2 r0)).
  { apply near_add; [lra|lra|eapply near_le; [|exact NL]; lra|apply (r_mul u m Hm)]. }
  assert (N3 : near (201 / 100 * u) (L0 + 2 * r0) (a_add m L0 (a_mul m 2 r0))).
  { eapply near_le; [|eapply near_trans; [exact Hu|exact N2|apply (r_add u m Hm)]]. lra. }
  assert (PD : 0 < L0 + 2 * r0) by lra.
  pose proof (near_pos (201 / 100 * u) _ _ ltac:(lra) PD N3) as PD'.
  eapply near_le; [|eapply near_trans; [exact Hu|apply (near_div (201 / 100 * u) (201 / 100 * u) _ _ _ _ ltac:(lra) ltac:(lra) PD N1 N3)|apply (r_div u m Hm); lra]].
  lra.
Qed.

Lemma fdm_point u (m : machine) x x' d0' (beta b' : C) delta : rounds u m -> 0 <= u <= / 10 ^ 5 -> 0 <= x <= 280 / 10 ^ 9 -> Rabs (x' - x) <= 129 * u * r0 ->
  near (6 * u) d00 d0' -> Cmod beta <= 101 / 100 -> Cmod (b' - beta)%C <= delta -> delta <= 1 / 100 ->
  let f0 := fdm_f x d00 r0 L0 g0 in let f1 := fdm_f x (5 / 10) r0 L0 g0 in
  let v := (1 + beta * f0 / (2 * (1 - beta * f1)))%C in
  (2 * (1 - beta * f1) <> 0)%C /\ Cmod v <= 162 / 100 /\
  Cmod (k_fdm_alpha m b' b' (k_fdm_geom_func m x' d0' r0 L0 g0) (k_fdm_geom_func m x' (5 / 10) r0 L0 g0) - v)%C <= 1350 * u + 142 / 100 * delta.
Proof.
  intros Hm Hu0 Hx Hx' Hd0 Hb Hb' Hd f0 f1 v. pose proof Hu0 as [Hu Hu1].
  assert (D0 : 0 <= delta) by (eapply Rle_trans; [apply Cmod_ge_0|exact Hb']).
  assert (N5 : near (6 * u) (5 / 10) (5 / 10)) by (unfold near; rewrite Rminus_eq_0, Rabs_R0; apply Rmult_le_pos; [lra|apply Rabs_pos]).
  pose proof (fdm_geom_near u m x x' d00 d0' Hm Hu0 Hx Hx' d00_range Hd0) as F0.
  pose proof (fdm_geom_near u m x x' (5 / 10) (5 / 10) Hm Hu0 Hx Hx' ltac:(lra) N5) as F1.
  destruct (fdm_f_default x d00 Hx d00_range) as [_ B0]. destruct (fdm_f_default x (5 / 10) Hx ltac:(lra)) as [_ B1].
  fold f0 in F0, B0. fold f1 in F1, B1.
  set (f0' := k_fdm_geom_func m x' d0' r0 L0 g0) in *. set (f1' := k_fdm_geom_func m x' (5 / 10) r0 L0 g0) in *.
  pose proof (Cmod_near_upper _ _ _ Hb') as BB.
  assert (MB : forall w, Cmod w <= 548 / 1000 -> Cmod (beta * w)%C <= 5535 / 10000).
  { intros w Hw. rewrite Cmod_mult. eapply Rle_trans; [apply Rmult_le_compat; [apply Cmod_ge_0|apply Cmod_ge_0|exact Hb|exact Hw]|lra]. }
  assert (PR : forall w w', Cmod w <= 548 / 1000 -> Cmod (w' - w)%C <= 500 * u -> Cmod (kmul m b' w' - beta * w)%C <= 5123 / 10 * u + 548 / 1000 * delta).
  { intros w w' Hw Hw'. pose proof (prod_err _ _ _ _ _ _ _ _ Hb' Hw' ltac:(apply Rle_trans with (102 / 100); [lra|apply Rle_refl]) Hw) as E.
    pose proof (Cmod_near_upper _ _ _ E) as M1. pose proof (MB w Hw) as M2.
    pose proof (kmul_near u m Hu ltac:(lra) Hm b' w') as K. unfold cnear in K.
    eapply Rle_trans; [exact (Cmod_chain _ _ _ _ _ E K)|].
    assert (u * Cmod (b' * w')%C <= u * (57 / 100)) by (apply Rmult_le_compat_l; lra). lra. }
  pose proof (PR f0 f0' B0 F0) as P0. pose proof (PR f1 f1' B1 F1) as P1. pose proof (MB f0 B0) as M0. pose proof (MB f1 B1) as M1.
  set (k0 := kmul m b' f0') in *. set (k1 := kmul m b' f1') in *.
  assert (E1 : Cmod ((1 - k1) - (1 - beta * f1))%C <= 5123 / 10 * u + 548 / 1000 * delta).
  { replace ((1 - k1) - (1 - beta * f1))%C with (- (k1 - beta * f1))%C by ring. now rewrite Cmod_opp. }
  assert (MD : Cmod (1 - beta * f1)%C <= 15535 / 10000).
  { unfold Cminus. eapply Rle_trans; [apply Cmod_triangle|]. rewrite Cmod_opp, Cmod_1. lra. }
  assert (LD : 4465 / 10000 <= Cmod (1 - beta * f1)%C).
  { pose proof (Cmod_near_lower (RtoC 1) (1 - beta * f1)%C (5535 / 10000)) as X. rewrite Cmod_1 in X.
    replace (1 - beta * f1 - RtoC 1)%C with (- (beta * f1))%C in X by ring. rewrite Cmod_opp in X. specialize (X M1). lra. }
  pose proof (Cmod_near_upper _ _ _ E1) as MD1.
  pose proof (ksub_near u m Hu Hm (RtoC 1) k1) as K2. unfold cnear in K2. change (RtoC 1 - k1)%C with (1 - k1)%C in K2.
  assert (K2' : Cmod (ksub m (RtoC 1) k1 - (1 - k1))%C <= 16 / 10 * u) by (eapply Rle_trans; [exact K2|]; rewrite Rmult_comm; apply Rmult_le_compat_r; lra).
  pose proof (Cmod_chain _ _ _ _ _ E1 K2') as E2. set (s1 := ksub m (RtoC 1) k1) in *.
  assert (E3 : Cmod (2 * s1 - 2 * (1 - beta * f1))%C <= 10278 / 10 * u + 1096 / 1000 * delta).
  { replace (2 * s1 - 2 * (1 - beta * f1))%C with (2 * (s1 - (1 - beta * f1)))%C by ring. rewrite Cmod_mult, Cmod_R, Rabs_pos_eq by lra. lra. }
  assert (C2 : Cmod (RtoC 2) = 2) by (rewrite Cmod_R, Rabs_pos_eq; lra).
  assert (MD2 : Cmod (2 * (1 - beta * f1))%C <= 3107 / 1000) by (rewrite Cmod_mult, C2; lra).
  assert (LD2 : 893 / 1000 <= Cmod (2 * (1 - beta * f1))%C) by (rewrite Cmod_mult, C2; lra).
  pose proof (Cmod_near_upper _ _ _ E3) as MD3.
  pose proof (kmul_near u m Hu ltac:(lra) Hm (RtoC 2) s1) as K4. unfold cnear in K4.
  assert (K4' : Cmod (kmul m (RtoC 2) s1 - 2 * s1)%C <= 13 * u).
  { eapply Rle_trans; [exact K4|]. assert (u * Cmod (RtoC 2 * s1)%C <= u * (313 / 100)) by (apply Rmult_le_compat_l; lra). lra. }
  pose proof (Cmod_chain _ _ _ _ _ E3 K4') as E4. set (dk := kmul m (RtoC 2) s1) in *.
  pose proof (Cmod_near_lower _ _ _ E4) as LK.
  destruct (quot_err _ _ _ _ _ _ (893 / 1000) (87 / 100) (5535 / 10000) P0 E4 ltac:(lra) LD2 ltac:(lra) ltac:(lra) M0) as [ND Q].
  assert (N0 : (2 * (1 - beta * f1) <> 0)%C) by (apply Cmod_gt_0; lra). split; [exact N0|].
  assert (MQ : Cmod (beta * f0 / (2 * (1 - beta * f1)))%C <= 62 / 100).
  { rewrite Cmod_div by exact N0. apply Rle_div_l; [lra|]. lra. }
  split. { unfold v. eapply Rle_trans; [apply Cmod_triangle|]. rewrite Cmod_1. lra. }
  assert (Q' : Cmod (k0 / dk - beta * f0 / (2 * (1 - beta * f1)))%C <= 13321 / 10 * u + 1412 / 1000 * delta).
  { eapply Rle_trans; [exact Q|]. unfold Rdiv. rewrite !Rinv_mult. lra. }
  pose proof (Cmod_near_upper _ _ _ Q') as MQ'.
  pose proof (kdiv_near u m Hu ltac:(lra) Hm k0 dk ND) as K5. unfold cnear in K5.
  assert (K5' : Cmod (kdiv m k0 dk - k0 / dk)%C <= 9 * u).
  { eapply Rle_trans; [exact K5|]. assert (u * Cmod (k0 / dk)%C <= u * (66 / 100)) by (apply Rmult_le_compat_l; lra). lra. }
  pose proof (Cmod_chain _ _ _ _ _ Q' K5') as E5. set (q := kdiv m k0 dk) in *.
  assert (E6 : Cmod ((1 + q) - v)%C <= 13411 / 10 * u + 1412 / 1000 * delta).
  { unfold v. replace ((1 + q) - (1 + beta * f0 / (2 * (1 - beta * f1))))%C with (q - beta * f0 / (2 * (1 - beta * f1)))%C by ring. eapply Rle_trans; [exact E5|]. lra. }
  pose proof (Cmod_near_upper _ _ _ E5) as MQ2.
  pose proof (kadd_near u m Hu Hm (RtoC 1) q) as K6. unfold cnear in K6. change (RtoC 1 + q)%C with (1 + q)%C in K6.
  assert (M6 : Cmod (1 + q)%C <= 166 / 100) by (eapply Rle_trans; [apply Cmod_triangle|]; rewrite Cmod_1; lra).
  assert (K6' : Cmod (kadd m (RtoC 1) q - (1 + q))%C <= 166 / 100 * u) by (eapply Rle_trans; [exact K6|]; rewrite Rmult_comm; apply Rmult_le_compat_r; lra).
  unfold k_fdm_alpha. fold k0 k1 s1 dk q. eapply Rle_trans; [exact (Cmod_chain _ _ _ _ _ E6 K6')|]. lra.
Qed.

(** C98. The default finite-dipole signal as computed: on any machine of relative precision u, adding in any order,
    fdm.eff_pol_n with the default tip and 32 samples is within 2 10^-5 + 3800 u + 3 delta of the documented integral, where
    delta is the error of the computed reflection coefficient. *)
Lemma C98_fdm_total_proof : forall u (m : machine) (laggauss : laggauss_t) (e0 e1 b : C) nu (delta A_tip z : R) (n : Z) d_Qa n_lag,
  let s := stack [e0; e1] [] nu in let beta := ((e1 - e0) / (e1 + e0))%C in
  let r := 20 / 10 ^ 9 in let L := 300 / 10 ^ 9 in let g := Cmult (RtoC (7 / 10)) (Cexp (0, 6 / 100)) in
  let f := fun d x => fdm_f x d r L g in
  rounding u m -> 0 <= u <= / 10 ^ 5 ->
  k_refl_coef_qs m s 0 = Ok b -> Cmod (b - beta)%C <= delta -> delta <= 1 / 100 ->
  e1 <> RtoC 0 -> (e0 + e1 <> 0)%C -> Cmod beta <= 101 / 100 -> (Z.abs n <= 4)%Z ->
  0 <= z -> 0 < A_tip <= 30 / 10 ^ 9 -> z + 2 * A_tip <= 280 / 10 ^ 9 ->
  exists w : C,
    k_fdm_eff_pol_n m laggauss defaults0 s A_tip n (Some z) None None None None None None d_Qa n_lag None = Ok w /\
    Cmod (w - fourier_coefficient (fun x => 1 + beta * f (131 / 100 * L / (L + 2 * r))%R x / (2 * (1 - beta * f (5 / 10)%R x)))%C
                (z + A_tip) A_tip n)%C <= 2 / 10 ^ 5 + 3800 * u + 3 * delta.
Proof.
  intros u m lg e0 e1 b nu delta A z n d_Qa n_lag s beta r L g f Hm Hu Hk Hd Hd1 H1 Hs Hb Hn Hz HA Hzm.
  destruct (C80_fdm_default_proof lg e0 e1 nu A z n d_Qa n_lag H1 Hs Hb Hn Hz HA Hzm) as (v & Ev & Bv).
  fold s beta in Ev, Bv. change (20 / 10 ^ 9) with r0 in Bv. change (300 / 10 ^ 9) with L0 in Bv. change (Cmult (RtoC (7 / 10)) (Cexp (0, 6 / 100))) with g0 in Bv.
  unfold f. change r with r0 in *. change L with L0 in *. change g with g0 in *. clear f g L r.
  change (131 / 100 * L0 / (L0 + 2 * r0)) with d00 in *.
  set (G := fun x => (1 + beta * fdm_f x d00 r0 L0 g0 / (2 * (1 - beta * fdm_f x (5 / 10) r0 L0 g0)))%C) in *.
  set (d0' := a_div m (a_mul m (a_lit m (131 / 100)) L0) (a_add m L0 (a_mul m 2 r0))).
  assert (Hq : refl_coef_qs s (rr 0) = Ok (Some beta)) by (now apply bulk_qs).
  assert (P : 0 < r0) by (unfold r0; lra).
  destruct (demod_within defaults0 u m (fun x => fdm_eff_pol lg defaults0 s (Some x) None None None None None d_Qa n_lag None) G
     (fun x => k_fdm_eff_pol m lg defaults0 s x None None None None None d_Qa n_lag None)
     (fun x => k_fdm_alpha m b b (k_fdm_geom_func m x d0' r0 L0 g0) (k_fdm_geom_func m x (5 / 10) r0 L0 g0))
     z A n (162 / 100) (1350 * u + 142 / 100 * delta) Hm ltac:(lra) eq_refl Hn Hz (proj1 HA)) as (v' & w & Ew & Ev' & Bw).
  - intros x Hx. assert (X0 : Rabs (x - x) <= 129 * u * r0) by (rewrite Rminus_eq_0, Rabs_R0; apply Rmult_le_pos; lra).
    destruct (fdm_point u m x x d0' beta b delta (proj1 Hm) Hu ltac:(lra) X0 (d00_near u m (proj1 Hm) Hu) Hb Hd Hd1) as (N & B & _).
    split; [|exact B].
    change (fdm_eff_pol lg defaults0 s (Some x) None None None None None d_Qa n_lag (Some "bulk"%string) = Ok (Some (G x))).
    rewrite (bulk_eff_pol lg defaults0 s (Some x) None None None None None d_Qa n_lag beta eq_refl Hq);
      cbn [given_or defaults0 d_r_tip d_L_tip d_g_factor d_d_Q1]; change (20 / 10 ^ 9) with r0; change (300 / 10 ^ 9) with L0;
      change (Cmult (RtoC (7 / 10)) (Cexp (0, 6 / 100))) with g0; change (131 / 100 * L0 / (L0 + 2 * r0)) with d00.
    + rewrite cdiv_ok by exact N. reflexivity.
    + apply fdm_f_default; [lra|exact d00_range].
    + apply fdm_f_default; [lra|lra].
  - intros x. unfold k_fdm_eff_pol, k_fdm_defaults. cbn [multilayer String.eqb Ascii.eqb Bool.eqb]. 
    change (multilayer s) with false. cbn [String.eqb Ascii.eqb Bool.eqb]. rewrite Hk. reflexivity.
  - intros x x' Hx Hx'. destruct (fdm_point u m x x' d0' beta b delta (proj1 Hm) Hu ltac:(lra)) as (_ & _ & B); auto.
    + eapply Rle_trans; [exact Hx'|]. replace (129 * u * r0) with (u * (129 * r0)) by ring. apply Rmult_le_compat_l; [lra|]. unfold r0. lra.
    + apply (d00_near u m (proj1 Hm) Hu).
  - exists w. split; [exact Ew|]. unfold fdm_eff_pol_n in Ev. cbn [dflt] in Ev. rewrite Ev' in Ev. injection Ev as ->.
    eapply Rle_trans; [exact (Cmod_chain _ _ _ _ _ Bv Bw)|].
    assert (0 <= delta) by (eapply Rle_trans; [apply Cmod_ge_0|exact Hd]). lra.
Qed.
