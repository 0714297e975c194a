(** * Proofs: the default number of samples for the default finite-dipole tip (C80) *)
From Coq Require Import String Reals Lra Lia ZArith List Bool.
From Coquelicot Require Import Coquelicot.
From Coq Require Import List.
From Verif Require Import Num NumLemmas LimLemmas ModelBase ModelSample ModelTip StackLemmas Spec SpecSampling
  ProofsStackQS ProofsStackQS2 ProofsBulkFF ProofsSym ProofsPassive DemodLemmas ProofsDemod ProofsTip ProofsTip2 ProofsTip3 ProofsTaylor
  ProofsDefault ProofsSampling ProofsSampling4.
Import ListNotations.
Open Scope R_scope.

Lemma joukowski a : 1 < a -> exists w, 0 < w < 1 /\ a = (w + / w) / 2.
Proof.
  intros Ha. set (q := sqrt (a ^ 2 - 1)). assert (P : 0 < a ^ 2 - 1) by nra.
  assert (Q : q * q = a ^ 2 - 1) by (apply sqrt_sqrt; lra). assert (Q0 : 0 < q) by now apply sqrt_lt_R0.
  assert (QA : q < a) by nra. exists (a - q).
  assert (I : / (a - q) = a + q) by (apply (Rmult_eq_reg_l (a - q)); [rewrite Rinv_r by lra; nra|lra]).
  split; [split; nra|]. rewrite I. field.
Qed.
Lemma w_small a w : 0 < w < 1 -> a = (w + / w) / 2 -> 4 / 3 <= a -> w <= 452 / 1000.
Proof.
  intros Hw E Ha. assert (B : 8 / 3 * w <= w ^ 2 + 1).
  { apply Rle_trans with (2 * a * w); [apply Rmult_le_compat_r; lra|]. rewrite E. right. field. lra. }
  apply Rnot_lt_le. intros L. assert (0 < (w - 452 / 1000) * (1 - w)) by (apply Rmult_lt_0_compat; lra). nra.
Qed.
Lemma ln_117 : ln (117612 / 1000) <= 7 / 6 * ln 60.
Proof.
  assert (E : 6 * ln (117612 / 1000) <= 7 * ln 60); [|lra].
  replace 6 with (INR 6) by (cbn; lra). replace 7 with (INR 7) by (cbn; lra).
  rewrite <- !ln_pow by lra. apply ln_le; [apply pow_lt; lra|]. cbn [pow]. lra.
Qed.
Lemma g0_parts : 6987 / 10000 <= Re g0 <= 7 / 10 /\ Rabs (Im g0) <= 42 / 1000.
Proof.
  unfold g0, Cexp, Cmult, RtoC, Re, Im. cbn [fst snd]. rewrite exp_0. pose proof cos_006. pose proof (COS_bound (6 / 100)) as [_ C1].
  assert (S1 : 0 <= sin (6 / 100)) by (apply sin_ge_0; pose proof PI2_3_2; lra).
  assert (S2 : sin (6 / 100) <= 6 / 100) by (apply Rlt_le, sin_lt_x; lra).
  split; [lra|]. rewrite Rabs_pos_eq; lra.
Qed.
Lemma default_rate z A d w (b : C) : let s := 8 / 5 in let X := r0 + 4 * z + 2 * r0 * d in
  Cmod b <= 101 / 100 -> 0 <= z -> 0 < A <= 30 / 10 ^ 9 -> z + 2 * A <= 280 / 10 ^ 9 -> 1 / 2 <= d <= 116 / 100 ->
  0 < w < 1 -> 1 + X / (4 * A) = (w + / w) / 2 ->
  (0 < X /\ X + 4 * A <= 4 * L0 /\ 0 < w /\ w * s < 1) /\
  0 <= Cmod b * ((Cmod (g0 - RtoC ((r0 + 2 * (z + A) + r0 * d) / (2 * L0)))%C + A / L0 * s)
     * (ln (4 * L0 / X * ((1 - w) / (1 - w * s)) ^ 2) / ln (4 * L0 / r0))) <= 8862 / 10000.
Proof.
  intros s X Hb Hz HA Hm Hd Hw Ew.
  assert (X40 : 40 / 10 ^ 9 <= X) by (unfold X, r0; lra).
  assert (X4 : X + 4 * A <= 4 * L0) by (unfold X, r0, L0; lra).
  assert (a1 : 4 / 3 <= 1 + X / (4 * A)).
  { assert (1 / 3 <= X / (4 * A)); [|lra]. apply Rmult_le_reg_r with (4 * A); [lra|]. unfold Rdiv at 2. rewrite Rmult_assoc, Rinv_l, Rmult_1_r by lra. lra. }
  pose proof (w_small _ w Hw Ew a1) as W. assert (NS : 0 < 1 - w * s) by (unfold s; lra).
  split; [repeat split; unfold s in *; lra|].
  set (c := (r0 + 2 * (z + A) + r0 * d) / (2 * L0)).
  assert (EC : c = (r0 + 2 * z + r0 * d) / (2 * L0) + A / L0) by (unfold c, r0, L0; field).
  assert (AL : 0 < A / L0 <= 1 / 10).
  { split; [apply Rdiv_lt_0_compat; unfold L0; lra|]. unfold L0. apply Rmult_le_reg_r with (300 / 10 ^ 9); [lra|]. unfold Rdiv at 1. rewrite Rmult_assoc, Rinv_l, Rmult_1_r by lra. lra. }
  assert (C1 : 5 / 100 + A / L0 <= c). { rewrite EC. assert (5 / 100 <= (r0 + 2 * z + r0 * d) / (2 * L0)); [|lra]. unfold r0, L0. apply Rmult_le_reg_r with (2 * (300 / 10 ^ 9)); [lra|]. unfold Rdiv at 3. rewrite Rmult_assoc, Rinv_l, Rmult_1_r by lra. lra. }
  assert (C2 : c <= 1006 / 1000). { unfold c, r0, L0. apply Rmult_le_reg_r with (2 * (300 / 10 ^ 9)); [lra|]. unfold Rdiv at 1. rewrite Rmult_assoc, Rinv_l, Rmult_1_r by lra. lra. }
  assert (F1 : Cmod (g0 - RtoC c)%C + A / L0 * s <= 752 / 1000).
  { pose proof (Cmod_le_parts (g0 - RtoC c)%C) as B. destruct g0_parts as [G1 G2].
    replace (Re (g0 - RtoC c)%C) with (Re g0 - c) in B by (unfold Re, Cminus, Cplus, Copp, RtoC; cbn [fst snd]; ring).
    replace (Im (g0 - RtoC c)%C) with (Im g0) in B by (unfold Im, Cminus, Cplus, Copp, RtoC; cbn [fst snd]; ring).
    unfold s. revert B. unfold Rabs at 1. destruct (Rcase_abs (Re g0 - c)); intros B; lra. }
  assert (F0 : 0 <= Cmod (g0 - RtoC c)%C + A / L0 * s) by (pose proof (Cmod_ge_0 (g0 - RtoC c)%C); unfold s; lra).
  assert (Q : 1 <= (1 - w) / (1 - w * s) <= 198 / 100).
  { split; apply Rmult_le_reg_r with (1 - w * s); try exact NS; unfold Rdiv at 1; [rewrite Rmult_1_l|];
      repeat (rewrite Rmult_assoc, Rinv_l, Rmult_1_r by lra); unfold s; lra. }
  assert (E60 : 4 * L0 / r0 = 60) by (unfold L0, r0; field).
  assert (P60 : 0 < ln 60) by (rewrite <- ln_1; apply ln_increasing; lra).
  assert (LX : 1 <= 4 * L0 / X <= 30).
  { split.
    - apply Rmult_le_reg_r with X; [lra|]. unfold Rdiv. rewrite Rmult_assoc, Rinv_l, Rmult_1_r by lra. lra.
    - apply Rmult_le_reg_r with X; [lra|]. unfold Rdiv. rewrite Rmult_assoc, Rinv_l, Rmult_1_r by lra. unfold L0. lra. }
  set (q := (1 - w) / (1 - w * s)) in *.
  assert (Q2 : 1 <= q ^ 2 <= (198 / 100) ^ 2) by (split; [rewrite <- (pow1 2)|]; apply pow_incr; lra).
  assert (AR : 1 <= 4 * L0 / X * q ^ 2 <= 117612 / 1000) by nra.
  assert (LN : 0 <= ln (4 * L0 / X * q ^ 2) / ln 60 <= 7 / 6).
  { assert (0 <= ln (4 * L0 / X * q ^ 2)) by (rewrite <- ln_1; apply ln_le; lra).
    assert (ln (4 * L0 / X * q ^ 2) <= ln (117612 / 1000)) by (apply ln_le; lra). pose proof ln_117.
    split; [apply Rmult_le_pos; [lra|apply Rlt_le, Rinv_0_lt_compat; lra]|].
    apply Rmult_le_reg_r with (ln 60); [exact P60|]. unfold Rdiv at 1. rewrite Rmult_assoc, Rinv_l, Rmult_1_r by lra. lra. }
  rewrite E60. pose proof (Cmod_ge_0 b).
  assert (PP : 0 <= (Cmod (g0 - RtoC c)%C + A / L0 * s) * (ln (4 * L0 / X * q ^ 2) / ln 60) <= 752 / 1000 * (7 / 6)).
  { split; [apply Rmult_le_pos; lra|]. apply Rmult_le_compat; lra. }
  split; [apply Rmult_le_pos; lra|]. apply Rle_trans with (101 / 100 * (752 / 1000 * (7 / 6))); [apply Rmult_le_compat; lra|lra].
Qed.

(** C80. With the default tip and the default 32 samples, harmonics |n| <= 4 of
    fdm.eff_pol_n over every bulk sample with |beta| <= 1.01 are within 2 10^-5 of
    the documented integrals, for amplitudes up to 30 nm and heights up to 280 nm. *)
Lemma C80_fdm_default_proof : forall (laggauss : laggauss_t) (e0 e1 : C) nu (A_tip z : R) (n : Z) d_Qa n_lag,
  let s := stack [e0; e1] [] nu in let beta := ((e1 - e0) / (e1 + e0))%C in
  let r := 20 / 10 ^ 9 in let L := 300 / 10 ^ 9 in let g := Cmult (RtoC (7 / 10)) (Cexp (0, 6 / 100)) in
  let f := fun d x => fdm_f x d r L g in
  e1 <> RtoC 0 -> (e0 + e1 <> 0)%C -> Cmod beta <= 101 / 100 -> (Z.abs n <= 4)%Z ->
  0 <= z -> 0 < A_tip <= 30 / 10 ^ 9 -> z + 2 * A_tip <= 280 / 10 ^ 9 ->
  exists v : C,
    fdm_eff_pol_n laggauss defaults0 s A_tip n (Some z) None None None None None None d_Qa n_lag None = Ok (Some v) /\
    Cmod (v - fourier_coefficient (fun x => 1 + beta * f (131 / 100 * L / (L + 2 * r))%R x / (2 * (1 - beta * f (5 / 10)%R x)))%C
                (z + A_tip) A_tip n)%C <= 2 / 10 ^ 5.
Proof.
  intros lg e0 e1 nu A z n d_Qa n_lag s beta r L g f H1 H2 Hb Hn Hz HA Hm.
  change r with r0 in *. change L with L0 in *. change g with g0 in *.
  set (d0 := 131 / 100 * L0 / (L0 + 2 * r0)).
  assert (Hd0 : 1 / 2 <= d0 <= 116 / 100) by (unfold d0, L0, r0; split; [apply Rle_div_r; lra|apply Rle_div_l; lra]).
  assert (XP : forall d, 1 / 2 <= d -> 1 < 1 + (r0 + 4 * z + 2 * r0 * d) / (4 * A)).
  { intros d Hd. assert (0 < (r0 + 4 * z + 2 * r0 * d) / (4 * A)); [|lra]. apply Rdiv_lt_0_compat; unfold r0; lra. }
  destruct (joukowski _ (XP d0 (proj1 Hd0))) as (w0 & W0 & E0). destruct (joukowski _ (XP (5 / 10) ltac:(lra))) as (w1 & W1 & E1).
  destruct (default_rate z A d0 w0 beta Hb Hz HA Hm Hd0 W0 E0) as [Q0 B0].
  destruct (default_rate z A (5 / 10) w1 beta Hb Hz HA Hm ltac:(lra) W1 E1) as [Q1 B1].
  destruct (C80_fdm_error_proof lg defaults0 e0 e1 nu A n None (Some z) None None None None None d_Qa n_lag (8 / 5) w0 w1 H1 H2) as (v & Ev & Bv);
    cbn [given_or defaults0 d_n_trapz d_z_tip d_r_tip d_L_tip d_g_factor d_d_Q1] in *; fold r0 L0 g0 beta; fold d0.
  - change (Z.abs_nat n < 32)%nat. lia.
  - lra.
  - unfold r0, L0. lra.
  - lra.
  - intros d w [E|[E|[]]]; injection E as <- <-; (split; [apply Q0 || apply Q1|]); repeat split; try (apply Q0 || apply Q1); assumption.
  - eapply Rle_lt_trans; [apply B1|lra].
  - exists v. split; [exact Ev|]. fold r0 L0 g0 beta in Bv. fold d0 in Bv. eapply Rle_trans; [exact Bv|].
    match type of B0 with 0 <= ?x <= _ => set (p0 := x) in * end. match type of B1 with 0 <= ?x <= _ => set (p1 := x) in * end.
    match goal with |- ?u / (1 - ?v) / _ <= _ => change u with p0; change v with p1 end.
    assert (P : 5 * 10 ^ 5 <= (8 / 5) ^ (32 - Z.abs_nat n)).
    { apply Rle_trans with ((8 / 5) ^ 28); [cbn [pow]; lra|]. apply Rle_pow; [lra|lia]. }
    assert (I1 : / (1 - p1) <= / (1138 / 10000)) by (apply Rinv_le_contravar; lra).
    assert (I0 : 0 < / (1 - p1)) by (apply Rinv_0_lt_compat; lra).
    assert (R1 : p0 / (1 - p1) <= 779 / 100).
    { apply Rle_trans with (8862 / 10000 * / (1138 / 10000)); [apply Rmult_le_compat; lra|lra]. }
    assert (R0 : 0 <= p0 / (1 - p1)) by (apply Rmult_le_pos; lra).
    change (given_or (d_n_trapz defaults0) None) with 32%nat.
    apply Rle_trans with (779 / 100 * / (5 * 10 ^ 5)); [|lra].
    apply Rmult_le_compat; [exact R0|apply Rlt_le, Rinv_0_lt_compat; lra|exact R1|apply Rinv_le_contravar; lra].
Qed.

(** C80. Example: a silicon-like half space in contact with the default tip, 30 nm
    amplitude, second harmonic. *)
Lemma C80_example_proof : forall (laggauss : laggauss_t),
  let beta := (((12, 1)%R - RtoC 1) / ((12, 1)%R + RtoC 1))%C in
  let r := 20 / 10 ^ 9 in let L := 300 / 10 ^ 9 in let g := Cmult (RtoC (7 / 10)) (Cexp (0, 6 / 100)) in
  let f := fun d x => fdm_f x d r L g in
  exists v : C,
    fdm_eff_pol_n laggauss defaults0 (stack [RtoC 1; (12, 1)] [] None) (30 / 10 ^ 9) 2 (Some 0) None None None None None None None None None = Ok (Some v) /\
    Cmod (v - fourier_coefficient (fun x => 1 + beta * f (131 / 100 * L / (L + 2 * r))%R x / (2 * (1 - beta * f (5 / 10)%R x)))%C
                (0 + 30 / 10 ^ 9) (30 / 10 ^ 9) 2)%C <= 2 / 10 ^ 5.
Proof.
  intros lg beta r L g f.
  assert (N1 : ((12, 1)%R + RtoC 1)%C <> RtoC 0) by (intros X; apply (f_equal fst) in X; cbn in X; lra).
  apply (C80_fdm_default_proof lg (RtoC 1) (12, 1) None (30 / 10 ^ 9) 0 2 None None).
  - intros X; apply (f_equal fst) in X; cbn in X; lra.
  - rewrite Cplus_comm. exact N1.
  - rewrite Cmod_div by exact N1. pose proof (Cmod_gt_0 ((12, 1)%R + RtoC 1)%C) as [G _]. specialize (G N1).
    apply Rle_div_l; [exact G|]. apply Rle_trans with (1 * Cmod ((12, 1)%R + RtoC 1)%C); [rewrite Rmult_1_l|apply Rmult_le_compat_r; lra].
    apply Rsqr_incr_0_var; [|apply Cmod_ge_0]. unfold Rsqr.
    replace (Cmod ((12, 1)%R - RtoC 1)%C * Cmod ((12, 1)%R - RtoC 1)%C) with (Cmod ((12, 1)%R - RtoC 1)%C ^ 2) by ring.
    replace (Cmod ((12, 1)%R + RtoC 1)%C * Cmod ((12, 1)%R + RtoC 1)%C) with (Cmod ((12, 1)%R + RtoC 1)%C ^ 2) by ring.
    rewrite !Cmod_sqr. cbn. lra.
  - lia.
  - lra.
  - lra.
  - lra.
Qed.
