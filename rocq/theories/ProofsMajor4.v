(** * Proofs: contrast of absorbing samples: weak reflection, examples *)
From Coq Require Import String Reals Lra Lia ZArith List Bool.
From Coquelicot Require Import Rcomplements Complex.
From Verif Require Import Num NumLemmas LimLemmas ModelBase ModelSample ModelTip StackLemmas Spec
  ProofsStackQS ProofsStackQS2 ProofsBulkFF ProofsSym ProofsPassive DemodLemmas ProofsDemod ProofsTip ProofsTip2 ProofsTip3
  ProofsTaylor PosDef ProofsContrast ProofsContrast2 SpecMajor Majorant ProofsMajor ProofsMajor2 ProofsMajor3.
Import ListNotations.
Open Scope R_scope.

Lemma weak_threshold N F G n B BF : N <> O -> (forall k, (k < N)%nat -> Rabs (F k) <= BF) -> (forall k, (k < N)%nat -> 0 <= G k <= B) ->
  0 < c1 N F n -> exists rho, 0 < rho /\ rho * B < 1 /\ d1 N F G rho n < 2 * c1 N F n.
Proof.
  intros HN HF HG Hc. assert (PN : 0 < INR N) by (apply lt_0_INR; lia).
  assert (PB : 0 <= B) by (assert (H := HG O ltac:(lia)); lra). assert (PF : 0 <= BF) by (assert (H := HF O ltac:(lia)); pose proof (Rabs_pos (F O)); lra).
  set (c := c1 N F n) in *. set (K := 2 * B + 16 * (BF + 1) * (B + 1) / c + 1).
  assert (Q : 0 < 16 * (BF + 1) * (B + 1) / c) by (apply Rdiv_lt_0_compat; [|exact Hc]; apply Rmult_lt_0_compat; lra).
  assert (PK : 0 < K) by (unfold K; lra). exists (/ K). set (rho := / K). assert (Pr : 0 < rho) by (now apply Rinv_0_lt_compat).
  assert (E1 : rho * K = 1) by (unfold rho; field; lra).
  assert (RB : rho * B <= 1 / 2) by (assert (X : rho * (2 * B) <= rho * K) by (apply Rmult_le_compat_l; [lra|unfold K; lra]); lra).
  assert (RC : 16 * ((BF + 1) * (rho * (B + 1))) < c).
  { assert (X : rho * (16 * (BF + 1) * (B + 1) / c) < 1).
    { apply Rlt_le_trans with (rho * K); [|lra]. apply Rmult_lt_compat_l; [exact Pr|]. unfold K. lra. }
    replace (rho * (16 * (BF + 1) * (B + 1) / c)) with (16 * ((BF + 1) * (rho * (B + 1))) / c) in X by (unfold Rdiv; ring).
    apply (Rlt_div_l _ c 1 Hc) in X || (apply Rlt_div_l in X; [|exact Hc]). lra. }
  split; [exact Pr|]. split; [lra|].
  set (eta := 8 * ((BF + 1) * (rho * (B + 1)))).
  assert (L : Rabs (Sm (fun k => F k / (1 - rho * G k) ^ 2 * cos (IZR n * phi N k)) N - Sm (fun k => F k * cos (IZR n * phi N k)) N) <= INR N * eta).
  { apply Sm_close. intros k Hk. specialize (HF k Hk). specialize (HG k Hk). set (x := rho * G k).
    assert (X0 : 0 <= x <= 1 / 2) by (unfold x; split; [apply Rmult_le_pos; lra|]; apply Rle_trans with (rho * B); [apply Rmult_le_compat_l; lra|exact RB]).
    replace (F k / (1 - x) ^ 2 * cos (IZR n * phi N k) - F k * cos (IZR n * phi N k)) with (F k * (x * (2 - x) / (1 - x) ^ 2) * cos (IZR n * phi N k)) by (field; lra).
    rewrite !Rabs_mult. assert (Y : 0 <= x * (2 - x) / (1 - x) ^ 2 <= 8 * x).
    { assert (0 < (1 - x) ^ 2) by (apply pow_lt; lra). split; [apply Rle_div_r; [assumption|nra]|]. apply Rle_div_l; [assumption|]. assert (1 / 4 <= (1 - x) ^ 2) by nra. nra. }
    rewrite (Rabs_pos_eq _ (proj1 Y)). assert (CB : Rabs (cos (IZR n * phi N k)) <= 1) by (apply Rabs_le, COS_bound).
    assert (Xb : x <= rho * (B + 1)) by (unfold x; apply Rmult_le_compat_l; lra).
    apply Rle_trans with (Rabs (F k) * (x * (2 - x) / (1 - x) ^ 2) * 1).
    - apply Rmult_le_compat_l; [apply Rmult_le_pos; [apply Rabs_pos|apply Y]|exact CB].
    - rewrite Rmult_1_r. unfold eta. replace (8 * ((BF + 1) * (rho * (B + 1)))) with ((BF + 1) * (8 * (rho * (B + 1)))) by ring.
      apply Rmult_le_compat; [apply Rabs_pos|apply Y|lra|lra]. }
  assert (M : d1 N F G rho n - c <= eta).
  { unfold d1, c, c1, harm. unfold Rdiv. rewrite <- Rmult_minus_distr_r. apply (Rmult_le_reg_r (INR N)); [exact PN|].
    rewrite Rmult_assoc, Rinv_l, Rmult_1_r by lra. apply Rle_trans with (INR N * eta); [|lra].
    eapply Rle_trans; [apply Rle_abs|]. exact L. }
  unfold eta in M. lra.
Qed.

(** C97. Finite dipole model: for every tip, stroke, harmonic and number of
    samples there is a bound on the reflection coefficient below which equal
    harmonics mean equal complex reflection coefficients and absorption shows
    with its own sign. *)
Lemma C97_fdm_weak_proof :
  forall (laggauss : laggauss_t) (D : Defaults) (A_tip : R) (n : Z) (n_trapz : option nat)
    (z_tip r_tip L_tip : option R) (g_factor : option C) (d_Q0 d_Q1 d_Qa : option R) (n_lag : option nat) (g : R),
  let N := given_or (d_n_trapz D) n_trapz in let z := given_or (d_z_tip D) z_tip in
  let r := given_or (d_r_tip D) r_tip in let L := given_or (d_L_tip D) L_tip in
  let d0 := given_or (131 / 100 * L / (L + 2 * r)) d_Q0 in let d1 := given_or (d_d_Q1 D) d_Q1 in
  given_or (d_g_factor D) g_factor = RtoC g ->
  N <> O -> 0 < A_tip -> 0 < r < 4 * L -> 0 < r + 4 * z + 2 * r * d0 -> 0 < r + 4 * z + 2 * r * d1 ->
  r + 2 * (z + 2 * A_tip) + r * d0 <= 2 * L * g -> r + 4 * (z + 2 * A_tip) + 2 * r * d0 <= 4 * L ->
  r + 2 * (z + 2 * A_tip) + r * d1 <= 2 * L * g -> r + 4 * (z + 2 * A_tip) + 2 * r * d1 <= 4 * L ->
  exists rho, 0 < rho /\
  forall (s1 s2 : sample) (b1 b2 : C) method,
  multilayer s1 = false -> multilayer s2 = false ->
  refl_coef_qs s1 (rr 0) = Ok (Some b1) -> refl_coef_qs s2 (rr 0) = Ok (Some b2) -> Cmod b1 <= rho -> Cmod b2 <= rho ->
  method = None \/ method = Some "bulk"%string ->
  (fdm_eff_pol_n laggauss D s1 A_tip n z_tip n_trapz r_tip L_tip g_factor d_Q0 d_Q1 d_Qa n_lag method
     = fdm_eff_pol_n laggauss D s2 A_tip n z_tip n_trapz r_tip L_tip g_factor d_Q0 d_Q1 d_Qa n_lag method -> b1 = b2) /\
  exists a : C, fdm_eff_pol_n laggauss D s1 A_tip n z_tip n_trapz r_tip L_tip g_factor d_Q0 d_Q1 d_Qa n_lag method = Ok (Some a) /\
    (0 < Im b1 -> 0 < sgn_pow n * Im a).
Proof.
  intros lg D A n nt z_tip r_tip L_tip gf d_Q0 d_Q1 d_Qa n_lag g N z r L d0 d1 Hg HN HA [Hr HrL] P0 P1 G0 V0 G1 V1.
  assert (R0 : in_reach z A d0 r L g) by (repeat split; lra). assert (R1 : in_reach z A d1 r L g) by (repeat split; lra).
  assert (WL := fWL r L g A z d0 HrL R0).
  assert (Pc : 0 < c1 N (fF r L g A z d0 N) n) by (unfold c1; apply dom_harm; [exact HN|]; now apply fF_dom).
  destruct (weak_threshold N (fF r L g A z d0 N) (fG r L g A z d1 N) n (fdm_r z d1 r L g) (fdm_r z d0 r L g) HN) as (rho & Prho & Hs & Hd).
  - intros k _. unfold fF. pose proof (ff_bound r L g A N HA WL z d0 k R0). rewrite Rabs_pos_eq by lra. lra.
  - intros k _. unfold fG. apply (ff_bound r L g A N HA WL z d1 k R1).
  - exact Pc.
  - exists rho. split; [exact Prho|]. intros s1 s2 b1 b2 m M1 M2 H1 H2 Hb1 Hb2 Hm.
    assert (Hs' : rho * Re (fdm_f z d1 r L (RtoC g)) < 1) by (now rewrite Re_fdm_f).
    rewrite <- fc, <- fd in Hd. split.
    + intros HE. destruct (C97_fdm_contrast_proof lg D s1 s2 A n nt z_tip r_tip L_tip gf d_Q0 d_Q1 d_Qa n_lag g rho b1 b2 Hg M1 M2 H1 H2 HN HA (conj Hr HrL) P0 P1 G0 V0 G1 V1 Hb1 Hb2 Hs' m Hm)
        as (_ & a1 & a2 & E1 & E2 & _ & LL & _).
      rewrite HE, E2 in E1. assert (Ea : a1 = a2) by congruence. rewrite Ea in LL. replace (a2 - a2)%C with (RtoC 0) in LL by ring. rewrite Cmod_0 in LL.
      fold N z r L d0 d1 in LL.
      assert (Z : Cmod (b1 - b2)%C = 0).
      { pose proof (Cmod_ge_0 (b1 - b2)%C) as P. destruct (Rle_lt_or_eq_dec _ _ P) as [Q|Q]; [|now symmetry].
        exfalso. revert LL. apply Rlt_not_le, Rmult_lt_0_compat; [lra|exact Q]. }
      apply Cmod_eq_0 in Z. replace b1 with (b1 - b2 + b2)%C by ring. rewrite Z. ring.
    + destruct (C97_fdm_phase_proof lg D s1 A n nt z_tip r_tip L_tip gf d_Q0 d_Q1 d_Qa n_lag g rho b1 Hg M1 H1 HN HA (conj Hr HrL) P0 P1 G0 V0 G1 V1 Hb1 Hs' m Hm)
        as (a & E & _ & P). exists a. split; [exact E|]. intros I. apply P; assumption.
Qed.

Lemma neq_Re (a : C) : Re a <> 0 -> a <> RtoC 0.
Proof. intros H E. apply H. rewrite E. reflexivity. Qed.
Lemma beta_mod (x y B : R) : 0 <= B -> 0 < x + 1 -> (x - 1) ^ 2 + y ^ 2 <= B ^ 2 * ((x + 1) ^ 2 + y ^ 2) -> Cmod (((x, y)%R - RtoC 1) / ((x, y)%R + RtoC 1))%C <= B.
Proof.
  intros HB Hx H. assert (NZ : ((x, y)%R + RtoC 1)%C <> RtoC 0) by (apply neq_Re; cbn; lra).
  rewrite Cmod_div by exact NZ. assert (P : 0 < Cmod ((x, y)%R + RtoC 1)%C) by (now apply Cmod_gt_0).
  apply Rle_div_l; [exact P|]. apply Rsqr_incr_0_var; [|apply Rmult_le_pos; lra]. rewrite Rsqr_mult, !Rsqr_pow2.
  rewrite !ProofsUniaxial.Cmod_sq. cbn [Re Im fst snd Cplus Cminus Copp RtoC].
  replace (x + - (1)) with (x - 1) by ring. replace (y + - 0) with y by ring. replace (y + 0) with y by ring. exact H.
Qed.
(** C97, example: default tip tapping at 20 nm in air on the absorbing samples
    eps = 2 + 0.1 i and eps = 9/4 + 0.1 i.  Point dipole model: the first
    harmonics differ, with negative imaginary part on the first; finite dipole
    model with g = 0.7: both smaller than on a lossless sample with beta = 3/5
    (eps = 4), for the second harmonic. *)
Lemma C97_example_proof :
  forall laggauss,
  let s1 := stack [RtoC 1; (2, 1 / 10)%R] [] None in let s2 := stack [RtoC 1; (9 / 4, 1 / 10)%R] [] None in
  pdm_eff_pol_n defaults0 s1 (20 / 10 ^ 9) 1 None None None None None <> pdm_eff_pol_n defaults0 s2 (20 / 10 ^ 9) 1 None None None None None /\
  (exists a, pdm_eff_pol_n defaults0 s1 (20 / 10 ^ 9) 1 None None None None None = Ok (Some a) /\ Im a < 0) /\
  exists a a0, fdm_eff_pol_n laggauss defaults0 s1 (20 / 10 ^ 9) 2 None None None None (Some (RtoC (7 / 10))) None None None None None = Ok (Some a) /\
    fdm_eff_pol_n laggauss defaults0 (stack [RtoC 1; RtoC 4] [] None) (20 / 10 ^ 9) 2 None None None None (Some (RtoC (7 / 10))) None None None None None = Ok (Some a0) /\
    Cmod a <= Cmod a0.
Proof.
  intros lg s1 s2.
  assert (N1 : (2, 1 / 10)%R <> RtoC 0) by (apply neq_Re; cbn; lra). assert (N2 : (9 / 4, 1 / 10)%R <> RtoC 0) by (apply neq_Re; cbn; lra).
  assert (P1 : (RtoC 1 + (2, 1 / 10)%R <> 0)%C) by (apply neq_Re; cbn; lra). assert (P2 : (RtoC 1 + (9 / 4, 1 / 10)%R <> 0)%C) by (apply neq_Re; cbn; lra).
  assert (B1 : Cmod (((2, 1 / 10)%R - RtoC 1) / ((2, 1 / 10)%R + RtoC 1))%C <= 3 / 5) by (apply beta_mod; lra).
  assert (B2 : Cmod (((9 / 4, 1 / 10)%R - RtoC 1) / ((9 / 4, 1 / 10)%R + RtoC 1))%C <= 3 / 5) by (apply beta_mod; lra).
  destruct (C97_pdm_first_harmonic_proof defaults0 (RtoC 1) (2, 1 / 10)%R (9 / 4, 1 / 10)%R None None (20 / 10 ^ 9) None None None) as (U & a & E & P);
    try (unfold given_or; cbn [defaults0 d_r_tip d_z_tip d_n_trapz]); try assumption; try lra; try discriminate; [apply RtoC_neq_0; lra|].
  split; [|split].
  - intros H. specialize (U H). apply (f_equal fst) in U. cbn in U. lra.
  - exists a. split; [exact E|]. apply P.
    assert (X : (((2, 1 / 10)%R - RtoC 1) / ((2, 1 / 10)%R + RtoC 1))%C = (301 / 901, 20 / 901)%R).
    { apply Cdiv_eq; [intros Z; apply P1; rewrite <- Z; ring|]. apply injective_projections; cbn; lra. }
    rewrite X. cbn. lra.
  - assert (DQ : 0 < 131 / 100 * (300 / 10 ^ 9) / (300 / 10 ^ 9 + 2 * (20 / 10 ^ 9)) < 2) by (split; [apply Rdiv_lt_0_compat; lra|apply Rlt_div_l; lra]).
    apply (C97_fdm_bound_proof lg defaults0 s1 (stack [RtoC 1; RtoC 4] [] None) (20 / 10 ^ 9) 2 None None None None (Some (RtoC (7 / 10))) None None None None (7 / 10) (3 / 5)
       (((2, 1 / 10)%R - RtoC 1) / ((2, 1 / 10)%R + RtoC 1))%C eq_refl);
      try (unfold given_or; cbn [defaults0 d_r_tip d_z_tip d_n_trapz d_L_tip d_d_Q1]); try lra; try discriminate; try reflexivity; try assumption; try (now left).
    + now apply bulk_qs.
    + rewrite bulk_real by lra. do 3 f_equal. field.
    + rewrite Re_fdm_f. unfold fdm_r.
      replace (4 * (300 / 10 ^ 9) / (20 / 10 ^ 9 + 4 * 0 + 2 * (20 / 10 ^ 9) * (5 / 10))) with 30 by (field; lra).
      replace (4 * (300 / 10 ^ 9) / (20 / 10 ^ 9)) with 60 by (field; lra).
      assert (0 < ln 30 < ln 60) by (split; [rewrite <- ln_1|]; apply ln_increasing; lra).
      assert (0 < ln 30 / ln 60 <= 1) by (split; [apply Rdiv_lt_0_compat; lra|apply Rle_div_l; lra]). set (q := ln 30 / ln 60) in *.
      replace ((20 / 10 ^ 9 + 2 * 0 + 20 / 10 ^ 9 * (5 / 10)) / (2 * (300 / 10 ^ 9))) with (1 / 20) by (field; lra). nra.
Qed.
