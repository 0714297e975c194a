(** * Proofs: contrast over bulk dielectrics, finite dipole model; uniqueness of
    lossless permittivities; examples *)
From Coq Require Import String Reals Lra Lia ZArith List Bool.
From Coquelicot Require Import Rcomplements Complex.
From Verif Require Import Num NumLemmas LimLemmas ModelBase ModelSample ModelTip StackLemmas Spec
  ProofsStackQS ProofsStackQS2 ProofsBulkFF ProofsSym ProofsPassive DemodLemmas ProofsDemod ProofsTip ProofsTip2 ProofsTip3
  ProofsTaylor PosDef ProofsContrast ProofsContrast2.
Import ListNotations.
Open Scope R_scope.

(** C69. Finite dipole model over bulk dielectrics: every harmonic grows strictly
    with the permittivity of the sample. *)
Lemma C69_fdm_permittivity_proof :
  forall (laggauss : laggauss_t) (D : Defaults) (e0 e1 e2 : R) nu1 nu2 (A_tip : R) (n : Z) (n_trapz : option nat)
    (z_tip r_tip L_tip : option R) (g_factor : option C) (d_Q0 d_Q1 d_Qa : option R) (n_lag : option nat) (g : R),
  let N := given_or (d_n_trapz D) n_trapz in let z := given_or (d_z_tip D) z_tip in
  let r := given_or (d_r_tip D) r_tip in let L := given_or (d_L_tip D) L_tip in
  let d0 := given_or (131 / 100 * L / (L + 2 * r)) d_Q0 in let d1 := given_or (d_d_Q1 D) d_Q1 in
  given_or (d_g_factor D) g_factor = RtoC g -> 0 < e0 -> e0 <= e1 < e2 ->
  N <> O -> 0 < A_tip -> 0 < r < 4 * L -> 0 < r + 4 * z + 2 * r * d0 -> 0 < r + 4 * z + 2 * r * d1 ->
  r + 2 * (z + 2 * A_tip) + r * d0 <= 2 * L * g -> r + 4 * (z + 2 * A_tip) + 2 * r * d0 <= 4 * L ->
  r + 2 * (z + 2 * A_tip) + r * d1 <= 2 * L * g -> r + 4 * (z + 2 * A_tip) + 2 * r * d1 <= 4 * L ->
  Re (fdm_f z d1 r L (RtoC g)) <= 1 ->
  forall method, method = None \/ method = Some "bulk"%string ->
  exists m1 m2 : R,
    fdm_eff_pol_n laggauss D (stack [RtoC e0; RtoC e1] [] nu1) A_tip n z_tip n_trapz r_tip L_tip g_factor d_Q0 d_Q1 d_Qa n_lag method
      = Ok (Some (RtoC (sgn_pow n * m1))) /\
    fdm_eff_pol_n laggauss D (stack [RtoC e0; RtoC e2] [] nu2) A_tip n z_tip n_trapz r_tip L_tip g_factor d_Q0 d_Q1 d_Qa n_lag method
      = Ok (Some (RtoC (sgn_pow n * m2))) /\
    0 <= m1 < m2.
Proof.
  intros lg D e0 e1 e2 nu1 nu2 A n nt z_tip r_tip L_tip gf d_Q0 d_Q1 d_Qa n_lag g N z r L d0 d1 Hg H0 H HN HA Hr P0 P1 G0 V0 G1 V1 Hf m Hm.
  destruct (beta_incr e0 e1 e2 H0 H) as [Hb Hb1].
  destruct (C69_fdm_contrast_proof lg D (stack [RtoC e0; RtoC e1] [] nu1) (stack [RtoC e0; RtoC e2] [] nu2) A n nt z_tip r_tip L_tip gf d_Q0 d_Q1 d_Qa n_lag g _ _
    Hg eq_refl eq_refl (bulk_real e0 e1 nu1 H0 ltac:(lra)) (bulk_real e0 e2 nu2 H0 ltac:(lra)) HN HA Hr P0 P1 G0 V0 G1 V1 Hb) with (method := m) as (m1 & m2 & E1 & E2 & M & _); [|exact Hm|].
  - fold N z r L d0 d1. set (b := (e2 - e0) / (e2 + e0)) in *. set (f := Re (fdm_f z d1 r L (RtoC g))) in *.
    destruct (Rle_dec f 0); nra.
  - exists m1, m2. auto.
Qed.

(** C69. Hence a lossless permittivity (at least that of the environment) is
    determined by any single harmonic of either model. *)
Lemma C69_unique_permittivity_proof :
  forall (laggauss : laggauss_t) (D : Defaults) (e0 e1 e2 : R) nu1 nu2 (A_tip : R) (n : Z) (n_trapz : option nat)
    (z_tip r_tip L_tip : option R) (g_factor : option C) (d_Q0 d_Q1 d_Qa : option R) (n_lag : option nat) (g : R),
  let N := given_or (d_n_trapz D) n_trapz in let z := given_or (d_z_tip D) z_tip in
  let r := given_or (d_r_tip D) r_tip in let L := given_or (d_L_tip D) L_tip in
  let d0 := given_or (131 / 100 * L / (L + 2 * r)) d_Q0 in let d1 := given_or (d_d_Q1 D) d_Q1 in
  let s1 := stack [RtoC e0; RtoC e1] [] nu1 in let s2 := stack [RtoC e0; RtoC e2] [] nu2 in
  0 < e0 -> e0 <= e1 -> e0 <= e2 -> N <> O -> 0 < A_tip -> 0 < r -> 0 <= z ->
  (pdm_eff_pol_n D s1 A_tip n z_tip n_trapz r_tip None None = pdm_eff_pol_n D s2 A_tip n z_tip n_trapz r_tip None None -> e1 = e2) /\
  (given_or (d_g_factor D) g_factor = RtoC g -> r < 4 * L -> 0 < r + 4 * z + 2 * r * d0 -> 0 < r + 4 * z + 2 * r * d1 ->
   r + 2 * (z + 2 * A_tip) + r * d0 <= 2 * L * g -> r + 4 * (z + 2 * A_tip) + 2 * r * d0 <= 4 * L ->
   r + 2 * (z + 2 * A_tip) + r * d1 <= 2 * L * g -> r + 4 * (z + 2 * A_tip) + 2 * r * d1 <= 4 * L ->
   Re (fdm_f z d1 r L (RtoC g)) <= 1 ->
   fdm_eff_pol_n laggauss D s1 A_tip n z_tip n_trapz r_tip L_tip g_factor d_Q0 d_Q1 d_Qa n_lag None
   = fdm_eff_pol_n laggauss D s2 A_tip n z_tip n_trapz r_tip L_tip g_factor d_Q0 d_Q1 d_Qa n_lag None -> e1 = e2).
Proof.
  intros lg D e0 e1 e2 nu1 nu2 A n nt z_tip r_tip L_tip gf d_Q0 d_Q1 d_Qa n_lag g N z r L d0 d1 s1 s2 H0 H1 H2 HN HA Hr Hz.
  assert (SG : forall m1 m2, Ok (Some (RtoC (sgn_pow n * m1))) = Ok (Some (RtoC (sgn_pow n * m2))) :> res CV -> m1 = m2).
  { intros m1 m2 E. injection E as E. unfold sgn_pow in E. destruct (Z.even n); lra. }
  split.
  - intros E. destruct (Rtotal_order e1 e2) as [L12|[->|L12]]; [|reflexivity|].
    + destruct (C69_pdm_permittivity_proof D e0 e1 e2 nu1 nu2 A n z_tip r_tip nt None H0 (conj H1 L12) HN HA Hr Hz ltac:(discriminate)) as (m1 & m2 & E1 & E2 & M).
      cbn [option_map] in E1, E2. fold s1 in E1. fold s2 in E2. rewrite E1, E2 in E. apply SG in E. lra.
    + destruct (C69_pdm_permittivity_proof D e0 e2 e1 nu2 nu1 A n z_tip r_tip nt None H0 (conj H2 L12) HN HA Hr Hz ltac:(discriminate)) as (m1 & m2 & E1 & E2 & M).
      cbn [option_map] in E1, E2. fold s1 in E2. fold s2 in E1. rewrite E1, E2 in E. apply SG in E. lra.
  - intros Hg HrL P0 P1 G0 V0 G1 V1 Hf E. destruct (Rtotal_order e1 e2) as [L12|[->|L12]]; [|reflexivity|].
    + destruct (C69_fdm_permittivity_proof lg D e0 e1 e2 nu1 nu2 A n nt z_tip r_tip L_tip gf d_Q0 d_Q1 d_Qa n_lag g Hg H0 (conj H1 L12) HN HA (conj Hr HrL) P0 P1 G0 V0 G1 V1 Hf None (or_introl eq_refl)) as (m1 & m2 & E1 & E2 & M).
      fold s1 in E1. fold s2 in E2. rewrite E1, E2 in E. apply SG in E. lra.
    + destruct (C69_fdm_permittivity_proof lg D e0 e2 e1 nu2 nu1 A n nt z_tip r_tip L_tip gf d_Q0 d_Q1 d_Qa n_lag g Hg H0 (conj H2 L12) HN HA (conj Hr HrL) P0 P1 G0 V0 G1 V1 Hf None (or_introl eq_refl)) as (m1 & m2 & E1 & E2 & M).
      fold s1 in E2. fold s2 in E1. rewrite E1, E2 in E. apply SG in E. lra.
Qed.

(** C69, example: default tip with g = 0.7, tapping at 20 nm on eps = 2 and
    eps = 12 in air, third harmonic: both models give a negative real signal,
    larger on the second sample. *)
Lemma C69_example_proof :
  forall laggauss,
  (exists m1 m2, pdm_eff_pol_n defaults0 (stack [RtoC 1; RtoC 2] [] None) (20 / 10 ^ 9) 3 None None None None None = Ok (Some (RtoC (- m1))) /\
     pdm_eff_pol_n defaults0 (stack [RtoC 1; RtoC 12] [] None) (20 / 10 ^ 9) 3 None None None None None = Ok (Some (RtoC (- m2))) /\ 0 <= m1 < m2) /\
  (exists m1 m2, fdm_eff_pol_n laggauss defaults0 (stack [RtoC 1; RtoC 2] [] None) (20 / 10 ^ 9) 3 None None None None (Some (RtoC (7 / 10))) None None None None None = Ok (Some (RtoC (- m1))) /\
     fdm_eff_pol_n laggauss defaults0 (stack [RtoC 1; RtoC 12] [] None) (20 / 10 ^ 9) 3 None None None None (Some (RtoC (7 / 10))) None None None None None = Ok (Some (RtoC (- m2))) /\ 0 <= m1 < m2).
Proof.
  intros lg. split.
  - destruct (C69_pdm_permittivity_proof defaults0 1 2 12 None None (20 / 10 ^ 9) 3 None None None None) as (m1 & m2 & E1 & E2 & M); try (unfold given_or; cbn [defaults0 d_r_tip d_z_tip d_n_trapz]); try lra; try discriminate.
    exists m1, m2. cbn [option_map sgn_pow Z.even] in E1, E2. replace (- m1) with (sgn_pow 3 * m1) by (cbn; ring). replace (- m2) with (sgn_pow 3 * m2) by (cbn; ring). auto.
  - assert (DQ : 0 < 131 / 100 * (300 / 10 ^ 9) / (300 / 10 ^ 9 + 2 * (20 / 10 ^ 9)) < 2) by (split; [apply Rdiv_lt_0_compat; lra|apply Rlt_div_l; lra]).
    destruct (C69_fdm_permittivity_proof lg defaults0 1 2 12 None None (20 / 10 ^ 9) 3 None None None None (Some (RtoC (7 / 10))) None None None None (7 / 10) eq_refl) with (method := @None string) as (m1 & m2 & E1 & E2 & M);
      try (unfold given_or; cbn [defaults0 d_r_tip d_z_tip d_n_trapz d_L_tip d_d_Q1]); try lra; try discriminate; try (now left).
    + rewrite fdm_f_real. unfold Re, RtoC, fst, fdm_r.
      replace (4 * (300 / 10 ^ 9) / (20 / 10 ^ 9 + 4 * 0 + 2 * (20 / 10 ^ 9) * (5 / 10))) with 30 by (field; lra).
      replace (4 * (300 / 10 ^ 9) / (20 / 10 ^ 9)) with 60 by (field; lra).
      assert (0 < ln 30 < ln 60) by (split; [rewrite <- ln_1|]; apply ln_increasing; lra).
      assert (0 < ln 30 / ln 60 <= 1) by (split; [apply Rdiv_lt_0_compat; lra|apply Rle_div_l; lra]). set (q := ln 30 / ln 60) in *. 
      replace ((20 / 10 ^ 9 + 2 * 0 + 20 / 10 ^ 9 * (5 / 10)) / (2 * (300 / 10 ^ 9))) with (1 / 20) by (field; lra). nra.
    + exists m1, m2. replace (- m1) with (sgn_pow 3 * m1) by (cbn; ring). replace (- m2) with (sgn_pow 3 * m2) by (cbn; ring). auto.
Qed.
