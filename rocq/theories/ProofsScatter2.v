(** * Proofs: normalised spectra of lossless samples *)
From Coq Require Import String Reals Lra Lia ZArith List Bool.
From Coquelicot Require Import Rcomplements Complex.
From Verif Require Import Num NumLemmas ModelBase ModelSample ModelTip StackLemmas Spec
  ProofsStackQS ProofsStackQS2 ProofsStackFF ProofsStackFF2 ProofsBulkFF SpecFresnel SpecWave WaveLemmas
  ProofsFresnel ProofsPassive ProofsTip4 ProofsContrast ProofsContrast2 ProofsContrast3 ModelScatter SpecScatter ProofsScatter.
Import ListNotations.
Open Scope R_scope.

Definition bulk_r (p : bool) (e0 e1 sg : R) : R :=
  let k0 := sqrt (e0 - sg) in let k1 := sqrt (e1 - sg) in
  if p then (e1 * k0 - e0 * k1) / (e1 * k0 + e0 * k1) else (k0 - k1) / (k0 + k1).

Lemma bulk_call (p : bool) (e0 e1 nu th : R) :
  0 < nu -> 0 < e0 -> 0 < e1 -> sin th ^ 2 < e0 -> sin th ^ 2 < e1 ->
  refl_coef (stack [RtoC e0; RtoC e1] [] (Some nu)) None (Some th) None (pol p) = Ok (Some (RtoC (bulk_r p e0 e1 (sin th ^ 2)))).
Proof.
  intros Hnu H0 H1 S0 S1. rewrite theta_call. set (q := nu * sin (Rabs th)).
  assert (Q2 : q ^ 2 = nu ^ 2 * sin th ^ 2) by (unfold q; rewrite Rpow_mult_distr, sin_abs_sq; ring).
  set (k0 := sqrt (e0 - sin th ^ 2)). set (k1 := sqrt (e1 - sin th ^ 2)).
  assert (P0 : 0 < k0) by (apply sqrt_lt_R0; lra). assert (P1 : 0 < k1) by (apply sqrt_lt_R0; lra).
  assert (K0 : k0 ^ 2 = e0 - sin th ^ 2) by (apply pow2_sqrt; lra).
  assert (K1 : k1 ^ 2 = e1 - sin th ^ 2) by (apply pow2_sqrt; lra).
  rewrite (bulk_real_refl p e0 e1 nu q (nu * k0) (nu * k1)); try assumption; try (now apply Rmult_lt_0_compat);
    try (rewrite Rpow_mult_distr, Q2, ?K0, ?K1; ring).
  do 3 f_equal. unfold bulk_r. cbv zeta. fold k0 k1.
  assert (0 < e1 * k0) by now apply Rmult_lt_0_compat. assert (0 < e0 * k1) by now apply Rmult_lt_0_compat.
  destruct p; field; repeat split; nra.
Qed.

Lemma ratio_unit a b : 0 < a -> 0 < b -> -1 < (a - b) / (a + b) < 1.
Proof.
  intros Ha Hb. assert (E : (a - b) / (a + b) * (a + b) = a - b) by (field; lra). split; apply Rnot_le_lt; intros Q; nra.
Qed.
Lemma bulk_r_range p e0 e1 sg : 0 < e0 -> 0 < e1 -> sg < e0 -> sg < e1 -> -1 < bulk_r p e0 e1 sg < 1.
Proof.
  intros H0 H1 S0 S1. unfold bulk_r. cbv zeta.
  assert (P0 : 0 < sqrt (e0 - sg)) by (apply sqrt_lt_R0; lra). assert (P1 : 0 < sqrt (e1 - sg)) by (apply sqrt_lt_R0; lra).
  destruct p; apply ratio_unit; try assumption; now apply Rmult_lt_0_compat.
Qed.
(** p polarization, above twice the squared sine: denser samples reflect more *)
Lemma bulk_r_mono e0 e1 e2 sg : 0 <= sg < e0 -> sg < e1 -> 2 * sg <= e1 -> 0 < e1 -> e1 <= e2 -> bulk_r true e0 e1 sg <= bulk_r true e0 e2 sg.
Proof.
  intros [S0 S1] S2 S3 H1 H12. unfold bulk_r. cbv zeta.
  set (k0 := sqrt (e0 - sg)). set (k1 := sqrt (e1 - sg)). set (k2 := sqrt (e2 - sg)).
  assert (P0 : 0 < k0) by (apply sqrt_lt_R0; lra). assert (P1 : 0 < k1) by (apply sqrt_lt_R0; lra). assert (P2 : 0 < k2) by (apply sqrt_lt_R0; lra).
  assert (K1 : k1 ^ 2 = e1 - sg) by (apply pow2_sqrt; lra). assert (K2 : k2 ^ 2 = e2 - sg) by (apply pow2_sqrt; lra).
  assert (A : 0 < e1 * k0) by (apply Rmult_lt_0_compat; lra). assert (B : 0 < e2 * k0) by (apply Rmult_lt_0_compat; lra).
  assert (A' : 0 < e0 * k1) by (apply Rmult_lt_0_compat; lra). assert (B' : 0 < e0 * k2) by (apply Rmult_lt_0_compat; lra).
  assert (M : e1 * k2 <= e2 * k1).
  { apply Rsqr_incr_0_var; [|apply Rmult_le_pos; lra]. rewrite !Rsqr_pow2, !Rpow_mult_distr, K1, K2.
    assert (0 <= (e2 - e1) * (e1 * e2 - sg * (e1 + e2))).
    { apply Rmult_le_pos; [lra|]. assert (sg * (e1 + e2) <= sg * (2 * e2)) by (apply Rmult_le_compat_l; lra).
      assert (2 * sg * e2 <= e1 * e2) by (apply Rmult_le_compat_r; lra). lra. }
    nra. }
  apply Rmult_le_reg_r with ((e1 * k0 + e0 * k1) * (e2 * k0 + e0 * k2)); [apply Rmult_lt_0_compat; lra|].
  replace ((e1 * k0 - e0 * k1) / (e1 * k0 + e0 * k1) * ((e1 * k0 + e0 * k1) * (e2 * k0 + e0 * k2)))
    with ((e1 * k0 - e0 * k1) * (e2 * k0 + e0 * k2)) by (field; lra).
  replace ((e2 * k0 - e0 * k2) / (e2 * k0 + e0 * k2) * ((e1 * k0 + e0 * k1) * (e2 * k0 + e0 * k2)))
    with ((e2 * k0 - e0 * k2) * (e1 * k0 + e0 * k1)) by (field; lra).
  assert (0 <= k0 * e0) by (apply Rmult_le_pos; lra).
  assert (k0 * e0 * (e1 * k2) <= k0 * e0 * (e2 * k1)) by (apply Rmult_le_compat_l; lra). nra.
Qed.

(** the ratio for real signals of the same sign *)
Lemma real_ratio (signal : sample -> res CV) (p : bool) (e0 e1 e3 nu th c sg m m3 : R) :
  0 < nu -> 0 < e0 -> 0 < e1 -> 0 < e3 -> sin th ^ 2 < e0 -> sin th ^ 2 < e1 -> sin th ^ 2 < e3 -> Rabs c < 1 ->
  sg <> 0 -> m3 <> 0 ->
  signal (stack [RtoC e0; RtoC e1] [] (Some nu)) = Ok (Some (RtoC (sg * m))) ->
  signal (stack [RtoC e0; RtoC e3] [] (Some nu)) = Ok (Some (RtoC (sg * m3))) ->
  normalised signal (stack [RtoC e0; RtoC e1] [] (Some nu)) (stack [RtoC e0; RtoC e3] [] (Some nu)) (Some th) c (pol p)
  = Ok (Some (RtoC (((1 + c * bulk_r p e0 e1 (sin th ^ 2)) / (1 + c * bulk_r p e0 e3 (sin th ^ 2))) ^ 2 * (m / m3)))) /\
  0 < 1 + c * bulk_r p e0 e1 (sin th ^ 2) /\ 0 < 1 + c * bulk_r p e0 e3 (sin th ^ 2).
Proof.
  intros Hnu H0 H1 H3 S0 S1 S3 Hc Hsg Hm E E3.
  assert (P : forall e, 0 < e -> sin th ^ 2 < e -> 0 < 1 + c * bulk_r p e0 e (sin th ^ 2)).
  { intros e He Se. pose proof (bulk_r_range p e0 e _ H0 He S0 Se) as [R1 R2]. apply Rabs_lt_between in Hc. nra. }
  pose proof (P e1 H1 S1) as Q1. pose proof (P e3 H3 S3) as Q3. split; [|split; assumption].
  unfold normalised. rewrite E, E3, !bulk_call by assumption. cbn [rbind].
  set (r := bulk_r p e0 e1 (sin th ^ 2)) in *. set (r3 := bulk_r p e0 e3 (sin th ^ 2)) in *.
  rewrite scattered_ratio.
  - do 2 f_equal. rewrite <- !RtoC_mult, <- !RtoC_plus.
    assert (sg * m3 <> 0) by now apply Rmult_integral_contrapositive.
    rewrite <- !RtoC_div, <- !RtoC_mult by lra. f_equal. field. repeat split; lra.
  - rewrite <- RtoC_mult, <- RtoC_plus. apply RtoC_neq_0. lra.
  - apply RtoC_neq_0. now apply Rmult_integral_contrapositive.
Qed.

Lemma sgn_nz n : sgn_pow n <> 0.
Proof. unfold sgn_pow. destruct (Z.even n); lra. Qed.

(** what the two theorems below share *)
Lemma lossless_ratio (signal : sample -> res CV) (n : Z) (e0 e1 e2 e3 nu th c : R) :
  (forall a b, e0 <= a -> a < b -> exists m1 m2, signal (stack [RtoC e0; RtoC a] [] (Some nu)) = Ok (Some (RtoC (sgn_pow n * m1))) /\
     signal (stack [RtoC e0; RtoC b] [] (Some nu)) = Ok (Some (RtoC (sgn_pow n * m2))) /\ 0 <= m1 < m2) ->
  0 < nu -> 0 < e0 -> e0 <= e1 < e2 -> e0 < e3 -> sin th ^ 2 < e0 -> Rabs c < 1 ->
  let ref := stack [RtoC e0; RtoC e3] [] (Some nu) in
  let eta := fun e => normalised signal (stack [RtoC e0; RtoC e] [] (Some nu)) ref (Some th) c in
  (forall p, exists x1 x2 : R, eta e1 (pol p) = Ok (Some (RtoC x1)) /\ eta e2 (pol p) = Ok (Some (RtoC x2)) /\
     0 <= x1 /\ 0 < x2 /\ (0 <= c -> 2 * sin th ^ 2 <= e1 -> p = true -> x1 < x2)).
Proof.
  intros HS Hnu H0 [H1 H12] H3 Hth Hc ref eta p.
  destruct (HS e0 e3 (Rle_refl _) H3) as (m0 & m3 & _ & E3 & M3).
  destruct (HS e1 e2 H1 H12) as (m1 & m2 & E1 & E2 & M12).
  destruct (real_ratio signal p e0 e1 e3 nu th c (sgn_pow n) m1 m3) as (F1 & Q1 & Q3); auto using sgn_nz; try lra.
  destruct (real_ratio signal p e0 e2 e3 nu th c (sgn_pow n) m2 m3) as (F2 & Q2 & _); auto using sgn_nz; try lra.
  set (u1 := 1 + c * bulk_r p e0 e1 (sin th ^ 2)) in *. set (u2 := 1 + c * bulk_r p e0 e2 (sin th ^ 2)) in *.
  set (u3 := 1 + c * bulk_r p e0 e3 (sin th ^ 2)) in *.
  assert (V : 0 <= m1 / m3 < m2 / m3).
  { split; [apply Rdiv_le_0_compat; lra|]. unfold Rdiv. apply Rmult_lt_compat_r; [apply Rinv_0_lt_compat|]; lra. }
  assert (W1 : 0 < (u1 / u3) ^ 2) by (apply pow_lt, Rdiv_lt_0_compat; assumption).
  assert (W2 : 0 < (u2 / u3) ^ 2) by (apply pow_lt, Rdiv_lt_0_compat; assumption).
  exists ((u1 / u3) ^ 2 * (m1 / m3)), ((u2 / u3) ^ 2 * (m2 / m3)).
  split; [exact F1|]. split; [exact F2|]. split; [apply Rmult_le_pos; lra|]. split; [apply Rmult_lt_0_compat; lra|].
  intros Hc0 H2s Hp. subst p.
  assert (U : u1 <= u2).
  { unfold u1, u2. pose proof (pow2_ge_0 (sin th)).
    assert (bulk_r true e0 e1 (sin th ^ 2) <= bulk_r true e0 e2 (sin th ^ 2)) by (apply bulk_r_mono; lra). nra. }
  assert (W : (u1 / u3) ^ 2 <= (u2 / u3) ^ 2).
  { apply pow_incr. split; [left; now apply Rdiv_lt_0_compat|]. unfold Rdiv. apply Rmult_le_compat_r; [left; now apply Rinv_0_lt_compat|exact U]. }
  nra.
Qed.

(** C95. Lossless bulk samples and references (point dipole model): at every angle, for
    both polarizations and for every harmonic the normalised contrast is a non-negative
    real number, so its phase is zero; with p polarization and 0 <= c_r < 1 it grows
    strictly with the permittivity from 2 sin(theta)^2 upwards. *)
Lemma C95_pdm_lossless_proof :
  forall (D : Defaults) (e0 e1 e2 e3 nu theta c_r A_tip : R) (n : Z) (z_tip r_tip : option R) (n_trapz : option nat) (eps_tip : option R),
  let N := given_or (d_n_trapz D) n_trapz in let z := given_or (d_z_tip D) z_tip in
  let r := given_or (d_r_tip D) r_tip in
  let signal := fun s => pdm_eff_pol_n D s A_tip n z_tip n_trapz r_tip (option_map RtoC eps_tip) None in
  let eta := fun e => normalised signal (stack [RtoC e0; RtoC e] [] (Some nu)) (stack [RtoC e0; RtoC e3] [] (Some nu)) (Some theta) c_r in
  0 < nu -> 0 < e0 -> e0 <= e1 < e2 -> e0 < e3 -> sin theta ^ 2 < e0 -> Rabs c_r < 1 ->
  N <> O -> 0 < A_tip -> 0 < r -> 0 <= z -> (forall e, eps_tip = Some e -> 1 < e) ->
  forall p, exists x1 x2 : R, eta e1 (pol p) = Ok (Some (RtoC x1)) /\ eta e2 (pol p) = Ok (Some (RtoC x2)) /\
    0 <= x1 /\ 0 < x2 /\ (0 <= c_r -> 2 * sin theta ^ 2 <= e1 -> p = true -> x1 < x2).
Proof.
  intros D e0 e1 e2 e3 nu th c A n zt rt nt et N z r signal eta Hnu H0 H12 H3 Hth Hc HN HA Hr Hz Het.
  refine (lossless_ratio signal n e0 e1 e2 e3 nu th c _ Hnu H0 H12 H3 Hth Hc). intros a b Ha Hab. unfold signal.
  apply (C69_pdm_permittivity_proof D e0 a b (Some nu) (Some nu) A n zt rt nt et); auto.
Qed.

(** C95. The same for the finite dipole model, in the range of tips of C69. *)
Lemma C95_fdm_lossless_proof :
  forall (laggauss : laggauss_t) (D : Defaults) (e0 e1 e2 e3 nu theta c_r A_tip : R) (n : Z) (n_trapz : option nat)
    (z_tip r_tip L_tip : option R) (g_factor : option C) (d_Q0 d_Q1 d_Qa : option R) (n_lag : option nat) (method : option string) (g : R),
  let N := given_or (d_n_trapz D) n_trapz in let z := given_or (d_z_tip D) z_tip in
  let r := given_or (d_r_tip D) r_tip in let L := given_or (d_L_tip D) L_tip in
  let d0 := given_or (131 / 100 * L / (L + 2 * r)) d_Q0 in let d1 := given_or (d_d_Q1 D) d_Q1 in
  let signal := fun s => fdm_eff_pol_n laggauss D s A_tip n z_tip n_trapz r_tip L_tip g_factor d_Q0 d_Q1 d_Qa n_lag method in
  let eta := fun e => normalised signal (stack [RtoC e0; RtoC e] [] (Some nu)) (stack [RtoC e0; RtoC e3] [] (Some nu)) (Some theta) c_r in
  0 < nu -> 0 < e0 -> e0 <= e1 < e2 -> e0 < e3 -> sin theta ^ 2 < e0 -> Rabs c_r < 1 ->
  given_or (d_g_factor D) g_factor = RtoC g ->
  N <> O -> 0 < A_tip -> 0 < r < 4 * L -> 0 < r + 4 * z + 2 * r * d0 -> 0 < r + 4 * z + 2 * r * d1 ->
  r + 2 * (z + 2 * A_tip) + r * d0 <= 2 * L * g -> r + 4 * (z + 2 * A_tip) + 2 * r * d0 <= 4 * L ->
  r + 2 * (z + 2 * A_tip) + r * d1 <= 2 * L * g -> r + 4 * (z + 2 * A_tip) + 2 * r * d1 <= 4 * L ->
  Re (fdm_f z d1 r L (RtoC g)) <= 1 -> method = None \/ method = Some "bulk"%string ->
  forall p, exists x1 x2 : R, eta e1 (pol p) = Ok (Some (RtoC x1)) /\ eta e2 (pol p) = Ok (Some (RtoC x2)) /\
    0 <= x1 /\ 0 < x2 /\ (0 <= c_r -> 2 * sin theta ^ 2 <= e1 -> p = true -> x1 < x2).
Proof.
  intros lg D e0 e1 e2 e3 nu th c A n nt zt rt Lt gf q0 q1 qa nl me g N z r L d0 d1 signal eta
    Hnu H0 H12 H3 Hth Hc Hg HN HA Hr B0 B1 B2 B3 B4 B5 Hf Hm.
  refine (lossless_ratio signal n e0 e1 e2 e3 nu th c _ Hnu H0 H12 H3 Hth Hc). intros a b Ha Hab. unfold signal.
  apply (C69_fdm_permittivity_proof lg D e0 a b (Some nu) (Some nu) A n nt zt rt Lt gf q0 q1 qa nl g); auto.
Qed.

(** the reflection of a film with phase pi/4 between indices 1, 2 and 3 *)
Lemma film_r : refl_coef (stack [RtoC 1; RtoC 4; RtoC 9] [PI / 8] (Some 1)) None (Some 0) None "p" = Ok (Some (39 / 113, 20 / 113)).
Proof.
  change "p"%string with (pol true). rewrite theta_call. rewrite Rabs_R0, sin_0, Rmult_0_r.
  assert (K1 : kz 1 0 (RtoC 1) = RtoC 1).
  { symmetry. apply is_kz_principal; [apply is_kz_R; ring|apply principal_R; lra]. }
  assert (K4 : kz 1 0 (RtoC 4) = RtoC 2).
  { symmetry. apply is_kz_principal; [apply is_kz_R; ring|apply principal_R; lra]. }
  assert (K9 : kz 1 0 (RtoC 9) = RtoC 3).
  { symmetry. apply is_kz_principal; [apply is_kz_R; ring|apply principal_R; lra]. }
  assert (HR : ff_regular true 1 0 (eps_of (RtoC 1) [(RtoC 4, PI / 8)] (RtoC 9))).
  { split.
    - assert (Q : forall x : R, 0 < x -> (RtoC x * RtoC (1 ^ 2) - RtoC (0 ^ 2))%C <> RtoC 0).
      { intros x Hx. rewrite <- RtoC_mult, <- RtoC_minus. apply RtoC_neq_0. lra. }
      unfold eps_of; cbn [map app fst]. repeat constructor; apply Q; lra.
    - intros _. unfold eps_of, nonzero_below. cbn [map app fst tl]. repeat constructor; apply RtoC_neq_0; lra. }
  pose proof (transfer_matrix_explicit true (RtoC 1) [(RtoC 4, PI / 8)] (RtoC 9) (Some 1) 1 0 HR) as EM.
  unfold eps_of in EM. cbn [map app fst snd] in EM. unfold refl_coef. rewrite EM. cbn [rbind lift m10 m00].
  assert (F1 : ffactor true 1 0 (RtoC 1) (RtoC 4) = RtoC (1 / 2)).
  { unfold ffactor. rewrite K1, K4, <- !RtoC_mult, <- RtoC_div by lra. f_equal. field. }
  assert (F2 : ffactor true 1 0 (RtoC 4) (RtoC 9) = RtoC (2 / 3)).
  { unfold ffactor. rewrite K9, K4, <- !RtoC_mult, <- RtoC_div by lra. f_equal. field. }
  set (a := / sqrt 2). assert (Ha : 0 < a) by (apply Rinv_0_lt_compat, sqrt_lt_R0; lra).
  assert (HM : Mff true 1 0 (RtoC 1) [(RtoC 4, PI / 8)] (RtoC 9)
     = pmul (pT (RtoC (1 / 2))) (pmul (pP (a, - a) (a, a)) (pT (RtoC (2 / 3))))).
  { unfold Mff. cbn [stackM]. unfold Tff. rewrite F1, F2. f_equal. f_equal. unfold Pff. rewrite K4.
    rewrite <- RtoC_mult. replace (2 * (PI / 8)) with (PI / 4) by field.
    assert (E : forall x y, (x = PI / 4 -> y = (a, a)) -> True) by auto. clear E.
    assert (S4 : sin (PI / 4) = a) by (rewrite sin_PI4; unfold a, Rdiv; ring).
    assert (C4 : cos (PI / 4) = a) by (rewrite cos_PI4; unfold a, Rdiv; ring).
    f_equal; unfold Cexp, Re, Im; simpl.
    - replace (0 * (PI / 4) - -1 * 0) with 0 by ring. replace (0 * 0 + -1 * (PI / 4)) with (- (PI / 4)) by ring.
      rewrite exp_0, cos_neg, sin_neg, S4, C4. f_equal; ring.
    - replace (0 * (PI / 4) - 1 * 0) with 0 by ring. replace (0 * 0 + 1 * (PI / 4)) with (PI / 4) by ring.
      rewrite exp_0, S4, C4. f_equal; ring. }
  rewrite HM.
  assert (H00 : c00 (pmul (pT (RtoC (1 / 2))) (pmul (pP (a, - a) (a, a)) (pT (RtoC (2 / 3))))) = (2 * a / 3, - (7 * a / 12))).
  { apply C_eq; unfold Re, Im; simpl; field. }
  assert (H10 : c10 (pmul (pT (RtoC (1 / 2))) (pmul (pP (a, - a) (a, a)) (pT (RtoC (2 / 3))))) = (a / 3, - (a / 12))).
  { apply C_eq; unfold Re, Im; simpl; field. }
  rewrite H00, H10. rewrite cdiv_ok by (apply C_neq_0; left; lra). do 2 f_equal.
  apply C_eq; unfold Re, Im, Cdiv, Cinv; simpl; field; nra.
Qed.

(** C95. The phase of a corrected spectrum is not a sign of absorption: a lossless film
    (permittivity 4 on 9) has a real near-field signal, yet its corrected contrast against
    its own substrate has a positive imaginary part, whatever the (real, equally signed)
    signals are and however small c_r > 0 is. *)
Lemma C95_phase_is_absorption_refuted_proof :
  forall (signal : sample -> res CV) (a a' c_r : R),
  let film := stack [RtoC 1; RtoC 4; RtoC 9] [PI / 8] (Some 1) in
  let substrate := stack [RtoC 1; RtoC 9] [] (Some 1) in
  0 < c_r -> signal film = Ok (Some (RtoC a)) -> signal substrate = Ok (Some (RtoC a')) -> 0 < a / a' -> a' <> 0 ->
  exists eta : C, normalised signal film substrate (Some 0) c_r "p" = Ok (Some eta) /\ 0 < Im eta.
Proof.
  intros signal a a' c film sub Hc Ea Ea' Haa Ha'. unfold normalised. rewrite Ea, Ea'. unfold film, sub. rewrite film_r.
  assert (B : refl_coef (stack [RtoC 1; RtoC 9] [] (Some 1)) None (Some 0) None "p" = Ok (Some (RtoC (1 / 2)))).
  { change "p"%string with (pol true). rewrite bulk_call; try lra; try (rewrite sin_0; lra). do 3 f_equal. unfold bulk_r. cbv zeta.
    rewrite sin_0. replace (1 - 0 ^ 2) with 1 by ring. replace (9 - 0 ^ 2) with (3 * 3) by ring.
    rewrite sqrt_1, sqrt_square by lra. field. }
  rewrite B. cbn [rbind]. rewrite scattered_ratio.
  - eexists. split; [reflexivity|].
    set (w := ((1 + RtoC c * (39 / 113, 20 / 113)%R) / (1 + RtoC c * RtoC (1 / 2)))%C).
    assert (Ew : w = ((1 + c * (39 / 113)) / (1 + c / 2), c * (20 / 113) / (1 + c / 2))).
    { unfold w. apply C_eq; unfold Re, Im; simpl; field; lra. }
    rewrite Ew, <- RtoC_div by assumption.
    set (u := (1 + c * (39 / 113)) / (1 + c / 2)). set (v := c * (20 / 113) / (1 + c / 2)).
    assert (0 < u) by (apply Rdiv_lt_0_compat; lra). assert (0 < v) by (apply Rdiv_lt_0_compat; lra).
    unfold Im. simpl. assert (0 < u * v) by now apply Rmult_lt_0_compat. nra.
  - rewrite <- RtoC_mult, <- RtoC_plus. apply RtoC_neq_0. lra.
  - apply RtoC_neq_0. exact Ha'.
Qed.

(** C95. An instance: with the default point-dipole tip the film of the previous theorem
    is indistinguishable from its substrate before the correction (contrast exactly 1) and
    has a phase after it; the bulk crystals 4 and 9 at 60 degrees with c_r = 0.3 have a
    corrected contrast between 0 and 1. *)
Lemma C95_film_example_proof :
  let signal := fun s => pdm_eff_pol_n defaults0 s (20 / 10 ^ 9) 3 None None None None None in
  let film := stack [RtoC 1; RtoC 4; RtoC 9] [PI / 8] (Some 1) in
  let substrate := stack [RtoC 1; RtoC 9] [] (Some 1) in
  uncorrected signal film substrate = Ok (Some (RtoC 1)) /\
  (exists eta : C, normalised signal film substrate (Some 0) (3 / 10) "p" = Ok (Some eta) /\ 0 < Im eta) /\
  (exists x : R, normalised signal (stack [RtoC 1; RtoC 4] [] (Some 1)) substrate (Some (PI / 3)) (3 / 10) "p" = Ok (Some (RtoC x)) /\ 0 <= x < 1).
Proof.
  intros signal film sub.
  destruct (C69_pdm_permittivity_proof defaults0 1 4 9 (Some 1) (Some 1) (20 / 10 ^ 9) 3 None None None None) as (m1 & m2 & E1 & E2 & M);
    try (unfold given_or; cbn [defaults0 d_r_tip d_z_tip d_n_trapz]); try lra; try discriminate.
  cbn [option_map] in E1, E2.
  assert (S3 : sgn_pow 3 = -1) by reflexivity.
  assert (EF : signal film = signal sub).
  { destruct (C09_pdm_ignores_inner_layers_proof defaults0 (RtoC 1) [RtoC 4] (RtoC 9) [PI / 8] (Some 1) (20 / 10 ^ 9) 3 None None None None None None) as (_ & E & _).
    - reflexivity.
    - constructor; [apply RtoC_neq_0; lra|constructor].
    - apply RtoC_neq_0. lra.
    - exact E. }
  assert (ES : signal sub = Ok (Some (RtoC (sgn_pow 3 * m2)))) by exact E2.
  assert (NZ : sgn_pow 3 * m2 <> 0) by (rewrite S3; lra).
  split; [|split].
  - unfold uncorrected. rewrite EF, ES. cbn [rbind]. rewrite cdiv_ok by (now apply RtoC_neq_0).
    do 2 f_equal. rewrite <- RtoC_div by assumption. f_equal. field. split; [lra|apply sgn_nz].
  - apply (C95_phase_is_absorption_refuted_proof signal (sgn_pow 3 * m2) (sgn_pow 3 * m2) (3 / 10)); try lra.
    + fold film. now rewrite EF.
    + exact ES.
    + replace (sgn_pow 3 * m2 / (sgn_pow 3 * m2)) with 1 by (field; split; [lra|apply sgn_nz]). lra.
  - assert (SI : sin (PI / 3) ^ 2 = 3 / 4).
    { rewrite sin_PI3. assert (sqrt 3 * sqrt 3 = 3) by (apply sqrt_sqrt; lra). nra. }
    destruct (C95_pdm_lossless_proof defaults0 1 4 9 9 1 (PI / 3) (3 / 10) (20 / 10 ^ 9) 3 None None None None) with (p := true) as (x1 & x2 & F1 & F2 & P1 & P2 & Q);
      try (unfold given_or; cbn [defaults0 d_r_tip d_z_tip d_n_trapz]); try lra; try discriminate.
    { rewrite Rabs_pos_eq; lra. }
    assert (X2 : x2 = 1).
    { destruct (C95_self_reference_proof signal true 1 1 (PI / 3) (3 / 10) [] (RtoC 9) [] (RtoC (sgn_pow 3 * m2))) as [G _]; try lra.
      - rewrite Rabs_pos_eq; lra.
      - split; [reflexivity|]. split; [constructor|]. split; [constructor|]. split.
        + intros _. constructor; [apply RtoC_neq_0; lra|constructor].
        + constructor; [simpl; lra|constructor].
      - exact ES.
      - specialize (G (RtoC_neq_0 _ NZ)). cbn [app] in G. cbn [option_map] in F2. unfold signal in G. rewrite G in F2. injection F2 as F2. auto. }
    exists x1. split; [exact F1|]. rewrite SI in Q. specialize (Q ltac:(lra) ltac:(lra) eq_refl). lra.
Qed.

(** C95. An instance of the bound: absorbing film on silicon against a metal at 60
    degrees; c_r = 0.3 changes the modulus by at most a factor 169/49. *)
Lemma C95_bound_example_proof :
  forall (signal : sample -> res CV) (a a' : C),
  let s := stack [RtoC 1; (2, 1); RtoC (117 / 10)] [1 / 2] (Some 1) in
  let ref := stack [RtoC 1; (-50, 10)] [] (Some 1) in
  signal s = Ok (Some a) -> signal ref = Ok (Some a') -> a' <> RtoC 0 ->
  exists rho phi : R, normalised signal s ref (Some (PI / 3)) (3 / 10) "p" = Ok (Some (polar rho phi * (a / a'))%C) /\
    49 / 169 <= rho <= 169 / 49 /\ Rabs phi <= 4 * asin (3 / 10).
Proof.
  intros signal a a' s ref Ea Ea' Ha'.
  assert (SI : sin (PI / 3) ^ 2 = 3 / 4).
  { rewrite sin_PI3. assert (sqrt 3 * sqrt 3 = 3) by (apply sqrt_sqrt; lra). nra. }
  assert (AB : Rabs (3 / 10) = 3 / 10) by (apply Rabs_pos_eq; lra).
  destruct (C95_bounded_correction_proof signal true 1 1 1 (PI / 3) (3 / 10) [(2, 1)] [] (RtoC (117 / 10)) (-50, 10) [1 / 2] [] a a')
    as (rho & phi & _ & E & B & F); try lra; try assumption.
  - split; [reflexivity|]. split; [constructor; [lra|constructor]|]. split; [|split].
    + constructor; [|constructor]. intros Q. injection Q as _ Q. lra.
    + intros _. constructor; [|constructor; [|constructor]]; intros Q; injection Q as Q; lra.
    + constructor; [simpl; lra|constructor; [simpl; lra|constructor]].
  - split; [reflexivity|]. split; [constructor|]. split; [constructor|]. split.
    + intros _. constructor; [|constructor]. intros Q. injection Q as Q. lra.
    + constructor; [simpl; lra|constructor].
  - exists rho, phi. rewrite AB in B, F. split; [exact E|]. split; [|exact F]. lra.
Qed.
