(** * Proofs: sensitivity of the closed-form inverses (C89) *)
From Coq Require Import String Reals Lra Lia ZArith List Bool.
From Coquelicot Require Import Rcomplements Complex.
From Verif Require Import Num NumLemmas ModelBase ModelSample ModelTip StackLemmas Spec
  ProofsStackQS ProofsStackQS2 ProofsPassive ProofsTip ProofsTip2 ProofsConsist3.
Import ListNotations.
Open Scope R_scope.

(** C89. Two signals a and a' of one finite-dipole tip lead to reflection
    coefficients b and b' with
      (b' - b) f_0 = 2 (1 - f_1 b) (1 - f_1 b') (a' - a),
    exactly: the error of the signal is amplified by 2 |1 - f_1 b|^2 / |f_0|. *)
Lemma C89_fdm_sensitivity_proof : forall (D : Defaults) (z_tip r_tip L_tip : option R) (g_factor : option C)
    (d_Q0 d_Q1 : option R) (a a' b b' : C),
  let z := given_or (d_z_tip D) z_tip in let r := given_or (d_r_tip D) r_tip in
  let L := given_or (d_L_tip D) L_tip in let g := given_or (d_g_factor D) g_factor in
  let d0 := given_or (131 / 100 * L / (L + 2 * r)) d_Q0 in let d1 := given_or (d_d_Q1 D) d_Q1 in
  let f0 := fdm_f z d0 r L g in let f1 := fdm_f z d1 r L g in
  fdm_regular z d0 r L -> fdm_regular z d1 r L ->
  fdm_refl_coef_qs_from_eff_pol D (Some a) z_tip r_tip L_tip g_factor d_Q0 d_Q1 = Some b ->
  fdm_refl_coef_qs_from_eff_pol D (Some a') z_tip r_tip L_tip g_factor d_Q0 d_Q1 = Some b' ->
  ((b' - b) * f0 = 2 * (1 - f1 * b) * (1 - f1 * b') * (a' - a))%C.
Proof.
  intros D z_tip r_tip L_tip g_factor d_Q0 d_Q1 a a' b b' z r L g d0 d1 f0 f1 R0 R1 H H'.
  rewrite (fdm_inverse_eq D a z_tip r_tip L_tip g_factor d_Q0 d_Q1 R0 R1) in H.
  rewrite (fdm_inverse_eq D a' z_tip r_tip L_tip g_factor d_Q0 d_Q1 R0 R1) in H'.
  fold z r L g d0 d1 in H, H'. fold f0 f1 in H, H'.
  apply cdiv_Some in H. destruct H as (u & w & Eu & Ew & N & ->). injection Eu as <-. injection Ew as <-.
  apply cdiv_Some in H'. destruct H' as (u & w & Eu & Ew & N' & ->). injection Eu as <-. injection Ew as <-.
  field. split; assumption.
Qed.

(** C89. The same for the point dipole, with tip polarisability alpha and
    f = alpha / (16 pi (r + z)^3):
      (b' - b) f alpha = (1 - f b) (1 - f b') (a' - a). *)
Lemma C89_pdm_sensitivity_proof : forall (D : Defaults) (z_tip r_tip : option R) (eps_tip alpha_tip : option C) (alpha a a' b b' : C),
  let z := given_or (d_z_tip D) z_tip in let r := given_or (d_r_tip D) r_tip in
  let f := (alpha / RtoC (16 * PI * (r + z) ^ 3))%C in
  tip_alpha r eps_tip alpha_tip alpha -> r + z <> 0 ->
  pdm_refl_coef_qs_from_eff_pol D (Some a) z_tip r_tip eps_tip alpha_tip = Ok (Some b) ->
  pdm_refl_coef_qs_from_eff_pol D (Some a') z_tip r_tip eps_tip alpha_tip = Ok (Some b') ->
  ((b' - b) * f * alpha = (1 - f * b) * (1 - f * b') * (a' - a))%C.
Proof.
  intros D z_tip r_tip eps_tip alpha_tip alpha a a' b b' z r f Ht Hz H H'.
  unfold pdm_refl_coef_qs_from_eff_pol in H, H'.
  rewrite (pdm_defaults_alpha _ _ _ _ _ Ht) in H, H'. cbn [rbind fst snd] in H, H'. rewrite !dflt_given in H, H'.
  fold z r in H, H'. rewrite pdm_geom_ok in H, H' by exact Hz. fold f in H, H'.
  assert (H1 : (Some (a - alpha)%C / Some (f * a)%C)%cv = Some b) by (apply (f_equal (fun x => match x with Ok y => y | Raise _ => None end)) in H; exact H).
  assert (H2 : (Some (a' - alpha)%C / Some (f * a')%C)%cv = Some b') by (apply (f_equal (fun x => match x with Ok y => y | Raise _ => None end)) in H'; exact H').
  apply cdiv_Some in H1. destruct H1 as (u & w & Eu & Ew & N & ->). injection Eu as <-. injection Ew as <-.
  apply cdiv_Some in H2. destruct H2 as (u & w & Eu & Ew & N' & ->). injection Eu as <-. injection Ew as <-.
  pose proof (Cmult_neq_0_r _ _ N) as Na. pose proof (Cmult_neq_0_r _ _ N') as Na'.
  assert (Nf : f <> RtoC 0) by (intro K; apply N; rewrite K; ring).
  field. auto.
Qed.

(** C89. From the reflection coefficient to the permittivity: for b and b' in one
    environment
      (e' - e) (1 + b) (1 - b') = 2 e (b' - b),
    so the relative error of the permittivity is 2 |b' - b| / |(1 + b) (1 - b')|:
    metals (b near 1) and materials at their plasmon or phonon edge (b near -1)
    are ill-conditioned. *)
Lemma C89_permittivity_sensitivity_proof : forall env b b' e e' : C,
  permitivitty (Some b) (Some env) = Some e -> permitivitty (Some b') (Some env) = Some e' ->
  ((e' - e) * (1 - b) * (1 - b') = 2 * env * (b' - b) /\
   (e' - e) * (1 + b) * (1 - b') = 2 * e * (b' - b))%C.
Proof.
  intros env b b' e e' H H'. unfold permitivitty, rc in H, H'. cbn [cmul cadd csub olift2] in H, H'.
  apply cdiv_Some in H. destruct H as (u & w & Eu & Ew & N & ->). injection Eu as <-. injection Ew as <-.
  apply cdiv_Some in H'. destruct H' as (u & w & Eu & Ew & N' & ->). injection Eu as <-. injection Ew as <-.
  split; field; auto.
Qed.

(** a tip that responds (f_0 <> 0) inverts the polarisability made from b *)
Lemma fdm_round : forall D z_tip r_tip L_tip g_factor d_Q0 d_Q1 (b : C),
  let z := given_or (d_z_tip D) z_tip in let r := given_or (d_r_tip D) r_tip in
  let L := given_or (d_L_tip D) L_tip in let g := given_or (d_g_factor D) g_factor in
  let d0 := given_or (131 / 100 * L / (L + 2 * r)) d_Q0 in let d1 := given_or (d_d_Q1 D) d_Q1 in
  let f0 := fdm_f z d0 r L g in let f1 := fdm_f z d1 r L g in
  fdm_regular z d0 r L -> fdm_regular z d1 r L -> f0 <> RtoC 0 -> (1 - f1 * b <> 0)%C ->
  fdm_refl_coef_qs_from_eff_pol D (Some (1 + b * f0 / (2 * (1 - f1 * b)))%C) z_tip r_tip L_tip g_factor d_Q0 d_Q1 = Some b.
Proof.
  intros D z_tip r_tip L_tip g_factor d_Q0 d_Q1 b z r L g d0 d1 f0 f1 R0 R1 F0 N.
  rewrite (fdm_inverse_eq D _ z_tip r_tip L_tip g_factor d_Q0 d_Q1 R0 R1). fold z r L g d0 d1. fold f0 f1.
  assert (ED : (f0 + 2 * f1 * (1 + b * f0 / (2 * (1 - f1 * b)) - 1) = f0 / (1 - f1 * b))%C) by (field; auto).
  rewrite ED. rewrite cdiv_ok by (now apply Cdiv_neq_0). f_equal. field. auto.
Qed.

(** C89. No bound on this loss holds for all samples: for every tip that responds
    and every constant K there are two signals whose permittivities differ by more
    than K times (the difference of the signals) times (the permittivity). *)
Lemma C89_bounded_relative_error_refuted_proof : forall (D : Defaults) (z_tip r_tip L_tip : option R) (g_factor : option C)
    (d_Q0 d_Q1 : option R) (K : R),
  let z := given_or (d_z_tip D) z_tip in let r := given_or (d_r_tip D) r_tip in
  let L := given_or (d_L_tip D) L_tip in let g := given_or (d_g_factor D) g_factor in
  let d0 := given_or (131 / 100 * L / (L + 2 * r)) d_Q0 in let d1 := given_or (d_d_Q1 D) d_Q1 in
  fdm_regular z d0 r L -> fdm_regular z d1 r L ->
  fdm_f z d0 r L g <> RtoC 0 -> fdm_f z d1 r L g <> RtoC 1 ->
  exists a a' b b' e e' : C,
    fdm_refl_coef_qs_from_eff_pol D (Some a) z_tip r_tip L_tip g_factor d_Q0 d_Q1 = Some b /\
    fdm_refl_coef_qs_from_eff_pol D (Some a') z_tip r_tip L_tip g_factor d_Q0 d_Q1 = Some b' /\
    permitivitty (Some b) (Some (RtoC 1)) = Some e /\ permitivitty (Some b') (Some (RtoC 1)) = Some e' /\
    K * Cmod (a' - a)%C * Cmod e < Cmod (e' - e)%C.
Proof.
  intros D z_tip r_tip L_tip g_factor d_Q0 d_Q1 K z r L g d0 d1 R0 R1 F0 F1.
  set (f0 := fdm_f z d0 r L g) in *. set (f1 := fdm_f z d1 r L g) in *.
  assert (N1 : (1 - f1 <> 0)%C). { intro X. apply F1. replace f1 with (1 - (1 - f1))%C by ring. rewrite X. ring. }
  pose proof (proj1 (Cmod_gt_0 _) N1) as P1. set (m := Cmod (1 - f1)%C) in *.
  assert (M0 : 0 < m) by exact P1.
  set (q := Cmod f1). assert (Q0 : 0 <= q) by apply Cmod_ge_0.
  set (p := Cmod f0). assert (P0 : 0 <= p) by apply Cmod_ge_0.
  set (X := 4 * (Rabs K + 1) * (p + 1)). assert (X0 : 4 <= X). { unfold X. pose proof (Rabs_pos K). nra. }
  set (t := Rmin (1 / 4) (Rmin (m / (4 * (q + 1))) (m * m / (2 * X)))).
  assert (T0 : 0 < t). { unfold t. repeat apply Rmin_pos; try lra; apply Rdiv_lt_0_compat; nra. }
  assert (T1 : t <= 1 / 4) by apply Rmin_l.
  assert (T2 : t * (4 * (q + 1)) <= m).
  { assert (H : t <= m / (4 * (q + 1))) by (unfold t; eapply Rle_trans; [apply Rmin_r|apply Rmin_l]). apply Rle_div_r in H; lra. }
  assert (T3 : t * (2 * X) <= m * m).
  { assert (H : t <= m * m / (2 * X)) by (unfold t; eapply Rle_trans; [apply Rmin_r|apply Rmin_r]). apply Rle_div_r in H; lra. }
  assert (G : forall u, 0 < u <= 2 * t -> m / 2 <= Cmod (1 - f1 * RtoC (1 - u))%C).
  { intros u Hu. pose proof (Cmod_triangle (1 - f1 * RtoC (1 - u)) (- (RtoC u * f1)))%C as T.
    replace (1 - f1 * RtoC (1 - u) + - (RtoC u * f1))%C with (1 - f1)%C in T by (rewrite RtoC_minus; ring).
    rewrite Cmod_opp, Cmod_mult, Cmod_R, Rabs_pos_eq in T by lra. fold m q in T. nra. }
  assert (NZ : forall u, 0 < u <= 2 * t -> (1 - f1 * RtoC (1 - u) <> 0)%C).
  { intros u Hu Z. specialize (G u Hu). rewrite Z, Cmod_0 in G. lra. }
  set (b := RtoC (1 - t)). set (b' := RtoC (1 - 2 * t)).
  set (a := (1 + b * f0 / (2 * (1 - f1 * b)))%C). set (a' := (1 + b' * f0 / (2 * (1 - f1 * b')))%C).
  assert (Nb : (1 - f1 * b <> 0)%C) by (apply NZ; lra). assert (Nb' : (1 - f1 * b' <> 0)%C) by (apply NZ; lra).
  assert (PE : forall u, 0 < u -> permitivitty (Some (RtoC (1 - u))) (Some (RtoC 1)) = Some (RtoC ((2 - u) / u))).
  { intros u Hu. unfold permitivitty, rc. cbn [cmul cadd csub olift2].
    assert (E1 : (1 - RtoC (1 - u))%C = RtoC u) by (rewrite RtoC_minus; ring).
    rewrite E1, cdiv_ok by (apply RtoC_neq_0; lra). f_equal. rewrite RtoC_div by lra. rewrite !RtoC_minus.
    replace (2)%R with (1 + 1) by ring. rewrite RtoC_plus. field. apply RtoC_neq_0; lra. }
  exists a, a', b, b', (RtoC ((2 - t) / t)), (RtoC ((2 - 2 * t) / (2 * t))).
  pose proof (fdm_round D z_tip r_tip L_tip g_factor d_Q0 d_Q1 b R0 R1 F0 Nb) as RA.
  pose proof (fdm_round D z_tip r_tip L_tip g_factor d_Q0 d_Q1 b' R0 R1 F0 Nb') as RB.
  fold z r L g d0 d1 in RA, RB. fold f0 f1 in RA, RB. fold a in RA. fold a' in RB.
  split; [exact RA|]. split; [exact RB|]. split; [apply PE; lra|]. split; [apply PE; lra|].
  pose proof (C89_fdm_sensitivity_proof D z_tip r_tip L_tip g_factor d_Q0 d_Q1 a a' b b' R0 R1 RA RB) as S.
  fold z r L g d0 d1 in S. fold f0 f1 in S. apply (f_equal Cmod) in S. rewrite !Cmod_mult in S.
  assert (EB : (b' - b)%C = RtoC (- t)) by (unfold b, b'; rewrite <- RtoC_minus; f_equal; ring).
  rewrite EB, !Cmod_R, Rabs_Ropp, (Rabs_pos_eq t), (Rabs_pos_eq 2) in S by lra. fold p in S.
  pose proof (G t ltac:(lra)) as G1. pose proof (G (2 * t) ltac:(lra)) as G2. fold b in G1. fold b' in G2.
  set (x := Cmod (1 - f1 * b)%C) in *. set (y := Cmod (1 - f1 * b')%C) in *. set (da := Cmod (a' - a)%C) in *.
  assert (DA0 : 0 <= da) by apply Cmod_ge_0.
  assert (B1 : m * m / 2 * da <= t * p). { rewrite S. assert (m / 2 * (m / 2) <= x * y) by (apply Rmult_le_compat; lra). nra. }
  rewrite <- RtoC_minus, !Cmod_R.
  replace ((2 - 2 * t) / (2 * t) - (2 - t) / t) with (- / t) by (field; lra).
  rewrite Rabs_Ropp, (Rabs_pos_eq (/ t)) by (apply Rlt_le, Rinv_0_lt_compat; lra).
  rewrite Rabs_pos_eq by (apply Rlt_le, Rdiv_lt_0_compat; lra).
  apply (Rmult_lt_reg_r t); [lra|]. replace (/ t * t) with 1 by (field; lra).
  replace (K * da * ((2 - t) / t) * t) with (K * da * (2 - t)) by (field; lra).
  assert (B2 : X * da <= p).
  { apply (Rmult_le_reg_l (2 * t)); [lra|]. apply Rle_trans with (m * m * da); [nra|lra]. }
  assert (K <= Rabs K) by apply Rle_abs. pose proof (Rabs_pos K).
  assert (B3 : 4 * (Rabs K + 1) * da < 1).
  { unfold X in B2. apply (Rmult_lt_reg_r (p + 1)); [lra|]. nra. }
  assert (K * da <= Rabs K * da) by (apply Rmult_le_compat_r; lra). 
  assert (K * da * (2 - t) <= Rabs K * da * (2 - t)) by (apply Rmult_le_compat_r; lra).
  assert (0 <= Rabs K * da) by nra. nra.
Qed.


(** C89. The conditions are met by a tip of radius and length 1 in contact, with
    g = 7/4 and both charges at depth 1/2: f_0 = f_1 = 1/2, the signal 7/6 is that
    of b = 1/2, the signal 1 is that of b = 0, and b = 1/2 in vacuum is
    permittivity 3. *)
Lemma C89_closed_form_example_proof : forall D,
  fdm_regular 0 (1 / 2) 1 1 /\ fdm_f 0 (1 / 2) 1 1 (RtoC (7 / 4)) = RtoC (1 / 2) /\
  fdm_refl_coef_qs_from_eff_pol D (Some (RtoC (7 / 6))) (Some 0) (Some 1) (Some 1) (Some (RtoC (7 / 4))) (Some (1 / 2)) (Some (1 / 2))
    = Some (RtoC (1 / 2)) /\
  fdm_refl_coef_qs_from_eff_pol D (Some (RtoC 1)) (Some 0) (Some 1) (Some 1) (Some (RtoC (7 / 4))) (Some (1 / 2)) (Some (1 / 2))
    = Some (RtoC 0) /\
  permitivitty (Some (RtoC (1 / 2))) (Some (RtoC 1)) = Some (RtoC 3) /\
  permitivitty (Some (RtoC 0)) (Some (RtoC 1)) = Some (RtoC 1).
Proof.
  intro D. assert (R0 : fdm_regular 0 (1 / 2) 1 1) by (unfold fdm_regular; lra).
  assert (F : fdm_f 0 (1 / 2) 1 1 (RtoC (7 / 4)) = RtoC (1 / 2)).
  { rewrite f_at_0, <- RtoC_minus, <- RtoC_mult. f_equal. field. }
  assert (I : forall a, fdm_refl_coef_qs_from_eff_pol D (Some (RtoC a)) (Some 0) (Some 1) (Some 1) (Some (RtoC (7 / 4))) (Some (1 / 2)) (Some (1 / 2))
    = (Some (RtoC (2 * (a - 1))) / Some (RtoC (1 / 2 + 2 * (1 / 2) * (a - 1))))%cv).
  { intro a. rewrite (fdm_inverse_eq D (RtoC a) (Some 0) (Some 1) (Some 1) (Some (RtoC (7 / 4))) (Some (1 / 2)) (Some (1 / 2)) R0 R0).
    cbn [given_or]. rewrite F. f_equal; f_equal.
    - rewrite RtoC_mult, RtoC_minus. reflexivity.
    - rewrite RtoC_plus, !RtoC_mult, RtoC_minus. reflexivity. }
  assert (P : forall b, b <> 1 -> permitivitty (Some (RtoC b)) (Some (RtoC 1)) = Some (RtoC ((1 + b) / (1 - b)))).
  { intros b Hb. unfold permitivitty, rc. cbn [cmul cadd csub olift2]. rewrite <- RtoC_minus, <- RtoC_plus, <- RtoC_mult.
    rewrite cdiv_ok by (apply RtoC_neq_0; lra). rewrite <- RtoC_div by lra. do 2 f_equal. field. lra. }
  split; [exact R0|]. split; [exact F|].
  rewrite !I. rewrite !cdiv_ok by (apply RtoC_neq_0; lra). rewrite <- !RtoC_div by lra. rewrite !P by lra.
  repeat split; do 2 f_equal; field.
Qed.
