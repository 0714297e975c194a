(** * Proofs: approach curves and permittivity models *)
From Coq Require Import String Reals Lra Lia ZArith List Bool.
From Coquelicot Require Import Rcomplements Complex.
From Verif Require Import Num NumLemmas LimLemmas ModelBase ModelSample ModelTip StackLemmas Spec
  ProofsStackQS ProofsStackQS2 ProofsBulkFF ProofsSym ProofsPassive DemodLemmas ProofsDemod ProofsTip ProofsTip2 ProofsTip3.
Import ListNotations.
Open Scope R_scope.

(** ** C44 *)
Lemma pdm_eff_pol_value D s z r_tip eps alt (beta alpha : C) :
  let r := given_or (d_r_tip D) r_tip in
  tip_alpha r eps alt alpha -> refl_coef_qs s (rr 0) = Ok (Some beta) -> r + z <> 0 ->
  pdm_eff_pol D s (Some z) r_tip eps alt
  = Ok (Some alpha / Some (1 - alpha / RtoC (16 * PI * (r + z) ^ 3) * beta)%C)%cv.
Proof.
  intros r Ht Hb Hz. unfold pdm_eff_pol. rewrite (pdm_defaults_alpha _ _ _ _ _ Ht), Hb. cbn [rbind fst snd dflt].
  fold r. rewrite pdm_geom_ok by exact Hz. reflexivity.
Qed.

(** C44. Far from any sample the point dipole model gives the bare tip: its
    effective polarizability tends to alpha_tip as z_tip grows. *)
Lemma C44_decays_to_bare_tip_proof :
  forall (D : Defaults) (s : sample) (r_tip : option R) (eps_tip alpha_tip : option C) (beta alpha : C),
  tip_alpha (given_or (d_r_tip D) r_tip) eps_tip alpha_tip alpha ->
  refl_coef_qs s (rr 0) = Ok (Some beta) ->
  forall eps, 0 < eps -> exists Z, forall z, Z < z ->
  exists a, pdm_eff_pol D s (Some z) r_tip eps_tip alpha_tip = Ok (Some a) /\ Cmod (a - alpha)%C < eps.
Proof.
  intros D s r_tip eps_tip alt beta alpha Ht Hb. set (r := given_or (d_r_tip D) r_tip) in *.
  pose proof PI_RGT_0 as HP.
  assert (L0 : tends at_inf (fun z => / RtoC (16 * PI * (r + z) ^ 3))%C (RtoC 0)).
  { apply tends_inv_0. intros B. exists (Rmax 1 B - r). intros z Hz. unfold at_inf in Hz.
    pose proof (Rmax_l 1 B). pose proof (Rmax_r 1 B). rewrite Cmod_R.
    assert (1 < r + z) by lra. assert (B < r + z) by lra. set (u := r + z) in *.
    assert (Hu2 : u < u * u) by nra. assert (Hu3 : u * u < u * u * u) by nra.
    assert (Hpi : 3 < PI) by (pose proof PI2_3_2; lra).
    replace (16 * PI * u ^ 3) with (16 * PI * (u * u * u)) by ring. set (w := u * u * u) in *.
    assert (Hw : w <= 16 * PI * w) by nra. rewrite Rabs_pos_eq by lra. lra. }
  assert (L1 : tends at_inf (fun z => 1 - alpha / RtoC (16 * PI * (r + z) ^ 3) * beta)%C (1 - alpha * 0 * beta)%C).
  { apply tends_minus; [exact mono_inf|apply tends_const|]. unfold Cdiv.
    apply tends_mult; [exact mono_inf| |apply tends_const]. apply tends_scal; [exact mono_inf|exact L0]. }
  assert (E1 : (1 - alpha * 0 * beta = 1)%C) by ring. rewrite E1 in L1.
  pose proof (tends_div _ mono_inf (fun _ => alpha) _ alpha _ (tends_const _ alpha) L1 C1_neq_0) as L2.
  intros eps He. destruct (L2 eps He) as [M1 H1]. destruct (tends_away _ _ _ L1 C1_neq_0) as [M2 H2].
  exists (Rmax (- r) (Rmax M1 M2)). intros z Hz.
  assert (Z0 : - r < z) by (eapply Rle_lt_trans; [apply Rmax_l|exact Hz]).
  assert (Z1 : M1 < z) by (eapply Rle_lt_trans; [|exact Hz]; eapply Rle_trans; [apply Rmax_l|apply Rmax_r]).
  assert (Z2 : M2 < z) by (eapply Rle_lt_trans; [|exact Hz]; eapply Rle_trans; [apply Rmax_r|apply Rmax_r]).
  specialize (H1 z Z1). specialize (H2 z Z2). cbv beta in H1, H2. eexists. split.
  - rewrite (pdm_eff_pol_value D s z r_tip eps_tip alt beta alpha Ht Hb) by (fold r; lra). fold r.
    rewrite cdiv_ok; [reflexivity|]. apply Cmod_gt_0. eapply Rlt_trans; [|exact H2]. rewrite Cmod_1. lra.
  - replace (alpha / 1)%C with alpha in H1; [exact H1|]. unfold Cdiv. rewrite <- RtoC_inv by lra. rewrite Rinv_1. ring.
Qed.

Lemma pdm_cond r z : 0 < r -> 0 <= z ->
  let f := r ^ 3 / (4 * (r + z) ^ 3) in
  0 < f <= / 4 /\ (RtoC (4 * PI * r ^ 3) / RtoC (16 * PI * (r + z) ^ 3))%C = RtoC f.
Proof.
  intros Hr Hz f. pose proof PI_RGT_0 as HP.
  assert (H3 : 0 < r ^ 3) by (now apply pow_lt). assert (H3' : 0 < (r + z) ^ 3) by (apply pow_lt; lra).
  assert (Hle : r ^ 3 <= (r + z) ^ 3) by (apply pow_incr; lra).
  split.
  - split; [apply Rdiv_lt_0_compat; lra|]. unfold f. apply Rle_div_l; lra.
  - rewrite <- RtoC_div by (apply Rgt_not_eq; apply Rmult_lt_0_compat; nra). f_equal. unfold f. field. lra.
Qed.
Lemma Cmod2_lin (f : R) (b : C) : Cmod (1 - RtoC f * b)%C ^ 2 = 1 - 2 * f * Re b + f ^ 2 * Cmod b ^ 2.
Proof. rewrite !Cmod_sqr. destruct b as [x y]. unfold Re, Im. simpl. ring. Qed.
Lemma Cmod_lt_sqr (a b : C) : Cmod a ^ 2 < Cmod b ^ 2 -> Cmod a < Cmod b.
Proof. intros H. pose proof (Cmod_ge_0 a). pose proof (Cmod_ge_0 b). nra. Qed.
Lemma Cmod_div_lt (A a b : C) : A <> RtoC 0 -> a <> RtoC 0 -> b <> RtoC 0 -> Cmod a < Cmod b -> Cmod (A / b)%C < Cmod (A / a)%C.
Proof.
  intros HA Ha Hb H. rewrite !Cmod_div by assumption. unfold Rdiv. apply Rmult_lt_compat_l; [now apply Cmod_gt_0|].
  apply Rinv_lt_contravar; [apply Rmult_lt_0_compat; now apply Cmod_gt_0|exact H].
Qed.

(** C44. For the perfectly conducting tip the magnitude decreases strictly
    with height if |beta|^2 < 4 Re beta (for real beta: 0 < beta < 4), and
    increases strictly if Re beta < 0. *)
Lemma C44_monotonic_proof :
  forall (D : Defaults) (s : sample) (r_tip : option R) (beta : C) (z1 z2 : R),
  0 < given_or (d_r_tip D) r_tip -> refl_coef_qs s (rr 0) = Ok (Some beta) ->
  0 <= z1 < z2 ->
  (Cmod beta ^ 2 < 4 * Re beta ->
   exists a1 a2, pdm_eff_pol D s (Some z1) r_tip None None = Ok (Some a1) /\
                 pdm_eff_pol D s (Some z2) r_tip None None = Ok (Some a2) /\ Cmod a2 < Cmod a1) /\
  (Re beta < 0 ->
   exists a1 a2, pdm_eff_pol D s (Some z1) r_tip None None = Ok (Some a1) /\
                 pdm_eff_pol D s (Some z2) r_tip None None = Ok (Some a2) /\ Cmod a1 < Cmod a2).
Proof.
  intros D s r_tip beta z1 z2 Hr Hb Hz. set (r := given_or (d_r_tip D) r_tip) in *.
  destruct (pdm_cond r z1 Hr ltac:(lra)) as [F1 E1]. destruct (pdm_cond r z2 Hr ltac:(lra)) as [F2 E2].
  set (f1 := r ^ 3 / (4 * (r + z1) ^ 3)) in *. set (f2 := r ^ 3 / (4 * (r + z2) ^ 3)) in *.
  assert (F : f2 < f1).
  { unfold f1, f2, Rdiv. apply Rmult_lt_compat_l; [now apply pow_lt|].
    assert (H3 : 0 < (r + z1) ^ 3) by (apply pow_lt; lra). assert (H3' : 0 < (r + z2) ^ 3) by (apply pow_lt; lra).
    apply Rinv_lt_contravar; [apply Rmult_lt_0_compat; lra|].
    assert ((r + z1) ^ 3 < (r + z2) ^ 3); [|lra]. set (a := r + z1) in *. set (b := r + z2) in *.
    assert (0 < a) by (unfold a; lra). assert (a < b) by (unfold a, b; lra).
    assert (a * a < b * b) by nra. simpl. nra. }
  assert (HA : RtoC (4 * PI * r ^ 3) <> RtoC 0).
  { apply RtoC_neq_0. pose proof PI_RGT_0. assert (0 < r ^ 3) by (now apply pow_lt). nra. }
  assert (V : forall z f, 0 <= z -> (RtoC (4 * PI * r ^ 3) / RtoC (16 * PI * (r + z) ^ 3))%C = RtoC f -> (1 - RtoC f * beta <> 0)%C ->
     pdm_eff_pol D s (Some z) r_tip None None = Ok (Some (RtoC (4 * PI * r ^ 3) / (1 - RtoC f * beta))%C)).
  { intros z f Hz' Ef Hn. rewrite (pdm_eff_pol_value D s z r_tip None None beta _ (tip_conductor _) Hb) by (fold r; lra).
    fold r. rewrite Ef, cdiv_ok by exact Hn. reflexivity. }
  split; intros HB.
  - assert (N : forall f, 0 < f <= / 4 -> (1 - RtoC f * beta <> 0)%C).
    { intros f Hf E. pose proof (Cmod2_lin f beta) as M. rewrite E, Cmod_0 in M.
      assert (f ^ 2 * Cmod beta ^ 2 < f ^ 2 * (4 * Re beta)) by (apply Rmult_lt_compat_l; [apply pow_lt; lra|exact HB]).
      pose proof (f_equal Re E) as ER. destruct beta as [x y]. unfold Re in *. simpl in ER, H, M.
      assert (f * x = 1) by lra. assert (4 <= x) by nra. nra. }
    eexists _, _. split; [apply (V z1 f1); [lra|exact E1|now apply N]|].
    split; [apply (V z2 f2); [lra|exact E2|now apply N]|].
    apply Cmod_div_lt; auto. apply Cmod_lt_sqr. rewrite !Cmod2_lin.
    assert (D1 : (f1 - f2) * ((f1 + f2) * Cmod beta ^ 2) < (f1 - f2) * (2 * Re beta)).
    { apply Rmult_lt_compat_l; [lra|]. pose proof (pow2_ge_0 (Cmod beta)). nra. }
    nra.
  - assert (N : forall f, 0 < f -> (1 - RtoC f * beta <> 0)%C).
    { intros f Hf E. apply (f_equal Re) in E. destruct beta as [x y]. unfold Re in *. simpl in E, HB. nra. }
    eexists _, _. split; [apply (V z1 f1); [lra|exact E1|now apply N]|].
    split; [apply (V z2 f2); [lra|exact E2|now apply N]|].
    apply Cmod_div_lt; auto; try (apply N; lra). apply Cmod_lt_sqr. rewrite !Cmod2_lin.
    pose proof (pow2_ge_0 (Cmod beta)).
    assert ((f1 - f2) * (2 * Re beta) < 0) by nra. assert (0 <= (f1 - f2) * ((f1 + f2) * Cmod beta ^ 2)) by (apply Rmult_le_pos; nra).
    nra.
Qed.
(** C44. Example: eps 3 in vacuum (beta = 1/2) and eps 1/3 (beta = -1/2) *)
Lemma C44_example_proof :
  refl_coef_qs (stack [RtoC 1; RtoC 3] [] None) (rr 0) = Ok (Some (RtoC (1 / 2))) /\
  Cmod (RtoC (1 / 2)) ^ 2 < 4 * Re (RtoC (1 / 2)) /\
  refl_coef_qs (stack [RtoC 1; RtoC (1 / 3)] [] None) (rr 0) = Ok (Some (RtoC (- (1 / 2)))) /\ Re (RtoC (- (1 / 2))) < 0.
Proof.
  repeat split.
  - rewrite bulk_qs; [|apply RtoC_neq_0; lra|rewrite <- RtoC_plus; apply RtoC_neq_0; lra].
    rewrite <- RtoC_minus, <- RtoC_plus, <- RtoC_div by lra. do 3 f_equal. lra.
  - rewrite Cmod_R, Rabs_pos_eq by lra. unfold Re, RtoC. simpl. lra.
  - rewrite bulk_qs; [|apply RtoC_neq_0; lra|rewrite <- RtoC_plus; apply RtoC_neq_0; lra].
    rewrite <- RtoC_minus, <- RtoC_plus, <- RtoC_div by lra. do 3 f_equal. lra.
  - unfold Re, RtoC. simpl. lra.
Qed.

(** ** C45 *)
Section FDMLimit.
Context (r L : R) (g : C) (Hr : 0 < r) (HL : 0 < L) (H4 : r <> 4 * L).
Let l := ln (4 * L / r).
Let A (d z : R) : C := (g - RtoC ((r + 2 * z + r * d) / (2 * L)))%C.
Let B (d z : R) : R := ln (4 * L / (r + 4 * z + 2 * r * d)).

Lemma fdm_l_neq_0 : l <> 0.
Proof.
  apply ln_neq_0; [apply Rdiv_lt_0_compat; lra|]. intros E. apply H4.
  replace (4 * L) with (4 * L / r * r) by (field; lra). rewrite E. ring.
Qed.
Lemma fdm_A_grows d K : exists M, forall z, at_inf M z -> K < Cmod (A d z).
Proof.
  exists (L * (K + Cmod g) - r * (1 + d) / 2). intros z Hz. unfold at_inf in Hz.
  assert (H : Cmod (RtoC ((r + 2 * z + r * d) / (2 * L))) <= Cmod (A d z) + Cmod g).
  { replace (RtoC ((r + 2 * z + r * d) / (2 * L))) with (- A d z + g)%C by (unfold A; ring).
    eapply Rle_trans; [apply Cmod_triangle|]. rewrite Cmod_opp. lra. }
  rewrite Cmod_R in H. pose proof (Rle_abs ((r + 2 * z + r * d) / (2 * L))) as H1.
  assert (K + Cmod g < (r + 2 * z + r * d) / (2 * L)); [|lra].
  apply Rlt_div_r; lra.
Qed.
Lemma fdm_B_grows d K : exists M, forall z, at_inf M z -> 0 < r + 4 * z + 2 * r * d /\ B d z < - K.
Proof.
  exists ((4 * L * exp K - r - 2 * r * d) / 4). intros z Hz. unfold at_inf in Hz.
  pose proof (exp_pos K) as HK. assert (HLK : 0 < 4 * L * exp K) by (apply Rmult_lt_0_compat; lra).
  assert (Hx : 4 * L * exp K < r + 4 * z + 2 * r * d) by lra. split; [lra|].
  unfold B. rewrite ln_div by lra.
  assert (H : ln (4 * L * exp K) < ln (r + 4 * z + 2 * r * d)) by (apply ln_increasing; lra).
  rewrite ln_mult, ln_exp in H by lra. lra.
Qed.
Lemma fdm_f_eq z d : fdm_f z d r L g = (A d z * RtoC (B d z / l))%C.
Proof. reflexivity. Qed.
Lemma fdm_f_grows d K : exists M, forall z, at_inf M z -> fdm_regular z d r L /\ K < Cmod (fdm_f z d r L g).
Proof.
  pose proof fdm_l_neq_0 as Hl. assert (Hl' : 0 < Rabs l) by (now apply Rabs_pos_lt).
  destruct (fdm_A_grows d (Rabs K)) as [M1 H1]. destruct (fdm_B_grows d (Rabs l)) as [M2 H2].
  exists (Rmax M1 M2). intros z Hz. unfold at_inf in Hz.
  specialize (H1 z (Rle_lt_trans _ _ _ (Rmax_l M1 M2) Hz)). destruct (H2 z (Rle_lt_trans _ _ _ (Rmax_r M1 M2) Hz)) as [Hp HB].
  split; [repeat split; auto|]. rewrite fdm_f_eq, Cmod_mult, Cmod_R.
  assert (HB' : 1 < Rabs (B d z / l)).
  { unfold Rdiv. rewrite Rabs_mult, Rabs_inv. apply (Rmult_lt_reg_r (Rabs l)); [exact Hl'|].
    rewrite Rmult_assoc, Rinv_l by lra. rewrite (Rabs_left (B d z)) by lra. lra. }
  pose proof (Rle_abs K). pose proof (Rabs_pos K). nra.
Qed.
Lemma fdm_A_ratio d0 d1 : tends at_inf (fun z => A d0 z / A d1 z)%C (RtoC 1).
Proof.
  assert (L0 : tends at_inf (fun z => 1 + RtoC (r * (d1 - d0) / (2 * L)) * / A d1 z)%C (1 + RtoC (r * (d1 - d0) / (2 * L)) * 0)%C).
  { apply tends_plus; [exact mono_inf|apply tends_const|]. apply tends_scal; [exact mono_inf|].
    apply tends_inv_0. intros K. destruct (fdm_A_grows d1 K) as [M H]. exists M. exact H. }
  replace (1 + RtoC (r * (d1 - d0) / (2 * L)) * 0)%C with (RtoC 1) in L0 by ring.
  destruct (fdm_A_grows d1 0) as [M H].
  refine (tends_ext_ev _ mono_inf _ _ _ M _ L0). intros z Hz.
  assert (Hn : A d1 z <> RtoC 0) by (apply Cmod_gt_0; now apply H).
  replace (A d0 z) with (A d1 z + RtoC (r * (d1 - d0) / (2 * L)))%C; [field; exact Hn|].
  unfold A. replace (g - RtoC ((r + 2 * z + r * d0) / (2 * L)))%C
    with (g - RtoC ((r + 2 * z + r * d1) / (2 * L) - r * (d1 - d0) / (2 * L)))%C.
  - rewrite RtoC_minus. ring.
  - do 2 f_equal. field. lra.
Qed.
Lemma fdm_B_ratio d0 d1 : tends at_inf (fun z => RtoC (B d0 z / l) / RtoC (B d1 z / l))%C (RtoC 1).
Proof.
  pose proof fdm_l_neq_0 as Hl. intros eps He.
  assert (H2 : 0 < ln 2) by (rewrite <- ln_1; apply ln_increasing; lra).
  set (K := ln 2 / eps). assert (HK : 0 < K) by (apply Rdiv_lt_0_compat; lra).
  destruct (fdm_B_grows d0 K) as [M0 H0]. destruct (fdm_B_grows d1 K) as [M1 H1].
  exists (Rmax (Rmax M0 M1) (Rabs r * (Rabs d0 + Rabs d1 + 1))). intros z Hz. unfold at_inf in Hz.
  pose proof (Rmax_l (Rmax M0 M1) (Rabs r * (Rabs d0 + Rabs d1 + 1))).
  pose proof (Rmax_r (Rmax M0 M1) (Rabs r * (Rabs d0 + Rabs d1 + 1))).
  pose proof (Rmax_l M0 M1). pose proof (Rmax_r M0 M1).
  destruct (H0 z) as [P0 B0]; [unfold at_inf; lra|]. destruct (H1 z) as [P1 B1]; [unfold at_inf; lra|].
  assert (HB1 : B d1 z <> 0) by lra.
  rewrite <- RtoC_div.
  2:{ unfold Rdiv. apply Rmult_integral_contrapositive_currified; [exact HB1|now apply Rinv_neq_0_compat]. }
  rewrite <- RtoC_minus, Cmod_R.
  replace (B d0 z / l / (B d1 z / l) - 1) with ((B d0 z - B d1 z) / B d1 z) by (field; auto).
  unfold Rdiv at 1. rewrite Rabs_mult, Rabs_inv. fold (Rdiv (Rabs (B d0 z - B d1 z)) (Rabs (B d1 z))).
  apply Rlt_div_l; [apply Rabs_pos_lt; exact HB1|]. rewrite (Rabs_left (B d1 z)) by lra.
  assert (HE : ln 2 < eps * - B d1 z).
  { replace (ln 2) with (eps * K) by (unfold K; field; lra). apply Rmult_lt_compat_l; lra. }
  eapply Rle_lt_trans; [|exact HE].
  rewrite (Rabs_pos_eq r) in * by lra.
  pose proof (Rle_abs d0). pose proof (Rle_abs d1). pose proof (Rle_abs (- d0)). pose proof (Rle_abs (- d1)).
  rewrite Rabs_Ropp in *.
  assert (Q0 : - (r * Rabs d0) <= r * d0 <= r * Rabs d0) by (split; nra).
  assert (Q1 : - (r * Rabs d1) <= r * d1 <= r * Rabs d1) by (split; nra).
  assert (0 <= r * Rabs d0) by (apply Rmult_le_pos; [lra|apply Rabs_pos]).
  assert (0 <= r * Rabs d1) by (apply Rmult_le_pos; [lra|apply Rabs_pos]).
  unfold B. rewrite !ln_div by lra.
  assert (ln (r + 4 * z + 2 * r * d1) <= ln 2 + ln (r + 4 * z + 2 * r * d0)).
  { rewrite <- ln_mult by lra. apply ln_le; [lra|]. lra. }
  assert (ln (r + 4 * z + 2 * r * d0) <= ln 2 + ln (r + 4 * z + 2 * r * d1)).
  { rewrite <- ln_mult by lra. apply ln_le; [lra|]. lra. }
  apply Rabs_le. lra.
Qed.
Lemma fdm_alpha_limit (b : C) d0 d1 : b <> RtoC 0 ->
  tends at_inf (fun z => 1 + b * fdm_f z d0 r L g / (2 * (1 - b * fdm_f z d1 r L g)))%C (RtoC (1 / 2)).
Proof.
  intros Hb. pose proof fdm_l_neq_0 as Hl. assert (Hb' : 0 < Cmod b) by (now apply Cmod_gt_0).
  assert (LR : tends at_inf (fun z => fdm_f z d0 r L g / fdm_f z d1 r L g)%C (RtoC 1)).
  { pose proof (tends_mult _ mono_inf _ _ _ _ (fdm_A_ratio d0 d1) (fdm_B_ratio d0 d1)) as T.
    replace (RtoC 1 * RtoC 1)%C with (RtoC 1) in T by ring.
    destruct (fdm_A_grows d1 0) as [M1 H1]. destruct (fdm_B_grows d1 0) as [M2 H2].
    refine (tends_ext_ev _ mono_inf _ _ _ (Rmax M1 M2) _ T). intros z Hz. unfold at_inf in Hz.
    specialize (H1 z (Rle_lt_trans _ _ _ (Rmax_l M1 M2) Hz)). destruct (H2 z (Rle_lt_trans _ _ _ (Rmax_r M1 M2) Hz)) as [_ H2'].
    rewrite !fdm_f_eq. assert (A d1 z <> RtoC 0) by (now apply Cmod_gt_0).
    assert (RtoC (B d1 z / l) <> RtoC 0).
    { apply RtoC_neq_0. unfold Rdiv. apply Rmult_integral_contrapositive_currified; [lra|now apply Rinv_neq_0_compat]. }
    field. auto. }
  assert (LI : tends at_inf (fun z => / (b * fdm_f z d1 r L g))%C (RtoC 0)).
  { apply tends_inv_0. intros K. destruct (fdm_f_grows d1 (Rabs K / Cmod b)) as [M H]. exists M. intros z Hz.
    destruct (H z Hz) as [_ H']. rewrite Cmod_mult. apply Rlt_div_l in H'; [|exact Hb'].
    pose proof (Rle_abs K). lra. }
  assert (LA : tends at_inf (fun z => 1 + (fdm_f z d0 r L g / fdm_f z d1 r L g) / (2 * (/ (b * fdm_f z d1 r L g) - 1)))%C
                 (1 + 1 / (2 * (0 - 1)))%C).
  { apply tends_plus; [exact mono_inf|apply tends_const|]. apply tends_div; [exact mono_inf|exact LR| |].
    - apply tends_scal; [exact mono_inf|]. apply tends_minus; [exact mono_inf|exact LI|apply tends_const].
    - replace (2 * (0 - 1))%C with (RtoC (-2)); [apply RtoC_neq_0; lra|]. rewrite <- RtoC_minus, <- RtoC_mult. f_equal. ring. }
  replace (1 + 1 / (2 * (0 - 1)))%C with (RtoC (1 / 2)) in LA.
  2:{ rewrite <- RtoC_minus, <- RtoC_mult, <- RtoC_div, <- RtoC_plus by lra. f_equal. field. }
  destruct (fdm_f_grows d1 (1 / Cmod b)) as [M H].
  refine (tends_ext_ev _ mono_inf _ _ _ M _ LA). intros z Hz. destruct (H z Hz) as [_ H'].
  apply Rlt_div_l in H'; [|exact Hb']. rewrite <- Cmod_mult in H'.
  set (f1 := fdm_f z d1 r L g) in *. set (f0 := fdm_f z d0 r L g).
  assert (N1 : (f1 * b <> 0)%C) by (apply Cmod_gt_0; lra).
  assert (N2 : f1 <> RtoC 0) by (now apply Cmult_neq_0_l in N1).
  assert (N3 : (1 - b * f1 <> 0)%C).
  { intros E. assert (E' : (f1 * b = 1)%C) by (transitivity (1 - (1 - b * f1))%C; [ring|rewrite E; ring]).
    rewrite E', Cmod_1 in H'. lra. }
  field. auto.
Qed.
End FDMLimit.

(** C45. The geometry function vanishes at z = L - r (1 + 2 d) / 4 ... *)
Lemma C45_geometry_zero_proof :
  forall (d r L : R) (g : C), 0 < r -> 0 < L -> r <> 4 * L ->
  fdm_geom_func (rr (L - r * (1 + 2 * d) / 4)) (rr d) (rr r) (rr L) (Some g) = Some (RtoC 0).
Proof.
  intros d r L g Hr HL H4. rewrite geom_ok.
  - f_equal. unfold fdm_f. replace (r + 4 * (L - r * (1 + 2 * d) / 4) + 2 * r * d) with (4 * L) by field.
    replace (4 * L / (4 * L)) with 1 by (field; lra). rewrite ln_1. unfold Rdiv. rewrite Rmult_0_l. ring.
  - repeat split; auto. replace (r + 4 * (L - r * (1 + 2 * d) / 4) + 2 * r * d) with (4 * L) by field. lra.
Qed.
(** C45. ... and then grows without bound. *)
Lemma C45_geometry_grows_proof :
  forall (d r L : R) (g : C), 0 < r -> 0 < L -> r <> 4 * L ->
  forall K, exists Z, forall z, Z < z ->
  exists f, fdm_geom_func (rr z) (rr d) (rr r) (rr L) (Some g) = Some f /\ K < Cmod f.
Proof.
  intros d r L g Hr HL H4 K. destruct (fdm_f_grows r L g Hr HL H4 d K) as [M H]. exists M. intros z Hz.
  destruct (H z Hz) as [R H']. exists (fdm_f z d r L g). split; [now apply geom_ok|exact H'].
Qed.

(** C45. So, as z_tip grows, fdm.eff_pol over any bulk sample with contrast
    tends to 1/2: not to 1, its value without a sample (C43). *)
Lemma C45_far_limit_is_half_proof :
  forall (laggauss : laggauss_t) (D : Defaults) (e0 e1 : C) nu (r_tip L_tip : option R)
    (g_factor : option C) (d_Q0 d_Q1 d_Qa : option R) (n_lag : option nat),
  let r := given_or (d_r_tip D) r_tip in let L := given_or (d_L_tip D) L_tip in
  e1 <> RtoC 0 -> (e0 + e1 <> 0)%C -> e0 <> e1 -> 0 < r -> 0 < L -> r <> 4 * L ->
  forall eps, 0 < eps -> exists Z, forall z, Z < z ->
  exists a, fdm_eff_pol laggauss D (stack [e0; e1] [] nu) (Some z) r_tip L_tip g_factor d_Q0 d_Q1 d_Qa n_lag None = Ok (Some a) /\
            Cmod (a - RtoC (1 / 2))%C < eps.
Proof.
  intros lg D e0 e1 nu r_tip L_tip g d_Q0 d_Q1 d_Qa n_lag r L H1 H2 Hne Hr HL H4 eps He.
  set (s := stack [e0; e1] [] nu). set (beta := ((e1 - e0) / (e1 + e0))%C).
  assert (HB : refl_coef_qs s (rr 0) = Ok (Some beta)) by (now apply bulk_qs).
  assert (Hb : beta <> RtoC 0).
  { apply Cdiv_neq_0; [|intros E; apply H2; rewrite <- E; ring]. intros E. apply Hne. symmetry. now apply Csub_eq0. }
  set (d0 := given_or (131 / 100 * L / (L + 2 * r)) d_Q0). set (d1 := given_or (d_d_Q1 D) d_Q1).
  set (G := given_or (d_g_factor D) g).
  destruct (fdm_alpha_limit r L G Hr HL H4 beta d0 d1 Hb eps He) as [M0 T0].
  assert (Hb' : 0 < Cmod beta) by (now apply Cmod_gt_0).
  destruct (fdm_f_grows r L G Hr HL H4 d1 (1 / Cmod beta)) as [M1 T1].
  destruct (fdm_f_grows r L G Hr HL H4 d0 0) as [M2 T2].
  exists (Rmax M0 (Rmax M1 M2)). intros z Hz.
  assert (Z0 : M0 < z) by (eapply Rle_lt_trans; [apply Rmax_l|exact Hz]).
  assert (Z1 : M1 < z) by (eapply Rle_lt_trans; [|exact Hz]; eapply Rle_trans; [apply Rmax_l|apply Rmax_r]).
  assert (Z2 : M2 < z) by (eapply Rle_lt_trans; [|exact Hz]; eapply Rle_trans; [apply Rmax_r|apply Rmax_r]).
  specialize (T0 z Z0). destruct (T1 z Z1) as [R1 T1']. destruct (T2 z Z2) as [R0 _].
  exists (1 + beta * fdm_f z d0 r L G / (2 * (1 - beta * fdm_f z d1 r L G)))%C. split; [|exact T0].
  change (fdm_eff_pol lg D s (Some z) r_tip L_tip g d_Q0 d_Q1 d_Qa n_lag (Some "bulk"%string)
          = Ok (Some (1 + beta * fdm_f z d0 r L G / (2 * (1 - beta * fdm_f z d1 r L G)))%C)).
  rewrite (bulk_eff_pol lg D s (Some z) r_tip L_tip g d_Q0 d_Q1 d_Qa n_lag beta eq_refl HB R0 R1).
  cbn [given_or]. fold r L d0 d1 G. rewrite cdiv_ok; [reflexivity|]. apply Cmult_neq_0; [exact C2_neq_0|].
  apply Rlt_div_l in T1'; [|exact Hb']. rewrite <- Cmod_mult in T1'.
  intros E. assert (E' : (fdm_f z d1 r L G * beta = 1)%C)
    by (transitivity (1 - (1 - beta * fdm_f z d1 r L G))%C; [ring|rewrite E; ring]).
  rewrite E', Cmod_1 in T1'. lra.
Qed.
(** C45. Example: the default tip over permittivity 3 *)
Lemma C45_example_proof : forall laggauss, exists z a,
  fdm_eff_pol laggauss defaults0 (stack [RtoC 1; RtoC 3] [] None) (Some z) None None None None None None None None = Ok (Some a) /\
  Cmod (a - RtoC (1 / 2))%C < 1 / 100 .
Proof.
  intros lg. destruct (C45_far_limit_is_half_proof lg defaults0 (RtoC 1) (RtoC 3) None None None None None None None None)
    with (eps := 1 / 100) as [Z H]; try lra.
  - apply RtoC_neq_0. lra.
  - rewrite <- RtoC_plus. apply RtoC_neq_0. lra.
  - intros E. apply RtoC_inj in E. lra.
  - cbn. lra.
  - cbn. lra.
  - cbn. lra.
  - destruct (H (Z + 1)) as [a Ha]; [lra|]. eauto.
Qed.
