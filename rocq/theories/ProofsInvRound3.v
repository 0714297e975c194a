(** * C100: what the root-finding inverses return in arithmetic that rounds *)
From Coq Require Import String Reals Lra Lia ZArith List Bool Permutation.
From Coquelicot Require Import Coquelicot.
From Coq Require Import List.
From Verif Require Import Num NumLemmas ModelBase ModelSample ModelTip StackLemmas Spec SpecSampling DemodLemmas ProofsTip ProofsTip2 ProofsTip3 ProofsTip5
  SpecRound SpecSolver ModelRound ModelRound2 ModelRoundInv RoundLemmas RoundLemmas2 ProofsPassive ProofsTaylor ProofsDefault ProofsRounding ProofsRounding2 ProofsRounding3
  ProofsSampling3 ProofsSampling5 ProofsTotal ProofsTotal2 ProofsTotal3 ProofsTotal4 ProofsInvRound ProofsInvRound2 ProofsConsist2.
Import ListNotations.
Open Scope R_scope.



Lemma valid_parts m thr ri ra env b : k_valid m thr ri ra env b = true ->
  k_abs m b <= thr /\ (ri = true -> 0 <= Im (k_permitivitty m b env)) /\ (ra = true -> 1 <= k_abs m (k_permitivitty m b env)).
Proof.
  unfold k_valid. intros H. apply andb_prop in H. destruct H as [H H3]. apply andb_prop in H. destruct H as [H1 H2].
  assert (L : forall x y, leb_R x y = true -> x <= y) by (intros x y; unfold leb_R; destruct (Rle_dec x y); [auto|discriminate]).
  split; [now apply L|]. split; intros ->; apply L; assumption.
Qed.
Lemma abs_near u (m : machine) z : rounds u m -> near u (Cmod z) (k_abs m z).
Proof. intros H. destruct z as [x y]. apply (r_hypot _ _ H x y). Qed.
Lemma abs_bound u (m : machine) z t : rounds u m -> 0 <= u <= / 10 ^ 4 -> k_abs m z <= t -> Cmod z <= t * (1 + 2 * u).
Proof.
  intros Hm Hu H. pose proof (abs_near u m z Hm) as N. unfold near in N. rewrite (Rabs_pos_eq (Cmod z)) in N by apply Cmod_ge_0. apply Rabs_le_between in N.
  pose proof (Cmod_ge_0 z) as P. assert (Q : Cmod z * (1 - u) <= t) by lra. assert (T0 : 0 <= t) by (assert (0 <= Cmod z * (1 - u)) by (apply Rmult_le_pos; lra); lra).
  apply Rmult_le_reg_r with (1 - u); [lra|]. eapply Rle_trans; [exact Q|]. assert (u * u <= / 10 ^ 4 * u) by (apply Rmult_le_compat_r; lra).
  assert (t * 1 <= t * ((1 + 2 * u) * (1 - u))) by (apply Rmult_le_compat_l; lra). lra.
Qed.
Lemma perm_near u (m : machine) b env : rounds u m -> 0 <= u <= / 10 ^ 4 -> b <> RtoC 1 ->
  cnear (20 * u) (env * (1 + b) / (1 - b))%C (k_permitivitty m b env).
Proof.
  intros Hm [Hu Hu1] Hb. unfold k_permitivitty.
  pose proof (kadd_near u m Hu Hm (RtoC 1) b) as N1. set (p := kadd m (RtoC 1) b) in *.
  pose proof (kmul_near u m Hu ltac:(lra) Hm env p) as N2. set (q := kmul m env p) in *.
  pose proof (ksub_near u m Hu Hm (RtoC 1) b) as N3. set (d := ksub m (RtoC 1) b) in *.
  assert (D0 : (1 - b)%C <> RtoC 0) by (intros X; apply Hb; replace b with (1 - (1 - b))%C by ring; rewrite X; ring).
  assert (PD : 0 < Cmod (1 - b)%C) by (now apply Cmod_gt_0).
  unfold cnear in N1, N2, N3.
  assert (DL : (1 - u) * Cmod (1 - b)%C <= Cmod d).
  { pose proof (Cmod_triangle d ((1 - b) - d)%C) as X. replace (d + (1 - b - d))%C with (1 - b)%C in X by ring.
    replace (1 - b - d)%C with (- (d - (1 - b)))%C in X by ring. rewrite Cmod_opp in X. lra. }
  assert (PD' : 0 < Cmod d) by (assert (0 < (1 - u) * Cmod (1 - b)%C) by (apply Rmult_lt_0_compat; lra); lra).
  assert (Dn : d <> RtoC 0) by (now apply Cmod_gt_0).
  pose proof (kdiv_near u m Hu ltac:(lra) Hm q d Dn) as N4. unfold cnear in *.
  set (x := (env * (1 + b))%C) in *. set (y := (1 - b)%C) in *.
  assert (QX : Cmod (q - x)%C <= 501 / 100 * u * Cmod x).
  { replace (q - x)%C with ((q - env * p) + env * (p - (1 + b)))%C by (unfold x; ring). eapply Rle_trans; [apply Cmod_triangle|]. rewrite !Cmod_mult in *.
    assert (E1 : Cmod env * Cmod (p - (1 + b))%C <= Cmod env * (u * Cmod (1 + b)%C)) by (apply Rmult_le_compat_l; [apply Cmod_ge_0|exact N1]).
    assert (E2 : Cmod p <= (1 + u) * Cmod (1 + b)%C) by (replace p with ((p - (1 + b)) + (1 + b))%C by ring; eapply Rle_trans; [apply Cmod_triangle|]; lra).
    assert (E3 : Cmod env * Cmod p <= Cmod env * ((1 + u) * Cmod (1 + b)%C)) by (apply Rmult_le_compat_l; [apply Cmod_ge_0|exact E2]).
    assert (E4 : 4 * u * (Cmod env * Cmod p) <= 4 * u * (Cmod env * ((1 + u) * Cmod (1 + b)%C))) by (apply Rmult_le_compat_l; lra).
    unfold x. rewrite Cmod_mult. set (w := Cmod env * Cmod (1 + b)%C) in *. assert (W0 : 0 <= w) by (apply Rmult_le_pos; apply Cmod_ge_0).
    replace (Cmod env * (u * Cmod (1 + b)%C)) with (u * w) in E1 by (unfold w; ring). replace (4 * u * (Cmod env * ((1 + u) * Cmod (1 + b)%C))) with (4 * u * (1 + u) * w) in E4 by (unfold w; ring).
    assert (u * w * u <= u * w * / 10 ^ 4) by (apply Rmult_le_compat_l; [apply Rmult_le_pos; lra|lra]). assert (0 <= u * w) by (apply Rmult_le_pos; lra). lra. }
  set (X := Cmod x) in *. assert (X0 : 0 <= X) by apply Cmod_ge_0.
  assert (E : Cmod (q / d - x / y)%C <= 602 / 100 * u * (X / Cmod y)).
  { replace (q / d - x / y)%C with (((q - x) - x / y * (d - y)) / d)%C by (field; split; assumption).
    rewrite Cmod_div by exact Dn. apply Rle_div_l; [exact PD'|]. unfold Cminus at 1. eapply Rle_trans; [apply Cmod_triangle|]. rewrite Cmod_opp, Cmod_mult, Cmod_div by exact D0. fold X.
    assert (E1 : X / Cmod y * Cmod (d - y)%C <= u * X).
    { apply Rle_trans with (X / Cmod y * (u * Cmod y)); [apply Rmult_le_compat_l; [apply Rmult_le_pos; [exact X0|apply Rlt_le, Rinv_0_lt_compat, PD]|exact N3]|]. apply Req_le. field. lra. }
    assert (E2 : 601 / 100 * u * X <= 602 / 100 * u * (X / Cmod y) * Cmod d).
    { apply Rle_trans with (602 / 100 * u * (X / Cmod y) * ((1 - u) * Cmod y)).
      - replace (602 / 100 * u * (X / Cmod y) * ((1 - u) * Cmod y)) with (602 / 100 * (1 - u) * (u * X)) by (field; lra).
        assert (0 <= u * X) by (apply Rmult_le_pos; lra). assert (601 / 100 * (u * X) <= 602 / 100 * (1 - u) * (u * X)) by (apply Rmult_le_compat_r; lra). lra.
      - apply Rmult_le_compat_l; [|exact DL]. apply Rmult_le_pos; [lra|]. apply Rmult_le_pos; [exact X0|apply Rlt_le, Rinv_0_lt_compat, PD]. }
    assert (0 <= u * X) by (apply Rmult_le_pos; lra). lra. }
  assert (F : Cmod (x / y)%C = X / Cmod y) by (apply Cmod_div; exact D0). rewrite F. set (Q := X / Cmod y) in *.
  assert (Q0 : 0 <= Q) by (rewrite <- F; apply Cmod_ge_0).
  assert (G : Cmod (q / d)%C <= (1 + 602 / 100 * u) * Q).
  { replace (q / d)%C with ((q / d - x / y) + x / y)%C by ring. eapply Rle_trans; [apply Cmod_triangle|]. rewrite F. lra. }
  set (w := kdiv m q d) in *. replace (w - x / y)%C with ((w - q / d) + (q / d - x / y))%C by ring. eapply Rle_trans; [apply Cmod_triangle|].
  assert (13 * u * Cmod (q / d)%C <= 13 * u * ((1 + 602 / 100 * u) * Q)) by (apply Rmult_le_compat_l; lra).
  assert (u * Q * u <= u * Q * / 10 ^ 4) by (apply Rmult_le_compat_l; [apply Rmult_le_pos; lra|lra]). assert (0 <= u * Q) by (apply Rmult_le_pos; lra). lra.
Qed.

(** C100. What the rejections guarantee after rounding (any tip, any settings, both models): an unmasked root obeys the threshold up to
    2u, and its exact permittivity eps has Im eps >= -20 u |eps| if negative imaginary parts are rejected, and |eps| >= 1 - 22 u if
    permittivities below one are rejected. *)
Lemma C100_rejections_proof : forall u (m : machine) (thr : R) (ri ra : bool) (env b : C),
  rounding u m -> 0 <= u <= / 10 ^ 4 -> k_valid m thr ri ra env b = true ->
  Cmod b <= thr * (1 + 2 * u) /\
  (b <> RtoC 1 -> let eps := (env * (1 + b) / (1 - b))%C in
    (ri = true -> - (20 * u * Cmod eps) <= Im eps) /\ (ra = true -> 1 - 22 * u <= Cmod eps)).
Proof.
  intros u m thr ri ra env b [Hm _] Hu H. destruct (valid_parts _ _ _ _ _ _ H) as (V1 & V2 & V3). split; [now apply (abs_bound u m)|].
  intros Hb eps. pose proof (perm_near u m b env Hm Hu Hb) as N. fold eps in N. set (e := k_permitivitty m b env) in *. unfold cnear in N. split; intros X.
  - specialize (V2 X). pose proof (ProofsConsist2.Im_le_mod (e - eps)%C) as I. assert (EI : Im (e - eps)%C = Im e - Im eps) by (destruct e, eps; cbn; ring). rewrite EI in I.
    apply Rle_trans with (r3 := 20 * u * Cmod eps) in I; [|exact N]. apply Rabs_le_between in I. lra.
  - specialize (V3 X). pose proof (abs_near u m e Hm) as A. unfold near in A. rewrite (Rabs_pos_eq (Cmod e)) in A by apply Cmod_ge_0. apply Rabs_le_between in A.
    assert (E : Cmod e <= (1 + 20 * u) * Cmod eps) by (now apply cnear_mod).
    assert (1 <= (1 + u) * ((1 + 20 * u) * Cmod eps)) by (apply Rle_trans with ((1 + u) * Cmod e); [lra|apply Rmult_le_compat_l; lra]).
    destruct (Rle_dec 1 (Cmod eps)); [lra|]. assert (u * u <= / 10 ^ 4 * u) by (apply Rmult_le_compat_r; lra).
    assert ((1 + u) * (1 + 20 * u) * Cmod eps <= (1 + 21 * u + 20 * (/ 10 ^ 4 * u)) * Cmod eps) by (apply Rmult_le_compat_r; [apply Cmod_ge_0|lra]).
    assert (u * Cmod eps <= u * 1) by (apply Rmult_le_compat_l; lra). lra.
Qed.

Lemma fdm_inv_small u delta : 0 <= u -> 0 <= delta ->
  Rl (fun j => fdm_W j * (101 / 100) ^ j * (106 / 100 * fdm_e u j + 12 / 10 * (INR j * delta))) (seq 0 16) <= 3590 * u + 2 * delta.
Proof. intros Hu Hd. unfold Rl, fdm_W, fdm_e. cbn [seq map fold_right INR]. lra. Qed.
Lemma fdm_inv_S u : 0 <= u <= / 10 ^ 6 -> 1002 / 1000 * Rl (fun j => fdm_W j * (1 + fdm_e u j) * (101 / 100) ^ j) (seq 1 15) <= 67 / 100.
Proof. intros Hu. unfold Rl, fdm_W, fdm_e. cbn [seq map fold_right INR]. lra. Qed.

(** C100. fdm.refl_coef_qs_from_eff_pol_n with the default tip and settings, on any machine of relative precision u, with any
    polynomial solver of backward error eta: every unmasked root b satisfies |b| <= 1.01 (1 + 2u), and a sample whose reflection
    coefficient beta is within delta of b has the documented signal alpha_eff_n up to 1.2 10^-4 + 3600 u + 25 eta + 2 delta. *)
Lemma C100_fdm_inverse_proof : forall u eta (m : machine) roots (alpha : C) (A_tip z : R) (n : Z) ri ra env,
  rounding u m -> 0 <= u <= / 10 ^ 6 -> backward_stable eta roots -> 0 <= eta <= / 10 ^ 3 -> (Z.abs n <= 4)%Z ->
  0 <= z -> 0 < A_tip <= 30 / 10 ^ 9 -> z + 2 * A_tip <= 280 / 10 ^ 9 ->
  exists bs, k_fdm_refl_coef_qs_from_eff_pol_n m roots defaults0 alpha A_tip n (Some z) None None None None None None None None ri ra env = Ok bs /\
    forall b, In b bs -> Cmod b <= 101 / 100 * (1 + 2 * u) /\
      forall beta delta, Cmod (b - beta)%C <= delta -> delta <= / 10 ^ 4 -> Cmod beta <= 101 / 100 -> beta <> RtoC (-1) ->
        Cmod (fdm_signal beta z A_tip n - alpha)%C <= 12 / 10 ^ 5 + 3600 * u + 25 * eta + 2 * delta.
Proof.
  intros u eta m roots alpha A z n ri ra env Hm Hu HB He Hn Hz HA Hzm.
  destruct (fdm_default_coefs u m A z n Hm Hu Hn Hz HA Hzm) as (aj & aj' & EC & AJ & SG).
  set (thr := d_beta_threshold defaults0). set (ev := dflt (d_eps_env defaults0) env).
  exists (filter (k_valid m thr ri ra ev) (roots (k_offset m alpha (map aj' (seq 0 16))))). split.
  { unfold k_fdm_refl_coef_qs_from_eff_pol_n, k_fdm_defaults. cbn [dflt].
    rewrite (mapM_ok _ aj'); [reflexivity|]. intros j _. exact (EC j). }
  intros b Hb. apply filter_In in Hb. destruct Hb as [Hin Hv]. destruct (valid_parts _ _ _ _ _ _ Hv) as (V1 & _ & _).
  split; [apply (abs_bound u m); [apply Hm|lra|exact V1]|]. intros beta delta Hd Hd1 Hbeta Hm1.
  assert (D0 : 0 <= delta) by (eapply Rle_trans; [apply Cmod_ge_0|exact Hd]).
  pose proof (inverse_rounding u eta m roots aj aj' fdm_W (fdm_e u) alpha beta b delta (67 / 100) Hm Hu He HB Hbeta Hd Hd1 AJ (fdm_inv_S u Hu) Hin) as R.
  pose proof (fdm_inv_small u delta (proj1 Hu) D0) as R2. destruct (SG beta Hbeta Hm1) as [S1 _]. set (P := Csum _) in *.
  replace (fdm_signal beta z A n - alpha)%C with (- (P - fdm_signal beta z A n) + (P - alpha))%C by ring.
  eapply Rle_trans; [apply Cmod_triangle|]. rewrite Cmod_opp. lra.
Qed.

Lemma pdm_inv_small u delta : 0 <= u -> 0 <= delta ->
  Rl (fun j => (1 / 4) ^ j * (101 / 100) ^ j * (106 / 100 * (20 / 9 * (INR j * (388 * u)) + 670 * u) + 12 / 10 * (INR j * delta))) (seq 0 16) <= 1410 * u + delta.
Proof. intros Hu Hd. unfold Rl. cbn [seq map fold_right INR]. lra. Qed.
Lemma pdm_inv_S u : 0 <= u <= / 10 ^ 6 -> 1002 / 1000 * Rl (fun j => (1 / 4) ^ j * (1 + (20 / 9 * (INR j * (388 * u)) + 670 * u)) * (101 / 100) ^ j) (seq 1 15) <= 35 / 100.
Proof. intros Hu. unfold Rl. cbn [seq map fold_right INR]. lra. Qed.

(** C100. pdm.refl_coef_qs_from_eff_pol_n likewise, with the value given in units of the polarizability of the sphere (what
    pdm.eff_pol_n_taylor returns): any tip radius, (1.004 10^-7 + 1420 u + 13 eta + delta) 4 pi r^3. *)
Lemma C100_pdm_inverse_proof : forall u eta (m : machine) roots (alpha : C) (A_tip z : R) (n : Z) (r_tip : option R) ri ra env,
  let r := given_or (20 / 10 ^ 9) r_tip in
  rounding u m -> 0 <= u <= / 10 ^ 6 -> backward_stable eta roots -> 0 <= eta <= / 10 ^ 3 -> (Z.abs n <= 4)%Z ->
  0 < r -> 0 <= z -> 0 < A_tip <= 3 / 2 * r ->
  exists bs, k_pdm_refl_coef_qs_from_eff_pol_n m roots defaults0 alpha A_tip n (Some z) r_tip None None None None None ri ra env = Ok bs /\
    forall b, In b bs -> Cmod b <= 101 / 100 * (1 + 2 * u) /\
      forall beta delta, Cmod (b - beta)%C <= delta -> delta <= / 10 ^ 4 -> Cmod beta <= 101 / 100 -> beta <> RtoC (-1) ->
        Cmod (pdm_signal r beta z A_tip n - RtoC (4 * PI * r ^ 3) * alpha)%C
        <= (/ 10 ^ 7 + 4 / 10 ^ 10 + 1420 * u + 13 * eta + delta) * (4 * PI * r ^ 3).
Proof.
  intros u eta m roots alpha A z n r_tip ri ra env r Hm Hu HB He Hn Hr Hz HA.
  destruct (pdm_default_coefs u m r A z n Hm Hu Hn Hr Hz HA) as (aj & aj' & EC & AJ & SG).
  set (thr := d_beta_threshold defaults0). set (ev := dflt (d_eps_env defaults0) env).
  exists (filter (k_valid m thr ri ra ev) (roots (k_offset m alpha (map aj' (seq 0 16))))). split.
  { unfold k_pdm_refl_coef_qs_from_eff_pol_n, k_pdm_defaults. rewrite !dflt_given. change (given_or (d_r_tip defaults0) r_tip) with r. cbn [dflt given_or rbind fst snd].
    rewrite (mapM_ok _ aj'); [reflexivity|]. intros j _. exact (EC j). }
  intros b Hb. apply filter_In in Hb. destruct Hb as [Hin Hv]. destruct (valid_parts _ _ _ _ _ _ Hv) as (V1 & _ & _).
  split; [apply (abs_bound u m); [apply Hm|lra|exact V1]|]. intros beta delta Hd Hd1 Hbeta Hm1.
  assert (D0 : 0 <= delta) by (eapply Rle_trans; [apply Cmod_ge_0|exact Hd]).
  assert (AJ' : forall j, (j < 16)%nat -> ap (aj j) (aj' j) ((1 / 4) ^ j) ((1 / 4) ^ j * (1 + (20 / 9 * (INR j * (388 * u)) + 670 * u))) /\ 0 <= 20 / 9 * (INR j * (388 * u)) + 670 * u <= 1 / 20).
  { intros j Hj. destruct (AJ j Hj) as [Q1 Q2]. split; [exact Q1|]. lra. }
  pose proof (inverse_rounding u eta m roots aj aj' (fun j => (1 / 4) ^ j) (fun j => 20 / 9 * (INR j * (388 * u)) + 670 * u) alpha beta b delta (35 / 100) Hm Hu He HB Hbeta Hd Hd1 AJ' (pdm_inv_S u Hu) Hin) as R.
  pose proof (pdm_inv_small u delta (proj1 Hu) D0) as R2. destruct (SG beta Hbeta Hm1) as [S1 _]. set (P := Csum _) in *.
  pose proof PI_RGT_0 as PP. set (a := 4 * PI * r ^ 3) in *. assert (Pa : 0 < a) by (unfold a; assert (0 < r ^ 3) by (now apply pow_lt); nra).
  replace (pdm_signal r beta z A n - RtoC a * alpha)%C with (- (RtoC a * P - pdm_signal r beta z A n) + RtoC a * (P - alpha))%C by ring.
  eapply Rle_trans; [apply Cmod_triangle|]. rewrite Cmod_opp, Cmod_mult, Cmod_R, (Rabs_pos_eq a) by lra.
  assert (R3 : Cmod (P - alpha)%C <= 1420 * u + 13 * eta + delta) by lra. apply (Rmult_le_compat_l a) in R3; [|lra]. lra.
Qed.

(** C100. Forward and back in double precision: the signal of a bulk sample computed by fdm.eff_pol_n and inverted by
    fdm.refl_coef_qs_from_eff_pol_n; every unmasked root with |b| <= 1.01, b <> -1, has the documented signal of the sample to
    1.41 10^-4 (backward error of the solver at most 10^-9). *)
Lemma C100_round_trip_proof : forall (m : machine) (laggauss : laggauss_t) roots (e0 e1 : C) nu (A_tip z : R) (n : Z) d_Qa n_lag ri ra env,
  let beta := ((e1 - e0) / (e1 + e0))%C in
  rounding (/ 2 ^ 53) m -> backward_stable (/ 10 ^ 9) roots ->
  e1 <> RtoC 0 -> (e0 + e1 <> 0)%C -> Cmod e0 + Cmod e1 <= 100 * Cmod (e0 + e1)%C -> Cmod beta <= 101 / 100 -> (Z.abs n <= 4)%Z ->
  0 <= z -> 0 < A_tip <= 30 / 10 ^ 9 -> z + 2 * A_tip <= 280 / 10 ^ 9 ->
  exists alpha bs,
    k_fdm_eff_pol_n m laggauss defaults0 (stack [e0; e1] [] nu) A_tip n (Some z) None None None None None None d_Qa n_lag None = Ok alpha /\
    k_fdm_refl_coef_qs_from_eff_pol_n m roots defaults0 alpha A_tip n (Some z) None None None None None None None None ri ra env = Ok bs /\
    forall b, In b bs -> Cmod b <= 101 / 100 -> b <> RtoC (-1) ->
      Cmod (fdm_signal b z A_tip n - fdm_signal beta z A_tip n)%C <= 141 / 10 ^ 6.
Proof.
  intros m lg roots e0 e1 nu A z n d_Qa n_lag ri ra env beta Hm HB H1 Hs Hk Hb Hn Hz HA Hzm.
  destruct (C98_fdm_double_proof m lg e0 e1 nu A z n d_Qa n_lag Hm H1 Hs Hk Hb Hn Hz HA Hzm) as (w & t & Ew & _ & Bw & _). fold beta in Bw.
  change (fourier_coefficient _ (z + A) A n) with (fdm_signal beta z A n) in Bw.
  destruct (C100_fdm_inverse_proof (/ 2 ^ 53) (/ 10 ^ 9) m roots w A z n ri ra env Hm) as (bs & Eb & Q); try assumption; try lra.
  exists w, bs. split; [exact Ew|]. split; [exact Eb|]. intros b Hin Hb1 Hbm. destruct (Q b Hin) as [_ Q2].
  assert (Z : Cmod (b - b)%C <= 0) by (replace (b - b)%C with (RtoC 0) by ring; rewrite Cmod_0; lra).
  specialize (Q2 b 0 Z ltac:(lra) Hb1 Hbm).
  replace (fdm_signal b z A n - fdm_signal beta z A n)%C with ((fdm_signal b z A n - w) + (w - fdm_signal beta z A n))%C by ring.
  eapply Rle_trans; [apply Cmod_triangle|]. lra.
Qed.

(** a solver without backward error: it tries 1/2 *)
Definition tries_half (c : list C) : list C :=
  if Ceq_dec (poly_at c (RtoC (1 / 2))) (RtoC 0) then [RtoC (1 / 2)] else [].
Lemma tries_half_stable : backward_stable 0 tries_half.
Proof.
  intros c. exists c. split; [reflexivity|]. split.
  - intros j _. replace (nth j c (RtoC 0) - nth j c (RtoC 0))%C with (RtoC 0) by ring. rewrite Cmod_0. lra.
  - intros z. unfold tries_half. destruct (Ceq_dec (poly_at c (RtoC (1 / 2))) (RtoC 0)) as [E|E]; [|intros []]. intros [<-|[]]. exact E.
Qed.
Lemma half_valid : k_valid (exact_but_m 0) (101 / 100) true true (RtoC 1) (RtoC (1 / 2)) = true.
Proof.
  assert (E : k_permitivitty (exact_but_m 0) (RtoC (1 / 2)) (RtoC 1) = RtoC 3).
  { unfold k_permitivitty, kdiv, kmul, kadd, ksub, RtoC. cbn [exact_but_m m_arith exact_but a_add a_sub a_mul a_div fst snd Re Im]. destruct (Rle_dec _ _) as [_|N]; [apply injective_projections; cbn [fst snd]; field; lra|].
    exfalso. apply N. rewrite Rminus_0_r, Rabs_R0. apply Rabs_pos. }
  unfold k_valid. rewrite E. unfold k_abs, leb_R. cbn [exact_but_m m_arith exact_but a_hypot Re Im fst snd RtoC negb orb].
  change (1 / 2, 0) with (RtoC (1 / 2)). change (3, 0) with (RtoC 3). rewrite !Cmod_R, !Rabs_pos_eq by lra.
  destruct (Rle_dec (1 / 2) (101 / 100)); [|lra]. destruct (Rle_dec 0 0); [|lra]. destruct (Rle_dec 1 3); [reflexivity|lra].
Qed.

(** C100, a case: exact arithmetic, a solver that tries 1/2, amplitude 30 nm, all rejections on: some value of alpha_eff_n is
    inverted to 1/2, and the signal of 1/2 is that value to 1.2 10^-4. *)
Lemma C100_example_proof :
  exists alpha bs, rounding 0 (exact_but_m 0) /\ backward_stable 0 tries_half /\
    k_fdm_refl_coef_qs_from_eff_pol_n (exact_but_m 0) tries_half defaults0 alpha (30 / 10 ^ 9) 2 (Some 0) None None None None None None None None true true None = Ok bs /\
    In (RtoC (1 / 2)) bs /\ Cmod (fdm_signal (RtoC (1 / 2)) 0 (30 / 10 ^ 9) 2 - alpha)%C <= 12 / 10 ^ 5.
Proof.
  assert (R0 : rounding 0 (exact_but_m 0)) by (apply exact_but_rounding; lra).
  destruct (fdm_default_coefs 0 (exact_but_m 0) (30 / 10 ^ 9) 0 2 R0 ltac:(lra) ltac:(lia) ltac:(lra) ltac:(lra) ltac:(lra)) as (aj & aj' & EC & _ & _).
  set (alpha := poly_at (map aj' (seq 0 16)) (RtoC (1 / 2))).
  destruct (C100_fdm_inverse_proof 0 0 (exact_but_m 0) tries_half alpha (30 / 10 ^ 9) 0 2 true true None R0) as (bs & Eb & Q);
    [lra|apply tries_half_stable|lra|lia|lra|lra|lra|].
  assert (Hin : In (RtoC (1 / 2)) bs).
  { revert Eb. unfold k_fdm_refl_coef_qs_from_eff_pol_n, k_fdm_defaults. cbn [dflt].
    rewrite (mapM_ok _ aj') by (intros j _; exact (EC j)). cbn [rbind]. intros X. assert (OK : forall x y : list C, Ok x = Ok y -> x = y) by (intros x y H; congruence). apply OK in X. subst bs. apply filter_In. split; [|exact half_valid].
    unfold tries_half. destruct (Ceq_dec _ _) as [E|E]; [left; reflexivity|]. exfalso. apply E. unfold alpha.
    change (d_n_tayl defaults0) with 16%nat. change (seq 0 16) with (0%nat :: seq 1 15). cbn [map k_offset poly_at]. set (t := poly_at (map aj' (seq 1 15)) (RtoC (1 / 2))).
    replace (ksub (exact_but_m 0) (aj' 0%nat) (aj' 0%nat + RtoC (1 / 2) * t)%C) with (- (RtoC (1 / 2) * t))%C; [ring|].
    unfold ksub. cbn [exact_but_m m_arith exact_but a_sub]. destruct (aj' 0%nat), t. apply injective_projections; cbn; ring. }
  exists alpha, bs. split; [exact R0|]. split; [apply tries_half_stable|]. split; [exact Eb|]. split; [exact Hin|].
  destruct (Q _ Hin) as [_ Q2]. specialize (Q2 (RtoC (1 / 2)) 0). 
  assert (Z : Cmod (RtoC (1 / 2) - RtoC (1 / 2))%C <= 0) by (replace (RtoC (1 / 2) - RtoC (1 / 2))%C with (RtoC 0) by ring; rewrite Cmod_0; lra).
  specialize (Q2 Z ltac:(lra)). rewrite Cmod_R, Rabs_pos_eq in Q2 by lra.
  assert (N : RtoC (1 / 2) <> RtoC (-1)) by (intros X; apply (f_equal Re) in X; cbn in X; lra).
  specialize (Q2 ltac:(lra) N). lra.
Qed.
