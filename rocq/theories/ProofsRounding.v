(** * C73: demodulation in arithmetic that rounds *)
From Coq Require Import String Reals Lra Lia ZArith List Bool Permutation.
From Coquelicot Require Import Rcomplements Complex.
From Verif Require Import Num NumLemmas ModelBase ModelSample ModelTip StackLemmas Spec ProofsSym DemodLemmas ProofsTaylor SpecRound ModelRound RoundLemmas RoundLemmas2.
Import ListNotations.
Open Scope R_scope.

Lemma exp_le_1_2S S : 0 <= S <= 1 / 2 -> exp S <= 1 + 2 * S.
Proof.
  intros [H1 H2]. pose proof (exp_ineq1_le (- S)) as E. rewrite exp_Ropp in E. pose proof (exp_pos S) as P.
  assert (Q : (1 - S) * exp S <= 1).
  { apply (Rmult_le_compat_r (exp S)) in E; [|lra]. rewrite Rinv_l in E by lra. lra. }
  apply (Rmult_le_reg_l (1 - S)); [lra|]. eapply Rle_trans; [exact Q|]. nra.
Qed.
Lemma one_plus_le_exp x : 1 + x <= exp x.
Proof. apply exp_ineq1_le. Qed.
Lemma pow_le_exp u k : 0 <= u -> (1 + u) ^ k <= exp (INR k * u).
Proof.
  intros Hu. induction k as [|k IH].
  - simpl. rewrite Rmult_0_l, exp_0. lra.
  - rewrite S_INR. replace ((INR k + 1) * u) with (u + INR k * u) by ring. rewrite exp_plus. cbn [pow].
    apply Rmult_le_compat; [lra|apply pow_le; lra|apply one_plus_le_exp|exact IH].
Qed.
(** the accumulated factor *)
Lemma demod_factor u h n : 0 <= u -> let S := (INR h + 36 + 67 * n) * u in 0 <= n -> S <= 1 / 2 ->
  (1 + 13 * u) * ((1 + u) ^ h * ((1 + 13 * u) * ((1 + 4 * u) * ((1 + u) * ((1 + 4 * u) * (1 + u * (1 + 67 * n))))))) <= 1 + 2 * S.
Proof.
  intros Hu S Hn HS. assert (Ph : 0 <= INR h) by apply pos_INR.
  eapply Rle_trans; [|apply exp_le_1_2S; split; [unfold S; apply Rmult_le_pos; lra|exact HS]].
  replace S with (13 * u + (INR h * u + (13 * u + (4 * u + (u + (4 * u + u * (1 + 67 * n))))))) by (unfold S; ring).
  assert (Pw : 0 <= u * (1 + 67 * n)) by (apply Rmult_le_pos; lra).
  assert (P4 : 0 <= (1 + 4 * u) * (1 + u * (1 + 67 * n))) by (apply Rmult_le_pos; lra).
  assert (P3 : 0 <= (1 + u) * ((1 + 4 * u) * (1 + u * (1 + 67 * n)))) by (apply Rmult_le_pos; lra).
  assert (P2 : 0 <= (1 + 4 * u) * ((1 + u) * ((1 + 4 * u) * (1 + u * (1 + 67 * n))))) by (apply Rmult_le_pos; lra).
  assert (P1 : 0 <= (1 + 13 * u) * ((1 + 4 * u) * ((1 + u) * ((1 + 4 * u) * (1 + u * (1 + 67 * n)))))) by (apply Rmult_le_pos; lra).
  assert (P5 : 0 <= (1 + u) ^ h) by (apply pow_le; lra).
  rewrite !exp_plus.
  apply Rmult_le_compat; [lra|apply Rmult_le_pos; assumption|apply one_plus_le_exp|].
  apply Rmult_le_compat; [assumption|assumption|apply pow_le_exp, Hu|].
  apply Rmult_le_compat; [lra|assumption|apply one_plus_le_exp|].
  apply Rmult_le_compat; [lra|assumption|apply one_plus_le_exp|].
  apply Rmult_le_compat; [lra|assumption|apply one_plus_le_exp|].
  apply Rmult_le_compat; [lra|lra|apply one_plus_le_exp|]. apply one_plus_le_exp.
Qed.

Lemma Sl_adds_up t N v : adds_up t N -> Sl v (leaves t) = Csum (map v (seq 0 N)).
Proof. intros H. unfold Sl. apply Csum_perm, Permutation_map, H. Qed.

(** C73. demod computed in arithmetic of relative error u, in any order of summation: if the demodulated
    function is bounded by B on the sampled interval and computed within F (at heights perturbed by
    rounding), the harmonic is computed within 2 F + 2 S B, where S = (height of the summation tree + 36 +
    67 |n|) u. *)
Lemma C73_demod_error_proof : forall D A u t f g fk x_0 amp n N B F,
  rounds u A -> 0 <= u <= 1 / 100 -> N <> O -> adds_up t N ->
  (forall x, Rabs (x - x_0) <= Rabs amp -> f x = Ok (Some (g x)) /\ Cmod (g x) <= B) ->
  (forall x x', Rabs (x - x_0) <= Rabs amp -> Rabs (x' - x) <= u * (Rabs x_0 + 67 * Rabs amp) ->
     Cmod (fk x' - g x)%C <= F) ->
  let S := (INR (order_height t) + 36 + 67 * Rabs (IZR n)) * u in
  S <= 1 / 2 ->
  exists d, demod D f x_0 amp n (Some N) = Ok (Some d) /\
    Cmod (k_demod A t fk x_0 amp n N - d)%C <= 2 * F + 2 * S * B.
Proof.
  intros D A u t f g fk x_0 amp n N B F HA [Hu Hu1] HN Ht Hf Hfk S HS.
  assert (HR : forall k, Rabs (height x_0 amp N k - x_0) <= Rabs amp) by (intros k; pose proof (height_range x_0 amp N k); apply Rabs_le; lra).
  set (y0 := fun k => (g (height x_0 amp N k) * ph n (node N k))%C).
  exists (cmean N y0). split.
  { rewrite (demod_mean D f (fun x => Some (g x)) x_0 amp n (Some N) HN).
    - f_equal. unfold dmean. rewrite (mean_Some _ _ y0 HN); [reflexivity|]. intros k Hk. reflexivity.
    - destruct (Hf (x_0 + 0 * amp)) as [H _]; [|eauto]. replace (x_0 + 0 * amp - x_0) with 0 by ring. rewrite Rabs_R0. apply Rabs_pos.
    - intros k _. apply (Hf _ (HR k)). }
  unfold k_demod. set (y := fun k => k_integrand A fk x_0 amp n (k_theta A N k)).
  set (W := u * (1 + 67 * Rabs (IZR n))).
  assert (Y : forall k, (k <= N)%nat -> ap (y0 k) (y k) B ((1 + 4 * u) * ((B + F) * (1 + W)))).
  { intros k Hk. unfold y, k_integrand.
    pose proof (position_near u A Hu Hu1 HA x_0 amp N k HN Hk) as Hp.
    pose proof (phase_near u A Hu Hu1 HA n N k HN Hk) as Hph. cbv zeta in Hph.
    assert (G : ap (g (height x_0 amp N k)) (fk (k_position A x_0 amp (k_theta A N k))) B (B + F)).
    { split; [apply (Hf _ (HR k))|]. replace (B + F - B) with F by ring. apply (Hfk _ _ (HR k) Hp). }
    assert (E : ap (ph n (node N k)) (a_cos A (a_mul A (- IZR n) (k_theta A N k)), a_sin A (a_mul A (- IZR n) (k_theta A N k))) 1 (1 + W)).
    { split; [rewrite ph_mod; lra|]. replace (1 + W - 1) with W by ring. exact Hph. }
    pose proof (ap_mul _ _ _ _ _ _ _ _ G E) as GE. rewrite Rmult_1_r in GE.
    apply (ap_round (4 * u) _ _ _ _ _ ltac:(lra) GE). now apply kmul_near. }
  set (M := (1 + 4 * u) * ((B + F) * (1 + W))) in *.
  assert (C2 : (RtoC 2 <> RtoC 0)) by exact C2_neq_0.
  assert (PR : forall k, In k (leaves t) -> ap ((y0 (Datatypes.S k) + y0 k) / RtoC 2)%C (kdiv A (kmul A (RtoC 1) (kadd A (y (Datatypes.S k)) (y k))) (RtoC 2))
    B ((1 + 13 * u) * ((1 + 4 * u) * ((1 + u) * M)))).
  { intros k Hk. assert (HkN : (k < N)%nat) by (apply (Permutation_in _ Ht), in_seq in Hk; lia).
    pose proof (ap_add _ _ _ _ _ _ _ _ (Y (Datatypes.S k) ltac:(lia)) (Y k ltac:(lia))) as P1.
    pose proof (ap_round u _ _ _ _ _ Hu P1 (kadd_near u A Hu HA _ _)) as P2.
    assert (I1 : ap (RtoC 1) (RtoC 1) 1 1) by (apply ap_refl; rewrite Cmod_1; lra).
    pose proof (ap_round (4 * u) _ _ _ _ _ ltac:(lra) (ap_mul _ _ _ _ _ _ _ _ I1 P2) (kmul_near u A Hu Hu1 HA _ _)) as P3.
    assert (I2 : ap (/ RtoC 2)%C (/ RtoC 2)%C (/ 2) (/ 2)).
    { apply ap_refl. rewrite Cmod_inv by exact C2. rewrite Cmod_R, Rabs_pos_eq; lra. }
    pose proof (ap_round (13 * u) _ _ _ _ _ ltac:(lra) (ap_mul _ _ _ _ _ _ _ _ P3 I2) (kdiv_near u A Hu Hu1 HA _ _ C2)) as P4.
    replace ((y0 (Datatypes.S k) + y0 k) / RtoC 2)%C with (RtoC 1 * (y0 (Datatypes.S k) + y0 k) * / RtoC 2)%C by (unfold Cdiv; ring).
    apply (ap_weaken _ _ _ _ _ _ P4); [lra|]. apply Req_le. field. }
  pose proof (ksum_ap u A t _ _ _ _ Hu HA PR) as K.
  rewrite (Sl_adds_up t N _ Ht) in K.
  assert (L : length (leaves t) = N) by (rewrite (Permutation_length Ht); apply seq_length). rewrite L in K.
  assert (T : Csum (map (fun k => ((y0 (Datatypes.S k) + y0 k) / RtoC 2)%C) (seq 0 N)) = Csum (map y0 (seq 0 N))).
  { rewrite (Csum_ext_in _ (fun k => / RtoC 2 * (y0 (Datatypes.S k) + y0 k))%C) by (intros; unfold Cdiv; ring).
    rewrite Csum_scal, (Csum_plus (fun k => y0 (Datatypes.S k)) y0), Csum_tele.
    assert (y0 N = y0 O) as -> by (unfold y0; rewrite height_N, ph_N by exact HN; reflexivity).
    field. exact C2. }
  rewrite T in K.
  assert (PN : 0 < INR N) by (apply lt_0_INR; lia).
  assert (CN : RtoC (INR N) <> RtoC 0) by (now apply INR_C_neq_0).
  assert (IN : ap (/ RtoC (INR N))%C (/ RtoC (INR N))%C (/ INR N) (/ INR N)).
  { apply ap_refl. rewrite Cmod_inv by exact CN. rewrite Cmod_R, Rabs_pos_eq; lra. }
  pose proof (ap_round (13 * u) _ _ _ _ _ ltac:(lra) (ap_mul _ _ _ _ _ _ _ _ K IN) (kdiv_near u A Hu Hu1 HA _ _ CN)) as [K1 K2].
  assert (B0 : 0 <= B) by (destruct (Y O ltac:(lia)) as [Q _]; pose proof (Cmod_ge_0 (y0 O)); lra).
  assert (F0 : 0 <= F) by (eapply Rle_trans; [apply Cmod_ge_0|]; apply (Hfk _ _ (HR O) (position_near u A Hu Hu1 HA x_0 amp N O HN ltac:(lia)))).
  change (Csum (map y0 (seq 0 N)) * / RtoC (INR N))%C with (cmean N y0) in K2.
  eapply Rle_trans; [exact K2|].
  match goal with |- ?a <= _ => replace a with ((1 + 13 * u) * ((1 + u) ^ order_height t * ((1 + 13 * u) * ((1 + 4 * u) * ((1 + u) * ((1 + 4 * u) * (1 + W)))))) * (B + F) - B)
     by (unfold M; field; lra) end.
  pose proof (demod_factor u (order_height t) (Rabs (IZR n)) Hu (Rabs_pos _) HS) as Q. fold W in Q. fold S in Q.
  apply (Rmult_le_compat_r (B + F)) in Q; [|lra]. eapply Rle_trans; [apply Rplus_le_compat_r, Q|].
  assert (S * F <= 1 / 2 * F) by (apply Rmult_le_compat_r; lra). lra.
Qed.

(** C73. With u = 0 the rounded program is the exact model. *)
Lemma C73_exact_arithmetic_proof : forall D A t f g x_0 amp n N,
  rounds 0 A -> N <> O -> adds_up t N ->
  (forall x, Rabs (x - x_0) <= Rabs amp -> f x = Ok (Some (g x))) ->
  demod D f x_0 amp n (Some N) = Ok (Some (k_demod A t g x_0 amp n N)).
Proof.
  intros D A t f g x_0 amp n N HA HN Ht Hf.


  assert (HR : forall k, Rabs (height x_0 amp N k - x_0) <= Rabs amp) by (intros k; pose proof (height_range x_0 amp N k); apply Rabs_le; lra).
  set (y0 := fun k => (g (height x_0 amp N k) * ph n (node N k))%C).
  assert (E : demod D f x_0 amp n (Some N) = Ok (Some (cmean N y0))).
  { rewrite (demod_mean D f (fun x => Some (g x)) x_0 amp n (Some N) HN).
    - f_equal. unfold dmean. rewrite (mean_Some _ _ y0 HN); [reflexivity|]. intros k Hk. reflexivity.
    - rewrite (Hf (x_0 + 0 * amp)); [eauto|]. replace (x_0 + 0 * amp - x_0) with 0 by ring. rewrite Rabs_R0. apply Rabs_pos.
    - intros k _. apply (Hf _ (HR k)). }
  rewrite E. f_equal. f_equal.
  assert (near0 : forall x y, near 0 x y -> y = x).
  { intros x y H. apply near_ex in H; [|lra]. destruct H as (d & Hd & ->). assert (d = 0) as ->; [|ring].
    pose proof (Rabs_pos d). destruct (Req_dec d 0) as [H0|H0]; [exact H0|apply Rabs_pos_lt in H0; lra]. }
  assert (cnear0 : forall x y, cnear (0) x y -> y = x).
  { intros x y H. unfold cnear in H. rewrite Rmult_0_l in H. assert (Z : (y - x)%C = RtoC 0) by (apply Cmod_eq_0; pose proof (Cmod_ge_0 (y - x)%C); lra).
    replace y with ((y - x) + x)%C by ring. rewrite Z. ring. }
  assert (H0 : 0 <= 0) by lra. assert (H1 : 0 <= 1 / 100) by lra.
  assert (KM : forall x y, kmul A x y = (x * y)%C) by (intros; apply cnear0; pose proof (kmul_near 0 A H0 H1 HA x y) as Q; now rewrite Rmult_0_r in Q).
  assert (KD : forall x y, y <> RtoC 0 -> kdiv A x y = (x / y)%C) by (intros x y Hy; apply cnear0; pose proof (kdiv_near 0 A H0 H1 HA x y Hy) as Q; now rewrite Rmult_0_r in Q).
  assert (KA : forall x y, kadd A x y = (x + y)%C) by (intros; apply cnear0, kadd_near; assumption).
  assert (TH : forall k, (k <= N)%nat -> k_theta A N k = node N k).
  { intros k Hk. pose proof (theta_near 0 A H0 H1 HA N k HN Hk) as Q. rewrite Rmult_0_r in Q.
    destruct (Req_dec (k_theta A N k - node N k) 0) as [Z|Z]; [lra|apply Rabs_pos_lt in Z; lra]. }
  assert (Y : forall k, (k <= N)%nat -> k_integrand A g x_0 amp n (k_theta A N k) = y0 k).
  { intros k Hk. rewrite TH by exact Hk. unfold k_integrand. rewrite KM. unfold y0, k_position, height. f_equal.
    - f_equal. rewrite (near0 _ _ (r_add _ _ HA _ _)), (near0 _ _ (r_mul _ _ HA _ _)), (near0 _ _ (r_cos _ _ HA _)). reflexivity.
    - rewrite (near0 _ _ (r_mul _ _ HA _ _)), (near0 _ _ (r_cos _ _ HA _)), (near0 _ _ (r_sin _ _ HA _)), ph_cos.
      replace (- IZR n * node N k) with (- (IZR n * node N k)) by ring. rewrite cos_neg, sin_neg. reflexivity. }
  unfold k_demod. rewrite KD by (now apply INR_C_neq_0). unfold cmean. f_equal.
  assert (KS : forall o (v : nat -> C), ksum A o v = Sl v (leaves o)).
  { induction o as [k|l IHl r IHr]; intros v; cbn [ksum leaves].
    - unfold Sl, Csum. cbn [map fold_right]. ring.
    - rewrite KA, IHl, IHr. unfold Sl. now rewrite map_app, Csum_app. }
  symmetry. rewrite KS, (Sl_adds_up t N _ Ht).
  rewrite (Csum_ext_in _ (fun k => / RtoC 2 * (y0 (S k) + y0 k))%C).
  2: { intros k Hk. apply in_seq in Hk. cbv beta zeta. rewrite KD by exact C2_neq_0. rewrite KM, KA, !Y by lia. unfold Cdiv. ring. }
  rewrite Csum_scal, (Csum_plus (fun k => y0 (S k)) y0), Csum_tele.
  assert (y0 N = y0 O) as -> by (unfold y0; rewrite height_N, ph_N by exact HN; reflexivity).
  field. exact C2_neq_0.
Qed.

(** C73. Noise floor: the exact harmonics of a constant vanish (n not a multiple of n_trapz); the computed
    ones are at most 2 S |c|. *)
Lemma C73_noise_floor_proof : forall A u t c x_0 amp n N,
  rounds u A -> 0 <= u <= 1 / 100 -> N <> O -> adds_up t N -> ~ (Z.of_nat N | n)%Z ->
  let S := (INR (order_height t) + 36 + 67 * Rabs (IZR n)) * u in
  S <= 1 / 2 ->
  Cmod (k_demod A t (fun _ => c) x_0 amp n N) <= 2 * S * Cmod c.
Proof.
  intros A u t c x_0 amp n N HA Hu HN Ht Hn S HS.

  destruct (C73_demod_error_proof defaults0 A u t (fun _ => Ok (Some c)) (fun _ => c) (fun _ => c) x_0 amp n N (Cmod c) 0 HA Hu HN Ht) as (d & Hd & Q).
  - intros x _. split; [reflexivity|lra].
  - intros x x' _ _. replace (c - c)%C with (RtoC 0) by ring. rewrite Cmod_0. lra.
  - exact HS.
  - assert (d = RtoC 0) as ->.
    { rewrite (demod_mean _ _ (fun x => Some c) x_0 amp n (Some N) HN) in Hd; [|eauto|reflexivity].
      unfold dmean in Hd. rewrite (mean_Some _ _ (fun k => c * ph n (node N k))%C HN) in Hd by reflexivity.
      injection Hd as <-. change (cmean N (fun k => c * ph n (node N k))%C = RtoC 0). rewrite cmean_scal, mean_ph by assumption. ring. }
    replace (k_demod A t (fun _ : R => c) x_0 amp n N - RtoC 0)%C with (k_demod A t (fun _ : R => c) x_0 amp n N) in Q by ring.
    fold S in Q. lra.
Qed.

(** ** An arithmetic that is exact except for the cosine of zero *)
Definition exact_but (u : R) : arith :=
  Ar Rplus Rminus Rmult Rdiv pow sin (fun x => if Req_EM_T x 0 then 1 + u else cos x) exp ln (fun x y => Cmod (x, y)) sqrt (fun x => x).
Lemma near_refl u x : 0 <= u -> near u x x.
Proof. intros Hu. unfold near. replace (x - x) with 0 by ring. rewrite Rabs_R0. apply Rmult_le_pos; [exact Hu|apply Rabs_pos]. Qed.
Lemma exact_but_rounds u : 0 <= u -> rounds u (exact_but u).
Proof.
  intros Hu. constructor; intros; cbn [exact_but a_add a_sub a_mul a_div a_pow a_sin a_cos a_exp a_log a_hypot a_sqrt a_lit]; try (apply near_refl; exact Hu).
  destruct (Req_EM_T x 0) as [->|_]; [|apply near_refl; exact Hu].
  unfold near. rewrite cos_0, Rabs_R1. replace (1 + u - 1) with u by ring. rewrite Rabs_pos_eq; lra.
Qed.
(** C73. They need not vanish. *)
Lemma C73_constant_noise_refuted_proof :
  ~ (forall A u t c x_0 amp n N, rounds u A -> 0 <= u <= 1 / 100 -> N <> O -> adds_up t N -> ~ (Z.of_nat N | n)%Z ->
       k_demod A t (fun _ => c) x_0 amp n N = RtoC 0).
Proof.
  intros H. set (u := 1 / 100).
  specialize (H (exact_but u) u (Node (Leaf 0) (Leaf 1)) (RtoC 1) 0 0 1%Z 2%nat).
  assert (Hu : 0 <= u <= 1 / 100) by (unfold u; lra).
  specialize (H (exact_but_rounds u (proj1 Hu)) Hu ltac:(discriminate) (Permutation_refl _)).
  assert (ND : ~ (Z.of_nat 2 | 1)%Z) by (intros [q Hq]; lia). specialize (H ND).
  apply (f_equal Re) in H. revert H. pose proof PI_RGT_0 as PP.
  assert (T0 : k_theta (exact_but u) 2 0 = - PI) by (unfold k_theta; cbn; ring).
  assert (T1 : k_theta (exact_but u) 2 1 = 0) by (unfold k_theta; cbn; field).
  assert (T2 : k_theta (exact_but u) 2 2 = PI) by reflexivity.
  unfold k_demod. cbn [ksum]. rewrite T0, T1, T2. unfold k_integrand.
  replace (a_mul (exact_but u) (- IZR 1) (- PI)) with PI by (cbn; ring).
  replace (a_mul (exact_but u) (- IZR 1) 0) with 0 by (cbn; ring).
  replace (a_mul (exact_but u) (- IZR 1) PI) with (- PI) by (cbn; ring).
  assert (E1 : a_cos (exact_but u) PI = -1) by (cbn; destruct (Req_EM_T PI 0); [lra|apply cos_PI]).
  assert (E2 : a_cos (exact_but u) (- PI) = -1) by (cbn; destruct (Req_EM_T (- PI) 0); [lra|rewrite cos_neg; apply cos_PI]).
  assert (E3 : a_cos (exact_but u) 0 = 1 + u) by (cbn; destruct (Req_EM_T 0 0); [reflexivity|congruence]).
  assert (S1 : a_sin (exact_but u) PI = 0) by (cbn; apply sin_PI).
  assert (S2 : a_sin (exact_but u) (- PI) = 0) by (cbn; rewrite sin_neg, sin_PI; ring).
  assert (S3 : a_sin (exact_but u) 0 = 0) by (cbn; apply sin_0).
  rewrite E1, E2, E3, S1, S2, S3.
  unfold kdiv, kmul, kadd, RtoC, Re, Im. cbn [fst snd exact_but a_add a_sub a_mul a_div INR].
  repeat (destruct (Rle_dec _ _) as [?|NL]; [|exfalso; apply NL; cbn [fst snd]; rewrite Rabs_R0; apply Rabs_pos]).
  cbn [fst snd]. unfold u. intros H. field_simplify in H. lra.
Qed.

Lemma ln2_pos : 0 < ln 2.
Proof. rewrite <- ln_1. apply ln_increasing; lra. Qed.
Lemma chop_near p x : near (/ 2 ^ p) x (chop p x).
Proof.
  unfold chop. destruct (Req_EM_T x 0) as [->|Hx]; [apply near_refl; left; apply Rinv_0_lt_compat, pow_lt; lra|].
  set (q := ln (Rabs x) / ln 2). set (s := exp (IZR (Int_part q) * ln 2) / 2 ^ p). cbv zeta. unfold near.
  assert (P : 0 < 2 ^ p) by (apply pow_lt; lra). assert (Px : 0 < Rabs x) by (now apply Rabs_pos_lt).
  assert (Ps : 0 < s) by (unfold s; apply Rdiv_lt_0_compat; [apply exp_pos|exact P]).
  assert (Hs : s <= / 2 ^ p * Rabs x).
  { unfold s, Rdiv. rewrite Rmult_comm. apply Rmult_le_compat_l; [left; now apply Rinv_0_lt_compat|].
    replace (Rabs x) with (exp (q * ln 2)) by (unfold q; replace (ln (Rabs x) / ln 2 * ln 2) with (ln (Rabs x)) by (field; pose proof ln2_pos; lra); now apply exp_ln).
    destruct (base_Int_part q) as [Q _]. assert (L : IZR (Int_part q) * ln 2 <= q * ln 2) by (apply Rmult_le_compat_r; [left; apply ln2_pos|exact Q]).
    destruct L as [L|L]; [left; now apply exp_increasing|rewrite L; lra]. }
  eapply Rle_trans; [|exact Hs]. destruct (base_Int_part (x / s)) as [B1 B2].
  replace (IZR (Int_part (x / s)) * s - x) with ((IZR (Int_part (x / s)) - x / s) * s) by (field; lra).
  rewrite Rabs_mult, (Rabs_pos_eq s) by lra. apply Rle_trans with (1 * s); [|lra]. apply Rmult_le_compat_r; [lra|]. apply Rabs_le. lra.
Qed.
Lemma chop_rounds p : rounds (/ 2 ^ p) (chop_arith p).
Proof. constructor; intros; apply chop_near. Qed.
Lemma Int_part_is r z : r - 1 < IZR z <= r -> z = Int_part r.
Proof. intros H. unfold Int_part. assert (z + 1 = up r)%Z; [|lia]. apply tech_up; rewrite plus_IZR; lra. Qed.
(** it really rounds: small summands are absorbed *)
Lemma chop_absorbs p : a_add (chop_arith p) 1 (/ 2 ^ (S p)) = 1.
Proof.
  cbn [chop_arith a_add]. assert (P : 1 <= 2 ^ p) by (apply pow_R1_Rle; lra).
  assert (Q : 0 < / 2 ^ S p <= / 2).
  { split; [apply Rinv_0_lt_compat; simpl; lra|]. apply Rinv_le_contravar; simpl; lra. }
  unfold chop. destruct (Req_EM_T _ 0) as [E|_]; [lra|]. rewrite (Rabs_pos_eq (1 + / 2 ^ S p)) by lra.
  assert (I : Int_part (ln (1 + / 2 ^ S p) / ln 2) = 0%Z).
  { symmetry. apply Int_part_is. pose proof ln2_pos as L2.
    assert (0 <= ln (1 + / 2 ^ S p) < ln 2) by (split; [rewrite <- ln_1; left; apply ln_increasing; lra|apply ln_increasing; lra]).
    split; [|apply Rmult_le_pos; [lra|left; now apply Rinv_0_lt_compat]].
    assert (ln (1 + / 2 ^ S p) / ln 2 < 1); [|lra].
    apply (Rmult_lt_reg_r (ln 2)); [exact L2|]. unfold Rdiv. rewrite Rmult_assoc, Rinv_l by lra. lra. }
  rewrite I. cbv zeta. rewrite Rmult_0_l, exp_0.
  assert (I2 : Int_part ((1 + / 2 ^ S p) / (1 / 2 ^ p)) = (2 ^ Z.of_nat p)%Z).
  { symmetry. apply Int_part_is. rewrite <- pow_IZR.
    replace ((1 + / 2 ^ S p) / (1 / 2 ^ p)) with (2 ^ p + / 2) by (cbn [pow]; field; lra). lra. }
  rewrite I2, <- pow_IZR. field. lra.
Qed.

Lemma left_order_adds_up n : adds_up (left_order n) (S n).
Proof.
  unfold adds_up. assert (leaves (left_order n) = seq 0 (S n)) as ->; [|apply Permutation_refl].
  induction n as [|n IH]; [reflexivity|]. cbn [left_order leaves]. rewrite IH. rewrite (seq_S (S n)). reflexivity.
Qed.
Lemma left_order_height n : order_height (left_order n) = n.
Proof. induction n as [|n IH]; [reflexivity|]. cbn [left_order order_height]. rewrite IH. lia. Qed.

(** C73. The second harmonic of x^2 around 1 with amplitude 1, N = 16, in the chopping
    arithmetic with 53 digits: within 2100 units of rounding of the exact one *)
Lemma C73_example_proof :
  let A := chop_arith 53 in let u := / 2 ^ 53 in
  a_add A 1 (/ 2 ^ 54) = 1 /\
  exists d, demod defaults0 (fun x => Ok (Some (RtoC (x ^ 2)))) 1 1 2%Z (Some 16%nat) = Ok (Some d) /\
    Cmod (k_demod A (left_order 15) (fun x => RtoC (a_pow A x 2)) 1 1 2%Z 16 - d)%C <= 2100 * u.
Proof.
  intros A u. split; [apply (chop_absorbs 53)|].
  assert (Hu : 0 <= u <= 1 / 1000000).
  { unfold u. split; [left; apply Rinv_0_lt_compat, pow_lt; lra|]. replace (1 / 1000000) with (/ 1000000) by field. apply Rinv_le_contravar; [lra|].
    apply (Rle_trans _ (2 ^ 20)); [simpl; lra|apply Rle_pow; [lra|lia]]. }
  destruct (C73_demod_error_proof defaults0 A u (left_order 15) (fun x => Ok (Some (RtoC (x ^ 2)))) (fun x => RtoC (x ^ 2)) (fun x => RtoC (a_pow A x 2)) 1 1 2%Z 16%nat 4 (305 * u)) as (d & Hd & Q).
  - apply chop_rounds.
  - lra.
  - discriminate.
  - apply left_order_adds_up.
  - intros x Hx. split; [reflexivity|]. rewrite Cmod_R. rewrite Rabs_R1 in Hx. apply Rabs_le_between in Hx. rewrite Rabs_pos_eq by apply pow2_ge_0. simpl. nra.
  - intros x x' Hx Hx'. rewrite <- RtoC_minus, Cmod_R. rewrite !Rabs_R1 in *.
    pose proof (r_pow _ _ (chop_rounds 53) x' 2) as R. fold A u in R. unfold near in R. rewrite (Rabs_pos_eq (x' ^ 2)) in R by apply pow2_ge_0.
    assert (HX : Rabs (x' - x) <= 68 * u) by lra. assert (Rabs x <= 2) by (apply Rabs_le_between in Hx; apply Rabs_le; lra).
    assert (HX2 : Rabs (x' + x) <= 4.1).
    { replace (x' + x) with ((x' - x) + 2 * x) by ring. eapply Rle_trans; [apply Rabs_triang|]. rewrite (Rabs_mult 2), (Rabs_pos_eq 2) by lra. lra. }
    assert (D : Rabs (x' ^ 2 - x ^ 2) <= 68 * u * 4.1).
    { replace (x' ^ 2 - x ^ 2) with ((x' - x) * (x' + x)) by ring. rewrite Rabs_mult. apply Rmult_le_compat; auto using Rabs_pos. }
    assert (x' ^ 2 <= 5).
    { apply Rabs_le_between in D. apply Rabs_le_between in Hx. assert (x ^ 2 <= 4) by (simpl; nra). nra. }
    assert (u * x' ^ 2 <= u * 5) by (apply Rmult_le_compat_l; lra).
    replace (a_pow A x' 2 - x ^ 2) with ((a_pow A x' 2 - x' ^ 2) + (x' ^ 2 - x ^ 2)) by ring. eapply Rle_trans; [apply Rabs_triang|]. lra.
  - rewrite left_order_height. rewrite (Rabs_pos_eq 2) by lra. simpl INR. lra.
  - exists d. split; [exact Hd|]. eapply Rle_trans; [exact Q|]. rewrite left_order_height. rewrite (Rabs_pos_eq 2) by lra. simpl INR. lra.
Qed.
