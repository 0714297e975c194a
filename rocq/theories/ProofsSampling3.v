(** * Proofs: sampling error of the point-dipole harmonics, default sampling (C79) *)
From Coq Require Import String Reals Lra Lia ZArith List Bool.
From Coquelicot Require Import Coquelicot.
From Coq Require Import List.
From Verif Require Import Num NumLemmas LimLemmas ModelBase ModelSample ModelTip StackLemmas Spec SpecSampling FTA
  ProofsStackQS ProofsStackQS2 ProofsBulkFF ProofsSym ProofsPassive DemodLemmas ProofsDemod ProofsTip ProofsTip2 ProofsTip3 ProofsTaylor
  ProofsSampling ProofsSampling2.
Import ListNotations.
Open Scope R_scope.

(** C79. Sampling error of pdm.eff_pol_n: geometric in the number of samples, with
    ratio |w_j| for each of the three poles. *)
Lemma C79_pdm_error_proof :
  forall (D : Defaults) (s : sample) (A_tip : R) (n : Z) (z_tip : option R) (n_trapz : option nat) (r_tip : option R)
    (eps_tip alpha_tip : option C) (alpha beta p1 p2 p3 w1 w2 w3 : C),
  let N := given_or (d_n_trapz D) n_trapz in let z := given_or (d_z_tip D) z_tip in let r := given_or (d_r_tip D) r_tip in
  let image := fun p : C => ((RtoC (r + z + A_tip) - p) / RtoC A_tip)%C in
  let term := fun p w : C => Cmod (p / RtoC (3 * A_tip))%C * Cmod (2 * w / (1 - w * w))%C
                * (2 * Cmod w ^ (N - Z.abs_nat n) / (1 - Cmod w ^ N)) in
  tip_alpha r eps_tip alpha_tip alpha -> refl_coef_qs s (rr 0) = Ok (Some beta) ->
  (Z.abs_nat n < N)%nat -> A_tip <> 0 ->
  (forall x, z + A_tip - Rabs A_tip <= x <= z + A_tip + Rabs A_tip -> r + x <> 0) ->
  cube_roots (alpha * beta / RtoC (16 * PI))%C p1 p2 p3 ->
  inner_image (image p1) w1 -> inner_image (image p2) w2 -> inner_image (image p3) w3 ->
  exists v : C, pdm_eff_pol_n D s A_tip n z_tip n_trapz r_tip eps_tip alpha_tip = Ok (Some v) /\
    Cmod (v - fourier_coefficient (fun x => alpha / (1 - alpha / RtoC (16 * PI * (r + x) ^ 3) * beta))%C (z + A_tip) A_tip n)%C
    <= Cmod alpha * (term p1 w1 + term p2 w2 + term p3 w3).
Proof.
  intros D s A n z_tip nt r_tip eps_tip alt alpha beta p1 p2 p3 w1 w2 w3 N z r image term Ht Hb Hn HA HK HC I1 I2 I3.
  eexists. split.
  - apply (C79_pdm_closed_form_proof D s A n z_tip nt r_tip eps_tip alt alpha beta p1 p2 p3 w1 w2 w3); auto. fold N z r.
    intros k _. apply HK. pose proof (tip_height_between (z + A) A N k) as T. replace (z + A - A) with z in T by ring. exact T.
  - rewrite (C79_pdm_fourier_proof A z r n alpha beta p1 p2 p3 w1 w2 w3) by assumption. fold N.
    pose proof I1 as (W1 & U1 & _). pose proof I2 as (W2 & U2 & _). pose proof I3 as (W3 & U3 & _).
    assert (K3A : RtoC (3 * A) <> RtoC 0) by (intros E; apply (f_equal fst) in E; cbn in E; lra).
    assert (T : forall p w, w <> RtoC 0 -> Cmod w < 1 -> Cmod ((p / RtoC (3 * A)) * (kernel_sampled w N n - kernel_harmonic w n))%C <= term p w).
    { intros p w V0 V1. rewrite Cmod_mult. unfold term. rewrite (Rmult_assoc (Cmod (p / _)%C)). apply Rmult_le_compat_l; [apply Cmod_ge_0|now apply kernel_error]. }
    match goal with |- Cmod ?e <= _ => replace e with
      (alpha * ((p1 / RtoC (3 * A)) * (kernel_sampled w1 N n - kernel_harmonic w1 n)
       + ((p2 / RtoC (3 * A)) * (kernel_sampled w2 N n - kernel_harmonic w2 n)
       + (p3 / RtoC (3 * A)) * (kernel_sampled w3 N n - kernel_harmonic w3 n))))%C by (destruct (Z.eqb n 0); field; exact K3A) end.
    rewrite Cmod_mult. apply Rmult_le_compat_l; [apply Cmod_ge_0|].
    eapply Rle_trans; [apply Cmod_triangle|]. eapply Rle_trans; [apply Rplus_le_compat_l, Cmod_triangle|].
    pose proof (T p1 w1 W1 U1). pose proof (T p2 w2 W2 U2). pose proof (T p3 w3 W3 U3). lra.
Qed.

(** ** the hypotheses can be met *)
(** C79. Cube roots exist for every kappa, and a circle coordinate w for every
    pole that is not swept by the tip. *)
Lemma C79_poles_exist_proof : (forall kappa : C, exists p1 p2 p3, cube_roots kappa p1 p2 p3) /\
  (forall a : C, (forall c, -1 <= c <= 1 -> a <> RtoC c) -> exists w, inner_image a w).
Proof.
  split.
  - intros kappa. destruct (kth_root 3 kappa ltac:(lia)) as [u Hu]. cbn [Cpown] in Hu.
    set (om := (- (1 / 2), sqrt 3 / 2) : C).
    assert (S3 : sqrt 3 * sqrt 3 = 3) by (apply sqrt_sqrt; lra).
    assert (O2 : (1 + om + om * om)%C = RtoC 0).
    { unfold om, RtoC, Cplus, Cmult. cbn [fst snd]. f_equal; nra. }
    exists u, (om * u)%C, (om * om * u)%C. intros y.
    transitivity (y * y * y - (u * (y * y) - u * u * y * om) * (1 + om + om * om) - u * (u * (u * 1)) * (1 + (om - 1) * (1 + om + om * om)))%C; [ring|].
    rewrite O2, Hu. ring.
  - intros a Ha. set (d := Csqrt (a * a - 1)%C). assert (Hd : (d * d)%C = (a * a - 1)%C) by apply Csqrt_sqr.
    assert (PR : ((- a + d) * (- a - d))%C = RtoC 1).
    { transitivity (a * a - d * d)%C; [ring|]. rewrite Hd. ring. }
    assert (N1 : (- a + d)%C <> RtoC 0) by (intros E; rewrite E in PR; apply (f_equal fst) in PR; cbn in PR; lra).
    assert (N2 : (- a - d)%C <> RtoC 0) by (intros E; rewrite E in PR; apply (f_equal fst) in PR; cbn in PR; lra).
    assert (I1 : (/ (- a + d))%C = (- a - d)%C) by (transitivity (/ (- a + d) * ((- a + d) * (- a - d)))%C; [rewrite PR; ring|field; exact N1]).
    assert (I2 : (/ (- a - d))%C = (- a + d)%C) by (transitivity (/ (- a - d) * ((- a + d) * (- a - d)))%C; [rewrite PR; ring|field; exact N2]).
    assert (M : Cmod (- a + d)%C * Cmod (- a - d)%C = 1) by (rewrite <- Cmod_mult, PR, Cmod_1; reflexivity).
    destruct (Rtotal_order (Cmod (- a + d)%C) 1) as [L|[E|G]].
    + exists (- a + d)%C. split; [exact N1|]. split; [exact L|]. rewrite I1. field. exact C2_neq_0.
    + exfalso. apply (Ha (- Re (- a + d)%C)).
      * pose proof (Cmod_sqr (- a + d)%C) as Q. rewrite E in Q. set (x := Re (- a + d)%C) in *. set (y := Im (- a + d)%C) in *.
        assert (x ^ 2 <= 1) by nra. nra.
      * assert (CJ : (- a - d)%C = Cconj (- a + d)%C).
        { rewrite <- I1. transitivity (/ (- a + d) * RtoC (Cmod (- a + d)%C ^ 2))%C; [rewrite E; rewrite pow1; ring|].
          rewrite Cmod_sqr. set (q := (- a + d)%C) in *. replace (RtoC (Re q ^ 2 + Im q ^ 2)) with (q * Cconj q)%C; [field; exact N1|].
          apply injective_projections; cbn; unfold Re, Im; ring. }
        transitivity (- ((- a + d) + (- a - d)) / 2)%C; [field; exact C2_neq_0|]. rewrite CJ. set (q := (- a + d)%C).
        replace (q + Cconj q)%C with (RtoC (2 * Re q)) by (apply injective_projections; cbn; unfold Re; ring).
        rewrite RtoC_mult, RtoC_opp. field. exact C2_neq_0.
    + exists (- a - d)%C. pose proof (Cmod_ge_0 (- a - d)%C). split; [exact N2|]. split; [nra|]. rewrite I2. field. exact C2_neq_0.
Qed.

(** ** default sampling *)
Lemma image_small a w : inner_image a w -> 12446 / 10000 <= Cmod a -> Cmod w <= 51 / 100 /\ Cmod w * Cmod a <= 64 / 100.
Proof.
  intros (W0 & W1 & E) Ha. assert (P : 0 < Cmod w) by now apply Cmod_gt_0.
  assert (B : 2 * Cmod a * Cmod w <= Cmod w ^ 2 + 1).
  { rewrite E, Cmod_opp, Cmod_div by exact C2_neq_0. rewrite Cmod_R, Rabs_pos_eq by lra.
    pose proof (Cmod_triangle w (/ w)%C) as T. rewrite Cmod_inv in T by exact W0.
    apply (Rmult_le_compat_r (Cmod w)) in T; [|lra]. replace ((Cmod w + / Cmod w) * Cmod w) with (Cmod w ^ 2 + 1) in T by (field; lra). lra. }
  assert (C1 : Cmod w <= 51 / 100). { apply Rnot_lt_le. intros L.
    assert (2 * (12446 / 10000) * Cmod w <= 2 * Cmod a * Cmod w) by (apply Rmult_le_compat_r; lra).
    assert (0 < (Cmod w - 51 / 100) * (1 - Cmod w)) by (apply Rmult_lt_0_compat; lra). nra. }
  split; [exact C1|]. nra.
Qed.
Lemma num_small : 2 * (51 / 100) ^ 28 / (1 - (51 / 100) ^ 32) <= 14 / 10 ^ 9.
Proof.
  assert (A : (51 / 100) ^ 28 <= 65 / 10 ^ 10) by (cbn [pow]; lra).
  assert (B : (51 / 100) ^ 32 <= 1 / 1000) by (cbn [pow]; lra).
  apply Rle_div_l; [lra|]. assert (0 <= (51 / 100) ^ 32) by (apply pow_le; lra). cbn [pow] in *. lra.
Qed.
Lemma cube_root_small kappa p1 p2 p3 M : cube_roots kappa p1 p2 p3 -> 0 <= M -> Cmod kappa <= M ^ 3 ->
  Cmod p1 <= M /\ Cmod p2 <= M /\ Cmod p3 <= M.
Proof.
  intros H HM HB.
  assert (K : forall p, (p * p * p)%C = kappa -> Cmod p <= M).
  { intros p E. apply (f_equal Cmod) in E. rewrite !Cmod_mult in E. pose proof (Cmod_ge_0 p). apply Rnot_lt_le. intros L.
    assert (M ^ 3 < Cmod p * Cmod p * Cmod p); [|lra].
    assert (M * M <= Cmod p * Cmod p) by nra. assert (0 < Cmod p * Cmod p) by nra.
    assert (M * M * M <= Cmod p * Cmod p * M) by (apply Rmult_le_compat_r; assumption).
    assert (Cmod p * Cmod p * M < Cmod p * Cmod p * Cmod p) by (apply Rmult_lt_compat_l; assumption). cbn [pow]. lra. }
  assert (Z : forall q : C, (q * q * q - kappa)%C = RtoC 0 -> (q * q * q)%C = kappa).
  { intros q E. now apply Csub_eq0. }
  repeat split; apply K, Z.
  - rewrite <- (H p1). ring.
  - rewrite <- (H p2). ring.
  - rewrite <- (H p3). ring.
Qed.
Lemma pole_far r z A p : 0 < r -> 0 <= z -> 0 < A -> Cmod p <= 633 / 1000 * r ->
  A + 367 / 1000 * r <= Cmod (RtoC (r + z + A) - p)%C /\ (forall c, -1 <= c <= 1 -> ((RtoC (r + z + A) - p) / RtoC A)%C <> RtoC c).
Proof.
  intros Hr Hz HA Hp.
  assert (B : A + 367 / 1000 * r <= Cmod (RtoC (r + z + A) - p)%C).
  { pose proof (Cmod_triangle (RtoC (r + z + A) - p)%C p) as T. replace (RtoC (r + z + A) - p + p)%C with (RtoC (r + z + A)) in T by ring.
    rewrite Cmod_R, Rabs_pos_eq in T by lra. lra. }
  split; [exact B|]. intros c Hc E.
  assert (YA : RtoC A <> RtoC 0) by (intros X; apply (f_equal fst) in X; cbn in X; lra).
  assert (X : (RtoC (r + z + A) - p)%C = (RtoC c * RtoC A)%C) by (rewrite <- E; field; exact YA).
  rewrite X, Cmod_mult, !Cmod_R, (Rabs_pos_eq A) in B by lra. assert (Rabs c <= 1) by (apply Rabs_le; lra). nra.
Qed.
Lemma default_term r z A p w m : 0 < r -> 0 <= z -> 0 < A <= 3 / 2 * r -> Cmod p <= 633 / 1000 * r ->
  inner_image ((RtoC (r + z + A) - p) / RtoC A)%C w -> (m <= 4)%nat ->
  Cmod (p / RtoC (3 * A))%C * Cmod (2 * w / (1 - w * w))%C * (2 * Cmod w ^ (32 - m) / (1 - Cmod w ^ 32)) <= 3 / 10 ^ 8.
Proof.
  intros Hr Hz HA Hp I Hm. destruct (pole_far r z A p Hr Hz (proj1 HA) Hp) as [B _].
  assert (YA : RtoC A <> RtoC 0) by (intros X; apply (f_equal fst) in X; cbn in X; lra).
  assert (Y3 : RtoC (3 * A) <> RtoC 0) by (intros X; apply (f_equal fst) in X; cbn in X; lra).
  assert (CA : Cmod ((RtoC (r + z + A) - p) / RtoC A)%C = Cmod (RtoC (r + z + A) - p)%C / A) by (rewrite Cmod_div, Cmod_R, Rabs_pos_eq by (auto; lra); reflexivity).
  assert (LA : 12446 / 10000 <= Cmod ((RtoC (r + z + A) - p) / RtoC A)%C).
  { rewrite CA. apply Rmult_le_reg_r with A; [lra|]. unfold Rdiv at 2. rewrite Rmult_assoc, Rinv_l, Rmult_1_r by lra. lra. }
  destruct (image_small _ w I LA) as [S1 S2]. rewrite CA in S2. pose proof I as (W0 & W1 & _). pose proof (Cmod_ge_0 w) as WP.
  assert (NZ : (1 - w * w)%C <> RtoC 0) by now apply one_minus_sq.
  assert (D : 739 / 1000 <= Cmod (1 - w * w)%C).
  { destruct (Cmod_1_minus (w * w)%C (261 / 1000)) as [_ X]; [rewrite Cmod_mult; nra|lra|lra]. }
  assert (X1 : Cmod (p / RtoC (3 * A))%C * Cmod (2 * w / (1 - w * w))%C <= 1).
  { rewrite !Cmod_div by assumption. rewrite Cmod_mult, !Cmod_R, !Rabs_pos_eq by lra.
    assert (Q : Cmod w / A <= 64 / 100 / (367 / 1000 * r)).
    { apply Rmult_le_reg_r with (367 / 1000 * r); [lra|]. replace (64 / 100 / (367 / 1000 * r) * (367 / 1000 * r)) with (64 / 100) by (field; lra).
      assert (Cmod w * ((A + 367 / 1000 * r) / A) <= 64 / 100).
      { eapply Rle_trans; [|exact S2]. apply Rmult_le_compat_l; [exact WP|]. unfold Rdiv. apply Rmult_le_compat_r; [apply Rlt_le, Rinv_0_lt_compat; lra|exact B]. }
      assert (0 <= Cmod w / A) by (apply Rmult_le_pos; [exact WP|apply Rlt_le, Rinv_0_lt_compat; lra]).
      replace (Cmod w * ((A + 367 / 1000 * r) / A)) with (Cmod w + Cmod w / A * (367 / 1000 * r)) in H by (field; lra). lra. }
    assert (Q0 : 0 <= Cmod w / A) by (apply Rmult_le_pos; [exact WP|apply Rlt_le, Rinv_0_lt_compat; lra]).
    replace (Cmod p / (3 * A) * (2 * Cmod w / Cmod (1 - w * w)%C)) with (2 / 3 * Cmod p * (Cmod w / A) * / Cmod (1 - w * w)%C) by (field; split; lra).
    assert (I1 : / Cmod (1 - w * w)%C <= / (739 / 1000)) by (apply Rinv_le_contravar; lra).
    assert (I0 : 0 < / Cmod (1 - w * w)%C) by (apply Rinv_0_lt_compat; lra).
    assert (P1 : Cmod p * (Cmod w / A) <= 1105 / 1000).
    { apply Rle_trans with (633 / 1000 * r * (64 / 100 / (367 / 1000 * r))); [apply Rmult_le_compat; auto using Cmod_ge_0|].
      replace (633 / 1000 * r * (64 / 100 / (367 / 1000 * r))) with (633 / 1000 * 64 / 100 / (367 / 1000)) by (field; lra). lra. }
    assert (0 <= Cmod p * (Cmod w / A)) by (apply Rmult_le_pos; auto using Cmod_ge_0).
    apply Rle_trans with (2 / 3 * (1105 / 1000) * / (739 / 1000)); [|lra].
    apply Rmult_le_compat; [lra|lra|lra|exact I1]. }
  assert (X0 : 0 <= Cmod (p / RtoC (3 * A))%C * Cmod (2 * w / (1 - w * w))%C) by (apply Rmult_le_pos; apply Cmod_ge_0).
  assert (E1 : Cmod w ^ (32 - m) <= (51 / 100) ^ 28).
  { replace (32 - m)%nat with (28 + (4 - m))%nat by lia. rewrite pow_add. rewrite <- (Rmult_1_r ((51 / 100) ^ 28)).
    apply Rmult_le_compat; [now apply pow_le|now apply pow_le|apply pow_incr; lra|]. rewrite <- (pow1 (4 - m)). apply pow_incr. lra. }
  assert (E2 : Cmod w ^ 32 <= (51 / 100) ^ 32) by (apply pow_incr; lra).
  assert (E3 : (51 / 100) ^ 32 <= 1 / 1000) by (cbn [pow]; lra).
  assert (X2 : 2 * Cmod w ^ (32 - m) / (1 - Cmod w ^ 32) <= 14 / 10 ^ 9).
  { eapply Rle_trans; [|exact num_small]. unfold Rdiv. apply Rmult_le_compat.
    - apply Rmult_le_pos; [lra|now apply pow_le].
    - apply Rlt_le, Rinv_0_lt_compat. lra.
    - lra.
    - apply Rinv_le_contravar; lra. }
  assert (X3 : 0 <= 2 * Cmod w ^ (32 - m) / (1 - Cmod w ^ 32)).
  { apply Rmult_le_pos; [apply Rmult_le_pos; [lra|now apply pow_le]|apply Rlt_le, Rinv_0_lt_compat; lra]. }
  apply Rle_trans with (1 * (14 / 10 ^ 9)); [apply Rmult_le_compat; assumption|lra].
Qed.

(** C79. With a conducting tip and the default 32 samples, harmonics |n| <= 4 of
    pdm.eff_pol_n are within 10^-7 alpha_tip of the documented integrals for every
    sample with |beta| <= 1.01, every height and amplitudes up to 1.5 tip radii. *)
Lemma C79_pdm_default_proof : forall (s : sample) (beta : C) (A_tip z : R) (n : Z) (r_tip : option R),
  let r := given_or (20 / 10 ^ 9) r_tip in let alpha := RtoC (4 * PI * r ^ 3) in
  refl_coef_qs s (rr 0) = Ok (Some beta) -> Cmod beta <= 101 / 100 -> (Z.abs n <= 4)%Z ->
  0 < r -> 0 <= z -> 0 < A_tip <= 3 / 2 * r ->
  exists v : C, pdm_eff_pol_n defaults0 s A_tip n (Some z) None r_tip None None = Ok (Some v) /\
    Cmod (v - fourier_coefficient (fun x => alpha / (1 - alpha / RtoC (16 * PI * (r + x) ^ 3) * beta))%C (z + A_tip) A_tip n)%C
    <= / 10 ^ 7 * (4 * PI * r ^ 3).
Proof.
  intros s beta A z n r_tip r alpha Hb Hm Hn Hr Hz HA. pose proof PI_RGT_0 as PP.
  set (kappa := (alpha * beta / RtoC (16 * PI))%C).
  assert (R3 : 0 < r ^ 3) by now apply pow_lt.
  assert (MK : Cmod kappa <= (633 / 1000 * r) ^ 3).
  { unfold kappa, alpha. rewrite Cmod_div by (intros X; apply (f_equal fst) in X; cbn in X; lra).
    rewrite Cmod_mult, !Cmod_R, !Rabs_pos_eq by nra. apply Rle_div_l; [lra|]. rewrite Rpow_mult_distr. pose proof (Cmod_ge_0 beta).
    assert (4 * PI * r ^ 3 * Cmod beta <= 4 * PI * r ^ 3 * (101 / 100)) by (apply Rmult_le_compat_l; nra).
    assert (0 < PI * r ^ 3) by nra. lra. }
  destruct (proj1 C79_poles_exist_proof kappa) as (p1 & p2 & p3 & HC).
  destruct (cube_root_small kappa p1 p2 p3 (633 / 1000 * r) HC ltac:(lra) MK) as (B1 & B2 & B3).
  destruct (proj2 C79_poles_exist_proof _ (proj2 (pole_far r z A p1 Hr Hz (proj1 HA) B1))) as [w1 I1].
  destruct (proj2 C79_poles_exist_proof _ (proj2 (pole_far r z A p2 Hr Hz (proj1 HA) B2))) as [w2 I2].
  destruct (proj2 C79_poles_exist_proof _ (proj2 (pole_far r z A p3 Hr Hz (proj1 HA) B3))) as [w3 I3].
  destruct (C79_pdm_error_proof defaults0 s A n (Some z) None r_tip None None alpha beta p1 p2 p3 w1 w2 w3) as (v & Ev & Bv); cbn [given_or defaults0 d_n_trapz d_r_tip]; fold r; auto.
  - constructor.
  - change (Z.abs_nat n < 32)%nat. lia.
  - lra.
  - intros x Hx. rewrite Rabs_pos_eq in Hx by lra. lra.
  - exists v. split; [exact Ev|]. cbn [given_or defaults0 d_n_trapz d_r_tip d_z_tip] in Bv. fold r in Bv. eapply Rle_trans; [exact Bv|].
    unfold alpha. rewrite Cmod_R, Rabs_pos_eq by nra. rewrite (Rmult_comm (/ 10 ^ 7)). apply Rmult_le_compat_l; [nra|].
    pose proof (default_term r z A p1 w1 (Z.abs_nat n) Hr Hz HA B1 I1 ltac:(lia)).
    pose proof (default_term r z A p2 w2 (Z.abs_nat n) Hr Hz HA B2 I2 ltac:(lia)).
    pose proof (default_term r z A p3 w3 (Z.abs_nat n) Hr Hz HA B3 I3 ltac:(lia)). lra.
Qed.

(** C79. Example: the poles and circle coordinates of a concrete tip, and a default
    call (silicon-like permittivity 12 + i, 30 nm amplitude, tip in contact). *)
Lemma C79_example_proof : cube_roots (RtoC 8) (RtoC 2) (- (1), sqrt 3)%R (- (1), - sqrt 3)%R /\
  inner_image (RtoC (- (5 / 4))) (RtoC (1 / 2)) /\
  exists v : C, pdm_eff_pol_n defaults0 (stack [RtoC 1; (12, 1)] [] None) (30 / 10 ^ 9) 2 (Some 0) None None None None = Ok (Some v) /\
    let r := 20 / 10 ^ 9 in let alpha := RtoC (4 * PI * r ^ 3) in let beta := (((12, 1)%R - RtoC 1) / ((12, 1)%R + RtoC 1))%C in
    Cmod (v - fourier_coefficient (fun x => alpha / (1 - alpha / RtoC (16 * PI * (r + x) ^ 3) * beta))%C (0 + 30 / 10 ^ 9) (30 / 10 ^ 9) 2)%C
    <= / 10 ^ 7 * (4 * PI * r ^ 3).
Proof.
  split; [|split].
  - intros y. assert (S3 : sqrt 3 * sqrt 3 = 3) by (apply sqrt_sqrt; lra).
    transitivity ((y - RtoC 2) * (y * y + 2 * y + 4))%C.
    + assert (E : ((y - (- (1), sqrt 3)%R) * (y - (- (1), - sqrt 3)%R))%C = (y * y + 2 * y + 4)%C).
      { apply injective_projections; cbn; nra. }
      rewrite <- E. ring.
    + apply injective_projections; cbn; ring.
  - split; [intros X; apply (f_equal fst) in X; cbn in X; lra|]. split; [rewrite Cmod_R, Rabs_pos_eq; lra|].
    rewrite <- RtoC_inv by lra. rewrite <- RtoC_plus, <- RtoC_div by lra. rewrite <- RtoC_opp. f_equal. field.
  - assert (N1 : ((12, 1)%R + RtoC 1)%C <> RtoC 0) by (intros X; apply (f_equal fst) in X; cbn in X; lra).
    destruct (C79_pdm_default_proof (stack [RtoC 1; (12, 1)] [] None) (((12, 1)%R - RtoC 1) / ((12, 1)%R + RtoC 1))%C (30 / 10 ^ 9) 0 2 None) as (v & Ev & Bv).
    + apply bulk_qs; [intros X; apply (f_equal fst) in X; cbn in X; lra|]. rewrite Cplus_comm. exact N1.
    + rewrite Cmod_div by exact N1. pose proof (Cmod_gt_0 ((12, 1)%R + RtoC 1)%C) as [G _]. specialize (G N1).
      apply Rle_div_l; [exact G|]. apply Rle_trans with (1 * Cmod ((12, 1)%R + RtoC 1)%C); [rewrite Rmult_1_l|apply Rmult_le_compat_r; lra].
      apply Rsqr_incr_0_var; [|apply Cmod_ge_0]. unfold Rsqr.
      replace (Cmod ((12, 1)%R - RtoC 1)%C * Cmod ((12, 1)%R - RtoC 1)%C) with (Cmod ((12, 1)%R - RtoC 1)%C ^ 2) by ring.
      replace (Cmod ((12, 1)%R + RtoC 1)%C * Cmod ((12, 1)%R + RtoC 1)%C) with (Cmod ((12, 1)%R + RtoC 1)%C ^ 2) by ring.
      rewrite !Cmod_sqr. cbn. lra.
    + lia.
    + cbn. lra.
    + lra.
    + cbn. lra.
    + exists v. split; [exact Ev|]. exact Bv.
Qed.
