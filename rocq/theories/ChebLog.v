(** * Chebyshev expansion of ln (1 + 2 w t + w^2) on [-1,1] *)
From Coq Require Import Reals Lra Lia Arith.
From Coquelicot Require Import Coquelicot.
From Verif Require Import Num NumLemmas Spec ProofsDemod ProofsTaylor PolyBall.
Open Scope R_scope.

Fixpoint cheb (m : nat) (t : R) : R :=
  match m with
  | O => 1
  | S m' => match m' with O => t | S m'' => 2 * t * cheb m' t - cheb m'' t end
  end.
Lemma cheb_SS m t : cheb (S (S m)) t = 2 * t * cheb (S m) t - cheb m t.
Proof. reflexivity. Qed.
Lemma cheb_cos m u : cheb m (cos u) = cos (INR m * u).
Proof.
  assert (H : cheb m (cos u) = cos (INR m * u) /\ cheb (S m) (cos u) = cos (INR (S m) * u)).
  { induction m as [|m [IH1 IH2]].
    - split; [cbn; now rewrite Rmult_0_l, cos_0|cbn; now rewrite Rmult_1_l].
    - split; [exact IH2|]. rewrite cheb_SS, IH1, IH2, !S_INR.
      replace ((INR m + 1) * u) with (INR m * u + u) by ring. replace ((INR m + 1 + 1) * u) with (INR m * u + u + u) by ring.
      rewrite (cos_plus (INR m * u + u) u). replace (cos (INR m * u)) with (cos (INR m * u + u - u)) by (f_equal; ring).
      rewrite cos_minus. ring. }
  apply H.
Qed.
Lemma cheb_bound m t : -1 <= t <= 1 -> Rabs (cheb m t) <= 1.
Proof. intros H. rewrite <- (cos_acos t H), cheb_cos. pose proof (COS_bound (INR m * acos t)). apply Rabs_le. lra. Qed.
Lemma cheb_1 m : cheb m 1 = 1.
Proof. rewrite <- cos_0 at 1. rewrite cheb_cos, Rmult_0_r. apply cos_0. Qed.
Lemma cheb_pdeg m : pdeg m (fun t => RtoC (cheb m t)).
Proof.
  assert (H : pdeg m (fun t => RtoC (cheb m t)) /\ pdeg (S m) (fun t => RtoC (cheb (S m) t))).
  { induction m as [|m [IH1 IH2]].
    - split; [apply (pd_const (RtoC 1)); reflexivity|]. apply (pd_step 0 (RtoC 0) (fun _ => RtoC 1)); [apply (pd_const (RtoC 1)); reflexivity|].
      intros t. cbn. ring.
    - split; [exact IH2|]. apply (pdeg_ext _ (fun t => RtoC 2 * (RtoC t * RtoC (cheb (S m) t)) + (- RtoC 1) * RtoC (cheb m t))%C).
      + intros t. rewrite cheb_SS. rewrite RtoC_minus, !RtoC_mult. ring.
      + apply pdeg_add; [apply pdeg_scal; now apply pdeg_shift|]. apply pdeg_scal. now do 2 apply pdeg_up. }
  apply H.
Qed.

(** sum_{m=1}^M q^m T_m(t) / m and its derivative in q *)
Fixpoint lsum (q : R) (M : nat) (t : R) : R :=
  match M with O => 0 | S M => lsum q M t + q ^ S M * cheb (S M) t / INR (S M) end.
Fixpoint dsum (q : R) (M : nat) (t : R) : R :=
  match M with O => 0 | S M => dsum q M t + q ^ M * cheb (S M) t end.
Lemma lsum_derive q M t : is_derive (fun q => lsum q M t) q (dsum q M t).
Proof.
  induction M as [|M IH]; cbn [lsum dsum]; [apply @is_derive_const|].
  apply (is_derive_plus (fun q => lsum q M t) (fun q => q ^ S M * cheb (S M) t / INR (S M)) q _ _ IH).
  assert (N : INR (S M) <> 0) by now apply not_0_INR.
  set (n := INR (S M)) in *. set (k := cheb (S M) t). auto_derive; [trivial|]. cbn [pred]. change (match M with O => 1 | S _ => INR M + 1 end) with n. field. exact N.
Qed.
Lemma dsum_closed q M t : (1 - 2 * q * t + q ^ 2) * dsum q M t = t - q - q ^ M * cheb (S M) t + q ^ S M * cheb M t.
Proof.
  induction M as [|M IH]; [cbn; ring|]. cbn [dsum]. rewrite Rmult_plus_distr_l, IH, cheb_SS. cbn [pow]. ring.
Qed.
Lemma quad_pos q t : -1 <= t <= 1 -> (1 - Rabs q) ^ 2 <= 1 - 2 * q * t + q ^ 2.
Proof.
  intros Ht. assert (q * t <= Rabs q).
  { eapply Rle_trans; [apply RRle_abs|]. rewrite Rabs_mult. rewrite <- (Rmult_1_r (Rabs q)) at 2. apply Rmult_le_compat_l; [apply Rabs_pos|apply Rabs_le; lra]. }
  assert (Rabs q ^ 2 = q ^ 2) by (apply pow2_abs). nra.
Qed.
Lemma log_derive q t : 0 < 1 - 2 * q * t + q ^ 2 ->
  is_derive (fun q => - (1 / 2) * ln (1 - 2 * q * t + q ^ 2)) q ((t - q) / (1 - 2 * q * t + q ^ 2)).
Proof. intros H. auto_derive; [cbn; lra|]. field. lra. Qed.
Lemma log_remainder q M t : -1 <= t <= 1 -> Rabs q < 1 ->
  Rabs (- (1 / 2) * ln (1 - 2 * q * t + q ^ 2) - lsum q M t) <= 2 * Rabs q ^ M / (1 - Rabs q) ^ 2.
Proof.
  intros Ht Hq.
  set (f := fun q => - (1 / 2) * ln (1 - 2 * q * t + q ^ 2) - lsum q M t).
  set (df := fun q => (t - q) / (1 - 2 * q * t + q ^ 2) - dsum q M t).
  assert (IN : forall c, Rmin 0 q <= c <= Rmax 0 q -> Rabs c <= Rabs q).
  { intros c Hc. unfold Rmin, Rmax in Hc. destruct (Rle_dec 0 q); unfold Rabs; destruct (Rcase_abs c), (Rcase_abs q); lra. }
  assert (PO : forall c, Rabs c <= Rabs q -> 0 < 1 - 2 * c * t + c ^ 2).
  { intros c Hc. pose proof (quad_pos c t Ht). assert (0 < (1 - Rabs c) ^ 2) by (apply pow_lt; lra). lra. }
  assert (DF : forall c, Rmin 0 q <= c <= Rmax 0 q -> is_derive f c (df c)).
  { intros c Hc. unfold f, df. apply (is_derive_minus (fun q => - (1 / 2) * ln (1 - 2 * q * t + q ^ 2)) (fun q => lsum q M t) c).
    - apply log_derive, PO, IN, Hc.
    - apply lsum_derive. }
  destruct (MVT_gen f 0 q df) as (c & Hc & E).
  - intros c Hc. apply DF. lra.
  - intros c Hc. apply continuity_pt_filterlim. apply (ex_derive_continuous f c). exists (df c). now apply DF.
  - assert (F0 : f 0 = 0).
    { unfold f. replace (1 - 2 * 0 * t + 0 ^ 2) with 1 by ring. rewrite ln_1.
      replace (lsum 0 M t) with 0; [ring|]. clear. induction M as [|M IH]; cbn [lsum]; [reflexivity|]. rewrite <- IH. cbn [pow]. unfold Rdiv. ring. }
    rewrite F0 in E. fold (f q). replace (f q) with (df c * q) by lra. rewrite Rabs_mult. specialize (IN c Hc). specialize (PO c IN).
    assert (ED : df c = (c ^ M * cheb (S M) t - c ^ S M * cheb M t) / (1 - 2 * c * t + c ^ 2)).
    { unfold df. apply Rmult_eq_reg_r with (1 - 2 * c * t + c ^ 2); [|lra]. rewrite Rmult_minus_distr_r.
      replace (dsum c M t * (1 - 2 * c * t + c ^ 2)) with (t - c - c ^ M * cheb (S M) t + c ^ S M * cheb M t) by (rewrite <- dsum_closed; ring). field. lra. }
    rewrite ED. unfold Rdiv. rewrite Rabs_mult, Rabs_inv, (Rabs_pos_eq (1 - 2 * c * t + c ^ 2)) by lra.
    assert (PQ : 0 < (1 - Rabs q) ^ 2) by (apply pow_lt; lra).
    assert (I1 : / (1 - 2 * c * t + c ^ 2) <= / (1 - Rabs q) ^ 2).
    { apply Rinv_le_contravar; [exact PQ|]. eapply Rle_trans; [|apply quad_pos, Ht]. apply pow_incr. lra. }
    assert (CP : Rabs (c ^ M) <= Rabs q ^ M) by (rewrite <- RPow_abs; apply pow_incr; split; [apply Rabs_pos|exact IN]).
    assert (CM : Rabs (c ^ M * cheb (S M) t - c ^ S M * cheb M t) <= 2 * Rabs q ^ M).
    { eapply Rle_trans; [apply Rabs_triang|]. rewrite Rabs_Ropp, !Rabs_mult.
      pose proof (cheb_bound (S M) t Ht) as B1. pose proof (cheb_bound M t Ht) as B2.
      pose proof (Rabs_pos (cheb (S M) t)). pose proof (Rabs_pos (cheb M t)). pose proof (Rabs_pos (c ^ M)).
      cbn [pow]. rewrite Rabs_mult. pose proof (Rabs_pos c).
      assert (Rabs (c ^ M) * Rabs (cheb (S M) t) <= Rabs q ^ M * 1) by (apply Rmult_le_compat; assumption).
      assert (Rabs c * Rabs (c ^ M) <= 1 * Rabs q ^ M) by (apply Rmult_le_compat; lra).
      assert (Rabs c * Rabs (c ^ M) * Rabs (cheb M t) <= Rabs q ^ M * 1) by (apply Rmult_le_compat; [nra|assumption|lra|assumption]). lra. }
    assert (0 < / (1 - 2 * c * t + c ^ 2)) by (apply Rinv_0_lt_compat; lra).
    apply Rle_trans with (2 * Rabs q ^ M * / (1 - Rabs q) ^ 2 * 1); [|right; ring].
    apply Rmult_le_compat; [apply Rmult_le_pos; [apply Rabs_pos|lra]|apply Rabs_pos| |lra].
    apply Rmult_le_compat; [apply Rabs_pos|lra|exact CM|exact I1].
Qed.
Lemma lsum_ln x M : 0 <= x < 1 -> lsum x M 1 <= - ln (1 - x).
Proof.
  intros Hx. set (f := fun x => - ln (1 - x) - lsum x M 1). set (df := fun x => / (1 - x) - dsum x M 1).
  assert (DF : forall c, 0 <= c <= x -> is_derive f c (df c)).
  { intros c Hc. unfold f, df. apply (is_derive_minus (fun x => - ln (1 - x)) (fun x => lsum x M 1) c); [|apply lsum_derive].
    auto_derive; [lra|]. field. lra. }
  destruct (MVT_gen f 0 x df) as (c & Hc & E).
  - intros c Hc. rewrite Rmin_left, Rmax_right in Hc by lra. apply DF. lra.
  - intros c Hc. rewrite Rmin_left, Rmax_right in Hc by lra. apply continuity_pt_filterlim. apply (ex_derive_continuous f c). exists (df c). now apply DF.
  - rewrite Rmin_left, Rmax_right in Hc by lra.
    assert (F0 : f 0 = 0).
    { unfold f. rewrite Rminus_0_r, ln_1. replace (lsum 0 M 1) with 0; [ring|]. clear. induction M as [|M IH]; cbn [lsum]; [reflexivity|]. rewrite <- IH. cbn [pow]. unfold Rdiv. ring. }
    assert (G : (1 - c) * dsum c M 1 = 1 - c ^ M).
    { clear. induction M as [|M IH]; cbn [dsum]; [cbn; ring|]. rewrite Rmult_plus_distr_l, IH, cheb_1. cbn [pow]. ring. }
    assert (D0 : 0 <= df c).
    { unfold df. replace (dsum c M 1) with ((1 - c ^ M) * / (1 - c)) by (rewrite <- G; field; lra).
      pose proof (pow_le c M (proj1 Hc)). assert (0 < / (1 - c)) by (apply Rinv_0_lt_compat; lra). nra. }
    assert (0 <= f x) by nra. unfold f in H. lra.
Qed.

(** the expansion, with the bound of its coefficients *)
Lemma geo_log s w : 1 < s -> 0 <= w -> w * s < 1 ->
  geo s (- 2 * ln (1 - w * s)) (fun t => RtoC (ln (1 + 2 * w * t + w ^ 2))).
Proof.
  intros Hs Hw Hws. assert (W1 : w < 1) by nra.
  assert (PB : forall M, pball s (2 * lsum (w * s) M 1) (fun t => RtoC (-2 * lsum (- w) M t))).
  { induction M as [|M IH].
    - eapply pb_ext; [apply (pball_const s (RtoC 0))|cbn; rewrite Cmod_0; lra|intros t; cbn; f_equal; ring].
    - assert (N : 0 < INR (S M)) by (apply lt_0_INR; lia).
      set (c := RtoC (-2 * (- w) ^ S M / INR (S M))).
      assert (PC : 0 <= 2 * w ^ S M / INR (S M)) by (apply Rmult_le_pos; [apply Rmult_le_pos; [lra|now apply pow_le]|apply Rlt_le, Rinv_0_lt_compat, N]).
      assert (BC : bounded (2 * w ^ S M / INR (S M)) (fun t => c * RtoC (cheb (S M) t))%C).
      { intros t Ht. unfold c. rewrite Cmod_mult, !Cmod_R. rewrite <- (Rmult_1_r (2 * w ^ S M / INR (S M))).
        apply Rmult_le_compat; [apply Rabs_pos|apply Rabs_pos| |now apply cheb_bound].
        unfold Rdiv. rewrite !Rabs_mult, Rabs_inv, <- RPow_abs, Rabs_Ropp, (Rabs_pos_eq w), (Rabs_pos_eq (INR (S M))), (Rabs_left (-2)) by lra. lra. }
      eapply pb_ext; [apply (pb_add s _ _ _ _ IH (pb_atom s (S M) (2 * w ^ S M / INR (S M)) (fun t => c * RtoC (cheb (S M) t))%C (pdeg_scal _ c _ (cheb_pdeg _)) BC PC))| |].
      + right. cbn [lsum]. rewrite cheb_1, Rpow_mult_distr. field. lra.
      + intros t. unfold c. cbn [lsum]. rewrite <- RtoC_mult, <- RtoC_plus. f_equal. field. lra. }
  intros eps He.
  destruct (pow_lt_1_zero w ltac:(rewrite Rabs_pos_eq; lra) (eps * (1 - w) ^ 2 / 4)) as [M HM].
  { apply Rdiv_lt_0_compat; [|lra]. apply Rmult_lt_0_compat; [exact He|apply pow_lt; lra]. }
  exists (fun t => RtoC (-2 * lsum (- w) M t)). split.
  - eapply pb_ext; [apply PB| |reflexivity]. pose proof (lsum_ln (w * s) M ltac:(split; nra)). lra.
  - intros t Ht. rewrite <- RtoC_minus, Cmod_R. specialize (HM M (le_n M)). rewrite Rabs_pos_eq in HM by now apply pow_le.
    pose proof (log_remainder (- w) M t Ht) as L. rewrite Rabs_Ropp, (Rabs_pos_eq w) in L by lra. specialize (L W1).
    replace (1 - 2 * - w * t + (- w) ^ 2) with (1 + 2 * w * t + w ^ 2) in L by ring.
    set (v := ln (1 + 2 * w * t + w ^ 2)) in *. set (u := lsum (- w) M t) in *.
    replace (v - -2 * u) with (-2 * (- (1 / 2) * v - u)) by field. rewrite Rabs_mult, (Rabs_left (-2)) by lra.
    assert (P2 : 0 < (1 - w) ^ 2) by (apply pow_lt; lra).
    assert (2 * w ^ M / (1 - w) ^ 2 <= eps / 2); [|lra].
    apply Rmult_le_reg_r with ((1 - w) ^ 2); [exact P2|]. unfold Rdiv at 1. rewrite Rmult_assoc, Rinv_l, Rmult_1_r by lra. lra.
Qed.
