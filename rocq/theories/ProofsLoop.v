(** * Proofs: the effective polarizability solves the loop equations of the user
    guide; successive reflections; finite length of the dipoles *)
From Coq Require Import String Reals Lra Lia ZArith List Bool.
From Coquelicot Require Import Rcomplements Complex.
From Verif Require Import Num NumLemmas LimLemmas ModelBase ModelSample ModelTip StackLemmas Spec SpecTip
  ProofsStackQS ProofsStackQS2 ProofsBulkFF ProofsSym ProofsPassive DemodLemmas ProofsDemod ProofsTip ProofsTip2 ProofsTip3
  ProofsTaylor ProofsAbsorb SpecQuad ProofsNlag ProofsEx ProofsContrast ProofsContrast2.
Import ListNotations.
Open Scope R_scope.

Lemma image_field beta p h : h <> 0 -> on_axis_field (beta * p)%C (2 * h) = (beta * p / RtoC (16 * PI * h ^ 3))%C.
Proof. intros H. unfold on_axis_field. f_equal. f_equal. ring. Qed.

(** C70. pdm.eff_pol is the response p/E of the point dipole in equilibrium with
    its own image: if it is finite, the loop equation has exactly the solution
    p = a E; if it is not, a driven dipole has no equilibrium. *)
Lemma C70_pdm_self_consistent_proof :
  forall (D : Defaults) (s : sample) (z_tip r_tip : option R) (eps_tip alpha_tip : option C) (alpha beta : C),
  let z := given_or (d_z_tip D) z_tip in let r := given_or (d_r_tip D) r_tip in
  tip_alpha r eps_tip alpha_tip alpha -> alpha <> RtoC 0 -> r + z <> 0 -> refl_coef_qs s (rr 0) = Ok (Some beta) ->
  (forall a, pdm_eff_pol D s z_tip r_tip eps_tip alpha_tip = Ok (Some a) ->
     forall E p, dipole_balance alpha beta (r + z) E p <-> p = (a * E)%C) /\
  (pdm_eff_pol D s z_tip r_tip eps_tip alpha_tip = Ok None ->
     forall E p, E <> RtoC 0 -> ~ dipole_balance alpha beta (r + z) E p).
Proof.
  intros D s z_tip r_tip eps_tip alt alpha beta z r Ht Ha Hz Hb.
  assert (NP := pdm_den_neq_0 z r Hz). set (G := RtoC (16 * PI * (r + z) ^ 3)) in *.
  assert (EV : pdm_eff_pol D s z_tip r_tip eps_tip alt = Ok (Some alpha / Some (1 - alpha / G * beta)%C)%cv).
  { unfold pdm_eff_pol. rewrite (pdm_defaults_alpha _ _ _ _ _ Ht), Hb. cbn [rbind fst snd]. fold r. rewrite dflt_given. fold z.
    rewrite pdm_geom_ok by exact Hz. reflexivity. }
  assert (EQ : forall E p, dipole_balance alpha beta (r + z) E p <-> (p * (1 - alpha / G * beta))%C = (alpha * E)%C).
  { intros E p. unfold dipole_balance. rewrite image_field by exact Hz. fold G. split; intros H.
    - transitivity (p - alpha * beta * p / G)%C; [field; exact NP|]. rewrite H at 1. field. exact NP.
    - replace p with (p * (1 - alpha / G * beta) + alpha * (beta * p / G))%C at 1 by (field; exact NP). rewrite H. ring. }
  rewrite EV. split.
  - intros a Ea. assert (Ea' : (Some alpha / Some (1 - alpha / G * beta)%C)%cv = Some a) by congruence.
    apply cdiv_Some in Ea'. destruct Ea' as (u & w & Eu & Ew & Nw & ->). injection Eu as <-. injection Ew as <-.
    intros E p. rewrite EQ. revert Nw. generalize (1 - alpha / G * beta)%C. intros w Nw. split; intros H.
    + replace p with (p * w / w)%C by (field; exact Nw). rewrite H. field. exact Nw.
    + rewrite H. field. exact Nw.
  - intros En E p NE H. apply EQ in H.
    destruct (Ceq_dec (1 - alpha / G * beta)%C (RtoC 0)) as [K|K].
    + rewrite K in H. assert (alpha * E = 0)%C by (rewrite <- H; ring). apply (Cmult_neq_0 alpha E Ha NE). assumption.
    + rewrite cdiv_ok in En by exact K. discriminate.
Qed.

(** ** Successive reflections *)
Fixpoint gsum (w : C) (k : nat) : C := match k with O => RtoC 1 | S k' => (1 + w * gsum w k')%C end.
Lemma gsum_Csum w k : gsum w k = Csum (map (fun j => Cpown w j) (seq 0 (S k))).
Proof.
  induction k as [|k IH]; [cbn [gsum seq map Csum fold_right Cpown]; ring|].
  cbn [gsum]. rewrite IH. change (seq 0 (S (S k))) with (0%nat :: seq 1 (S k)). rewrite <- seq_shift, map_cons, map_map.
  cbn [Csum fold_right Cpown]. f_equal. symmetry. erewrite map_ext; [|intros j; reflexivity].
  clear IH. induction (seq 0 (S k)) as [|j l IH]; cbn [map fold_right Csum]; [unfold Csum; cbn; ring|].
  unfold Csum in *. cbn [map fold_right]. cbn [Cpown] in IH |- *. rewrite IH. ring.
Qed.
Lemma gsum_closed w k : (1 - w <> 0)%C -> gsum w k = ((1 - Cpown w (S k)) / (1 - w))%C.
Proof.
  intros H. induction k as [|k IH].
  - cbn [gsum Cpown]. field. exact H.
  - cbn [gsum]. rewrite IH. change (Cpown w (S (S k))) with (w * Cpown w (S k))%C. field. exact H.
Qed.
Lemma gsum_conv w : Cmod w < 1 -> forall eps, 0 < eps -> exists K, forall k, (K <= k)%nat -> Cmod (gsum w k - 1 / (1 - w))%C < eps.
Proof.
  intros Hw eps He. destruct (Cmod_1_minus w (Cmod w) (Rle_refl _) Hw) as [N1 M1].
  assert (P : 0 < 1 - Cmod w) by lra. pose proof (Cmod_ge_0 w).
  destruct (geometric_to_0 (/ (1 - Cmod w)) (Cmod w)) with (eps := eps) as [K HK]; [left; now apply Rinv_0_lt_compat|lra|exact He|].
  exists K. intros k Hk. rewrite gsum_closed by exact N1.
  replace ((1 - Cpown w (S k)) / (1 - w) - 1 / (1 - w))%C with (- (Cpown w (S k) / (1 - w)))%C by (field; exact N1).
  rewrite Cmod_opp, Cmod_div by exact N1. rewrite Cmod_pown.
  eapply Rle_lt_trans; [|apply (HK (S k)); lia]. unfold Rdiv. rewrite Rmult_comm. apply Rmult_le_compat_r; [now apply pow_le|].
  apply Rinv_le_contravar; lra.
Qed.
Lemma gsum_div w : 1 < Cmod w -> forall B, exists K, forall k, (K <= k)%nat -> B < Cmod (gsum w k).
Proof.
  intros Hw B. assert (N1 : (1 - w <> 0)%C). { intros E. assert (w = 1)%C by (rewrite <- (Cplus_0_r w), <- E; ring). rewrite H, Cmod_1 in Hw. lra. }
  assert (P : 0 < Cmod (1 - w)%C) by now apply Cmod_gt_0.
  destruct (Pow_x_infinity (Cmod w)) with (b := Rabs B * Cmod (1 - w)%C + 2) as [K HK]; [rewrite Rabs_pos_eq; [exact Hw|apply Cmod_ge_0]|].
  exists K. intros k Hk. rewrite gsum_closed by exact N1. rewrite Cmod_div by exact N1.
  apply Rlt_div_r; [exact P|]. specialize (HK (S k) ltac:(lia)). rewrite Rabs_pos_eq in HK by (apply pow_le, Cmod_ge_0).
  pose proof (Cmod_triangle (1 - Cpown w (S k))%C (-(1))%C) as T.
  replace (1 - Cpown w (S k) + - (1))%C with (- Cpown w (S k))%C in T by ring. rewrite !Cmod_opp, Cmod_1, Cmod_pown in T.
  pose proof (Rle_abs B). assert (B * Cmod (1 - w)%C <= Rabs B * Cmod (1 - w)%C) by (apply Rmult_le_compat_r; lra). lra.
Qed.

Lemma dipole_rounds_eq alpha beta h E k : h <> 0 ->
  dipole_rounds alpha beta h E k = (alpha * E * gsum (alpha / RtoC (16 * PI * h ^ 3) * beta) k)%C.
Proof.
  intros Hh. assert (NP := pdm_den_neq_0 0 h ltac:(lra)). rewrite Rplus_0_r in NP.
  induction k as [|k IH]; cbn [dipole_rounds gsum]; [ring|]. rewrite image_field, IH by exact Hh. field. exact NP.
Qed.
Lemma charge_rounds_eq b0 b1 f0 f1 Q0 k : charge_rounds b0 b1 f0 f1 Q0 (S k) = (b0 * f0 * Q0 * gsum (b1 * f1) k)%C.
Proof. induction k as [|k IH]; [cbn [charge_rounds gsum]; ring|]. change (charge_rounds b0 b1 f0 f1 Q0 (S (S k))) with (b0 * f0 * Q0 + b1 * f1 * charge_rounds b0 b1 f0 f1 Q0 (S k))%C. rewrite IH. cbn [gsum]. ring. Qed.

(** C70. Applying the reflections one after the other leads to pdm.eff_pol if the
    loop gain is below 1 and diverges if it is above 1 (where the closed form is
    still finite). *)
Lemma C70_pdm_rounds_proof :
  forall (D : Defaults) (s : sample) (z_tip r_tip : option R) (eps_tip alpha_tip : option C) (alpha beta E : C),
  let z := given_or (d_z_tip D) z_tip in let r := given_or (d_r_tip D) r_tip in
  tip_alpha r eps_tip alpha_tip alpha -> alpha <> RtoC 0 -> E <> RtoC 0 -> r + z <> 0 ->
  refl_coef_qs s (rr 0) = Ok (Some beta) ->
  let gain := Cmod (alpha * beta)%C / (16 * PI * Rabs (r + z) ^ 3) in
  (gain < 1 -> exists a, pdm_eff_pol D s z_tip r_tip eps_tip alpha_tip = Ok (Some a) /\
     forall eps, 0 < eps -> exists K, forall k, (K <= k)%nat -> Cmod (dipole_rounds alpha beta (r + z) E k - a * E)%C < eps) /\
  (1 < gain -> (exists a, pdm_eff_pol D s z_tip r_tip eps_tip alpha_tip = Ok (Some a)) /\
     forall B, exists K, forall k, (K <= k)%nat -> B < Cmod (dipole_rounds alpha beta (r + z) E k)).
Proof.
  intros D s z_tip r_tip eps_tip alt alpha beta E z r Ht Ha HE Hz Hb gain.
  assert (NP := pdm_den_neq_0 z r Hz). set (G := RtoC (16 * PI * (r + z) ^ 3)) in *.
  set (w := (alpha / G * beta)%C).
  assert (Eg : gain = Cmod w).
  { unfold gain, w. replace (alpha / G * beta)%C with (alpha * beta / G)%C by (field; exact NP). rewrite Cmod_div by exact NP. f_equal.
    unfold G. rewrite Cmod_R, !Rabs_mult, <- RPow_abs. rewrite (Rabs_pos_eq PI) by (left; apply PI_RGT_0). rewrite (Rabs_pos_eq 16) by lra. reflexivity. }
  rewrite Eg.
  assert (EV : (1 - w <> 0)%C -> pdm_eff_pol D s z_tip r_tip eps_tip alt = Ok (Some (alpha / (1 - w))%C)).
  { intros K. unfold pdm_eff_pol. rewrite (pdm_defaults_alpha _ _ _ _ _ Ht), Hb. cbn [rbind fst snd]. fold r. rewrite dflt_given. fold z.
    rewrite pdm_geom_ok by exact Hz. fold G. unfold cmul, csub, rc. cbn [olift2]. fold w. now rewrite cdiv_ok. }
  assert (PA : 0 < Cmod (alpha * E)%C) by (apply Cmod_gt_0; now apply Cmult_neq_0).
  split; intros Hw.
  - destruct (Cmod_1_minus w (Cmod w) (Rle_refl _) Hw) as [N1 _]. exists (alpha / (1 - w))%C. split; [now apply EV|].
    intros eps He. destruct (gsum_conv w Hw (eps / Cmod (alpha * E)%C)) as [K HK]; [now apply Rdiv_lt_0_compat|].
    exists K. intros k Hk. rewrite dipole_rounds_eq by exact Hz. fold G. fold w.
    replace (alpha * E * gsum w k - alpha / (1 - w) * E)%C with ((alpha * E) * (gsum w k - 1 / (1 - w)))%C by (field; exact N1).
    rewrite Cmod_mult, Rmult_comm. apply Rlt_div_r; [exact PA|]. now apply HK.
  - assert (N1 : (1 - w <> 0)%C). { intros Ee. assert (w = 1)%C by (rewrite <- (Cplus_0_r w), <- Ee; ring). rewrite H, Cmod_1 in Hw. lra. }
    split; [eauto|]. intros B. destruct (gsum_div w Hw (B / Cmod (alpha * E)%C)) as [K HK].
    exists K. intros k Hk. rewrite dipole_rounds_eq by exact Hz. fold G. fold w.
    rewrite Cmod_mult, Rmult_comm. apply Rlt_div_l; [exact PA|]. now apply HK.
Qed.

(** C70. The point-dipole Taylor series cut after J + 1 terms is the demodulated
    response (over alpha) after J reflections. *)
Lemma C70_pdm_taylor_rounds_proof :
  forall (D : Defaults) (s : sample) (A_tip : R) (n : Z) (z_tip r_tip : option R) (eps_tip alpha_tip : option C)
    (n_trapz : option nat) (alpha beta E : C) (J : nat),
  let N := given_or (d_n_trapz D) n_trapz in let z := given_or (d_z_tip D) z_tip in
  let r := given_or (d_r_tip D) r_tip in
  tip_alpha r eps_tip alpha_tip alpha -> alpha <> RtoC 0 -> E <> RtoC 0 -> refl_coef_qs s (rr 0) = Ok (Some beta) -> N <> O ->
  (forall k, (k < N)%nat -> r + tip_height z A_tip N k <> 0) ->
  pdm_eff_pol_n_taylor D s A_tip n z_tip r_tip eps_tip alpha_tip n_trapz (Some (S J))
  = demod D (fun x => Ok (Some (dipole_rounds alpha beta (r + x) E J / (alpha * E))%C)) (z + A_tip) A_tip n n_trapz.
Proof.
  intros D s A n z_tip r_tip eps_tip alt nt alpha beta E J N z r Ht Ha HE Hb HN HK.
  rewrite (pdm_taylor_value D s A n z_tip nt r_tip eps_tip alt alpha beta (S J) Ht Hb HN HK). fold N z r.
  rewrite (demod_tip D _ (fun x => dipole_rounds alpha beta (r + x) E J / (alpha * E))%C z A n nt HN); [|eauto|reflexivity].
  fold N. f_equal. f_equal. apply tmean_ext. intros k Hk. rewrite dipole_rounds_eq by (apply HK; exact Hk). rewrite gsum_Csum.
  generalize (Csum (map (fun j => Cpown (alpha / RtoC (16 * PI * (r + tip_height z A N k) ^ 3) * beta)%C j) (seq 0 (S J)))). intros y. field. auto.
Qed.

(** ** Finite dipole *)
(** image strengths and geometry functions of the two charges, for each method *)
Inductive images (lg : laggauss_t) (D : Defaults) (s : sample) (z r L : R) (G : C) (d0 d1 da : R) (n_lag : option nat)
  : option string -> C -> C -> C -> C -> Prop :=
| images_bulk m b : m = None \/ m = Some "bulk"%string -> multilayer s = false -> refl_coef_qs s (rr 0) = Ok (Some b) ->
    fdm_regular z d0 r L -> fdm_regular z d1 r L ->
    images lg D s z r L G d0 d1 da n_lag m b b (fdm_f z d0 r L G) (fdm_f z d1 r L G)
| images_average b : refl_coef_qs_above_surf lg D s (rr (z + r * da)) n_lag = Ok (Some b) ->
    fdm_regular z d0 r L -> fdm_regular z d1 r L ->
    images lg D s z r L G d0 d1 da n_lag (Some "Q_ave"%string) b b (fdm_f z d0 r L G) (fdm_f z d1 r L G)
| images_multi m b0 b1 x0 x1 : (m = None /\ multilayer s = true) \/ m = Some "multi"%string ->
    image_depth_and_charge lg D s (rr (z + r * d0)) n_lag = Ok (Some x0, Some b0) ->
    image_depth_and_charge lg D s (rr (z + r * d1)) n_lag = Ok (Some x1, Some b1) ->
    0 < r -> 0 < L -> r <> 4 * L -> 0 < r + 2 * z + 2 * x0 -> 0 < r + 2 * z + 2 * x1 ->
    images lg D s z r L G d0 d1 da n_lag m b0 b1 (fdm_f_image z x0 r L G) (fdm_f_image z x1 r L G).

Lemma images_value lg D s z_tip r_tip L_tip g d_Q0 d_Q1 d_Qa n_lag m b0 b1 f0 f1 :
  let z := given_or (d_z_tip D) z_tip in let r := given_or (d_r_tip D) r_tip in
  let L := given_or (d_L_tip D) L_tip in
  let d0 := given_or (131 / 100 * L / (L + 2 * r)) d_Q0 in
  let d1 := given_or (d_d_Q1 D) d_Q1 in let da := given_or (d_d_Qa D) d_Qa in
  let G := given_or (d_g_factor D) g in
  images lg D s z r L G d0 d1 da n_lag m b0 b1 f0 f1 ->
  fdm_eff_pol lg D s z_tip r_tip L_tip g d_Q0 d_Q1 d_Qa n_lag m
  = Ok (rc 1 + Some (b0 * f0)%C / Some (2 * (1 - b1 * f1))%C)%cv /\ 0 < r /\ 0 < L.
Proof.
  intros z r L d0 d1 da G H. inversion H as [m' b Hm Hs Hb R0 R1|b Hb R0 R1|m' c0 c1 x0 x1 Hm H0 H1 Hr HL H4 P0 P1]; subst.
  - split; [|split; apply R0]. pose proof (bulk_eff_pol lg D s z_tip r_tip L_tip g d_Q0 d_Q1 d_Qa n_lag b1 Hs Hb R0 R1) as V. cbv zeta in V. etransitivity; [|exact V].
    destruct Hm as [->| ->]; [|reflexivity]. unfold fdm_eff_pol. now rewrite Hs.
  - split; [|split; apply R0]. now apply qave_eff_pol.
  - split; [|auto]. unfold fdm_eff_pol. rewrite (fdm_defaults_eq D r_tip L_tip g d_Q0 d_Q1 d_Qa) by assumption.
    rewrite dflt_given. fold z r L d0 d1 G da.
    replace (match m with None => if multilayer s then "multi"%string else "bulk"%string | Some x => x end) with "multi"%string
      by (destruct Hm as [[-> ->]| ->]; reflexivity).
    cbn [String.eqb Ascii.eqb Bool.eqb]. change (rr z + rr r * rr d1)%rv with (rr (z + r * d1)). change (rr z + rr r * rr d0)%rv with (rr (z + r * d0)).
    rewrite H0, H1. cbn [rbind fst snd]. change (Some x0) with (rr x0). change (Some x1) with (rr x1). rewrite !geom_image_ok by assumption. reflexivity.
Qed.

(** C70. fdm.eff_pol, for each method, is the dipole moment (over that of the
    isolated tip, with dipole lengths approximated by 2 L and L as in the guide)
    of the charges in equilibrium with their images; where it is not finite there
    is no equilibrium. *)
Lemma C70_fdm_self_consistent_proof :
  forall (laggauss : laggauss_t) (D : Defaults) (s : sample) (z_tip r_tip L_tip : option R) (g_factor : option C)
    (d_Q0 d_Q1 d_Qa : option R) (n_lag : option nat) (method : option string) (b0 b1 f0 f1 : C),
  let z := given_or (d_z_tip D) z_tip in let r := given_or (d_r_tip D) r_tip in
  let L := given_or (d_L_tip D) L_tip in
  let d0 := given_or (131 / 100 * L / (L + 2 * r)) d_Q0 in
  let d1 := given_or (d_d_Q1 D) d_Q1 in let da := given_or (d_d_Qa D) d_Qa in
  let G := given_or (d_g_factor D) g_factor in
  images laggauss D s z r L G d0 d1 da n_lag method b0 b1 f0 f1 ->
  (forall a, fdm_eff_pol laggauss D s z_tip r_tip L_tip g_factor d_Q0 d_Q1 d_Qa n_lag method = Ok (Some a) ->
     forall Q0 Q1, charge_balance b0 b1 f0 f1 Q0 Q1 <-> tip_dipole L 0 0 Q0 Q1 = (a * tip_dipole L 0 0 Q0 0)%C) /\
  (fdm_eff_pol laggauss D s z_tip r_tip L_tip g_factor d_Q0 d_Q1 d_Qa n_lag method = Ok None ->
     forall Q0 Q1, b0 <> RtoC 0 -> f0 <> RtoC 0 -> Q0 <> RtoC 0 -> ~ charge_balance b0 b1 f0 f1 Q0 Q1).
Proof.
  intros lg D s z_tip r_tip L_tip g d_Q0 d_Q1 d_Qa n_lag m b0 b1 f0 f1 z r L d0 d1 da G H.
  destruct (images_value lg D s z_tip r_tip L_tip g d_Q0 d_Q1 d_Qa n_lag m b0 b1 f0 f1 H) as (EV & Hr & HL). fold L in HL. rewrite EV.
  assert (EQ : forall Q0 Q1, charge_balance b0 b1 f0 f1 Q0 Q1 <-> (Q1 * (1 - b1 * f1))%C = (b0 * f0 * Q0)%C).
  { intros Q0 Q1. unfold charge_balance. split; intros K.
    - transitivity (Q1 - b1 * f1 * Q1)%C; [ring|]. rewrite K at 1. ring.
    - replace Q1 with (Q1 * (1 - b1 * f1) + b1 * f1 * Q1)%C at 1 by ring. rewrite K. ring. }
  assert (NL : RtoC L <> RtoC 0) by (apply RtoC_neq_0; lra).
  assert (TD : forall Q0 Q1, tip_dipole L 0 0 Q0 Q1 = (RtoC L * (2 * Q0 + Q1))%C).
  { intros Q0 Q1. unfold tip_dipole. rewrite Rminus_0_r, RtoC_mult. ring. }
  split.
  - intros a Ea. assert (Ea' : (rc 1 + Some (b0 * f0)%C / Some (2 * (1 - b1 * f1))%C)%cv = Some a) by congruence.
    apply olift2_Some in Ea'. destruct Ea' as (x & y & Ex & Ey & ->). injection Ex as <-.
    apply cdiv_Some in Ey. destruct Ey as (p & q & Ep & Eq & Hq & ->). injection Ep as <-. injection Eq as <-.
    assert (Hd : (1 - b1 * f1 <> 0)%C) by (apply Cmult_neq_0_r in Hq; exact Hq).
    intros Q0 Q1. rewrite EQ, !TD. clear EV EQ Hq. revert Hd. generalize (1 - b1 * f1)%C. intros w Hd. split; intros K.
    + replace (2 * Q0 + Q1)%C with (2 * Q0 + Q1 * w / w)%C by (field; exact Hd). rewrite K. field. split; [exact Hd|exact C2_neq_0].
    + assert (K' : (RtoC L * (Q1 * w))%C = (RtoC L * (b0 * f0 * Q0))%C).
      { transitivity (RtoC L * (2 * Q0 + Q1) * w - RtoC L * (2 * Q0) * w)%C; [ring|]. rewrite K. field. split; [exact Hd|exact C2_neq_0]. }
      replace (Q1 * w)%C with (RtoC L * (Q1 * w) / RtoC L)%C by (field; exact NL). rewrite K'. field. exact NL.
  - intros En Q0 Q1 N0 F0 NQ K. apply EQ in K.
    destruct (Ceq_dec (1 - b1 * f1)%C (RtoC 0)) as [Z|Z].
    + rewrite Z in K. assert (b0 * f0 * Q0 = 0)%C by (rewrite <- K; ring). revert H0. now repeat apply Cmult_neq_0.
    + rewrite cdiv_ok in En by (apply Cmult_neq_0; [exact C2_neq_0|exact Z]). discriminate.
Qed.

(** C70. Reflection by reflection. *)
Lemma C70_fdm_rounds_proof :
  forall (laggauss : laggauss_t) (D : Defaults) (s : sample) (z_tip r_tip L_tip : option R) (g_factor : option C)
    (d_Q0 d_Q1 d_Qa : option R) (n_lag : option nat) (method : option string) (b0 b1 f0 f1 Q0 : C),
  let z := given_or (d_z_tip D) z_tip in let r := given_or (d_r_tip D) r_tip in
  let L := given_or (d_L_tip D) L_tip in
  let d0 := given_or (131 / 100 * L / (L + 2 * r)) d_Q0 in
  let d1 := given_or (d_d_Q1 D) d_Q1 in let da := given_or (d_d_Qa D) d_Qa in
  let G := given_or (d_g_factor D) g_factor in
  images laggauss D s z r L G d0 d1 da n_lag method b0 b1 f0 f1 -> b0 <> RtoC 0 -> f0 <> RtoC 0 -> Q0 <> RtoC 0 ->
  let gain := Cmod (b1 * f1)%C in
  (gain < 1 -> exists a, fdm_eff_pol laggauss D s z_tip r_tip L_tip g_factor d_Q0 d_Q1 d_Qa n_lag method = Ok (Some a) /\
     forall eps, 0 < eps -> exists K, forall k, (K <= k)%nat ->
       Cmod (tip_dipole L 0 0 Q0 (charge_rounds b0 b1 f0 f1 Q0 k) - a * tip_dipole L 0 0 Q0 0)%C < eps) /\
  (1 < gain -> (exists a, fdm_eff_pol laggauss D s z_tip r_tip L_tip g_factor d_Q0 d_Q1 d_Qa n_lag method = Ok (Some a)) /\
     forall B, exists K, forall k, (K <= k)%nat -> B < Cmod (charge_rounds b0 b1 f0 f1 Q0 k)).
Proof.
  intros lg D s z_tip r_tip L_tip g d_Q0 d_Q1 d_Qa n_lag m b0 b1 f0 f1 Q0 z r L d0 d1 da G H Nb Nf NQ gain.
  destruct (images_value lg D s z_tip r_tip L_tip g d_Q0 d_Q1 d_Qa n_lag m b0 b1 f0 f1 H) as (EV & Hr & HL). fold L in HL.
  assert (TD : forall Q0 Q1, tip_dipole L 0 0 Q0 Q1 = (RtoC L * (2 * Q0 + Q1))%C).
  { intros Q Q1. unfold tip_dipole. rewrite Rminus_0_r, RtoC_mult. ring. }
  set (w := (b1 * f1)%C) in *.
  assert (EV' : (1 - w <> 0)%C -> fdm_eff_pol lg D s z_tip r_tip L_tip g d_Q0 d_Q1 d_Qa n_lag m = Ok (Some (1 + b0 * f0 / (2 * (1 - w)))%C)).
  { intros K. rewrite EV, cdiv_ok by (apply Cmult_neq_0; [exact C2_neq_0|exact K]). reflexivity. }
  set (c := (b0 * f0 * Q0)%C). assert (Nc : c <> RtoC 0) by (unfold c; now repeat apply Cmult_neq_0).
  assert (PA : 0 < Cmod (RtoC L * c)%C) by (apply Cmod_gt_0; apply Cmult_neq_0; [apply RtoC_neq_0; lra|exact Nc]).
  assert (PC : 0 < Cmod c) by now apply Cmod_gt_0.
  unfold gain. split; intros Hw.
  - destruct (Cmod_1_minus w (Cmod w) (Rle_refl _) Hw) as [N1 _]. exists (1 + b0 * f0 / (2 * (1 - w)))%C. split; [now apply EV'|].
    intros eps He. destruct (gsum_conv w Hw (eps / Cmod (RtoC L * c)%C)) as [K HK]; [now apply Rdiv_lt_0_compat|].
    exists (S K). intros k Hk. destruct k as [|k]; [lia|]. rewrite charge_rounds_eq. fold w c. rewrite !TD.
    replace (RtoC L * (2 * Q0 + c * gsum w k) - (1 + b0 * f0 / (2 * (1 - w))) * (RtoC L * (2 * Q0 + 0)))%C
      with ((RtoC L * c) * (gsum w k - 1 / (1 - w)))%C by (unfold c; field; split; [exact N1|exact C2_neq_0]).
    rewrite Cmod_mult, Rmult_comm. apply Rlt_div_r; [exact PA|]. apply HK. lia.
  - assert (N1 : (1 - w <> 0)%C). { intros Ee. assert (Z : w = RtoC 1) by (rewrite <- (Cplus_0_r w), <- Ee; ring). rewrite Z, Cmod_1 in Hw. lra. }
    split; [eauto|]. intros B. destruct (gsum_div w Hw (B / Cmod c)) as [K HK].
    exists (S K). intros k Hk. destruct k as [|k]; [lia|]. rewrite charge_rounds_eq. fold w c.
    rewrite Cmod_mult, Rmult_comm. apply Rlt_div_l; [exact PC|]. apply HK. lia.
Qed.

(** C70. The finite-dipole Taylor series cut at n_tayl = J + 1 is the demodulated
    response after J reflections. *)
Lemma C70_fdm_taylor_rounds_proof :
  forall (laggauss : laggauss_t) (D : Defaults) (s : sample) (A_tip : R) (n : Z) (n_trapz : option nat)
    (z_tip r_tip L_tip : option R) (g_factor : option C) (d_Q0 d_Q1 d_Qa : option R) (n_lag : option nat) (beta Q0 : C) (J : nat),
  let N := given_or (d_n_trapz D) n_trapz in let z := given_or (d_z_tip D) z_tip in
  let r := given_or (d_r_tip D) r_tip in let L := given_or (d_L_tip D) L_tip in
  let d0 := given_or (131 / 100 * L / (L + 2 * r)) d_Q0 in let d1 := given_or (d_d_Q1 D) d_Q1 in
  let G := given_or (d_g_factor D) g_factor in
  multilayer s = false -> refl_coef_qs s (rr 0) = Ok (Some beta) -> N <> O -> resolved N n -> Q0 <> RtoC 0 ->
  (forall k, (k < N)%nat -> let x := tip_height z A_tip N k in fdm_regular x d0 r L /\ fdm_regular x d1 r L) ->
  forall method, method = None \/ method = Some "bulk"%string ->
  fdm_eff_pol_n_taylor laggauss D s A_tip n z_tip r_tip L_tip g_factor d_Q0 d_Q1 d_Qa n_lag method n_trapz (Some (S J))
  = demod D (fun x => Ok (Some (tip_dipole L 0 0 Q0 (charge_rounds beta beta (fdm_f x d0 r L G) (fdm_f x d1 r L G) Q0 J) / tip_dipole L 0 0 Q0 0)%C))
      (z + A_tip) A_tip n n_trapz.
Proof.
  intros lg D s A n nt z_tip r_tip L_tip g d_Q0 d_Q1 d_Qa n_lag beta Q0 J N z r L d0 d1 G Hm Hb HN Hn NQ HK m Hm'.
  replace (fdm_eff_pol_n_taylor lg D s A n z_tip r_tip L_tip g d_Q0 d_Q1 d_Qa n_lag m nt (Some (S J)))
    with (fdm_eff_pol_n_taylor lg D s A n z_tip r_tip L_tip g d_Q0 d_Q1 d_Qa n_lag (Some "bulk"%string) nt (Some (S J)))
    by (destruct Hm' as [->| ->]; [symmetry; now apply taylor_none_bulk|reflexivity]).
  rewrite (fdm_taylor_value lg D s A n z_tip nt r_tip L_tip g d_Q0 d_Q1 d_Qa n_lag beta J Hm Hb HN HK). fold N z r L d0 d1 G.
  assert (HL : 0 < L) by (destruct (HK O ltac:(lia)) as [R0 _]; apply R0).
  assert (NL : RtoC L <> RtoC 0) by (apply RtoC_neq_0; lra).
  rewrite (demod_tip D _ (fun x => 1 + beta * fdm_f x d0 r L G / 2 * Csum (map (fun j => Cpown (beta * fdm_f x d1 r L G) j) (seq 0 J)))%C z A n nt HN); [|eauto|].
  - fold N. f_equal. f_equal. rewrite tmean_plus, (tmean_one z A n N HN Hn). reflexivity.
  - fold N. intros k Hk. f_equal. f_equal. set (x := tip_height z A N k). unfold tip_dipole. rewrite Rminus_0_r, RtoC_mult.
    destruct J as [|J].
    + cbn [charge_rounds seq map Csum fold_right]. unfold Csum. cbn [fold_right]. field. repeat split; first [exact NQ|exact NL|exact C2_neq_0].
    + rewrite charge_rounds_eq, <- gsum_Csum. field. repeat split; first [exact NQ|exact NL|exact C2_neq_0].
Qed.

(** C70. Keeping the lengths 2 (L - z_Q0) and L - z_Q1 of the two dipoles, which
    the guide approximates by 2 L and L, only multiplies every harmonic by the
    constant (L - z_Q1)/(L - z_Q0): normalised signals are exact in this respect. *)
Lemma C70_fdm_lengths_proof :
  forall (laggauss : laggauss_t) (D : Defaults) (s : sample) (A_tip : R) (n : Z) (n_trapz : option nat)
    (z_tip r_tip L_tip : option R) (g_factor : option C) (d_Q0 d_Q1 d_Qa : option R) (n_lag : option nat) (beta : C) (exact : R -> C),
  let N := given_or (d_n_trapz D) n_trapz in let z := given_or (d_z_tip D) z_tip in
  let r := given_or (d_r_tip D) r_tip in let L := given_or (d_L_tip D) L_tip in
  let d0 := given_or (131 / 100 * L / (L + 2 * r)) d_Q0 in let d1 := given_or (d_d_Q1 D) d_Q1 in
  let G := given_or (d_g_factor D) g_factor in
  multilayer s = false -> refl_coef_qs s (rr 0) = Ok (Some beta) -> N <> O -> n <> 0%Z -> resolved N n -> r * d0 <> L ->
  (forall k, (k < N)%nat -> let x := tip_height z A_tip N k in
     fdm_regular x d0 r L /\ fdm_regular x d1 r L /\ (1 - beta * fdm_f x d1 r L G <> 0)%C /\
     forall Q0 Q1, charge_balance beta beta (fdm_f x d0 r L G) (fdm_f x d1 r L G) Q0 Q1 ->
       tip_dipole L (r * d0) (r * d1) Q0 Q1 = (exact x * tip_dipole L (r * d0) (r * d1) Q0 0)%C) ->
  forall method, method = None \/ method = Some "bulk"%string ->
  exists sn : C,
    fdm_eff_pol_n laggauss D s A_tip n z_tip n_trapz r_tip L_tip g_factor d_Q0 d_Q1 d_Qa n_lag method = Ok (Some sn) /\
    demod D (fun x => Ok (Some (exact x))) (z + A_tip) A_tip n n_trapz = Ok (Some (RtoC ((L - r * d1) / (L - r * d0)) * sn)%C).
Proof.
  intros lg D s A n nt z_tip r_tip L_tip g d_Q0 d_Q1 d_Qa n_lag beta exact N z r L d0 d1 G Hm Hb HN Hn0 Hn HD HK m Hm'.
  assert (HK' : forall k, (k < N)%nat -> let x := tip_height z A N k in
     fdm_regular x d0 r L /\ fdm_regular x d1 r L /\ (1 - beta * fdm_f x d1 r L G <> 0)%C).
  { intros k Hk. destruct (HK k Hk) as (? & ? & ? & _). auto. }
  replace (fdm_eff_pol_n lg D s A n z_tip nt r_tip L_tip g d_Q0 d_Q1 d_Qa n_lag m)
    with (fdm_eff_pol_n lg D s A n z_tip nt r_tip L_tip g d_Q0 d_Q1 d_Qa n_lag (Some "bulk"%string))
    by (destruct Hm' as [->| ->]; [symmetry; now apply eff_pol_n_none_bulk|reflexivity]).
  eexists. split; [exact (fdm_n_value lg D s A n z_tip nt r_tip L_tip g d_Q0 d_Q1 d_Qa n_lag beta Hm Hb HN HK')|]. fold N z r L d0 d1 G.
  rewrite (demod_tip D _ exact z A n nt HN); [|eauto|reflexivity]. fold N. f_equal. f_equal.
  set (kap := RtoC ((L - r * d1) / (L - r * d0))).
  rewrite (tmean_ext z A n N exact (fun x => 1 + kap * (beta * fdm_f x d0 r L G / (2 * (1 - beta * fdm_f x d1 r L G))))%C).
  - rewrite tmean_plus, (tmean_scal z A n N kap), (tmean_plus z A n N (fun _ => RtoC 1)), (tmean_one z A n N HN Hn).
    destruct (Z.eqb_spec n 0); [contradiction|]. ring.
  - intros k Hk. destruct (HK k Hk) as (R0 & R1 & N1 & Hx). set (x := tip_height z A N k) in *.
    set (f0 := fdm_f x d0 r L G) in *. set (f1 := fdm_f x d1 r L G) in *.
    assert (NL : RtoC (L - r * d0) <> RtoC 0) by (apply RtoC_neq_0; lra).
    assert (CB : charge_balance beta beta f0 f1 1 (beta * f0 / (1 - beta * f1))%C) by (unfold charge_balance; field; exact N1).
    specialize (Hx _ _ CB). unfold tip_dipole in Hx. rewrite RtoC_mult in Hx. unfold kap. rewrite RtoC_div by lra.
    replace (exact x) with (exact x * (2 * RtoC (L - r * d0) * 1 + RtoC (L - r * d1) * 0) / (2 * RtoC (L - r * d0)))%C
      by (field; split; [exact NL|exact C2_neq_0]).
    rewrite <- Hx. field. repeat split; first [exact N1|exact NL|exact C2_neq_0].
Qed.

(** C70, concrete cases: a substrate with eps = 3, default tips.  Reflections
    settle for a metallic sphere and diverge for a sphere 16 times as polarizable;
    the charges of the default ellipsoid have exactly one equilibrium. *)
Lemma C70_example_proof :
  forall laggauss,
  let s := stack [RtoC 1; RtoC 3] [] None in let r := 20 / 10 ^ 9 in
  (exists a, pdm_eff_pol defaults0 s None None None None = Ok (Some a) /\
     (forall p, dipole_balance (RtoC (4 * PI * r ^ 3)) (RtoC (1 / 2)) r (RtoC 1) p <-> p = a) /\
     forall eps, 0 < eps -> exists K, forall k, (K <= k)%nat -> Cmod (dipole_rounds (RtoC (4 * PI * r ^ 3)) (RtoC (1 / 2)) r (RtoC 1) k - a)%C < eps) /\
  (let alpha := RtoC (64 * PI * r ^ 3) in
   (exists a, pdm_eff_pol defaults0 s None None None (Some alpha) = Ok (Some a)) /\
   forall B, exists K, forall k, (K <= k)%nat -> B < Cmod (dipole_rounds alpha (RtoC (1 / 2)) r (RtoC 1) k)) /\
  (exists a f0 f1, fdm_eff_pol laggauss defaults0 s None None None (Some (RtoC (7 / 10))) None None None None None = Ok (Some a) /\
     forall Q0 Q1, charge_balance (RtoC (1 / 2)) (RtoC (1 / 2)) f0 f1 Q0 Q1
       <-> tip_dipole (300 / 10 ^ 9) 0 0 Q0 Q1 = (a * tip_dipole (300 / 10 ^ 9) 0 0 Q0 0)%C).
Proof.
  intros lg s r. assert (HB : refl_coef_qs s (rr 0) = Ok (Some (RtoC (1 / 2)))).
  { unfold s. rewrite bulk_real by lra. f_equal. f_equal. f_equal. lra. }
  assert (M2 : Cmod (RtoC (1 / 2)) = 1 / 2) by (rewrite Cmod_R, Rabs_pos_eq; lra).
  pose proof PI_RGT_0 as HP. assert (R3 : 0 < r ^ 3) by (apply pow_lt; unfold r; lra).
  assert (P1 : 0 < PI * r ^ 3) by (now apply Rmult_lt_0_compat).
  assert (RZ : given_or (d_r_tip defaults0) None + given_or (d_z_tip defaults0) None = r) by (unfold given_or; cbn [defaults0 d_r_tip d_z_tip]; unfold r; lra).
  assert (RR : given_or (d_r_tip defaults0) None = r) by reflexivity.
  assert (N1 : RtoC 1 <> RtoC 0) by (apply RtoC_neq_0; lra).
  assert (AR : Rabs r = r) by (apply Rabs_pos_eq; unfold r; lra).
  split; [|split].
  - destruct (C70_pdm_rounds_proof defaults0 s None None None None (RtoC (4 * PI * r ^ 3)) (1 / 2) 1) as [H _]; auto.
    + rewrite RR. constructor.
    + apply RtoC_neq_0. lra.
    + rewrite RZ. unfold r. lra.
    + destruct H as (a & Ea & Hc).
      * rewrite RZ, AR, Cmod_mult, M2, Cmod_R, Rabs_pos_eq by lra. apply Rlt_div_l; lra.
      * exists a. split; [exact Ea|]. rewrite RZ in Hc. split.
        { destruct (C70_pdm_self_consistent_proof defaults0 s None None None None (RtoC (4 * PI * r ^ 3)) (1 / 2)) as [Hs _]; auto.
          - rewrite RR. constructor.
          - apply RtoC_neq_0. lra.
          - rewrite RZ. unfold r. lra.
          - intros p. rewrite RZ in Hs. rewrite (Hs a Ea 1 p)%C. now rewrite Cmult_1_r. }
        intros eps He. destruct (Hc eps He) as [K HK]. exists K. intros k Hk. specialize (HK k Hk). rewrite Cmult_1_r in HK. exact HK.
  - destruct (C70_pdm_rounds_proof defaults0 s None None None (Some (RtoC (64 * PI * r ^ 3))) (RtoC (64 * PI * r ^ 3)) (1 / 2) 1) as [_ H]; auto.
    + constructor.
    + apply RtoC_neq_0. lra.
    + rewrite RZ. unfold r. lra.
    + rewrite RZ in H. apply H. rewrite AR, Cmod_mult, M2, Cmod_R, Rabs_pos_eq by lra. apply Rlt_div_r; lra.
  - set (L := 300 / 10 ^ 9). set (d0 := 131 / 100 * L / (L + 2 * r)). set (G := RtoC (7 / 10)).
    assert (D0 : 0 < d0) by (unfold d0, L, r; apply Rdiv_lt_0_compat; lra).
    assert (G0 : fdm_regular 0 d0 r L) by (unfold fdm_regular, r, L in *; repeat split; try lra; nra).
    assert (G1 : fdm_regular 0 (5 / 10) r L) by (unfold fdm_regular, r, L in *; repeat split; lra).
    assert (I : images lg defaults0 s 0 r L G d0 (5 / 10) (d_d_Qa defaults0) None None (1 / 2) (1 / 2) (fdm_f 0 d0 r L G) (fdm_f 0 (5 / 10) r L G))
      by (apply images_bulk; auto).
    destruct (C70_fdm_self_consistent_proof lg defaults0 s None None None (Some G) None None None None None _ _ _ _ I) as [H _].
    destruct (images_value lg defaults0 s None None None (Some G) None None None None None _ _ _ _ I) as [EV _].
    assert (ND : (1 - RtoC (1 / 2) * fdm_f 0 (5 / 10) r L G <> 0)%C).
    { unfold G. rewrite fdm_f_real. unfold fdm_r.
      replace (4 * L / (r + 4 * 0 + 2 * r * (5 / 10))) with 30 by (unfold L, r; field; lra).
      replace (4 * L / r) with 60 by (unfold L, r; field; lra).
      assert (0 < ln 30 < ln 60) by (split; [rewrite <- ln_1|]; apply ln_increasing; lra).
      assert (0 < ln 30 / ln 60 <= 1) by (split; [apply Rdiv_lt_0_compat; lra|apply Rle_div_l; lra]). set (q := ln 30 / ln 60) in *.
      replace ((r + 2 * 0 + r * (5 / 10)) / (2 * L)) with (1 / 20) by (unfold L, r; field; lra).
      rewrite <- RtoC_mult, <- RtoC_minus. apply RtoC_neq_0. nra. }
    rewrite cdiv_ok in EV by (apply Cmult_neq_0; [exact C2_neq_0|exact ND]).
    eexists. exists (fdm_f 0 d0 r L G), (fdm_f 0 (5 / 10) r L G). split; [exact EV|]. apply H. exact EV.
Qed.
