(** * Proofs: the order of the harmonics over lossless samples *)
From Coq Require Import String Reals Lra Lia ZArith List Bool.
From Coquelicot Require Import Rcomplements Complex.
From Verif Require Import Num NumLemmas LimLemmas ModelBase ModelSample ModelTip StackLemmas Spec
  ProofsStackQS ProofsStackQS2 ProofsBulkFF ProofsSym ProofsPassive DemodLemmas ProofsDemod ProofsTip ProofsTip2 ProofsTip3
  ProofsTaylor PosDef ProofsContrast ProofsContrast2 ProofsMajor ProofsMajor2 UniMod.
Import ListNotations.
Open Scope R_scope.

(** ** Point dipole model *)
Lemma pdm_int_dm alpha r z A N j : N <> O -> 0 < alpha -> 0 < A -> 0 < r + z -> dm N j (pdm_int alpha r z A N).
Proof.
  intros HN Ha HA Hz.
  assert (D : forall i, dm N i (res1 N (r + z + A) A)) by (intros i; apply res1_dm; [exact HN|lra]).
  unfold pdm_int. apply dm_scal; [exact (pdm_kappa alpha Ha)|].
  apply (dm_ext N j (fun k => res1 N (r + z + A) A k * (res1 N (r + z + A) A k * res1 N (r + z + A) A k))); [intros; cbn [pow]; ring|].
  apply dm_prod; [exact HN|apply D|]. apply dm_prod; [exact HN|apply D|apply D].
Qed.

(** C106. Point dipole model, lossless tip and sample: of two harmonics up to half
    the number of samples, the lower one is the stronger. *)
Lemma C106_pdm_order_proof :
  forall (D : Defaults) (s : sample) (A_tip : R) (n m : Z) (z_tip r_tip : option R) (n_trapz : option nat)
    (eps_tip alpha_tip : option C) (alpha b : R),
  let N := given_or (d_n_trapz D) n_trapz in let z := given_or (d_z_tip D) z_tip in
  let r := given_or (d_r_tip D) r_tip in
  tip_alpha r eps_tip alpha_tip (RtoC alpha) -> 0 < alpha -> refl_coef_qs s (rr 0) = Ok (Some (RtoC b)) ->
  N <> O -> 0 < A_tip -> 0 < r + z -> 0 < b -> alpha * b < 16 * PI * (r + z) ^ 3 ->
  (Z.abs n < Z.abs m)%Z -> (2 * Z.abs m <= Z.of_nat N)%Z ->
  exists a_n a_m : C,
    pdm_eff_pol_n D s A_tip n z_tip n_trapz r_tip eps_tip alpha_tip = Ok (Some a_n) /\
    pdm_eff_pol_n D s A_tip m z_tip n_trapz r_tip eps_tip alpha_tip = Ok (Some a_m) /\
    0 < Cmod a_m < Cmod a_n.
Proof.
  intros D s A n m z_tip r_tip nt eps_tip alt alpha b N z r Ht Ha H HN HA Hz Hb Hs Hnm Hm.
  set (h := fun k => / (1 - b * pdm_int alpha r z A N k)).
  assert (BB : forall k, Rabs (b * pdm_int alpha r z A N k) < 1) by (intros k; apply pdm_int_bound; auto; lra).
  assert (DD : forall j, dm N j h).
  { intros j. apply (dm_geo N HN j (fun k => b * pdm_int alpha r z A N k)); [|auto]. apply dm_scal; [exact Hb|]. now apply pdm_int_dm. }
  assert (PO : 0 < harm N m h) by (apply dom_harm; [exact HN|]; apply gain_signal; [exact HN|exact Hb|now apply pdm_int_dom|auto]).
  assert (LT := dm_lt N HN h n m DD Hnm Hm).
  assert (MV : forall i x, 0 < x -> Cmod (RtoC (sgn_pow i * (alpha * x))) = alpha * x).
  { intros i x Hx. assert (0 < alpha * x) by (now apply Rmult_lt_0_compat). rewrite Cmod_R. unfold sgn_pow. destruct (Z.even i).
    - rewrite Rmult_1_l. apply Rabs_pos_eq. lra.
    - rewrite <- Rabs_Ropp. replace (- (-1 * (alpha * x))) with (alpha * x) by ring. apply Rabs_pos_eq. lra. }
  eexists. eexists. split; [|split].
  - apply (pdm_signal D s A n z_tip nt r_tip eps_tip alt alpha b); auto; lra.
  - apply (pdm_signal D s A m z_tip nt r_tip eps_tip alt alpha b); auto; lra.
  - fold N z r. fold h. rewrite !MV by lra. split; [now apply Rmult_lt_0_compat|]. now apply Rmult_lt_compat_l.
Qed.

(** ** Finite dipole model *)
Section FDM.
Context (r L g A : R) (N : nat) (HN : N <> O) (HA : 0 < A) (WL : 0 < ln (4 * L / r)).
Definition below (z d : R) : Prop :=
  in_reach z A d r L g /\ r + 2 * (z + 2 * A) + r * d < 2 * L * g /\ r + 4 * (z + 2 * A) + 2 * r * d < 4 * L.
Lemma uu_dm z d : below z d -> dm N O (uu r L g A N z d).
Proof using HA HN.
  intros ((Hr & HL & _) & Hg & _).
  apply (dm_ext N 0 (fun k => (g - (r + 2 * (z + 2 * A) + r * d) / (2 * L)) + A / L * B N k)).
  { intros k _. unfold uu, B. field. lra. }
  apply (dm_plus N O (fun _ => _)).
  - apply dm_const. apply Rlt_Rminus. apply Rlt_div_l; lra.
  - apply mm_scal; [apply Rlt_le, Rdiv_lt_0_compat; lra|now apply mm_B].
Qed.
Lemma vv_dm z d j : below z d -> dm N j (vv r L A N z d).
Proof using HN HA.
  intros (H & _ & Hv). pose proof (reach_ee r L g A HA z d H) as He. destruct H as (Hr & HL & _).
  set (e := ee r A z d) in *. assert (Ha : 0 < 4 * A < e) by lra.
  assert (P0 : 0 < ln (4 * L / (e + 4 * A))).
  { rewrite <- ln_1. apply ln_increasing; [lra|]. apply Rlt_div_r; [lra|]. unfold e, ee in *. lra. }
  assert (MS := B_mm N HN e (4 * A) Ha). assert (MB : forall k, (k < N)%nat -> Rabs (4 * A / (e + 4 * A) * B N k) < 1) by (intros; now apply B_lt).
  assert (EV : forall k, vv r L A N z d k = ln (4 * L / (e + 4 * A)) + - ln (1 - 4 * A / (e + 4 * A) * B N k)).
  { intros k. unfold vv. fold e.
    pose proof (res1_pos N e (4 * A) k He) as P.
    assert (Q : 0 < 1 - 4 * A / e * cs N k) by (pose proof (scaled_lt N e (4 * A) k He) as K; apply Rabs_lt_between in K; lra).
    assert (Q' : 0 < 1 - 4 * A / (e + 4 * A) * B N k) by (pose proof (B_lt N e (4 * A) k Ha) as K; apply Rabs_lt_between in K; lra).
    rewrite !ln_div by lra.
    assert (E : e * (1 - 4 * A / e * cs N k) = (e + 4 * A) * (1 - 4 * A / (e + 4 * A) * B N k)) by (unfold B; field; lra).
    apply (f_equal ln) in E. rewrite !ln_mult in E by lra. lra. }
  destruct j as [|j].
  - apply (dm_ext N 0 (fun k => ln (4 * L / (e + 4 * A)) + - ln (1 - 4 * A / (e + 4 * A) * B N k))); [intros; now rewrite EV|].
    apply (dm_plus N O (fun _ => _)); [now apply dm_const|]. apply (mm_log N HN (fun k => 4 * A / (e + 4 * A) * B N k)); auto.
  - apply (dm_ext N (S j) (fun k => - ln (1 - 4 * A / (e + 4 * A) * B N k) + ln (4 * L / (e + 4 * A)))); [intros; rewrite EV; ring|].
    apply dm_plus; [|apply mm_const; lra].
    exists ((4 * A / (e + 4 * A)) ^ S j / INR (S j)). split.
    + apply Rdiv_lt_0_compat; [apply pow_lt, Rdiv_lt_0_compat; lra|apply lt_0_INR; lia].
    + apply (mm_ext N (fun k => - ln (1 - 4 * A / (e + 4 * A) * B N k) - (4 * A / (e + 4 * A) * B N k) ^ S j / INR (S j))).
      * intros k _. rewrite Rpow_mult_distr. unfold Rdiv. ring.
      * apply (mm_log_minus N HN (fun k => 4 * A / (e + 4 * A) * B N k)); auto.
Qed.
Lemma ff_dm z d j : below z d -> dm N j (ff r L g A N z d).
Proof using HN HA WL.
  intros H. apply (dm_ext N j (fun k => / ln (4 * L / r) * (uu r L g A N z d k * vv r L A N z d k))).
  { intros; symmetry; apply ff_eq; [exact HA|apply H]. }
  apply dm_scal; [now apply Rinv_0_lt_compat|]. apply dm_prod; [exact HN|now apply uu_dm|now apply vv_dm].
Qed.
End FDM.

(** C106. Finite dipole model with a real g factor over a lossless bulk sample,
    under the conditions of C69 (the inequalities at the top of the stroke being
    strict): of two harmonics up to half the number of samples, the lower one is
    the stronger. *)
Lemma C106_fdm_order_proof :
  forall (laggauss : laggauss_t) (D : Defaults) (s : sample) (A_tip : R) (n m : Z) (n_trapz : option nat)
    (z_tip r_tip L_tip : option R) (g_factor : option C) (d_Q0 d_Q1 d_Qa : option R) (n_lag : option nat) (g b : R),
  let N := given_or (d_n_trapz D) n_trapz in let z := given_or (d_z_tip D) z_tip in
  let r := given_or (d_r_tip D) r_tip in let L := given_or (d_L_tip D) L_tip in
  let d0 := given_or (131 / 100 * L / (L + 2 * r)) d_Q0 in let d1 := given_or (d_d_Q1 D) d_Q1 in
  given_or (d_g_factor D) g_factor = RtoC g ->
  multilayer s = false -> refl_coef_qs s (rr 0) = Ok (Some (RtoC b)) ->
  N <> O -> 0 < A_tip -> 0 < r < 4 * L -> 0 < r + 4 * z + 2 * r * d0 -> 0 < r + 4 * z + 2 * r * d1 ->
  r + 2 * (z + 2 * A_tip) + r * d0 < 2 * L * g -> r + 4 * (z + 2 * A_tip) + 2 * r * d0 < 4 * L ->
  r + 2 * (z + 2 * A_tip) + r * d1 < 2 * L * g -> r + 4 * (z + 2 * A_tip) + 2 * r * d1 < 4 * L ->
  0 < b -> b * Re (fdm_f z d1 r L (RtoC g)) < 1 ->
  (Z.abs n < Z.abs m)%Z -> (2 * Z.abs m <= Z.of_nat N)%Z ->
  forall method, method = None \/ method = Some "bulk"%string ->
  exists a_n a_m : C,
    fdm_eff_pol_n laggauss D s A_tip n z_tip n_trapz r_tip L_tip g_factor d_Q0 d_Q1 d_Qa n_lag method = Ok (Some a_n) /\
    fdm_eff_pol_n laggauss D s A_tip m z_tip n_trapz r_tip L_tip g_factor d_Q0 d_Q1 d_Qa n_lag method = Ok (Some a_m) /\
    0 < Cmod a_m < Cmod a_n.
Proof.
  intros lg D s A n m nt z_tip r_tip L_tip gf d_Q0 d_Q1 d_Qa n_lag g b N z r L d0 d1 Hg Hm H HN HA [Hr HrL] P0 P1 G0 V0 G1 V1 Hb Hs Hnm HmN meth Hmeth.
  rewrite fdm_f_real in Hs. change (Re (RtoC (fdm_r z d1 r L g))) with (fdm_r z d1 r L g) in Hs.
  assert (R0 : in_reach z A d0 r L g) by (repeat split; lra). assert (R1 : in_reach z A d1 r L g) by (repeat split; lra).
  assert (W0 : below r L g A z d0) by (split; [exact R0|split; assumption]). assert (W1 : below r L g A z d1) by (split; [exact R1|split; assumption]).
  assert (WL : 0 < ln (4 * L / r)) by (rewrite <- ln_1; apply ln_increasing; [lra|]; apply Rlt_div_r; lra).
  assert (EM : forall i, fdm_eff_pol_n lg D s A i z_tip nt r_tip L_tip gf d_Q0 d_Q1 d_Qa n_lag meth
     = fdm_eff_pol_n lg D s A i z_tip nt r_tip L_tip gf d_Q0 d_Q1 d_Qa n_lag (Some "bulk"%string)).
  { intros i. destruct Hmeth as [-> | ->]; [now apply eff_pol_n_none_bulk|reflexivity]. }
  rewrite !EM.
  assert (BB := fun k => ff_loop r L g A N HA WL z d1 b k R1 ltac:(lra) Hs).
  set (h := fdm_sig r L g A z d0 d1 b N).
  assert (DD : forall j, dm N j h).
  { intros j. unfold h, fdm_sig. apply (dm_ext N j (fun k => b / 2 * (/ (1 - b * ff r L g A N z d1 k) * ff r L g A N z d0 k) + 1)); [intros; ring|].
    apply dm_plus; [|apply mm_const; lra]. apply dm_scal; [lra|]. apply dm_prod; [exact HN| |now apply ff_dm].
    apply (dm_geo0 N HN (fun k => b * ff r L g A N z d1 k)); [|auto]. apply mm_scal; [lra|]. apply (dm_mm N HN 0). now apply ff_dm. }
  assert (PO : 0 < harm N m h).
  { apply dom_harm; [exact HN|]. unfold h, fdm_sig. apply (dom_ext N _ (fun k => b / 2 * (/ (1 - b * ff r L g A N z d1 k) * ff r L g A N z d0 k) + 1)); [intros; ring|].
    apply dom_plus; [|apply mult_const; lra]. apply dom_scal; [lra|]. apply dom_prod; [|now apply ff_dom].
    apply gain_dom0; [exact HN|lra|apply (dom_mult N 0); now apply ff_dom|auto]. }
  assert (LT := dm_lt N HN h n m DD Hnm HmN).
  assert (MV : forall i x, 0 < x -> Cmod (RtoC (sgn_pow i * x)) = x).
  { intros i x Hx. rewrite Cmod_R. unfold sgn_pow. destruct (Z.even i).
    - rewrite Rmult_1_l. apply Rabs_pos_eq. lra.
    - rewrite <- Rabs_Ropp. replace (- (-1 * x)) with x by ring. apply Rabs_pos_eq. lra. }
  eexists. eexists. split; [|split].
  - apply (fdm_signal lg D s A n z_tip nt r_tip L_tip gf d_Q0 d_Q1 d_Qa n_lag g b); auto; lra.
  - apply (fdm_signal lg D s A m z_tip nt r_tip L_tip gf d_Q0 d_Q1 d_Qa n_lag g b); auto; lra.
  - fold N z r L d0 d1. fold h. rewrite !MV by lra. split; assumption.
Qed.

(** C106. The restriction to half the number of samples is needed: harmonic
    N - n is an alias of harmonic n and equally strong. *)
Lemma C106_alias_proof :
  forall (D : Defaults) (s : sample) (A_tip : R) (n : Z) (z_tip r_tip : option R) (n_trapz : option nat)
    (eps_tip alpha_tip : option C) (alpha b : R),
  let N := given_or (d_n_trapz D) n_trapz in let z := given_or (d_z_tip D) z_tip in
  let r := given_or (d_r_tip D) r_tip in
  tip_alpha r eps_tip alpha_tip (RtoC alpha) -> 0 < alpha -> refl_coef_qs s (rr 0) = Ok (Some (RtoC b)) ->
  N <> O -> 0 < A_tip -> 0 < r + z -> 0 < b -> alpha * b < 16 * PI * (r + z) ^ 3 ->
  exists a_n a_m : C,
    pdm_eff_pol_n D s A_tip n z_tip n_trapz r_tip eps_tip alpha_tip = Ok (Some a_n) /\
    pdm_eff_pol_n D s A_tip (Z.of_nat N - n) z_tip n_trapz r_tip eps_tip alpha_tip = Ok (Some a_m) /\
    0 < Cmod a_m /\ Cmod a_m = Cmod a_n.
Proof.
  intros D s A n z_tip r_tip nt eps_tip alt alpha b N z r Ht Ha H HN HA Hz Hb Hs.
  set (h := fun k => / (1 - b * pdm_int alpha r z A N k)).
  assert (PO : forall i, 0 < harm N i h).
  { intros i. apply dom_harm; [exact HN|]; apply gain_signal; [exact HN|exact Hb|now apply pdm_int_dom|]. intros k _. apply pdm_int_bound; auto; lra. }
  assert (MV : forall i x, 0 < x -> Cmod (RtoC (sgn_pow i * (alpha * x))) = alpha * x).
  { intros i x Hx. assert (0 < alpha * x) by (now apply Rmult_lt_0_compat). rewrite Cmod_R. unfold sgn_pow. destruct (Z.even i).
    - rewrite Rmult_1_l. apply Rabs_pos_eq. lra.
    - rewrite <- Rabs_Ropp. replace (- (-1 * (alpha * x))) with (alpha * x) by ring. apply Rabs_pos_eq. lra. }
  eexists. eexists. split; [|split].
  - apply (pdm_signal D s A n z_tip nt r_tip eps_tip alt alpha b); auto; lra.
  - apply (pdm_signal D s A (Z.of_nat N - n) z_tip nt r_tip eps_tip alt alpha b); auto; lra.
  - fold N z r. fold h. rewrite !MV by apply PO. rewrite harm_mirror by exact HN. split; [|reflexivity]. apply Rmult_lt_0_compat; [exact Ha|apply PO].
Qed.

(** C106. Absorbing samples: the higher harmonic is weaker than the lower harmonic
    of the lossless sample with the same (or a larger) modulus of the reflection
    coefficient. *)
Lemma C106_absorbing_proof :
  forall (laggauss : laggauss_t) (D : Defaults) (s s0 : sample) (A_tip : R) (n m : Z) (n_trapz : option nat) (z_tip r_tip : option R) (rho : R) (b : C),
  let N := given_or (d_n_trapz D) n_trapz in let z := given_or (d_z_tip D) z_tip in
  let r := given_or (d_r_tip D) r_tip in
  multilayer s = false -> multilayer s0 = false ->
  refl_coef_qs s (rr 0) = Ok (Some b) -> refl_coef_qs s0 (rr 0) = Ok (Some (RtoC rho)) -> Cmod b <= rho -> 0 < rho ->
  N <> O -> 0 < A_tip -> (Z.abs n < Z.abs m)%Z -> (2 * Z.abs m <= Z.of_nat N)%Z ->
  (forall eps_tip alpha_tip (alpha : R), tip_alpha r eps_tip alpha_tip (RtoC alpha) -> 0 < alpha -> 0 < r + z -> alpha * rho < 16 * PI * (r + z) ^ 3 ->
   exists a_n a_m : C,
    pdm_eff_pol_n D s0 A_tip n z_tip n_trapz r_tip eps_tip alpha_tip = Ok (Some a_n) /\
    pdm_eff_pol_n D s A_tip m z_tip n_trapz r_tip eps_tip alpha_tip = Ok (Some a_m) /\ Cmod a_m < Cmod a_n) /\
  (forall (L_tip : option R) (g_factor : option C) (d_Q0 d_Q1 d_Qa : option R) (n_lag : option nat) (g : R),
   let L := given_or (d_L_tip D) L_tip in
   let d0 := given_or (131 / 100 * L / (L + 2 * r)) d_Q0 in let d1 := given_or (d_d_Q1 D) d_Q1 in
   given_or (d_g_factor D) g_factor = RtoC g -> 0 < r < 4 * L -> 0 < r + 4 * z + 2 * r * d0 -> 0 < r + 4 * z + 2 * r * d1 ->
   r + 2 * (z + 2 * A_tip) + r * d0 < 2 * L * g -> r + 4 * (z + 2 * A_tip) + 2 * r * d0 < 4 * L ->
   r + 2 * (z + 2 * A_tip) + r * d1 < 2 * L * g -> r + 4 * (z + 2 * A_tip) + 2 * r * d1 < 4 * L ->
   rho * Re (fdm_f z d1 r L (RtoC g)) < 1 ->
   forall method, method = None \/ method = Some "bulk"%string ->
   exists a_n a_m : C,
    fdm_eff_pol_n laggauss D s0 A_tip n z_tip n_trapz r_tip L_tip g_factor d_Q0 d_Q1 d_Qa n_lag method = Ok (Some a_n) /\
    fdm_eff_pol_n laggauss D s A_tip m z_tip n_trapz r_tip L_tip g_factor d_Q0 d_Q1 d_Qa n_lag method = Ok (Some a_m) /\ Cmod a_m < Cmod a_n).
Proof.
  intros lg D s s0 A n m nt z_tip r_tip rho b N z r M1 M2 H1 H2 Hb Hr HN HA Hnm Hm. split.
  - intros et alt alpha Ht Ha Hz Hs.
    destruct (C97_pdm_bound_proof D s s0 A m z_tip r_tip nt et alt alpha rho b Ht Ha H1 H2 HN HA Hz Hb Hs) as (a & a0 & E & E0 & L1).
    destruct (C106_pdm_order_proof D s0 A n m z_tip r_tip nt et alt alpha rho Ht Ha H2 HN HA Hz Hr Hs Hnm Hm) as (an & am & En & Em & L2).
    rewrite E0 in Em. injection Em as ->. exists an, a. repeat split; auto. lra.
  - intros L_tip gf d_Q0 d_Q1 d_Qa n_lag g L d0 d1 Hg HrL P0 P1 G0 V0 G1 V1 Hs me Hme.
    destruct (C97_fdm_bound_proof lg D s s0 A m nt z_tip r_tip L_tip gf d_Q0 d_Q1 d_Qa n_lag g rho b Hg M1 M2 H1 H2 HN HA HrL P0 P1
      (Rlt_le _ _ G0) (Rlt_le _ _ V0) (Rlt_le _ _ G1) (Rlt_le _ _ V1) Hb Hs me Hme) as (a & a0 & E & E0 & L1).
    destruct (C106_fdm_order_proof lg D s0 A n m nt z_tip r_tip L_tip gf d_Q0 d_Q1 d_Qa n_lag g rho Hg M2 H2 HN HA HrL P0 P1 G0 V0 G1 V1 Hr Hs Hnm Hm me Hme) as (an & am & En & Em & L2).
    rewrite E0 in Em. injection Em as ->. exists an, a. repeat split; auto. lra.
Qed.

(** C106. The approach-curve script (docs/examples/scripts/si_approach.py:7-12 and
    19-24): silicon, amplitude 20 nm, default tip, harmonics 2, 3, 4: on every
    height of the curve the point-dipole harmonics are ordered, each falls
    strictly along the curve, and after the division by the value at the first
    height (line 29) every later point of the plotted curve lies strictly
    between 0 and 1. *)
Lemma C106_script_proof :
  forall nu (n : Z) (z : R), n = 2%Z \/ n = 3%Z \/ n = 4%Z -> 0 < z ->
  let s := stack [RtoC 1; RtoC (117 / 10)] [] nu in
  exists a0 a a' : C,
    pdm_eff_pol_n defaults0 s (20 / 10 ^ 9) n (Some 0) None None None None = Ok (Some a0) /\
    pdm_eff_pol_n defaults0 s (20 / 10 ^ 9) n (Some z) None None None None = Ok (Some a) /\
    pdm_eff_pol_n defaults0 s (20 / 10 ^ 9) (n + 1) (Some z) None None None None = Ok (Some a') /\
    0 < Cmod a' < Cmod a /\ 0 < Cmod (a / a0)%C < 1.
Proof.
  intros nu n z Hn Hz s. pose proof PI_RGT_0 as HP.
  assert (Eb : refl_coef_qs s (rr 0) = Ok (Some (RtoC ((117 / 10 - 1) / (117 / 10 + 1))))) by (apply bulk_real; lra).
  set (r := 20 / 10 ^ 9). set (alpha := 4 * PI * r ^ 3).
  assert (Pr : 0 < r) by (unfold r; lra). assert (P3 : 0 < r ^ 3) by (now apply pow_lt).
  assert (Pa : 0 < alpha) by (unfold alpha; apply Rmult_lt_0_compat; lra).
  assert (Ht : tip_alpha (given_or (d_r_tip defaults0) None) None None (RtoC alpha)) by apply tip_conductor.
  assert (Hg : forall y, 0 <= y -> alpha * ((117 / 10 - 1) / (117 / 10 + 1)) < 16 * PI * (r + y) ^ 3).
  { intros y Hy. assert (r ^ 3 <= (r + y) ^ 3) by (apply pow_incr; lra). unfold alpha.
    assert (0 < PI * r ^ 3) by (now apply Rmult_lt_0_compat). assert (PI * r ^ 3 <= PI * (r + y) ^ 3) by (apply Rmult_le_compat_l; lra). lra. }
  destruct (C69_pdm_approach_proof defaults0 s (20 / 10 ^ 9) n 0 z None None None None alpha ((117 / 10 - 1) / (117 / 10 + 1)) Ht Pa Eb) as (m1 & m2 & E1 & E2 & M);
    try (unfold given_or; cbn [defaults0 d_r_tip d_n_trapz]); try (fold r); try lra; try discriminate.
  { apply Hg. lra. }
  destruct (C106_pdm_order_proof defaults0 s (20 / 10 ^ 9) n (n + 1) (Some z) None None None None alpha ((117 / 10 - 1) / (117 / 10 + 1)) Ht Pa Eb) as (an & am & En & Em & L2);
    try (unfold given_or; cbn [defaults0 d_r_tip d_n_trapz]); try (fold r); try lra; try discriminate.
  { apply Hg. lra. }
  { destruct Hn as [->|[->| ->]]; cbn; lia. }
  { destruct Hn as [->|[->| ->]]; cbn; lia. }
  exists (RtoC (sgn_pow n * m1)), (RtoC (sgn_pow n * m2)), am.
  rewrite En in E2. injection E2 as ->.
  split; [exact E1|]. split; [exact En|]. split; [exact Em|]. split; [exact L2|].
  assert (S2 : sgn_pow n * sgn_pow n = 1) by (unfold sgn_pow; destruct (Z.even n); ring).
  assert (NS : sgn_pow n <> 0) by (intros K; rewrite K in S2; lra).
  assert (N1 : sgn_pow n * m1 <> 0) by (apply Rmult_integral_contrapositive_currified; lra).
  rewrite <- RtoC_div by exact N1. rewrite Cmod_R. replace (sgn_pow n * m2 / (sgn_pow n * m1)) with (m2 / m1) by (field; split; lra).
  rewrite Rabs_pos_eq by (apply Rlt_le, Rdiv_lt_0_compat; lra). split; [apply Rdiv_lt_0_compat; lra|]. apply Rlt_div_l; lra.
Qed.

(** C106, example: finite dipole with g = 0.7, otherwise default tip, tapping at
    20 nm on eps = 12: the third harmonic is weaker than the second. *)
Lemma C106_example_proof :
  forall laggauss, exists a2 a3,
    fdm_eff_pol_n laggauss defaults0 (stack [RtoC 1; RtoC 12] [] None) (20 / 10 ^ 9) 2 None None None None (Some (RtoC (7 / 10))) None None None None None = Ok (Some a2) /\
    fdm_eff_pol_n laggauss defaults0 (stack [RtoC 1; RtoC 12] [] None) (20 / 10 ^ 9) 3 None None None None (Some (RtoC (7 / 10))) None None None None None = Ok (Some a3) /\
    0 < Cmod a3 < Cmod a2.
Proof.
  intros lg.
  assert (DQ : 0 < 131 / 100 * (300 / 10 ^ 9) / (300 / 10 ^ 9 + 2 * (20 / 10 ^ 9)) < 2) by (split; [apply Rdiv_lt_0_compat; lra|apply Rlt_div_l; lra]).
  apply (C106_fdm_order_proof lg defaults0 _ (20 / 10 ^ 9) 2 3 None None None None (Some (RtoC (7 / 10))) None None None None (7 / 10) ((12 - 1) / (12 + 1)) eq_refl);
    try (unfold given_or; cbn [defaults0 d_r_tip d_z_tip d_n_trapz d_L_tip d_d_Q1]); try reflexivity; try lra; try discriminate; try lia; try (now left).
  - apply bulk_real; lra.
  - rewrite fdm_f_real. unfold Re, RtoC, fst, fdm_r.
    replace (4 * (300 / 10 ^ 9) / (20 / 10 ^ 9 + 4 * 0 + 2 * (20 / 10 ^ 9) * (5 / 10))) with 30 by (field; lra).
    replace (4 * (300 / 10 ^ 9) / (20 / 10 ^ 9)) with 60 by (field; lra).
    assert (0 < ln 30 < ln 60) by (split; [rewrite <- ln_1|]; apply ln_increasing; lra).
    assert (0 < ln 30 / ln 60 <= 1) by (split; [apply Rdiv_lt_0_compat; lra|apply Rle_div_l; lra]). set (q := ln 30 / ln 60) in *.
    replace ((20 / 10 ^ 9 + 2 * 0 + 20 / 10 ^ 9 * (5 / 10)) / (2 * (300 / 10 ^ 9))) with (1 / 20) by (field; lra). nra.
Qed.
