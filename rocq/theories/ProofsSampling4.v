(** * Proofs: sampling error of the finite-dipole harmonics (C80) *)
From Coq Require Import String Reals Lra Lia ZArith List Bool.
From Coquelicot Require Import Coquelicot.
From Coq Require Import List.
From Verif Require Import Num NumLemmas LimLemmas ModelBase ModelSample ModelTip StackLemmas Spec SpecSampling
  ProofsStackQS ProofsStackQS2 ProofsBulkFF ProofsSym ProofsPassive DemodLemmas ProofsDemod ProofsTip ProofsTip2 ProofsTip3 ProofsTaylor
  ProofsDefault ProofsSampling ProofsSampling2 PolyBall ChebLog.
Import ListNotations.
Open Scope R_scope.

(** ** sampling of a function with a geometric rate *)
Lemma sampling_geo (D : Defaults) f (c : C) x0 A n N s M d : 1 < s -> A <> 0 ->
  continuous_between (x0 - Rabs A) (x0 + Rabs A) f -> geo s M (fun t => f (x0 + A * t)%R - c)%C ->
  (1 <= d)%nat -> (d + Z.abs_nat n <= N)%nat ->
  Cmod (tmean (x0 - A) A n N f - fourier_coefficient f x0 A n)%C <= 2 * (M / s ^ d).
Proof.
  intros Hs HA Hc HG H1 Hd. apply le_epsilon. intros eps He.
  destruct (geo_trunc s Hs M _ (pred d) (eps / 2) HG ltac:(lra)) as (Q & HQ & B).
  replace (S (pred d)) with d in B by lia.
  assert (HQc : pdeg (pred d) (fun t => Q t + c)%C).
  { apply pdeg_add; [exact HQ|]. apply (pdeg_le 0); [lia|]. apply (pd_const c). reflexivity. }
  destruct (pdeg_poly _ _ HQc) as [a Ha]. replace (S (pred d)) with d in Ha by lia.
  assert (HN : N <> O) by lia.
  destruct (C79_best_polynomial_proof D f x0 A n (Some N) (fun m => a m / RtoC (A ^ m))%C d (M / s ^ d + eps / 2) Hc Hd HN) as (v & Ev & Bv).
  - intros x Hx. set (t := (x - x0) / A). assert (RA : 0 < Rabs A) by now apply Rabs_pos_lt.
    assert (Ht : -1 <= t <= 1).
    { assert (T : Rabs t <= 1).
      { unfold t, Rdiv. rewrite Rabs_mult, Rabs_inv. apply Rmult_le_reg_r with (Rabs A); [exact RA|]. rewrite Rmult_assoc, Rinv_l by lra.
        rewrite Rmult_1_r, Rmult_1_l. apply Rabs_le. lra. }
      apply Rabs_le_between in T. lra. }
    specialize (B t Ht). cbv beta in B. replace (x0 + A * t) with x in B by (unfold t; field; exact HA).
    replace (poly (fun m => a m / RtoC (A ^ m))%C d (x - x0)) with (Q t + c)%C; [replace (f x - (Q t + c))%C with (f x - c - Q t)%C by ring; exact B|].
    rewrite Ha. unfold poly. apply Csum_to_ext. intros m _. replace (x - x0) with (A * t) by (unfold t; field; exact HA).
    rewrite Rpow_mult_distr, RtoC_mult. field. intros E. apply (f_equal fst) in E. cbn in E. revert E. now apply pow_nonzero.
  - rewrite (demod_tmean D f x0 A n (Some N)) in Ev by exact HN. cbn [given_or] in Ev. injection Ev as <-. lra.
Qed.
Lemma tends_real a b x (h : R -> R) : continuity_pt h x -> tends (near a b x) (fun y => RtoC (h y)) (RtoC (h x)).
Proof.
  intros H eps He. destruct (H eps He) as (al & Ha & K). exists (2 / al). intros y [_ Hy]. rewrite <- RtoC_minus, Cmod_R.
  destruct (Req_dec y x) as [->|Ne]; [rewrite Rminus_eq_0, Rabs_R0; exact He|].
  apply K. split; [split; [exact I|auto]|]. unfold R_met, R_dist. cbn. pose proof (Rabs_pos (y - x)).
  apply (Rmult_le_compat_l al) in Hy; [|lra]. replace (al * (2 / al * Rabs (y - x))) with (2 * Rabs (y - x)) in Hy by (field; lra).
  unfold R_dist. lra.
Qed.

(** ** the geometry function *)
(** bound of the geometry function on an ellipse around the swept interval *)
Definition fdm_rate (z A d r L : R) (g : C) (s w : R) : R :=
  (Cmod (g - RtoC ((r + 2 * (z + A) + r * d) / (2 * L)))%C + A / L * s)
  * (ln (4 * L / (r + 4 * z + 2 * r * d) * ((1 - w) / (1 - w * s)) ^ 2) / ln (4 * L / r)).
Lemma geo_fdm_f z A d r L g s w : 1 < s -> 0 < r -> 0 < A -> r < 4 * L -> 0 < r + 4 * z + 2 * r * d ->
  r + 4 * (z + A) + 2 * r * d <= 4 * L -> 0 < w -> w * s < 1 ->
  1 + (r + 4 * z + 2 * r * d) / (4 * A) = (w + / w) / 2 ->
  geo s (fdm_rate z A d r L g s w) (fun t => fdm_f (z + A + A * t) d r L g).
Proof.
  intros Hs Hr HA HL HX HX4 Hw Hws Ew. set (X := r + 4 * z + 2 * r * d) in *.
  assert (W1 : w < 1) by nra. assert (LP : 0 < L) by lra.
  assert (EX : X * w = 2 * A * (1 - w) ^ 2).
  { assert (E : X = 4 * A * ((w + / w) / 2 - 1)) by (rewrite <- Ew; field; lra). rewrite E. field. lra. }
  assert (PL : 0 < ln (4 * L / r)) by (rewrite <- ln_1; apply ln_increasing; [lra|]; apply Rmult_lt_reg_r with r; [lra|]; unfold Rdiv; rewrite Rmult_assoc, Rinv_l by lra; lra).
  assert (K1 : 1 <= 2 * w * L / A).
  { apply Rmult_le_reg_r with A; [lra|]. unfold Rdiv. rewrite Rmult_assoc, Rinv_l, Rmult_1_r, Rmult_1_l by lra.
    assert (H4 : X + 4 * A <= 4 * L) by (unfold X; lra).
    assert (w * (X + 4 * A) = 2 * A * (1 + w ^ 2)) by nra.
    assert (w * (X + 4 * A) <= w * (4 * L)) by (apply Rmult_le_compat_l; lra). nra. }
  assert (EL : 4 * L / X * ((1 - w) / (1 - w * s)) ^ 2 = 2 * w * L / A * / (1 - w * s) ^ 2).
  { assert (X <> 0) by lra. assert (P2 : X = 2 * A * (1 - w) ^ 2 / w) by (rewrite <- EX; field; lra). rewrite P2. field. repeat split; lra. }
  assert (NS : 0 < 1 - w * s) by lra.
  assert (LN : ln (4 * L / X * ((1 - w) / (1 - w * s)) ^ 2) = ln (2 * w * L / A) + - 2 * ln (1 - w * s)).
  { rewrite EL, ln_mult, ln_Rinv by (try apply Rinv_0_lt_compat; try apply pow_lt; lra). cbn [pow]. rewrite Rmult_1_r, ln_mult by lra. ring. }
  apply (geo_ext s ((Cmod (g - RtoC ((r + 2 * (z + A) + r * d) / (2 * L)))%C + Cmod (RtoC (- (A / L))) * s)
    * ((Cmod (RtoC (ln (2 * w * L / A))) + Cmod (RtoC (-1)) * (- 2 * ln (1 - w * s))) * Cmod (RtoC (/ ln (4 * L / r))))) _
    (fun t => ((g - RtoC ((r + 2 * (z + A) + r * d) / (2 * L))) + RtoC (- (A / L)) * RtoC t)
       * ((RtoC (ln (2 * w * L / A)) + RtoC (-1) * RtoC (ln (1 + 2 * w * t + w ^ 2))) * RtoC (/ ln (4 * L / r))))%C).
  - right. unfold fdm_rate. fold X. rewrite LN, !Cmod_R. rewrite Rabs_Ropp, (Rabs_pos_eq (A / L)) by (apply Rlt_le, Rdiv_lt_0_compat; lra).
    assert (0 <= ln (2 * w * L / A)) by (rewrite <- ln_1; apply ln_le; lra). rewrite (Rabs_pos_eq (ln _)) by assumption.
    rewrite (Rabs_left (-1)) by lra. rewrite (Rabs_pos_eq (/ _)) by (apply Rlt_le, Rinv_0_lt_compat; exact PL). unfold Rdiv. ring.
  - intros t Ht. unfold fdm_f.
    assert (Q1 : 0 < 1 + 2 * w * t + w ^ 2).
    { pose proof (quad_pos (- w) t Ht) as Q. rewrite Rabs_Ropp, Rabs_pos_eq in Q by lra. assert (0 < (1 - w) ^ 2) by (apply pow_lt; lra). nra. }
    assert (E4 : r + 4 * (z + A + A * t) + 2 * r * d = 2 * A / w * (1 + 2 * w * t + w ^ 2)).
    { replace (r + 4 * (z + A + A * t) + 2 * r * d) with (X + 4 * A + 4 * A * t) by (unfold X; ring).
      assert (P2 : X = 2 * A * (1 - w) ^ 2 / w) by (rewrite <- EX; field; lra). rewrite P2. field. lra. }
    rewrite E4. replace (4 * L / (2 * A / w * (1 + 2 * w * t + w ^ 2))) with (2 * w * L / A * / (1 + 2 * w * t + w ^ 2)) by (field; repeat split; lra).
    rewrite ln_mult, ln_Rinv by (try apply Rinv_0_lt_compat; lra).
    replace ((r + 2 * (z + A + A * t) + r * d) / (2 * L)) with ((r + 2 * (z + A) + r * d) / (2 * L) + A / L * t) by (field; lra).
    change ((ln (2 * w * L / A) + - ln (1 + 2 * w * t + w ^ 2)) / ln (4 * L / r)) with ((ln (2 * w * L / A) + - ln (1 + 2 * w * t + w ^ 2)) * / ln (4 * L / r)).
    rewrite (RtoC_mult _ (/ ln (4 * L / r))), (RtoC_plus (ln (2 * w * L / A))), (RtoC_plus _ (A / L * t)), (RtoC_mult (A / L)), !RtoC_opp.
    replace (RtoC (-1)) with (- RtoC 1)%C by (unfold RtoC, Copp; cbn [fst snd]; f_equal; ring). ring.
  - apply geo_mul; [exact Hs| |].
    + apply geo_add; [apply geo_const|]. apply geo_mul; [exact Hs|apply geo_const|now apply geo_id].
    + apply geo_mul; [exact Hs| |apply geo_const]. apply geo_add; [apply geo_const|]. apply geo_mul; [exact Hs|apply geo_const|].
      apply geo_log; [exact Hs|lra|exact Hws].
Qed.
Lemma tends_fdm_f a b x d r L g : 0 < r -> 0 < L -> 0 < r + 4 * x + 2 * r * d -> tends (near a b x) (fun y => fdm_f y d r L g) (fdm_f x d r L g).
Proof.
  intros Hr HL HX. assert (M := near_mono a b x). unfold fdm_f. apply tends_mult; [exact M| |].
  - apply tends_minus; [exact M|apply tends_const|]. apply (tends_real a b x (fun y => (r + 2 * y + r * d) / (2 * L))).
    apply continuity_pt_filterlim. apply (ex_derive_continuous (fun y => (r + 2 * y + r * d) / (2 * L))). auto_derive. trivial.
  - apply (tends_real a b x (fun y => ln (4 * L / (r + 4 * y + 2 * r * d)) / ln (4 * L / r))).
    apply continuity_pt_filterlim. apply (ex_derive_continuous (fun y => ln (4 * L / (r + 4 * y + 2 * r * d)) / ln (4 * L / r))).
    auto_derive. split; [lra|]. split; [|trivial]. apply Rmult_lt_0_compat; [lra|]. apply Rinv_0_lt_compat. lra.
Qed.

(** C80. Sampling error of fdm.eff_pol_n over a bulk sample: for any s > 1 for which
    the (explicit) bound rho_1 of |beta f_1| on an ellipse around the swept heights
    is below 1, the error against the documented integral is at most
    rho_0 / (1 - rho_1) s^-(n_trapz - |n|). *)
Lemma C80_fdm_error_proof :
  forall (laggauss : laggauss_t) (D : Defaults) (e0 e1 : C) nu (A_tip : R) (n : Z) (n_trapz : option nat)
    (z_tip r_tip L_tip : option R) (g_factor : option C) (d_Q0 d_Q1 d_Qa : option R) (n_lag : option nat) (s w0 w1 : R),
  let sam := stack [e0; e1] [] nu in let beta := ((e1 - e0) / (e1 + e0))%C in
  let N := given_or (d_n_trapz D) n_trapz in let z := given_or (d_z_tip D) z_tip in
  let r := given_or (d_r_tip D) r_tip in let L := given_or (d_L_tip D) L_tip in let g := given_or (d_g_factor D) g_factor in
  let d0 := given_or (131 / 100 * L / (L + 2 * r)) d_Q0 in let d1 := given_or (d_d_Q1 D) d_Q1 in
  let X := fun d => r + 4 * z + 2 * r * d in
  let rho := fun d w => Cmod beta * ((Cmod (g - RtoC ((r + 2 * (z + A_tip) + r * d) / (2 * L)))%C + A_tip / L * s)
     * (ln (4 * L / X d * ((1 - w) / (1 - w * s)) ^ 2) / ln (4 * L / r))) in
  e1 <> RtoC 0 -> (e0 + e1 <> 0)%C -> (Z.abs_nat n < N)%nat -> 0 < A_tip -> 0 < r < 4 * L -> 1 < s ->
  (forall d w, In (d, w) [(d0, w0); (d1, w1)] ->
     0 < X d /\ X d + 4 * A_tip <= 4 * L /\ 0 < w /\ w * s < 1 /\ 1 + X d / (4 * A_tip) = (w + / w) / 2) ->
  rho d1 w1 < 1 ->
  exists v : C, fdm_eff_pol_n laggauss D sam A_tip n z_tip n_trapz r_tip L_tip g_factor d_Q0 d_Q1 d_Qa n_lag None = Ok (Some v) /\
    Cmod (v - fourier_coefficient (fun x => 1 + beta * fdm_f x d0 r L g / (2 * (1 - beta * fdm_f x d1 r L g)))%C (z + A_tip) A_tip n)%C
    <= rho d0 w0 / (1 - rho d1 w1) / s ^ (N - Z.abs_nat n).
Proof.
  intros lg D e0 e1 nu A n nt z_tip r_tip L_tip gf d_Q0 d_Q1 d_Qa n_lag s w0 w1 sam beta N z r L g d0 d1 X rho
    H1 H2 Hn HA Hr Hs HD Hrho.
  destruct (HD d0 w0 ltac:(cbn; auto)) as (X0 & Y0 & P0 & S0 & E0). destruct (HD d1 w1 ltac:(cbn; auto)) as (X1 & Y1 & P1 & S1 & E1).
  assert (LP : 0 < L) by lra. assert (HN : N <> O) by lia.
  assert (Hb : refl_coef_qs sam (rr 0) = Ok (Some beta)) by (now apply bulk_qs).
  set (f := fun x => (1 + beta * fdm_f x d0 r L g / (2 * (1 - beta * fdm_f x d1 r L g)))%C).
  assert (G0 : geo s (rho d0 w0) (fun t => beta * fdm_f (z + A + A * t) d0 r L g)%C).
  { apply geo_scal; [exact Hs|]. apply (geo_fdm_f z A d0 r L g s w0); unfold X in *; try assumption; try lra. }
  assert (G1 : geo s (rho d1 w1) (fun t => beta * fdm_f (z + A + A * t) d1 r L g)%C).
  { apply geo_scal; [exact Hs|]. apply (geo_fdm_f z A d1 r L g s w1); unfold X in *; try assumption; try lra. }
  assert (BB : forall x, z + A - Rabs A <= x <= z + A + Rabs A ->
     fdm_regular x d0 r L /\ fdm_regular x d1 r L /\ (1 - beta * fdm_f x d1 r L g <> 0)%C).
  { intros x Hx. rewrite Rabs_pos_eq in Hx by lra. split; [unfold fdm_regular; unfold X in *; lra|]. split; [unfold fdm_regular; unfold X in *; lra|].
    assert (Ht : -1 <= (x - (z + A)) / A <= 1).
    { split; apply Rmult_le_reg_r with A; try lra; unfold Rdiv; rewrite Rmult_assoc, Rinv_l by lra; lra. }
    pose proof (geo_bounded s Hs _ _ G1 _ Ht) as B. cbv beta in B. replace (z + A + A * ((x - (z + A)) / A)) with x in B by (field; lra).
    exact (proj1 (Cmod_1_minus _ _ B Hrho)). }
  exists (tmean z A n N f). split.
  - rewrite eff_pol_n_none_bulk by reflexivity.
    apply (fdm_n_value lg D sam A n z_tip nt r_tip L_tip gf d_Q0 d_Q1 d_Qa n_lag beta); auto. fold N z r L d0 d1 g.
    intros k _. cbv zeta. apply BB. pose proof (tip_height_between (z + A) A N k) as T. replace (z + A - A) with z in T by ring. exact T.
  - assert (GF : geo s (/ 2 * (rho d0 w0 * / (1 - rho d1 w1))) (fun t => f (z + A + A * t)%R - RtoC 1)%C).
    { apply (geo_ext s (Cmod (RtoC (/ 2)) * (rho d0 w0 * / (1 - rho d1 w1))) _
        (fun t => RtoC (/ 2) * ((beta * fdm_f (z + A + A * t) d0 r L g) * / (1 - beta * fdm_f (z + A + A * t) d1 r L g)))%C).
      - rewrite Cmod_R, Rabs_pos_eq by lra. lra.
      - intros t Ht. unfold f. destruct (BB (z + A + A * t)) as (_ & _ & NZ); [rewrite Rabs_pos_eq by lra; nra|]. rewrite RtoC_inv by lra. field.
        split; [exact NZ|exact C2_neq_0].
      - apply geo_scal; [exact Hs|]. apply geo_mul; [exact Hs|exact G0|]. now apply geo_inv. }
    assert (Hc : continuous_between (z + A - Rabs A) (z + A + Rabs A) f).
    { apply continuous_tends. intros x Hx. destruct (BB x Hx) as (R0 & R1 & NZ). assert (M := near_mono (z + A - Rabs A) (z + A + Rabs A) x).
      unfold f. apply tends_plus; [exact M|apply tends_const|]. apply tends_div; [exact M| | |].
      - apply tends_scal; [exact M|]. apply tends_fdm_f; apply R0.
      - apply tends_scal; [exact M|]. apply tends_minus; [exact M|apply tends_const|]. apply tends_scal; [exact M|]. apply tends_fdm_f; apply R1.
      - apply Cmult_neq_0; [exact C2_neq_0|exact NZ]. }
    pose proof (sampling_geo D f (RtoC 1) (z + A) A n N s _ (N - Z.abs_nat n) Hs ltac:(lra) Hc GF ltac:(lia) ltac:(lia)) as S.
    replace (z + A - A) with z in S by ring. eapply Rle_trans; [exact S|]. right.
    assert (0 < s ^ (N - Z.abs_nat n)) by (apply pow_lt; lra). field. split; [|lra]. lra.
Qed.
