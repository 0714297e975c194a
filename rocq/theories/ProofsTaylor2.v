(** * Proofs: the Taylor series of method 'Q_ave' *)
From Coq Require Import String Reals Lra Lia ZArith List Bool.
From Coquelicot Require Import Rcomplements Complex.
From Verif Require Import Num NumLemmas LimLemmas ModelBase ModelSample ModelTip StackLemmas Spec
  ProofsStackQS ProofsStackQS2 ProofsBulkFF ProofsSym ProofsPassive DemodLemmas ProofsDemod ProofsTip ProofsTip2 ProofsTip3
  ProofsTaylor.
Import ListNotations.
Open Scope R_scope.

(** C50. On a bulk sample method 'Q_ave' of the Taylor series is method 'bulk'
    (so C28 applies to both). *)
Lemma C50_bulk_agrees_proof :
  forall (laggauss : laggauss_t) (D : Defaults) (e0 e1 : C) nu (A_tip : R) (n : Z) (n_trapz n_tayl : option nat)
    (z_tip r_tip L_tip : option R) (g_factor : option C) (d_Q0 d_Q1 d_Qa : option R) (n_lag : option nat),
  let s := stack [e0; e1] [] nu in
  let z := given_or (d_z_tip D) z_tip in let r := given_or (d_r_tip D) r_tip in
  let da := given_or (d_d_Qa D) d_Qa in let nl := given_or (d_n_lag D) n_lag in
  nl <> O -> laguerre_rule (laggauss nl) -> e1 <> RtoC 0 -> (e0 + e1 <> 0)%C -> 0 < z + r * da ->
  fdm_eff_pol_n_taylor laggauss D s A_tip n z_tip r_tip L_tip g_factor d_Q0 d_Q1 d_Qa n_lag (Some "Q_ave"%string) n_trapz n_tayl
  = fdm_eff_pol_n_taylor laggauss D s A_tip n z_tip r_tip L_tip g_factor d_Q0 d_Q1 d_Qa n_lag (Some "bulk"%string) n_trapz n_tayl.
Proof.
  intros lg D e0 e1 nu A n nt J z_tip r_tip L_tip g d_Q0 d_Q1 d_Qa n_lag s z r da nl Hnl HL H1 H2 Hz.
  unfold fdm_eff_pol_n_taylor.
  destruct (fdm_defaults D r_tip L_tip g d_Q0 d_Q1 d_Qa) as [[[[[r' L'] G'] d0'] d1'] da'] eqn:E.
  assert (Er : r' = r /\ da' = da).
  { unfold fdm_defaults in E. rewrite !dflt_given in E. injection E as <- _ _ _ _ <-. auto. }
  destruct Er as [-> ->]. rewrite dflt_given. fold z. cbn [String.eqb Ascii.eqb Bool.eqb].
  change (multilayer s) with false. cbv iota. unfold s.
  change (rr z + rr r * rr da)%rv with (rr (z + r * da)).
  destruct (C23_bulk_averages_exact_proof lg D e0 e1 nu (z + r * da) n_lag) as [-> _]; auto.
  replace (refl_coef_qs (stack [e0; e1] [] nu) (rr 0)) with (@Ok CV (Some ((e1 - e0) / (e1 + e0))%C)) by (symmetry; now apply bulk_qs).
  reflexivity.
Qed.

(** ** A film of permittivity 3 and thickness 1 in vacuum *)
Definition film_beta (y : R) : R := 1 / 2 * (1 - exp (- 2 * y)) / (1 - exp (- 2 * y) / 4).
Lemma film_refl nu q : 0 <= q ->
  refl_coef_qs (stack [RtoC 1; RtoC 3; RtoC 1] [1] nu) (rr q) = Ok (Some (RtoC (film_beta (clipR q)))).
Proof.
  intros Hq. change (stack [RtoC 1; RtoC 3; RtoC 1] [1] nu) with (qs_sample (RtoC 1) [(RtoC 3, 1)] (RtoC 1) nu).
  rewrite refl_coef_qs_struct by (repeat constructor; apply RtoC_neq_0; lra). f_equal.
  unfold Mqs, film_beta. cbn [stackM]. unfold Tqs, Pqs. rewrite Rmult_1_r.
  assert (Hm : 0 <= clipR q).
  { unfold clipR. pose proof MAX_pos. apply Rmin_glb; [|lra]. eapply Rle_trans; [exact Hq|apply Rmax_l]. }
  set (m := clipR q) in *. pose proof (exp_pos m) as Hp.
  assert (HX : exp (- m) = exp m * exp (- 2 * m)) by (rewrite <- exp_plus; f_equal; ring).
  assert (HX1 : 0 < exp (- 2 * m) <= 1).
  { split; [apply exp_pos|]. rewrite <- exp_0. destruct Hm as [Hm|<-]; [left; apply exp_increasing; lra|right; f_equal; ring]. }
  rewrite HX. set (X := exp (- 2 * m)) in *. set (E := exp m) in *.
  cbn [pmul pP pT c00 c01 c10 c11].
  apply div_Some_r.
  - match goal with |- ?w <> _ => replace w with (RtoC (4 / 3 * E * (1 - X / 4))) end.
    + apply RtoC_neq_0. assert (0 < 4 / 3 * E * (1 - X / 4)) by (apply Rmult_lt_0_compat; lra). lra.
    + rewrite <- !RtoC_div by lra. unfold Cdiv. rewrite <- ?RtoC_inv by lra.
      rewrite <- ?RtoC_plus, <- ?RtoC_minus, <- ?RtoC_mult. rewrite <- ?RtoC_plus, <- ?RtoC_minus, <- ?RtoC_mult.
      rewrite <- ?RtoC_plus, <- ?RtoC_minus, <- ?RtoC_mult. f_equal. field.
  - rewrite <- !RtoC_div by lra. unfold Cdiv. rewrite <- ?RtoC_inv by lra.
      rewrite <- ?RtoC_plus, <- ?RtoC_minus, <- ?RtoC_mult. rewrite <- ?RtoC_plus, <- ?RtoC_minus, <- ?RtoC_mult.
      rewrite <- ?RtoC_plus, <- ?RtoC_minus, <- ?RtoC_mult. f_equal. field. lra.
Qed.
Lemma film_beta_bounds y : 0 <= y -> 0 <= film_beta y <= 1 / 2.
Proof.
  intros Hy. unfold film_beta.
  assert (HX : 0 < exp (- 2 * y) <= 1).
  { split; [apply exp_pos|]. rewrite <- exp_0. destruct Hy as [Hy|<-]; [left; apply exp_increasing; lra|right; f_equal; ring]. }
  set (X := exp (- 2 * y)) in *. split.
  - apply Rmult_le_pos; [lra|]. apply Rlt_le, Rinv_0_lt_compat. lra.
  - apply Rle_div_l; lra.
Qed.
Lemma film_beta_incr y y' : 0 <= y -> y < y' -> film_beta y < film_beta y'.
Proof.
  intros Hy H. unfold film_beta.
  assert (HX : 0 < exp (- 2 * y) <= 1).
  { split; [apply exp_pos|]. rewrite <- exp_0. destruct Hy as [Hy|<-]; [left; apply exp_increasing; lra|right; f_equal; ring]. }
  assert (HX' : 0 < exp (- 2 * y') < exp (- 2 * y)) by (split; [apply exp_pos|apply exp_increasing; lra]).
  set (X := exp (- 2 * y)) in *. set (X' := exp (- 2 * y')) in *.
  apply Rminus_gt_0_lt.
  replace (1 / 2 * (1 - X') / (1 - X' / 4) - 1 / 2 * (1 - X) / (1 - X / 4))
    with (3 / 8 * (X - X') / ((1 - X / 4) * (1 - X' / 4))) by (field; lra).
  apply Rdiv_lt_0_compat; [lra|]. apply Rmult_lt_0_compat; lra.
Qed.
Lemma clipR_mono x y : x <= y -> clipR x <= clipR y.
Proof. intros H. unfold clipR. apply Rle_min_compat_r. now apply Rle_max_compat_r. Qed.
Lemma clipR_nonneg x : 0 <= x -> 0 <= clipR x.
Proof. intros H. rewrite <- clipR_0. now apply clipR_mono. Qed.
Lemma MAX_ge_1 : 1 <= MAX_EXP_ARG.
Proof.
  unfold MAX_EXP_ARG. rewrite <- (ln_exp 1) at 1. apply ln_le; [apply exp_pos|].
  pose proof exp_le_3. assert (/ 2 ^ 52 <= 1).
  { rewrite <- Rinv_1. apply Rinv_le_contravar; [lra|]. apply pow_R1_Rle. lra. }
  assert (4 <= 2 ^ 1023). { replace 4 with (2 ^ 2) by ring. apply Rle_pow; [lra|lia]. }
  nra.
Qed.

Lemma Csum_RtoC {A} (f : A -> R) l : Csum (map (fun a => RtoC (f a)) l) = RtoC (Rsum (map f l)).
Proof. induction l as [|a l IH]; [reflexivity|]. cbn [map Csum Rsum fold_right]. unfold Csum, Rsum in IH. rewrite IH, RtoC_plus. reflexivity. Qed.
Lemma Rsum_le {A} (f g : A -> R) l : (forall a, In a l -> f a <= g a) -> Rsum (map f l) <= Rsum (map g l).
Proof.
  induction l as [|a l IH]; intros H; cbn [map Rsum fold_right]; [lra|].
  apply Rplus_le_compat; [apply H; now left|]. apply IH. intros; apply H; now right.
Qed.
Lemma Rsum_lt {A} (f g : A -> R) l : (forall a, In a l -> f a <= g a) -> (exists a, In a l /\ f a < g a) ->
  Rsum (map f l) < Rsum (map g l).
Proof.
  induction l as [|a l IH]; intros H [b [Hb Hlt]]; [destruct Hb|]. cbn [map Rsum fold_right].
  destruct Hb as [->|Hb].
  - apply Rplus_lt_le_compat; [exact Hlt|]. apply Rsum_le. intros; apply H; now right.
  - apply Rplus_le_lt_compat; [apply H; now left|]. apply IH; [intros; apply H; now right|eauto].
Qed.
Lemma Rsum_scal {A} c (f : A -> R) l : Rsum (map (fun a => c * f a) l) = c * Rsum (map f l).
Proof. induction l as [|a l IH]; cbn [map Rsum fold_right]; [ring|]. unfold Rsum in IH. rewrite IH. ring. Qed.

Definition film_ave (rule : list (R * R)) (z : R) : R :=
  Rsum (map (fun xw => snd xw * fst xw * film_beta (clipR (fst xw / (2 * z)))) rule).
Lemma film_above lg D nu z n : dflt (d_n_lag D) n <> O -> 0 < z -> laguerre_rule (lg (dflt (d_n_lag D) n)) ->
  refl_coef_qs_above_surf lg D (stack [RtoC 1; RtoC 3; RtoC 1] [1] nu) (rr z) n
  = Ok (Some (RtoC (film_ave (lg (dflt (d_n_lag D) n)) z))).
Proof.
  intros Hn Hz [HL _]. rewrite (above_ok lg D _ z n (fun q => RtoC (film_beta (clipR q)))).
  - do 2 f_equal. unfold film_ave. rewrite <- Csum_RtoC. apply Csum_ext_in. intros a _. symmetry; apply RtoC_mult.
  - exact Hn.
  - lra.
  - intros xw Hxw. rewrite Forall_forall in HL. apply HL in Hxw. apply film_refl. apply Rlt_le, Rdiv_lt_0_compat; lra.
  - eexists. apply film_refl. lra.
Qed.
Lemma rule_small_node rule : laguerre_rule rule -> exists xw, In xw rule /\ fst xw <= 1.
Proof.
  intros [HF [H1 H2]]. destruct (Exists_dec (fun xw : R * R => fst xw <= 1) rule) as [H|H].
  - intros [x w]. cbn. destruct (Rle_dec x 1); [now left|now right].
  - apply Exists_exists in H. exact H.
  - exfalso. assert (K : forall xw, In xw rule -> 1 < fst xw).
    { intros xw Hin. destruct (Rle_dec (fst xw) 1) as [Hle|Hle]; [|lra]. exfalso. apply H. apply Exists_exists. eauto. }
    destruct rule as [|a rule]; [cbn in H1; lra|].
    assert (L : Rsum (map snd (a :: rule)) < Rsum (map (fun xw => snd xw * fst xw) (a :: rule))).
    { apply Rsum_lt.
      - intros b Hb. pose proof (K b Hb). rewrite Forall_forall in HF. pose proof (HF b Hb). nra.
      - exists a. split; [now left|]. pose proof (K a (or_introl eq_refl)). rewrite Forall_forall in HF. pose proof (HF a (or_introl eq_refl)). nra. }
    lra.
Qed.
Lemma film_ave_decr rule z z' : laguerre_rule rule -> 1 <= z -> z < z' -> film_ave rule z' < film_ave rule z.
Proof.
  intros HR Hz Hz'. assert (HF := proj1 HR). rewrite Forall_forall in HF.
  assert (Q : forall x, 0 < x -> 0 < x / (2 * z') < x / (2 * z)).
  { intros x Hx. split; [apply Rdiv_lt_0_compat; lra|]. apply Rmult_lt_compat_l; [exact Hx|]. apply Rinv_lt_contravar; [|lra]. nra. }
  apply Rsum_lt.
  - intros [x w] Hin. apply HF in Hin. cbn [fst snd] in *. apply Rmult_le_compat_l; [apply Rlt_le, Rmult_lt_0_compat; lra|].
    destruct (Q x (proj1 Hin)) as [Q1 Q2].
    destruct (Rle_lt_or_eq_dec _ _ (clipR_mono _ _ (Rlt_le _ _ Q2))) as [H|H]; [|rewrite H; lra].
    apply Rlt_le, film_beta_incr; [apply clipR_nonneg; lra|exact H].
  - destruct (rule_small_node rule HR) as [[x w] [Hin Hx]]. exists (x, w). split; [exact Hin|]. apply HF in Hin. cbn [fst snd] in *.
    apply Rmult_lt_compat_l; [apply Rmult_lt_0_compat; lra|]. destruct (Q x (proj1 Hin)) as [Q1 Q2].
    pose proof MAX_ge_1. assert (x / (2 * z) <= 1) by (apply Rle_div_l; lra).
    rewrite !clipR_id by (rewrite Rabs_pos_eq; lra). apply film_beta_incr; lra.
Qed.
Lemma film_ave_bounds rule z : laguerre_rule rule -> 0 < z -> 0 <= film_ave rule z <= 1 / 2.
Proof.
  intros HR Hz. destruct HR as [HF [H1 H2]]. rewrite Forall_forall in HF.
  assert (K : forall xw, In xw rule -> 0 <= film_beta (clipR (fst xw / (2 * z))) <= 1 / 2).
  { intros xw Hin. apply HF in Hin. apply film_beta_bounds, clipR_nonneg. apply Rlt_le, Rdiv_lt_0_compat; lra. }
  split.
  - replace 0 with (Rsum (map (fun xw : R * R => 0 * 0) rule)).
    + apply Rsum_le. intros xw Hin. rewrite Rmult_0_l. pose proof (HF xw Hin). pose proof (K xw Hin).
      apply Rmult_le_pos; [apply Rmult_le_pos; lra|lra].
    + rewrite (Rsum_scal 0 (fun _ => 0)). ring.
  - replace (1 / 2) with (Rsum (map (fun xw : R * R => 1 / 2 * (snd xw * fst xw)) rule)).
    + apply Rsum_le. intros xw Hin. pose proof (HF xw Hin). pose proof (K xw Hin). 
      assert (0 <= snd xw * fst xw) by (apply Rmult_le_pos; lra). nra.
    + rewrite (Rsum_scal (1 / 2) (fun xw => snd xw * fst xw)), H2. ring.
Qed.
Lemma film_ave_pos rule z : laguerre_rule rule -> 1 <= z -> 0 < film_ave rule z.
Proof.
  intros HR Hz. apply Rle_lt_trans with (film_ave rule (z + 1)); [apply film_ave_bounds; [exact HR|lra]|].
  apply film_ave_decr; auto; lra.
Qed.

(** the tip of the witness: r = 1, L = 2, g = 1, d_Q0 = 3/2, d_Q1 = 1/2, sampled
    at heights 1 (where f_0 = 0) and 3/2 (where f_1 = 0) *)
Lemma heights2 : tip_height 1 (1 / 4) 2 0 = 1 /\ tip_height 1 (1 / 4) 2 1 = 3 / 2.
Proof.
  unfold tip_height. split.
  - replace (2 * PI * INR 0 / INR 2) with 0 by (simpl; field). rewrite cos_0. ring.
  - replace (2 * PI * INR 1 / INR 2) with PI by (simpl; field). rewrite cos_PI. field.
Qed.
Lemma witness_f : exists f u : R, 0 < f /\ 0 <= u <= 1 /\
  fdm_f 1 (3 / 2) 1 2 (RtoC 1) = RtoC 0 /\ fdm_f (3 / 2) (1 / 2) 1 2 (RtoC 1) = RtoC 0 /\
  fdm_f (3 / 2) (3 / 2) 1 2 (RtoC 1) = RtoC f /\ fdm_f 1 (1 / 2) 1 2 (RtoC 1) = RtoC u.
Proof.
  assert (L8 : 0 < ln (4 * 2 / 1)) by (rewrite <- ln_1; apply ln_increasing; lra).
  exists ((1 - (1 + 2 * (3 / 2) + 1 * (3 / 2)) / (2 * 2)) * (ln (4 * 2 / (1 + 4 * (3 / 2) + 2 * 1 * (3 / 2))) / ln (4 * 2 / 1))).
  exists ((1 - (1 + 2 * 1 + 1 * (1 / 2)) / (2 * 2)) * (ln (4 * 2 / (1 + 4 * 1 + 2 * 1 * (1 / 2))) / ln (4 * 2 / 1))).
  split; [|split; [|split; [|split; [|split]]]].
  - replace (1 - (1 + 2 * (3 / 2) + 1 * (3 / 2)) / (2 * 2)) with (- (3 / 8)) by field.
    assert (H : ln (4 * 2 / (1 + 4 * (3 / 2) + 2 * 1 * (3 / 2))) < 0) by (rewrite <- ln_1; apply ln_increasing; lra).
    set (a := ln (4 * 2 / (1 + 4 * (3 / 2) + 2 * 1 * (3 / 2)))) in *. set (b := ln (4 * 2 / 1)) in *.
    replace (- (3 / 8) * (a / b)) with (3 / 8 * (- a) / b) by (field; lra). apply Rdiv_lt_0_compat; lra.
  - replace (1 - (1 + 2 * 1 + 1 * (1 / 2)) / (2 * 2)) with (1 / 8) by field.
    assert (H : 0 < ln (4 * 2 / (1 + 4 * 1 + 2 * 1 * (1 / 2)))) by (rewrite <- ln_1; apply ln_increasing; lra).
    assert (H' : ln (4 * 2 / (1 + 4 * 1 + 2 * 1 * (1 / 2))) < ln (4 * 2 / 1)) by (apply ln_increasing; lra).
    set (a := ln (4 * 2 / (1 + 4 * 1 + 2 * 1 * (1 / 2)))) in *. set (b := ln (4 * 2 / 1)) in *.
    assert (0 < a / b) by (now apply Rdiv_lt_0_compat). assert (a / b < 1) by (apply Rlt_div_l; lra). lra.
  - unfold fdm_f. replace (4 * 2 / (1 + 4 * 1 + 2 * 1 * (3 / 2))) with 1 by field. rewrite ln_1. unfold Rdiv. rewrite Rmult_0_l. ring.
  - unfold fdm_f. replace (4 * 2 / (1 + 4 * (3 / 2) + 2 * 1 * (1 / 2))) with 1 by field. rewrite ln_1. unfold Rdiv. rewrite Rmult_0_l. ring.
  - unfold fdm_f. rewrite <- RtoC_minus, <- RtoC_mult. reflexivity.
  - unfold fdm_f. rewrite <- RtoC_minus, <- RtoC_mult. reflexivity.
Qed.
Lemma tmean2 (h : R -> C) : tmean 1 (1 / 4) 0 2 h = ((h 1%R + h (3 / 2)%R) / 2)%C.
Proof.
  unfold tmean, cmean. cbn [seq map Csum fold_right]. destruct heights2 as [-> ->]. rewrite !ph_0.
  replace (RtoC (INR 2)) with (RtoC 2) by (f_equal; simpl; ring). unfold Cdiv. ring.
Qed.
Lemma Csum_zeros m : Csum (map (fun k => Cpown (RtoC 0) k) (seq 1 m)) = RtoC 0.
Proof.
  rewrite <- seq_shift, map_map. rewrite (Csum_ext_in _ (fun _ => RtoC 0)); [apply Csum_zero|]. intros k _. cbn [Cpown]. ring.
Qed.
Definition tip_defaults : Defaults := mkDefaults (RtoC 1) 1 1 2 (RtoC 1) (1 / 2) 1 2 16 16 (101 / 100).

(** C50. But for a multilayer sample the Q_ave Taylor series is not a series for
    fdm.eff_pol_n with method 'Q_ave': the sample's response is taken at the
    lowest tip position only.  Over a film (permittivity 3, thickness 1) there is
    a tip for which the two differ at every truncation order, by more than a
    fixed amount, for every Gauss-Laguerre rule. *)
Lemma C50_multilayer_series_refuted_proof :
  exists (D : Defaults) (s : sample) (A_tip : R) (d_Q0 : R), multilayer s = true /\
  forall (laggauss : laggauss_t) (n_lag : option nat),
  let nl := given_or (d_n_lag D) n_lag in
  nl <> O -> laguerre_rule (laggauss nl) ->
  exists (a : C) (delta : R), 0 < delta /\
    fdm_eff_pol_n laggauss D s A_tip 0 None None None None None (Some d_Q0) None None n_lag (Some "Q_ave"%string) = Ok (Some a) /\
    forall J, exists t : C,
      fdm_eff_pol_n_taylor laggauss D s A_tip 0 None None None None (Some d_Q0) None None n_lag (Some "Q_ave"%string) None (Some J) = Ok (Some t) /\
      delta <= Cmod (a - t)%C.
Proof.
  exists tip_defaults, (stack [RtoC 1; RtoC 3; RtoC 1] [1] None), (1 / 4), (3 / 2).
  split; [reflexivity|]. intros lg n_lag nl Hn HR. 
  change nl with (dflt (d_n_lag tip_defaults) n_lag) in Hn. change nl with (dflt (d_n_lag tip_defaults) n_lag) in HR.
  set (rule := lg (dflt (d_n_lag tip_defaults) n_lag)) in *. clear nl.
  destruct witness_f as [f [u [Hf [Hu [F01 [F13 [F03 F11]]]]]]].
  set (s := stack [RtoC 1; RtoC 3; RtoC 1] [1] None).
  set (b1 := film_ave rule 2). set (b3 := film_ave rule (5 / 2)).
  assert (Hb : b3 < b1) by (apply film_ave_decr; auto; lra).
  assert (Hb3 : 0 < b3) by (apply film_ave_pos; auto; lra).
  assert (Hb1 : 0 <= b1 <= 1 / 2) by (apply film_ave_bounds; auto; lra).
  assert (AB : forall x, 0 < x -> refl_coef_qs_above_surf lg tip_defaults s (rr x) n_lag = Ok (Some (RtoC (film_ave rule x)))).
  { intros x Hx. now apply film_above. }
  assert (RG : forall x d, 1 <= x -> 0 < d -> fdm_regular x d 1 2) by (intros; unfold fdm_regular; lra).
  assert (DF : fdm_defaults tip_defaults None None None (Some (3 / 2)) None None = (1, 2, RtoC 1, rr (3 / 2), 1 / 2, 1)) by reflexivity.
  exists (RtoC (1 + b3 * f / 4)), (Rmin (Rmin ((b1 - b3) * f / 4) (b3 * f / 4)) 1).
  assert (P1 : 0 < (b1 - b3) * f) by (apply Rmult_lt_0_compat; lra).
  assert (P2 : 0 < b3 * f) by (apply Rmult_lt_0_compat; lra).
  split; [repeat apply Rmin_glb_lt; lra|]. split.
  - assert (EF : forall x, 1 <= x -> (1 - RtoC (film_ave rule (x + 1)) * fdm_f x (1 / 2) 1 2 (RtoC 1) <> 0)%C ->
      fdm_eff_pol lg tip_defaults s (Some x) None None None (Some (3 / 2)) None None n_lag (Some "Q_ave"%string)
      = Ok (Some (1 + RtoC (film_ave rule (x + 1)) * fdm_f x (3 / 2) 1 2 (RtoC 1) / (2 * (1 - RtoC (film_ave rule (x + 1)) * fdm_f x (1 / 2) 1 2 (RtoC 1))))%C)).
    { intros x Hx Hne. unfold fdm_eff_pol. rewrite DF. cbn [dflt String.eqb Ascii.eqb Bool.eqb].
      replace (rr x + rr 1 * rr 1)%rv with (rr (x + 1)) by (unfold radd, rmul, rr; cbn [olift2]; do 2 f_equal; ring).
      rewrite AB by lra. cbn [rbind]. rewrite (geom_ok _ _ _ _ (RtoC 1) (RG x (3/2) Hx ltac:(lra))), (geom_ok _ _ _ _ (RtoC 1) (RG x (1/2) Hx ltac:(lra))).
      unfold cmul, csub, rc. cbn [olift2]. rewrite cdiv_ok; [reflexivity|]. now apply Cmult_neq_0; [exact C2_neq_0|]. }
    unfold fdm_eff_pol_n. cbn [dflt]. change (d_z_tip tip_defaults) with 1.
    rewrite (demod_tip tip_defaults _ (fun x => 1 + RtoC (film_ave rule (x + 1)) * fdm_f x (3 / 2) 1 2 (RtoC 1) / (2 * (1 - RtoC (film_ave rule (x + 1)) * fdm_f x (1 / 2) 1 2 (RtoC 1))))%C).
    + change (given_or (d_n_trapz tip_defaults) None) with 2%nat. rewrite tmean2. do 2 f_equal.
      rewrite F01, F13, F03, F11. replace (3 / 2 + 1) with (5 / 2) by field. replace (1 + 1) with 2 by ring. fold b1 b3.
      replace (RtoC b1 * 0 / (2 * (1 - RtoC b1 * RtoC u)))%C with (RtoC 0) by (unfold Cdiv; ring).
      replace (2 * (1 - RtoC b3 * 0))%C with (RtoC 2) by ring.
      rewrite <- !RtoC_mult, <- RtoC_div, <- !RtoC_plus, <- RtoC_div by lra. f_equal. field.
    + discriminate.
    + intros x. unfold fdm_eff_pol. rewrite DF. cbn [dflt String.eqb Ascii.eqb Bool.eqb].
      destruct (above_total lg tip_defaults s (rr x + rr 1 * rr 1)%rv n_lag) as [v ->]; [cbn; lia| |cbn [rbind]; eauto].
      exact Hn.
    + change (given_or (d_n_trapz tip_defaults) None) with 2%nat. intros k Hk. apply EF.
      * destruct heights2 as [H0 H1]. destruct k as [|[|k]]; [rewrite H0; lra|rewrite H1; lra|lia].
      * destruct heights2 as [H0 H1]. destruct k as [|[|k]]; [rewrite H0, F11|rewrite H1, F13|lia].
        -- replace (1 + 1) with 2 by ring. fold b1. rewrite <- RtoC_mult, <- RtoC_minus. apply RtoC_neq_0. nra.
        -- replace (1 - RtoC (film_ave rule (3 / 2 + 1)) * 0)%C with (RtoC 1) by ring. exact C1_neq_0.
  - assert (TL : forall J, fdm_eff_pol_n_taylor lg tip_defaults s (1 / 4) 0 None None None None (Some (3 / 2)) None None n_lag (Some "Q_ave"%string) None (Some (S J))
      = Ok (Some (1 + (RtoC b1 * RtoC f / 2 * Csum (map (fun j => Cpown (RtoC 0) j) (seq 0 J))) / 2)%C)).
    { intros J. unfold fdm_eff_pol_n_taylor. rewrite DF. cbn [dflt String.eqb Ascii.eqb Bool.eqb]. change (d_z_tip tip_defaults) with 1.
      replace (rr 1 + rr 1 * rr 1)%rv with (rr 2) by (unfold radd, rmul, rr; cbn [olift2]; do 2 f_equal; ring).
      rewrite AB by lra. fold b1. cbn [rbind].
      rewrite taylor_sum.
      - cbn [Z.eqb]. do 2 f_equal. change (given_or (d_n_trapz tip_defaults) None) with 2%nat. rewrite tmean2, F01, F03, F13, F11.
        f_equal. replace (RtoC b1 * 0)%C with (RtoC 0) by ring. unfold Cdiv. ring.
      - discriminate.
      - intros k Hk. change (given_or (d_n_trapz tip_defaults) None) with 2%nat in Hk |- *. apply RG; [|lra]. destruct heights2 as [H0 H1].
        destruct k as [|[|k]]; [rewrite H0; lra|rewrite H1; lra|lia].
      - intros k Hk. change (given_or (d_n_trapz tip_defaults) None) with 2%nat in Hk |- *. apply RG; [|lra]. destruct heights2 as [H0 H1].
        destruct k as [|[|k]]; [rewrite H0; lra|rewrite H1; lra|lia]. }
    assert (M1 := Rmin_l (Rmin ((b1 - b3) * f / 4) (b3 * f / 4)) 1).
    assert (M2 := Rmin_r (Rmin ((b1 - b3) * f / 4) (b3 * f / 4)) 1).
    assert (M3 := Rmin_l ((b1 - b3) * f / 4) (b3 * f / 4)).
    assert (M4 := Rmin_r ((b1 - b3) * f / 4) (b3 * f / 4)).
    intros [|[|J]].
    + exists (RtoC 0). split.
      * unfold fdm_eff_pol_n_taylor. rewrite DF. cbn [dflt String.eqb Ascii.eqb Bool.eqb].
        destruct (above_total lg tip_defaults s (rr (d_z_tip tip_defaults) + rr 1 * rr 1)%rv n_lag) as [v ->]; [cbn; lia|exact Hn|].
        reflexivity.
      * rewrite <- RtoC_minus, Cmod_R, Rabs_pos_eq by lra. lra.
    + exists (RtoC 1). split.
      * rewrite TL. do 2 f_equal. cbn [seq map Csum fold_right]. unfold Cdiv. ring.
      * rewrite <- RtoC_minus, Cmod_R, Rabs_pos_eq by lra. lra.
    + exists (RtoC (1 + b1 * f / 4)). split.
      * rewrite TL. do 2 f_equal. cbn [seq map Csum fold_right]. change (fold_right Cplus (RtoC 0)) with Csum. rewrite Csum_zeros.
        cbn [Cpown]. replace (1 + 0)%C with (RtoC 1) by ring. rewrite Cmult_1_r, <- RtoC_mult, <- !RtoC_div, <- RtoC_plus by lra. f_equal. field.
      * rewrite <- RtoC_minus, Cmod_R. replace (1 + b3 * f / 4 - (1 + b1 * f / 4)) with (- ((b1 - b3) * f / 4)) by field.
        rewrite Rabs_Ropp, Rabs_pos_eq by lra. lra.
Qed.
(** C50. Example: Gauss-Laguerre rules exist (order 1 and 2) *)
Lemma C50_example_proof : laguerre_rule [(1, 1)] /\ laguerre_rule (laggauss12 2%nat).
Proof. split; [|apply laggauss12_rule]. repeat constructor; cbn; lra. Qed.
