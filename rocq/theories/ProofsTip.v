(** * Proofs: the finite and point dipole models *)
From Coq Require Import String Reals Lra Lia ZArith List Bool.
From Coquelicot Require Import Rcomplements Complex.
From Verif Require Import Num NumLemmas ModelBase ModelSample ModelTip StackLemmas Spec
  ProofsStackQS ProofsStackQS2 ProofsSym ProofsPassive DemodLemmas ProofsDemod.
Import ListNotations.
Open Scope R_scope.

Lemma dflt_given {A} (d : A) o : dflt d o = given_or d o.
Proof. reflexivity. Qed.

Lemma ln_neq_0 x : 0 < x -> x <> 1 -> ln x <> 0.
Proof.
  intros H1 H2 E. apply H2. rewrite <- (exp_ln x H1), E. apply exp_0.
Qed.

Lemma geom_ok z d r L g : fdm_regular z d r L ->
  fdm_geom_func (rr z) (rr d) (rr r) (rr L) (Some g) = Some (fdm_f z d r L g).
Proof.
  intros (Hr & HL & Hp & H4). unfold fdm_geom_func, radd, rmul, rr. cbn [olift2].
  rewrite !rdiv_ok by lra. unfold ofR. cbn [olift1].
  assert (H1 : 0 < 4 * L / (r + 4 * z + 2 * d * r)) by (apply Rdiv_lt_0_compat; lra).
  assert (H2 : 0 < 4 * L / r) by (apply Rdiv_lt_0_compat; lra).
  assert (H3 : ln (4 * L / r) <> 0).
  { apply ln_neq_0; [exact H2|]. intros E. apply H4.
    replace (4 * L) with (4 * L / r * r) by (field; lra). rewrite E. ring. }
  rewrite !rln_ok by assumption. cbn [olift1]. unfold csub, cmul. cbn [olift2].
  rewrite cdiv_ok by (now apply RtoC_neq_0). f_equal. unfold fdm_f. rewrite (RtoC_div (ln _)) by exact H3.
  replace (r + 4 * z + 2 * r * d) with (r + 4 * z + 2 * d * r) by ring.
  replace (r * d) with (d * r) by ring. unfold Cdiv. ring.
Qed.

Lemma geom_multi_eq z d r L g :
  fdm_geom_func_multi (rr z) (rr (z + r * d)) (rr r) (rr L) g = fdm_geom_func (rr z) (rr d) (rr r) (rr L) g.
Proof.
  unfold fdm_geom_func_multi, fdm_geom_func, radd, rmul, rr. cbn [olift2].
  replace (r + z + (z + r * d)) with (r + 2 * z + d * r) by ring.
  replace (r + 2 * z + 2 * (z + r * d)) with (r + 4 * z + 2 * d * r) by ring. reflexivity.
Qed.

(** the default depth of charge 0 *)
Lemma d_Q0_default r L : 0 < r -> 0 < L ->
  (rr (131 / 100) * rr L / (rr L + rr 2 * rr r))%rv = rr (131 / 100 * L / (L + 2 * r)).
Proof. intros Hr HL. unfold radd, rmul, rr. cbn [olift2]. apply rdiv_ok. lra. Qed.

Lemma fdm_defaults_eq D r_tip L_tip g d_Q0 d_Q1 d_Qa :
  let r := given_or (d_r_tip D) r_tip in let L := given_or (d_L_tip D) L_tip in
  0 < r -> 0 < L ->
  fdm_defaults D r_tip L_tip g d_Q0 d_Q1 d_Qa
  = (r, L, given_or (d_g_factor D) g, rr (given_or (131 / 100 * L / (L + 2 * r)) d_Q0),
     given_or (d_d_Q1 D) d_Q1, given_or (d_d_Qa D) d_Qa).
Proof.
  intros r L Hr HL. unfold fdm_defaults. rewrite !dflt_given. fold r L.
  rewrite d_Q0_default by assumption. destruct d_Q0; reflexivity.
Qed.

Lemma bulk_multi_false e0 e1 nu : multilayer (stack [e0; e1] [] nu) = false.
Proof. reflexivity. Qed.

(** C25. On a bulk sample the methods 'bulk', 'Q_ave' and (if there is any
    contrast) 'multi' of fdm.eff_pol return the same value, and no method
    means 'bulk'; for every tip with positive size and charges inside it. *)
Lemma C25_methods_agree_proof :
  forall (laggauss : laggauss_t) (D : Defaults) (e0 e1 : C) nu (z_tip r_tip L_tip : option R)
    (g_factor : option C) (d_Q0 d_Q1 d_Qa : option R) (n_lag : option nat),
  let s := stack [e0; e1] [] nu in
  let z := given_or (d_z_tip D) z_tip in let r := given_or (d_r_tip D) r_tip in
  let L := given_or (d_L_tip D) L_tip in let n := given_or (d_n_lag D) n_lag in
  let d0 := given_or (131 / 100 * L / (L + 2 * r)) d_Q0 in
  let d1 := given_or (d_d_Q1 D) d_Q1 in let da := given_or (d_d_Qa D) d_Qa in
  let alpha := fdm_eff_pol laggauss D s z_tip r_tip L_tip g_factor d_Q0 d_Q1 d_Qa n_lag in
  n <> O -> laguerre_rule (laggauss n) ->
  e1 <> RtoC 0 -> (e0 + e1 <> 0)%C ->
  0 <= z -> 0 < r -> 0 < L -> 0 < d0 -> 0 < d1 -> 0 < da ->
  alpha None = alpha (Some "bulk"%string) /\
  alpha (Some "Q_ave"%string) = alpha (Some "bulk"%string) /\
  (e0 <> e1 -> alpha (Some "multi"%string) = alpha (Some "bulk"%string)).
Proof.
  intros lg D e0 e1 nu z_tip r_tip L_tip g d_Q0 d_Q1 d_Qa n_lag s z r L n d0 d1 da alpha
    Hn Hrule H1 H2 Hz Hr HL Hd0 Hd1 Hda.
  assert (Hdef : fdm_defaults D r_tip L_tip g d_Q0 d_Q1 d_Qa = (r, L, given_or (d_g_factor D) g, rr d0, d1, da)).
  { unfold fdm_defaults. rewrite !dflt_given. fold r L d1 da.
    rewrite d_Q0_default by assumption. unfold d0. destruct d_Q0; reflexivity. }
  assert (HB : refl_coef_qs s (rr 0) = Ok (Some ((e1 - e0) / (e1 + e0))%C)) by (now apply bulk_qs).
  unfold alpha, fdm_eff_pol. rewrite Hdef. cbn [String.eqb Ascii.eqb Bool.eqb].
  change (multilayer s) with false. cbv iota. rewrite HB. cbn [rbind].
  rewrite !dflt_given. fold z.
  assert (Hnn : n = match n_lag with Some n => n | None => d_n_lag D end) by (unfold n; destruct n_lag; reflexivity).
  assert (AV : forall h, 0 < h -> refl_coef_qs_above_surf lg D s (rr h) n_lag = Ok (Some ((e1 - e0) / (e1 + e0))%C) /\
     ((e1 - e0) / (e1 + e0) <> 0 -> image_depth_and_charge lg D s (rr h) n_lag = Ok (Some h, Some ((e1 - e0) / (e1 + e0))))%C).
  { intros h Hh. destruct (C23_bulk_averages_exact_proof lg D e0 e1 nu h n_lag) as (A1 & _ & A2);
      try rewrite <- Hnn; auto. }
  repeat split.
  - change (rr z + rr r * rr da)%rv with (rr (z + r * da)). destruct (AV (z + r * da)) as [-> _]; [nra|]. reflexivity.
  - intros Hne. change (rr z + rr r * rr d0)%rv with (rr (z + r * d0)). change (rr z + rr r * rr d1)%rv with (rr (z + r * d1)).
    assert (Hb : ((e1 - e0) / (e1 + e0) <> 0)%C).
    { apply Cdiv_neq_0; [|intros E; apply H2; rewrite <- E; ring]. intros E. apply Hne. symmetry. now apply Csub_eq0. }
    destruct (AV (z + r * d0)) as [_ A0]; [nra|]. destruct (AV (z + r * d1)) as [_ A1]; [nra|].
    rewrite A0, A1 by exact Hb. cbn [rbind fst snd].
    pose proof (geom_multi_eq z d0 r L (Some (given_or (d_g_factor D) g))) as G0.
    pose proof (geom_multi_eq z d1 r L (Some (given_or (d_g_factor D) g))) as G1.
    unfold rr in G0, G1. unfold rr. rewrite G0, G1. reflexivity.
Qed.

(** C25. Hence the same for fdm.eff_pol_n, at every harmonic and with any
    number of intervals. *)
Lemma C25_methods_agree_demodulated_proof :
  forall (laggauss : laggauss_t) (D : Defaults) (e0 e1 : C) nu (A_tip : R) (n : Z) (n_trapz : option nat)
    (z_tip r_tip L_tip : option R)
    (g_factor : option C) (d_Q0 d_Q1 d_Qa : option R) (n_lag : option nat),
  let s := stack [e0; e1] [] nu in
  let z := given_or (d_z_tip D) z_tip in let r := given_or (d_r_tip D) r_tip in
  let L := given_or (d_L_tip D) L_tip in let nl := given_or (d_n_lag D) n_lag in
  let d0 := given_or (131 / 100 * L / (L + 2 * r)) d_Q0 in
  let d1 := given_or (d_d_Q1 D) d_Q1 in let da := given_or (d_d_Qa D) d_Qa in
  let alpha_n := fdm_eff_pol_n laggauss D s A_tip n z_tip n_trapz r_tip L_tip g_factor d_Q0 d_Q1 d_Qa n_lag in
  nl <> O -> laguerre_rule (laggauss nl) ->
  e1 <> RtoC 0 -> (e0 + e1 <> 0)%C ->
  0 <= z -> 0 <= A_tip -> 0 < r -> 0 < L -> 0 < d0 -> 0 < d1 -> 0 < da ->
  alpha_n None = alpha_n (Some "bulk"%string) /\
  alpha_n (Some "Q_ave"%string) = alpha_n (Some "bulk"%string) /\
  (e0 <> e1 -> alpha_n (Some "multi"%string) = alpha_n (Some "bulk"%string)).
Proof.
  intros lg D e0 e1 nu A n nt z_tip r_tip L_tip g d_Q0 d_Q1 d_Qa n_lag s z r L nl d0 d1 da alpha_n
    Hn Hrule H1 H2 Hz HA Hr HL Hd0 Hd1 Hda.
  assert (K : forall x, z + A - Rabs A <= x <= z + A + Rabs A -> 0 <= given_or (d_z_tip D) (Some x)).
  { intros x Hx. rewrite Rabs_pos_eq in Hx by exact HA. cbn. lra. }
  unfold alpha_n, fdm_eff_pol_n. rewrite dflt_given. fold z. repeat split.
  - apply demod_local. intros x Hx.
    destruct (C25_methods_agree_proof lg D e0 e1 nu (Some x) r_tip L_tip g d_Q0 d_Q1 d_Qa n_lag) as (_ & T2 & _); auto.
  - intros Hne. apply demod_local. intros x Hx.
    destruct (C25_methods_agree_proof lg D e0 e1 nu (Some x) r_tip L_tip g d_Q0 d_Q1 d_Qa n_lag) as (_ & _ & T3); auto.
Qed.

(** ** C26 *)
Lemma fdm_f_neq_0 z d r L g : fdm_regular z d r L ->
  g <> RtoC ((r + 2 * z + r * d) / (2 * L)) -> r + 4 * z + 2 * r * d <> 4 * L -> fdm_f z d r L g <> RtoC 0.
Proof.
  intros (Hr & HL & Hp & H4) Hg Hln. unfold fdm_f. apply Cmult_neq_0.
  - intros E. apply Hg. now apply Csub_eq0.
  - assert (H1 : 0 < 4 * L / (r + 4 * z + 2 * r * d)) by (apply Rdiv_lt_0_compat; lra).
    assert (H2 : 0 < 4 * L / r) by (apply Rdiv_lt_0_compat; lra).
    assert (Dn : forall a b, a <> 0 -> b <> 0 -> a / b <> 0)
      by (intros a b Ha Hb; apply Rmult_integral_contrapositive_currified; [exact Ha|now apply Rinv_neq_0_compat]).
    apply RtoC_neq_0. apply Dn.
    + apply ln_neq_0; [exact H1|]. intros E. apply Hln.
      replace (4 * L) with (4 * L / (r + 4 * z + 2 * r * d) * (r + 4 * z + 2 * r * d)) by (field; lra).
      rewrite E. ring.
    + apply ln_neq_0; [exact H2|]. intros E. apply H4.
      replace (4 * L) with (4 * L / r * r) by (field; lra). rewrite E. ring.
Qed.

(** the bulk sample with a given reflection coefficient *)
Lemma bulk_from_beta e0 b nu q : e0 <> RtoC 0 -> b <> RtoC 1 -> b <> RtoC (-1) ->
  refl_coef_qs (stack [e0; e0 * (1 + b) / (1 - b)]%C [] nu) q = Ok (Some b).
Proof.
  intros He Hb1 Hb2.
  assert (N1 : (1 - b <> 0)%C) by (intros E; apply Hb1; symmetry; now apply Csub_eq0).
  assert (N2 : (1 + b <> 0)%C).
  { intros E. apply Hb2. replace b with ((1 + b) - 1)%C by ring. rewrite E, <- RtoC_minus. f_equal. ring. }
  rewrite bulk_qs.
  - do 2 f_equal. field. repeat split; auto.
    replace (e0 * (1 + b) + e0 * (1 - b))%C with (2 * e0)%C by ring. apply Cmult_neq_0; [apply C2_neq_0|exact He].
  - apply Cdiv_neq_0; [|exact N1]. now apply Cmult_neq_0.
  - replace (e0 + e0 * (1 + b) / (1 - b))%C with (2 * e0 / (1 - b))%C by (field; exact N1).
    apply Cdiv_neq_0; [|exact N1]. apply Cmult_neq_0; [apply C2_neq_0|exact He].
Qed.

(** a bulk fdm.eff_pol call, unfolded *)
Lemma bulk_eff_pol lg D s z_tip r_tip L_tip g d_Q0 d_Q1 d_Qa n_lag beta :
  let z := given_or (d_z_tip D) z_tip in let r := given_or (d_r_tip D) r_tip in
  let L := given_or (d_L_tip D) L_tip in
  let d0 := given_or (131 / 100 * L / (L + 2 * r)) d_Q0 in
  let d1 := given_or (d_d_Q1 D) d_Q1 in
  let G := given_or (d_g_factor D) g in
  multilayer s = false -> refl_coef_qs s (rr 0) = Ok (Some beta) ->
  fdm_regular z d0 r L -> fdm_regular z d1 r L ->
  fdm_eff_pol lg D s z_tip r_tip L_tip g d_Q0 d_Q1 d_Qa n_lag (Some "bulk"%string)
  = Ok (rc 1 + Some (beta * fdm_f z d0 r L G)%C / Some (2 * (1 - beta * fdm_f z d1 r L G))%C)%cv.
Proof.
  intros z r L d0 d1 G Hm Hb R0 R1. unfold fdm_eff_pol. rewrite (fdm_defaults_eq D r_tip L_tip g d_Q0 d_Q1 d_Qa) by apply R0.
  rewrite dflt_given. fold z r L d0 d1 G.
  cbn [String.eqb Ascii.eqb Bool.eqb]. rewrite Hm, Hb. cbn [rbind].
  rewrite !geom_ok by assumption. reflexivity.
Qed.

Lemma fdm_inverse_eq D a z_tip r_tip L_tip g d_Q0 d_Q1 :
  let z := given_or (d_z_tip D) z_tip in let r := given_or (d_r_tip D) r_tip in
  let L := given_or (d_L_tip D) L_tip in
  let d0 := given_or (131 / 100 * L / (L + 2 * r)) d_Q0 in
  let d1 := given_or (d_d_Q1 D) d_Q1 in
  let G := given_or (d_g_factor D) g in
  fdm_regular z d0 r L -> fdm_regular z d1 r L ->
  fdm_refl_coef_qs_from_eff_pol D (Some a) z_tip r_tip L_tip g d_Q0 d_Q1
  = (Some (2 * (a - 1))%C / Some (fdm_f z d0 r L G + 2 * fdm_f z d1 r L G * (a - 1))%C)%cv.
Proof.
  intros z r L d0 d1 G R0 R1. unfold fdm_refl_coef_qs_from_eff_pol. rewrite (fdm_defaults_eq D r_tip L_tip g d_Q0 d_Q1 None) by apply R0.
  rewrite dflt_given. fold z r L d0 d1 G.
  rewrite !geom_ok by assumption. reflexivity.
Qed.

(** C26. fdm.refl_coef_qs_from_eff_pol inverts fdm.eff_pol: from the effective
    polarizability a of a bulk sample it recovers the sample's reflection
    coefficient, whenever the tip responds at all (f_0 <> 0: the two
    conditions on g and on the height). *)
Lemma C26_inverse_after_eff_pol_proof :
  forall (laggauss : laggauss_t) (D : Defaults) (e0 e1 : C) nu (z_tip r_tip L_tip : option R)
    (g_factor : option C) (d_Q0 d_Q1 d_Qa : option R) (n_lag : option nat) (a : C),
  let s := stack [e0; e1] [] nu in
  let z := given_or (d_z_tip D) z_tip in let r := given_or (d_r_tip D) r_tip in
  let L := given_or (d_L_tip D) L_tip in let g := given_or (d_g_factor D) g_factor in
  let d0 := given_or (131 / 100 * L / (L + 2 * r)) d_Q0 in
  let d1 := given_or (d_d_Q1 D) d_Q1 in
  e1 <> RtoC 0 -> (e0 + e1 <> 0)%C ->
  fdm_regular z d0 r L -> fdm_regular z d1 r L ->
  g <> RtoC ((r + 2 * z + r * d0) / (2 * L)) -> r + 4 * z + 2 * r * d0 <> 4 * L ->
  fdm_eff_pol laggauss D s z_tip r_tip L_tip g_factor d_Q0 d_Q1 d_Qa n_lag None = Ok (Some a) ->
  fdm_refl_coef_qs_from_eff_pol D (Some a) z_tip r_tip L_tip g_factor d_Q0 d_Q1
  = Some ((e1 - e0) / (e1 + e0))%C.
Proof.
  intros lg D e0 e1 nu z_tip r_tip L_tip g_factor d_Q0 d_Q1 d_Qa n_lag a s z r L g d0 d1 H1 H2 R0 R1 Hg Hln Ha.
  set (beta := ((e1 - e0) / (e1 + e0))%C).
  assert (HB : refl_coef_qs s (rr 0) = Ok (Some beta)) by (now apply bulk_qs).
  change (fdm_eff_pol lg D s z_tip r_tip L_tip g_factor d_Q0 d_Q1 d_Qa n_lag (Some "bulk"%string) = Ok (Some a)) in Ha.
  rewrite (bulk_eff_pol lg D s z_tip r_tip L_tip g_factor d_Q0 d_Q1 d_Qa n_lag beta eq_refl HB R0 R1) in Ha.
  rewrite (fdm_inverse_eq D a z_tip r_tip L_tip g_factor d_Q0 d_Q1 R0 R1).
  fold z r L d0 d1 g in Ha |- *. pose proof (fdm_f_neq_0 z d0 r L g R0 Hg Hln) as F0.
  set (f0 := fdm_f z d0 r L g) in *. set (f1 := fdm_f z d1 r L g) in *.
  assert (Ha' : (rc 1 + Some (beta * f0)%C / Some (2 * (1 - beta * f1))%C)%cv = Some a) by congruence. clear Ha.
  apply olift2_Some in Ha'. destruct Ha' as (x & y & Ex & Ey & ->). injection Ex as <-.
  apply cdiv_Some in Ey. destruct Ey as (p & q & Ep & Eq & Hq & ->). injection Ep as <-. injection Eq as <-.
  assert (Hd : (1 - beta * f1 <> 0)%C) by (apply Cmult_neq_0_r in Hq; exact Hq).
  assert (ED : (f0 + 2 * f1 * (1 + beta * f0 / (2 * (1 - beta * f1)) - 1) = f0 / (1 - beta * f1))%C) by (field; auto).
  rewrite ED. rewrite cdiv_ok by (now apply Cdiv_neq_0). f_equal. field. auto.
Qed.

(** C26. Conversely: if the inverse returns a finite b (other than +-1) for a
    given a, the bulk sample built from b (in any environment e0 <> 0, as in
    bulk_sample(beta=b)) has effective polarizability a. *)
Lemma C26_eff_pol_after_inverse_proof :
  forall (laggauss : laggauss_t) (D : Defaults) (e0 b : C) nu (z_tip r_tip L_tip : option R)
    (g_factor : option C) (d_Q0 d_Q1 d_Qa : option R) (n_lag : option nat) (a : C),
  let s := stack [e0; e0 * (1 + b) / (1 - b)]%C [] nu in
  let z := given_or (d_z_tip D) z_tip in let r := given_or (d_r_tip D) r_tip in
  let L := given_or (d_L_tip D) L_tip in let g := given_or (d_g_factor D) g_factor in
  let d0 := given_or (131 / 100 * L / (L + 2 * r)) d_Q0 in
  let d1 := given_or (d_d_Q1 D) d_Q1 in
  e0 <> RtoC 0 -> b <> RtoC 1 -> b <> RtoC (-1) ->
  fdm_regular z d0 r L -> fdm_regular z d1 r L ->
  g <> RtoC ((r + 2 * z + r * d0) / (2 * L)) -> r + 4 * z + 2 * r * d0 <> 4 * L ->
  fdm_refl_coef_qs_from_eff_pol D (Some a) z_tip r_tip L_tip g_factor d_Q0 d_Q1 = Some b ->
  fdm_eff_pol laggauss D s z_tip r_tip L_tip g_factor d_Q0 d_Q1 d_Qa n_lag None = Ok (Some a).
Proof.
  intros lg D e0 b nu z_tip r_tip L_tip g_factor d_Q0 d_Q1 d_Qa n_lag a s z r L g d0 d1 He Hb1 Hb2 R0 R1 Hg Hln Hb.
  assert (HB : refl_coef_qs s (rr 0) = Ok (Some b)) by (now apply bulk_from_beta).
  change (fdm_eff_pol lg D s z_tip r_tip L_tip g_factor d_Q0 d_Q1 d_Qa n_lag (Some "bulk"%string) = Ok (Some a)).
  rewrite (bulk_eff_pol lg D s z_tip r_tip L_tip g_factor d_Q0 d_Q1 d_Qa n_lag b eq_refl HB R0 R1).
  rewrite (fdm_inverse_eq D a z_tip r_tip L_tip g_factor d_Q0 d_Q1 R0 R1) in Hb.
  fold z r L d0 d1 g in Hb |- *. pose proof (fdm_f_neq_0 z d0 r L g R0 Hg Hln) as F0.
  set (f0 := fdm_f z d0 r L g) in *. set (f1 := fdm_f z d1 r L g) in *.
  apply cdiv_Some in Hb. destruct Hb as (p & q & Ep & Eq & Hq & ->). injection Ep as <-. injection Eq as <-.
  assert (ED : (2 * (1 - 2 * (a - 1) / (f0 + 2 * f1 * (a - 1)) * f1) = 2 * f0 / (f0 + 2 * f1 * (a - 1)))%C)
    by (field; auto).
  rewrite ED. rewrite cdiv_ok by (apply Cdiv_neq_0; auto using Cmult_neq_0, C2_neq_0).
  unfold rc, cadd. cbn [olift2]. do 2 f_equal. field. auto.
Qed.

(** C26. Hence bulk samples with the same finite effective polarizability
    have the same reflection coefficient. *)
Lemma C26_injective_proof :
  forall (laggauss : laggauss_t) (D : Defaults) (e0 e1 e0' e1' : C) nu nu' (z_tip r_tip L_tip : option R)
    (g_factor : option C) (d_Q0 d_Q1 d_Qa : option R) (n_lag : option nat) (a : C),
  let z := given_or (d_z_tip D) z_tip in let r := given_or (d_r_tip D) r_tip in
  let L := given_or (d_L_tip D) L_tip in let g := given_or (d_g_factor D) g_factor in
  let d0 := given_or (131 / 100 * L / (L + 2 * r)) d_Q0 in
  let d1 := given_or (d_d_Q1 D) d_Q1 in
  e1 <> RtoC 0 -> (e0 + e1 <> 0)%C -> e1' <> RtoC 0 -> (e0' + e1' <> 0)%C ->
  fdm_regular z d0 r L -> fdm_regular z d1 r L ->
  g <> RtoC ((r + 2 * z + r * d0) / (2 * L)) -> r + 4 * z + 2 * r * d0 <> 4 * L ->
  fdm_eff_pol laggauss D (stack [e0; e1] [] nu) z_tip r_tip L_tip g_factor d_Q0 d_Q1 d_Qa n_lag None = Ok (Some a) ->
  fdm_eff_pol laggauss D (stack [e0'; e1'] [] nu') z_tip r_tip L_tip g_factor d_Q0 d_Q1 d_Qa n_lag None = Ok (Some a) ->
  ((e1 - e0) / (e1 + e0) = (e1' - e0') / (e1' + e0'))%C.
Proof.
  intros lg D e0 e1 e0' e1' nu nu' z_tip r_tip L_tip g_factor d_Q0 d_Q1 d_Qa n_lag a z r L g d0 d1
    H1 H2 H1' H2' R0 R1 Hg Hln Ha Ha'.
  pose proof (C26_inverse_after_eff_pol_proof lg D e0 e1 nu z_tip r_tip L_tip g_factor d_Q0 d_Q1 d_Qa n_lag a H1 H2 R0 R1 Hg Hln Ha) as E.
  pose proof (C26_inverse_after_eff_pol_proof lg D e0' e1' nu' z_tip r_tip L_tip g_factor d_Q0 d_Q1 d_Qa n_lag a H1' H2' R0 R1 Hg Hln Ha') as E'.
  rewrite E in E'. congruence.
Qed.

(** C26. Example: with the default tip (r = 20 nm, L = 300 nm, complex g) at
    contact, the hypotheses hold and eff_pol of eps 1 | 3 is finite. *)
Lemma C26_example_proof :
  let r := d_r_tip defaults0 in let L := d_L_tip defaults0 in let g := d_g_factor defaults0 in
  let d0 := 131 / 100 * L / (L + 2 * r) in
  fdm_regular 0 d0 r L /\ fdm_regular 0 (d_d_Q1 defaults0) r L /\
  g <> RtoC ((r + 2 * 0 + r * d0) / (2 * L)) /\ r + 4 * 0 + 2 * r * d0 <> 4 * L.
Proof.
  intros r L g d0. unfold fdm_regular, d0, r, L. cbn [defaults0 d_r_tip d_L_tip d_d_Q1].
  assert (H9 : 0 < / 10 ^ 9) by (apply Rinv_0_lt_compat; lra).
  assert (E : 131 / 100 * (300 / 10 ^ 9) / (300 / 10 ^ 9 + 2 * (20 / 10 ^ 9)) = 393 / 340) by (field; lra).
  rewrite E. repeat split; try lra.
  intros Hg. apply (f_equal Im) in Hg. unfold g in Hg. cbn [defaults0 d_g_factor] in Hg.
  unfold Cexp, Im, Re, RtoC in Hg. simpl in Hg. rewrite exp_0 in Hg.
  assert (0 < sin (6 / 100)) by (apply sin_gt_0; [lra|]; pose proof PI_RGT_0; pose proof PI2_3_2; lra).
  nra.
Qed.

