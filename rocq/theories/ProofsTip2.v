(** * Proofs: the point dipole model, method dispatch, defaults, no sample *)
From Coq Require Import String Reals Lra Lia ZArith List Bool.
From Coquelicot Require Import Rcomplements Complex.
From Verif Require Import Num NumLemmas ModelBase ModelSample ModelTip StackLemmas Spec
  ProofsStackQS ProofsStackQS2 ProofsSym ProofsPassive DemodLemmas ProofsDemod ProofsTip.
Import ListNotations.
Open Scope R_scope.

(** ** C27 *)
Lemma pdm_defaults_r D r_tip eps alpha r a : pdm_defaults D r_tip eps alpha = Ok (r, a) -> r = given_or (d_r_tip D) r_tip.
Proof. unfold pdm_defaults. destruct eps, alpha; intros [= <- <-]; reflexivity. Qed.

Lemma pdm_geom_ok z r a : r + z <> 0 ->
  pdm_geom_func (rr z) (rr r) (Some a) = Some (a / RtoC (16 * PI * (r + z) ^ 3))%C.
Proof.
  intros H. unfold pdm_geom_func, radd, rmul, rpow, rr, ofR. cbn [olift1 olift2].
  rewrite cdiv_ok; [reflexivity|]. apply RtoC_neq_0. pose proof PI_RGT_0.
  apply Rmult_integral_contrapositive_currified; [lra|]. now apply pow_nonzero.
Qed.
Lemma pdm_den_neq_0 z r : r + z <> 0 -> RtoC (16 * PI * (r + z) ^ 3) <> RtoC 0.
Proof.
  intros H. apply RtoC_neq_0. pose proof PI_RGT_0.
  apply Rmult_integral_contrapositive_currified; [lra|]. now apply pow_nonzero.
Qed.

Lemma pdm_defaults_alpha D r_tip eps alpha a : tip_alpha (given_or (d_r_tip D) r_tip) eps alpha a ->
  pdm_defaults D r_tip eps alpha = Ok (given_or (d_r_tip D) r_tip, Some a).
Proof.
  intros H. unfold pdm_defaults. rewrite dflt_given. set (r := given_or (d_r_tip D) r_tip) in *.
  destruct H as [|a|e He].
  - reflexivity.
  - reflexivity.
  - unfold csub, cadd, cmul, rmul, rpow, rr, rc, ofR. cbn [olift1 olift2].
    rewrite cdiv_ok by exact He. do 3 f_equal. field. exact He.
Qed.

(** C27. pdm.refl_coef_qs_from_eff_pol inverts pdm.eff_pol for every sample,
    bulk or not, as long as the tip is polarizable. *)
Lemma C27_inverse_after_eff_pol_proof :
  forall (D : Defaults) (s : sample) (z_tip r_tip : option R) (eps_tip alpha_tip : option C) (beta alpha a : C),
  let z := given_or (d_z_tip D) z_tip in let r := given_or (d_r_tip D) r_tip in
  tip_alpha r eps_tip alpha_tip alpha -> alpha <> RtoC 0 -> r + z <> 0 ->
  refl_coef_qs s (rr 0) = Ok (Some beta) ->
  pdm_eff_pol D s z_tip r_tip eps_tip alpha_tip = Ok (Some a) ->
  pdm_refl_coef_qs_from_eff_pol D (Some a) z_tip r_tip eps_tip alpha_tip = Ok (Some beta).
Proof.
  intros D s z_tip r_tip eps alpha_tip beta alpha a z r Ht Ha Hz Hb H.
  unfold pdm_eff_pol, pdm_refl_coef_qs_from_eff_pol in *.
  rewrite (pdm_defaults_alpha _ _ _ _ _ Ht) in *. rewrite Hb in H. cbn [rbind fst snd] in *. rewrite !dflt_given in *.
  fold z r in H |- *. rewrite pdm_geom_ok in * by exact Hz. set (f := (alpha / RtoC (16 * PI * (r + z) ^ 3))%C) in *.
  assert (Hf : f <> RtoC 0) by (apply Cdiv_neq_0; [exact Ha|now apply pdm_den_neq_0]).
  unfold csub, cmul, rc in *. cbn [olift2] in *. f_equal.
  assert (H' : (Some alpha / Some (1 - f * beta)%C)%cv = Some a) by congruence.
  apply cdiv_Some in H'. destruct H' as (p & q & Ep & Eq & Hq & ->). injection Ep as <-. injection Eq as <-.
  rewrite cdiv_ok.
  - f_equal. field. auto.
  - apply Cmult_neq_0; [exact Hf|]. now apply Cdiv_neq_0.
Qed.

(** C27. Conversely: if the inverse returns a finite b other than +-1 for a
    given a, the bulk sample built from b has effective polarizability a. *)
Lemma C27_eff_pol_after_inverse_proof :
  forall (D : Defaults) (e0 b : C) nu (z_tip r_tip : option R) (eps_tip alpha_tip : option C) (a : C),
  let s := stack [e0; e0 * (1 + b) / (1 - b)]%C [] nu in
  e0 <> RtoC 0 -> b <> RtoC 1 -> b <> RtoC (-1) ->
  pdm_refl_coef_qs_from_eff_pol D (Some a) z_tip r_tip eps_tip alpha_tip = Ok (Some b) ->
  pdm_eff_pol D s z_tip r_tip eps_tip alpha_tip = Ok (Some a).
Proof.
  intros D e0 b nu z_tip r_tip eps alpha_tip a s He Hb1 Hb2 H.
  assert (HB : refl_coef_qs s (rr 0) = Ok (Some b)) by (now apply bulk_from_beta).
  unfold pdm_eff_pol, pdm_refl_coef_qs_from_eff_pol in *.
  destruct (pdm_defaults D r_tip eps alpha_tip) as [[r al]|e]; [|discriminate]. cbn [rbind fst snd] in *.
  rewrite HB. cbn [rbind].
  set (z := rr (dflt (d_z_tip D) z_tip)) in *.
  destruct (pdm_geom_func z (rr r) al) as [f|] eqn:Ef;
    [|destruct al as [al|]; cbn in H; discriminate].
  destruct al as [al|]; [|discriminate]. f_equal.
  assert (H' : ((Some a - Some al) / (Some f * Some a))%cv = Some b) by congruence. clear H.
  apply cdiv_Some in H'. destruct H' as (p & q & Ep & Eq & Hq & ->). injection Ep as <-. injection Eq as <-.
  assert (Hf : f <> RtoC 0) by (now apply Cmult_neq_0_l in Hq). assert (Ha : a <> RtoC 0) by (now apply Cmult_neq_0_r in Hq).
  unfold csub, cmul, rc. cbn [olift2].
  assert (E : (1 - f * ((a - al) / (f * a)) = al / a)%C) by (field; auto). rewrite E.
  unfold pdm_geom_func in Ef. apply cdiv_Some in Ef. destruct Ef as (p & q & Ep & _ & Hq' & ->). injection Ep as <-.
  assert (Hal : al <> RtoC 0) by (intros ->; apply Hf; field; exact Hq').
  rewrite cdiv_ok by (now apply Cdiv_neq_0). f_equal. field. auto.
Qed.

(** C27. Example: default tip at contact, film of permittivity 2 on 3: the
    hypotheses of the first statement hold. *)
Lemma C27_example_proof :
  let s := stack [RtoC 1; RtoC 2; RtoC 3] [5 / 10 ^ 9] None in
  let r := d_r_tip defaults0 in
  tip_alpha r None None (RtoC (4 * PI * r ^ 3)) /\ RtoC (4 * PI * r ^ 3) <> RtoC 0 /\ r + 0 <> 0 /\
  refl_coef_qs s (rr 0) = Ok (Some (RtoC (1 / 2))) /\
  pdm_eff_pol defaults0 s None None None None = Ok (Some (RtoC (32 / 7 * PI * r ^ 3))).
Proof.
  intros s r. assert (Hr : 0 < r) by (unfold r; cbn [d_r_tip defaults0]; apply Rdiv_lt_0_compat; lra).
  assert (Hr3 : 0 < r ^ 3) by (apply pow_lt; exact Hr). pose proof PI_RGT_0 as HP.
  assert (Hp : 0 < PI * r ^ 3) by (apply Rmult_lt_0_compat; assumption).
  assert (Hb : refl_coef_qs s (rr 0) = Ok (Some (RtoC (1 / 2)))).
  { destruct (C09_zero_momentum_sees_only_ends_proof (RtoC 1) [RtoC 2] (RtoC 3) [5 / 10 ^ 9] None) as [E _];
      [reflexivity|repeat constructor; apply RtoC_neq_0; lra|apply RtoC_neq_0; lra|].
    unfold s. cbn [app] in E. rewrite E. unfold refl_coef_qs_single, csub, cadd. cbn [olift2].
    rewrite <- RtoC_minus, <- RtoC_plus, cdiv_ok by (apply RtoC_neq_0; lra).
    rewrite <- RtoC_div by lra. do 3 f_equal. lra. }
  repeat split; auto using tip_conductor; try lra.
  { apply RtoC_neq_0. nra. }
  unfold pdm_eff_pol. rewrite (pdm_defaults_alpha defaults0 None None None _ (tip_conductor _)).
  rewrite Hb. cbn [rbind fst snd]. change (given_or (d_r_tip defaults0) None) with r.
  change (dflt (d_z_tip defaults0) None) with 0. rewrite pdm_geom_ok by lra.
  unfold csub, cmul, rc. cbn [olift2].
  replace (r + 0) with r by ring.
  assert (E : (1 - RtoC (4 * PI * r ^ 3) / RtoC (16 * PI * r ^ 3) * RtoC (1 / 2))%C = RtoC (7 / 8)).
  { rewrite <- RtoC_div by nra. rewrite <- RtoC_mult, <- RtoC_minus. f_equal. field. lra. }
  rewrite E, cdiv_ok by (apply RtoC_neq_0; lra). rewrite <- RtoC_div by lra. do 3 f_equal. field.
Qed.

(** ** C33 *)
Lemma refl_qs_finite_or s q : (2 <= length (eps_stack s))%nat -> exists b, refl_coef_qs s q = Ok b.
Proof.
  intros H. unfold refl_coef_qs, transfer_matrix_qs, trans_matrices_qs.
  destruct (eps_stack s) as [|a [|b l]]; cbn [length] in H; [lia|lia|].
  cbn [removelast tl combine map]. destruct (multilayer s); eexists; reflexivity.
Qed.
Lemma sampled_beta_total lg s z n : (2 <= length (eps_stack s))%nat -> n <> O -> exists l, sampled_beta lg s z n = Ok l.
Proof.
  intros H Hn. unfold sampled_beta. destruct (Nat.eqb_spec n 0); [contradiction|].
  destruct (refl_qs_finite_or s z H) as [b ->]. cbn [rbind].
  erewrite mapM_ok_all; [eauto|]. intros [x w]. cbn [fst snd].
  instantiate (1 := fun xw => (fst xw, snd xw, match refl_coef_qs s (rr (fst xw) / (rr 2 * z))%rv with Ok b => b | Raise _ => None end)).
  cbn [fst snd]. destruct (refl_qs_finite_or s (rr x / (rr 2 * z))%rv H) as [b' ->]. reflexivity.
Qed.
Lemma above_total lg D s z n : (2 <= length (eps_stack s))%nat -> given_or (d_n_lag D) n <> O ->
  exists b, refl_coef_qs_above_surf lg D s z n = Ok b.
Proof.
  intros H Hn. unfold refl_coef_qs_above_surf. rewrite dflt_given.
  destruct (sampled_beta_total lg s z _ H Hn) as [l ->]. cbn [rbind]. eauto.
Qed.
Lemma image_total lg D s z n : (2 <= length (eps_stack s))%nat -> given_or (d_n_lag D) n <> O ->
  exists b, image_depth_and_charge lg D s z n = Ok b.
Proof.
  intros H Hn. unfold image_depth_and_charge, surf_pot_and_field. rewrite dflt_given.
  destruct (sampled_beta_total lg s z _ H Hn) as [l ->]. cbn [rbind]. eauto.
Qed.

(** C33. fdm.eff_pol: no method means 'bulk' for a bulk sample and 'multi'
    for a multilayer sample. *)
Lemma C33_default_method_proof :
  forall (laggauss : laggauss_t) (D : Defaults) (s : sample) (z_tip r_tip L_tip : option R)
    (g_factor : option C) (d_Q0 d_Q1 d_Qa : option R) (n_lag : option nat),
  let alpha := fdm_eff_pol laggauss D s z_tip r_tip L_tip g_factor d_Q0 d_Q1 d_Qa n_lag in
  ((length (eps_stack s) <= 2)%nat -> alpha None = alpha (Some "bulk"%string)) /\
  ((2 < length (eps_stack s))%nat -> alpha None = alpha (Some "multi"%string)).
Proof.
  intros lg D s z_tip r_tip L_tip g d_Q0 d_Q1 d_Qa n_lag alpha. unfold alpha, fdm_eff_pol, multilayer, n_layers.
  destruct (Nat.ltb_spec 2 (length (eps_stack s))); split; intros; try lia; reflexivity.
Qed.

(** C33. fdm.eff_pol on a sample with at least two layers (and a positive
    number of Laguerre points): it raises for 'bulk' on a multilayer sample
    and for a name that is none of the three, a ValueError with the documented
    message, and otherwise returns. *)
Lemma C33_eff_pol_raises_proof :
  forall (laggauss : laggauss_t) (D : Defaults) (s : sample) (z_tip r_tip L_tip : option R)
    (g_factor : option C) (d_Q0 d_Q1 d_Qa : option R) (n_lag : option nat) (m : string),
  (2 <= length (eps_stack s))%nat -> given_or (d_n_lag D) n_lag <> O ->
  let alpha := fdm_eff_pol laggauss D s z_tip r_tip L_tip g_factor d_Q0 d_Q1 d_Qa n_lag in
  (m = "bulk"%string -> (2 < length (eps_stack s))%nat ->
     alpha (Some m) = Raise (ValueError "`method`='bulk' cannot be used for multilayer samples.")) /\
  (m <> "bulk"%string -> m <> "multi"%string -> m <> "Q_ave"%string ->
     alpha (Some m) = Raise (ValueError "`method` must be one of `bulk`, `multi`, or `Q_ave`.")) /\
  ((m = "bulk"%string /\ length (eps_stack s) = 2%nat) \/ m = "multi"%string \/ m = "Q_ave"%string ->
     exists v, alpha (Some m) = Ok v) /\
  exists v, alpha None = Ok v.
Proof.
  intros lg D s z_tip r_tip L_tip g d_Q0 d_Q1 d_Qa n_lag m H2 Hn alpha.
  assert (TM : exists v, alpha (Some "multi"%string) = Ok v).
  { unfold alpha, fdm_eff_pol. destruct (fdm_defaults _ _ _ _ _ _ _) as [[[[[r L] G] d0] d1] da].
    cbn [String.eqb Ascii.eqb Bool.eqb].
    destruct (image_total lg D s (rr (dflt (d_z_tip D) z_tip) + rr r * d0)%rv n_lag H2 Hn) as [i0 ->].
    destruct (image_total lg D s (rr (dflt (d_z_tip D) z_tip) + rr r * rr d1)%rv n_lag H2 Hn) as [i1 ->].
    cbn [rbind]. eauto. }
  assert (TB : length (eps_stack s) = 2%nat -> exists v, alpha (Some "bulk"%string) = Ok v).
  { intros E. unfold alpha, fdm_eff_pol. destruct (fdm_defaults _ _ _ _ _ _ _) as [[[[[r L] G] d0] d1] da].
    cbn [String.eqb Ascii.eqb Bool.eqb]. unfold multilayer, n_layers. rewrite E. cbn [Nat.ltb Nat.leb].
    destruct (refl_qs_finite_or s (rr 0) H2) as [b ->]. cbn [rbind]. eauto. }
  assert (TQ : exists v, alpha (Some "Q_ave"%string) = Ok v).
  { unfold alpha, fdm_eff_pol. destruct (fdm_defaults _ _ _ _ _ _ _) as [[[[[r L] G] d0] d1] da].
    cbn [String.eqb Ascii.eqb Bool.eqb].
    destruct (above_total lg D s (rr (dflt (d_z_tip D) z_tip) + rr r * rr da)%rv n_lag H2 Hn) as [b ->].
    cbn [rbind]. eauto. }
  repeat split.
  - intros -> H. unfold alpha, fdm_eff_pol. destruct (fdm_defaults _ _ _ _ _ _ _) as [[[[[r L] G] d0] d1] da].
    cbn [String.eqb Ascii.eqb Bool.eqb]. unfold multilayer, n_layers.
    destruct (Nat.ltb_spec 2 (length (eps_stack s))); [reflexivity|lia].
  - intros N1 N2 N3. unfold alpha, fdm_eff_pol. destruct (fdm_defaults _ _ _ _ _ _ _) as [[[[[r L] G] d0] d1] da].
    apply String.eqb_neq in N1, N2, N3. rewrite N1, N2, N3. reflexivity.
  - intros [[-> E]|[->| ->]]; auto.
  - destruct (C33_default_method_proof lg D s z_tip r_tip L_tip g d_Q0 d_Q1 d_Qa n_lag) as [K1 K2].
    destruct (Nat.le_gt_cases (length (eps_stack s)) 2) as [Hle|Hgt].
    + fold alpha in K1. rewrite K1 by exact Hle. apply TB. lia.
    + fold alpha in K2. rewrite K2 by exact Hgt. exact TM.
Qed.

Lemma demod_total D (F : R -> CV) x0 A n nt : exists v, demod D (fun x => Ok (F x)) x0 A n nt = Ok v.
Proof.
  unfold demod. cbn [rbind]. rewrite (mapM_ok_all _ (fun th => F (x0 + cos th * A))) by reflexivity.
  cbn [rbind]. eauto.
Qed.
Lemma fdm_taylor_coef_total D z j A n r L g d0 d1 nt : exists v, fdm_taylor_coef D z j A n r L g d0 d1 nt = Ok v.
Proof.
  unfold fdm_taylor_coef.
  destruct (demod_total D (fun z => fdm_geom_func_taylor (rr z) j r L g d0 d1) (z + A) A n nt) as [v ->].
  cbn [rbind]. eauto.
Qed.
Lemma fdm_terms_total D z A n r L g d0 d1 nt b J : exists v,
  mapM (fun j => let! a := fdm_taylor_coef D z j A n r L g d0 d1 nt in Ok (a * cpown b j)%cv) (seq 0 J) = Ok v.
Proof.
  erewrite mapM_ok_all; [eauto|]. intros j.
  instantiate (1 := fun j => (match fdm_taylor_coef D z j A n r L g d0 d1 nt with Ok v => v | Raise _ => None end * cpown b j)%cv).
  cbv beta. destruct (fdm_taylor_coef_total D z j A n r L g d0 d1 nt) as [v ->]. reflexivity.
Qed.

(** C33. fdm.eff_pol_n_taylor: no method means 'bulk' / 'Q_ave' (not 'multi');
    'bulk' on a multilayer sample and every name other than 'bulk' and
    'Q_ave' (also 'multi') raise; nothing else does. *)
Lemma C33_taylor_dispatch_proof :
  forall (laggauss : laggauss_t) (D : Defaults) (s : sample) (A_tip : R) (n : Z) (z_tip r_tip L_tip : option R)
    (g_factor : option C) (d_Q0 d_Q1 d_Qa : option R) (n_lag n_trapz n_tayl : option nat) (m : string),
  (2 <= length (eps_stack s))%nat -> given_or (d_n_lag D) n_lag <> O ->
  let alpha method := fdm_eff_pol_n_taylor laggauss D s A_tip n z_tip r_tip L_tip g_factor d_Q0 d_Q1 d_Qa n_lag
                        method n_trapz n_tayl in
  (length (eps_stack s) = 2%nat -> alpha None = alpha (Some "bulk"%string)) /\
  ((2 < length (eps_stack s))%nat -> alpha None = alpha (Some "Q_ave"%string)) /\
  (m = "bulk"%string -> (2 < length (eps_stack s))%nat ->
     alpha (Some m) = Raise (ValueError "`method`='bulk' cannot be used for multilayer samples.")) /\
  (m <> "bulk"%string -> m <> "Q_ave"%string ->
     alpha (Some m) = Raise (ValueError "`method` must be one of `bulk`, or `Q_ave`.")) /\
  ((m = "bulk"%string /\ length (eps_stack s) = 2%nat) \/ m = "Q_ave"%string ->
     exists v, alpha (Some m) = Ok v) /\
  exists v, alpha None = Ok v.
Proof.
  intros lg D s A n z_tip r_tip L_tip g d_Q0 d_Q1 d_Qa n_lag nt nj m H2 Hn alpha.
  assert (TB : length (eps_stack s) = 2%nat -> exists v, alpha (Some "bulk"%string) = Ok v).
  { intros E. unfold alpha, fdm_eff_pol_n_taylor. destruct (fdm_defaults _ _ _ _ _ _ _) as [[[[[r L] G] d0] d1] da].
    cbn [String.eqb Ascii.eqb Bool.eqb]. unfold multilayer, n_layers. rewrite E. cbn [Nat.ltb Nat.leb].
    destruct (refl_qs_finite_or s (rr 0) H2) as [b ->]. cbn [rbind].
    edestruct fdm_terms_total as [v ->]. cbn [rbind]. eauto. }
  assert (TQ : exists v, alpha (Some "Q_ave"%string) = Ok v).
  { unfold alpha, fdm_eff_pol_n_taylor. destruct (fdm_defaults _ _ _ _ _ _ _) as [[[[[r L] G] d0] d1] da].
    cbn [String.eqb Ascii.eqb Bool.eqb].
    destruct (above_total lg D s (rr (dflt (d_z_tip D) z_tip) + rr r * rr da)%rv n_lag H2 Hn) as [b ->].
    cbn [rbind]. edestruct fdm_terms_total as [v ->]. cbn [rbind]. eauto. }
  assert (K1 : length (eps_stack s) = 2%nat -> alpha None = alpha (Some "bulk"%string)).
  { intros E. unfold alpha, fdm_eff_pol_n_taylor, multilayer, n_layers. rewrite E. reflexivity. }
  assert (K2 : (2 < length (eps_stack s))%nat -> alpha None = alpha (Some "Q_ave"%string)).
  { intros E. unfold alpha, fdm_eff_pol_n_taylor, multilayer, n_layers.
    destruct (Nat.ltb_spec 2 (length (eps_stack s))); [reflexivity|lia]. }
  repeat split; auto.
  - intros -> H. unfold alpha, fdm_eff_pol_n_taylor. destruct (fdm_defaults _ _ _ _ _ _ _) as [[[[[r L] G] d0] d1] da].
    cbn [String.eqb Ascii.eqb Bool.eqb]. unfold multilayer, n_layers.
    destruct (Nat.ltb_spec 2 (length (eps_stack s))); [reflexivity|lia].
  - intros N1 N3. unfold alpha, fdm_eff_pol_n_taylor. destruct (fdm_defaults _ _ _ _ _ _ _) as [[[[[r L] G] d0] d1] da].
    apply String.eqb_neq in N1, N3. rewrite N1, N3. reflexivity.
  - intros [[-> E]| ->]; auto.
  - destruct (Nat.le_gt_cases (length (eps_stack s)) 2) as [Hle|Hgt].
    + assert (E : length (eps_stack s) = 2%nat) by lia. rewrite K1 by exact E. auto.
    + rewrite K2 by exact Hgt. exact TQ.
Qed.

(** C33. Example: a misspelt name *)
Lemma C33_example_proof : forall laggauss,
  fdm_eff_pol laggauss defaults0 (stack [RtoC 1; RtoC 2] [] None) None None None None None None None None (Some "Bulk"%string)
  = Raise (ValueError "`method` must be one of `bulk`, `multi`, or `Q_ave`.").
Proof. intros lg. apply C33_eff_pol_raises_proof; discriminate || (cbn; lia). Qed.
