(** * Proofs: defaults, tip material, no sample *)
From Coq Require Import String Reals Lra Lia ZArith List Bool.
From Coquelicot Require Import Rcomplements Complex.
From Verif Require Import Num NumLemmas LimLemmas ModelBase ModelSample ModelTip StackLemmas Spec
  ProofsStackQS ProofsStackQS2 ProofsSym ProofsPassive DemodLemmas ProofsDemod ProofsTip ProofsTip2.
Import ListNotations.
Open Scope R_scope.

(** ** C34 *)
Lemma demod_ext D f g x0 A n nt : (forall x, f x = g x) -> demod D f x0 A n nt = demod D g x0 A n nt.
Proof. intros H. apply demod_local. auto. Qed.

(** C34. demodulate.demod: leaving n_trapz out is passing the current default,
    and with n_trapz explicit the default table is not read (D' is any other
    table). *)
Lemma C34_demod_proof :
  forall (D D' : Defaults) f x_0 x_amplitude n n_trapz,
  demod D f x_0 x_amplitude n n_trapz = demod D' f x_0 x_amplitude n (Some (given_or (d_n_trapz D) n_trapz)).
Proof. reflexivity. Qed.

(** C34. The same for n_lag in the three height averages of Sample. *)
Lemma C34_sample_averages_proof :
  forall (laggauss : laggauss_t) (D D' : Defaults) (s : sample) (z_Q : RV) (n_lag : option nat),
  let n := Some (given_or (d_n_lag D) n_lag) in
  refl_coef_qs_above_surf laggauss D s z_Q n_lag = refl_coef_qs_above_surf laggauss D' s z_Q n /\
  surf_pot_and_field laggauss D s z_Q n_lag = surf_pot_and_field laggauss D' s z_Q n /\
  image_depth_and_charge laggauss D s z_Q n_lag = image_depth_and_charge laggauss D' s z_Q n.
Proof. repeat split; reflexivity. Qed.

Lemma fdm_defaults_explicit D D' r_tip L_tip g d_Q0 d_Q1 d_Qa :
  let r := given_or (d_r_tip D) r_tip in let L := given_or (d_L_tip D) L_tip in
  L + 2 * r <> 0 ->
  fdm_defaults D r_tip L_tip g d_Q0 d_Q1 d_Qa
  = fdm_defaults D' (Some r) (Some L) (Some (given_or (d_g_factor D) g))
      (Some (given_or (131 / 100 * L / (L + 2 * r)) d_Q0))
      (Some (given_or (d_d_Q1 D) d_Q1)) (Some (given_or (d_d_Qa D) d_Qa)).
Proof.
  intros r L H. unfold fdm_defaults. cbn [dflt]. change (dflt (d_L_tip D) L_tip) with L. change (dflt (d_r_tip D) r_tip) with r.
  replace (match d_Q0 with Some d => rr d | None => (rr (131 / 100) * rr L / (rr L + rr 2 * rr r))%rv end)
    with (rr (given_or (131 / 100 * L / (L + 2 * r)) d_Q0)); [reflexivity|].
  destruct d_Q0; [reflexivity|]. cbn [given_or]. unfold radd, rmul, rr. cbn [olift2]. rewrite rdiv_ok by exact H. reflexivity.
Qed.

(** C34. Finite dipole model: whatever subset of the arguments is left out,
    each function gives what it gives with the missing ones filled in from
    the current table - d_Q0 from the r_tip and L_tip actually used - and then
    the table does not matter. *)
Lemma C34_fdm_proof :
  forall (laggauss : laggauss_t) (D D' : Defaults) (s : sample) (A_tip : R) (n : Z) (z_tip r_tip L_tip : option R)
    (g_factor : option C) (d_Q0 d_Q1 d_Qa : option R) (n_lag n_trapz n_tayl : option nat) (method : option string)
    (alpha : CV),
  let r := given_or (d_r_tip D) r_tip in let L := given_or (d_L_tip D) L_tip in
  let z' := Some (given_or (d_z_tip D) z_tip) in let r' := Some r in let L' := Some L in
  let g' := Some (given_or (d_g_factor D) g_factor) in
  let d0' := Some (given_or (131 / 100 * L / (L + 2 * r)) d_Q0) in
  let d1' := Some (given_or (d_d_Q1 D) d_Q1) in let da' := Some (given_or (d_d_Qa D) d_Qa) in
  let n_lag' := Some (given_or (d_n_lag D) n_lag) in
  let n_trapz' := Some (given_or (d_n_trapz D) n_trapz) in
  let n_tayl' := Some (given_or (d_n_tayl D) n_tayl) in
  L + 2 * r <> 0 ->
  fdm_eff_pol laggauss D s z_tip r_tip L_tip g_factor d_Q0 d_Q1 d_Qa n_lag method
    = fdm_eff_pol laggauss D' s z' r' L' g' d0' d1' da' n_lag' method /\
  fdm_eff_pol_n laggauss D s A_tip n z_tip n_trapz r_tip L_tip g_factor d_Q0 d_Q1 d_Qa n_lag method
    = fdm_eff_pol_n laggauss D' s A_tip n z' n_trapz' r' L' g' d0' d1' da' n_lag' method /\
  fdm_eff_pol_n_taylor laggauss D s A_tip n z_tip r_tip L_tip g_factor d_Q0 d_Q1 d_Qa n_lag method n_trapz n_tayl
    = fdm_eff_pol_n_taylor laggauss D' s A_tip n z' r' L' g' d0' d1' da' n_lag' method n_trapz' n_tayl' /\
  fdm_refl_coef_qs_from_eff_pol D alpha z_tip r_tip L_tip g_factor d_Q0 d_Q1
    = fdm_refl_coef_qs_from_eff_pol D' alpha z' r' L' g' d0' d1'.
Proof.
  intros lg D D' s A n z_tip r_tip L_tip g d_Q0 d_Q1 d_Qa n_lag nt nj m al r L z' r' L' g' d0' d1' da' nl' nt' nj' H.
  assert (P : forall z zz, Some (given_or (d_z_tip D) z) = zz ->
    fdm_eff_pol lg D s z r_tip L_tip g d_Q0 d_Q1 d_Qa n_lag m = fdm_eff_pol lg D' s zz r' L' g' d0' d1' da' nl' m).
  { intros z zz <-. unfold fdm_eff_pol. rewrite (fdm_defaults_explicit D D' r_tip L_tip g d_Q0 d_Q1 d_Qa H). reflexivity. }
  split; [|split; [|split]].
  - now apply P.
  - unfold fdm_eff_pol_n. change (dflt (d_z_tip D') z') with (dflt (d_z_tip D) z_tip).
    rewrite (C34_demod_proof D D'). apply demod_ext. intros x. now apply P.
  - unfold fdm_eff_pol_n_taylor. rewrite (fdm_defaults_explicit D D' r_tip L_tip g d_Q0 d_Q1 d_Qa H). reflexivity.
  - unfold fdm_refl_coef_qs_from_eff_pol, z', r', L', g', d0', d1'.
    rewrite (fdm_defaults_explicit D D' r_tip L_tip g d_Q0 d_Q1 None H). reflexivity.
Qed.

(** C34. Point dipole model: likewise. *)
Lemma C34_pdm_proof :
  forall (D D' : Defaults) (s : sample) (A_tip : R) (n : Z) (z_tip r_tip : option R)
    (eps_tip alpha_tip : option C) (n_trapz n_tayl : option nat) (alpha : CV),
  let z' := Some (given_or (d_z_tip D) z_tip) in let r' := Some (given_or (d_r_tip D) r_tip) in
  let n_trapz' := Some (given_or (d_n_trapz D) n_trapz) in
  let n_tayl' := Some (given_or (d_n_tayl D) n_tayl) in
  pdm_eff_pol D s z_tip r_tip eps_tip alpha_tip = pdm_eff_pol D' s z' r' eps_tip alpha_tip /\
  pdm_eff_pol_n D s A_tip n z_tip n_trapz r_tip eps_tip alpha_tip
    = pdm_eff_pol_n D' s A_tip n z' n_trapz' r' eps_tip alpha_tip /\
  pdm_eff_pol_n_taylor D s A_tip n z_tip r_tip eps_tip alpha_tip n_trapz n_tayl
    = pdm_eff_pol_n_taylor D' s A_tip n z' r' eps_tip alpha_tip n_trapz' n_tayl' /\
  pdm_refl_coef_qs_from_eff_pol D alpha z_tip r_tip eps_tip alpha_tip
    = pdm_refl_coef_qs_from_eff_pol D' alpha z' r' eps_tip alpha_tip.
Proof. repeat split; reflexivity. Qed.

(** C34. Example: an explicit height 0 is kept although the table says 7. *)
Lemma C34_example_proof :
  let D := mkDefaults (RtoC 1) 7 1 10 (RtoC 1) (1/2) (1/2) 8 8 8 1 in
  pdm_eff_pol D (stack [RtoC 1; RtoC 3] [] None) (Some 0) None None (Some (RtoC PI))
  = Ok (rc (32 * PI / 31)).
Proof.
  intros D. unfold pdm_eff_pol. rewrite bulk_qs;
    [|apply RtoC_neq_0; lra|rewrite <- RtoC_plus; apply RtoC_neq_0; lra].
  cbn [pdm_defaults rbind fst snd dflt d_r_tip D]. rewrite pdm_geom_ok by lra.
  pose proof PI_RGT_0. unfold csub, cmul, rc. cbn [olift2].
  rewrite <- RtoC_minus, <- RtoC_plus, <- !RtoC_div by lra. rewrite <- RtoC_mult, <- RtoC_minus.
  assert (E : 1 - PI / (16 * PI * (1 + 0) ^ 3) * ((3 - 1) / (3 + 1)) = 31 / 32) by (field; lra).
  rewrite E, cdiv_ok by (apply RtoC_neq_0; lra). rewrite <- RtoC_div by lra. do 3 f_equal. lra.
Qed.

(** ** C35 *)
(** C35. Point dipole tip material: with eps_tip the tip polarizability is
    4 pi r^3 (eps-1)/(eps+2), with neither it is 4 pi r^3 (perfect
    conductor), i.e. each function gives what it gives for that alpha_tip. *)
Lemma C35_material_proof :
  forall (D : Defaults) (s : sample) (A_tip : R) (n : Z) (z_tip r_tip : option R) (eps_tip : option C)
    (n_trapz n_tayl : option nat) (a : CV) (alpha : C),
  let r := given_or (d_r_tip D) r_tip in
  match eps_tip with
  | None => alpha = RtoC (4 * PI * r ^ 3)
  | Some e => (e <> -(2) /\ alpha = RtoC (4 * PI * r ^ 3) * ((e - 1) / (e + 2)))%C
  end ->
  pdm_eff_pol D s z_tip r_tip eps_tip None = pdm_eff_pol D s z_tip r_tip None (Some alpha) /\
  pdm_eff_pol_n D s A_tip n z_tip n_trapz r_tip eps_tip None
    = pdm_eff_pol_n D s A_tip n z_tip n_trapz r_tip None (Some alpha) /\
  pdm_eff_pol_n_taylor D s A_tip n z_tip r_tip eps_tip None n_trapz n_tayl
    = pdm_eff_pol_n_taylor D s A_tip n z_tip r_tip None (Some alpha) n_trapz n_tayl /\
  pdm_refl_coef_qs_from_eff_pol D a z_tip r_tip eps_tip None
    = pdm_refl_coef_qs_from_eff_pol D a z_tip r_tip None (Some alpha).
Proof.
  intros D s A n z_tip r_tip eps nt nj a alpha r H.
  assert (E : pdm_defaults D r_tip eps None = pdm_defaults D r_tip None (Some alpha)).
  { rewrite (pdm_defaults_alpha D r_tip None (Some alpha) alpha (tip_given _ _)). apply pdm_defaults_alpha. fold r.
    destruct eps as [e|].
    - destruct H as [H ->]. apply tip_dielectric. intros E. apply H. replace e with ((e + 2) - 2)%C by ring. rewrite E. ring.
    - subst alpha. constructor. }
  assert (P : forall z, pdm_eff_pol D s z r_tip eps None = pdm_eff_pol D s z r_tip None (Some alpha))
    by (intros z; unfold pdm_eff_pol; rewrite E; reflexivity).
  split; [apply P|]. split; [|split].
  - unfold pdm_eff_pol_n. apply demod_ext. intros x. apply P.
  - unfold pdm_eff_pol_n_taylor. rewrite E. reflexivity.
  - unfold pdm_refl_coef_qs_from_eff_pol. rewrite E. reflexivity.
Qed.

(** C35. Giving both raises ValueError in every function (although the
    documentation says eps_tip is then ignored). *)
Lemma C35_both_raise_proof :
  forall (D : Defaults) (s : sample) (A_tip : R) (n : Z) (z_tip r_tip : option R) (eps_tip alpha_tip : C)
    (n_trapz n_tayl : option nat) (a : CV),
  let ex := ValueError "Either `alpha_tip` or `eps_tip` must be None." in
  pdm_eff_pol D s z_tip r_tip (Some eps_tip) (Some alpha_tip) = Raise ex /\
  pdm_eff_pol_n D s A_tip n z_tip n_trapz r_tip (Some eps_tip) (Some alpha_tip) = Raise ex /\
  pdm_eff_pol_n_taylor D s A_tip n z_tip r_tip (Some eps_tip) (Some alpha_tip) n_trapz n_tayl = Raise ex /\
  pdm_refl_coef_qs_from_eff_pol D a z_tip r_tip (Some eps_tip) (Some alpha_tip) = Raise ex.
Proof. repeat split; reflexivity. Qed.

(** C35. The default tip is the limit of ever better dielectrics: the
    effective polarizability with eps_tip = e tends to the one with neither
    argument as |e| grows, in every direction. *)
Lemma C35_conductor_limit_proof :
  forall (D : Defaults) (s : sample) (z_tip r_tip : option R) (a : C),
  pdm_eff_pol D s z_tip r_tip None None = Ok (Some a) ->
  forall eps, 0 < eps -> exists M, forall e : C, M < Cmod e ->
  exists a', pdm_eff_pol D s z_tip r_tip (Some e) None = Ok (Some a') /\ Cmod (a' - a)%C < eps.
Proof.
  intros D s z_tip r_tip a H. 
  set (r := given_or (d_r_tip D) r_tip). set (A := RtoC (4 * PI * r ^ 3)).
  unfold pdm_eff_pol in H. rewrite (pdm_defaults_alpha D r_tip None None _ (tip_conductor _)) in H.
  fold r A in H. cbn [rbind fst snd] in H.
  destruct (refl_coef_qs s (rr 0)) as [beta|] eqn:Eb; [|discriminate]. cbn [rbind] in H.
  set (z := dflt (d_z_tip D) z_tip) in *.
  assert (H' : (Some A / (rc 1 - pdm_geom_func (rr z) (rr r) (Some A) * beta))%cv = Some a) by congruence. clear H.
  apply cdiv_Some in H'. destruct H' as (p & q & Ep & Eq & Hq & ->). injection Ep as <-.
  destruct (pdm_geom_func (rr z) (rr r) (Some A)) as [F|] eqn:EF; [|discriminate].
  destruct beta as [beta|]; [|discriminate]. injection Eq as <-.
  unfold pdm_geom_func in EF. apply cdiv_Some in EF. destruct EF as (p & den & Ep & Eden & Hden & ->). injection Ep as <-.
  assert (L1 : tends at_infC (fun e => (e - 1) / (e + 2))%C (RtoC 1)).
  { assert (L0 : tends at_infC (fun e => 1 - 3 * / (e + 2))%C (1 - 3 * 0)%C).
    { apply tends_minus; [exact mono_infC|apply tends_const|]. apply tends_scal; [exact mono_infC|].
      apply tends_inv_0. intros B. exists (B + 2). intros e He. unfold at_infC in He.
      assert (Cmod e <= Cmod (e + 2)%C + 2).
      { replace e with ((e + 2) + - (2))%C at 1 by ring. eapply Rle_trans; [apply Cmod_triangle|].
        rewrite Cmod_opp, Cmod_R, Rabs_pos_eq by lra. lra. }
      lra. }
    replace (RtoC 1) with (1 - 3 * 0)%C by ring.
    refine (tends_ext_ev _ mono_infC _ _ _ 2 _ L0). intros e He. unfold at_infC in He. field.
    intros E. replace e with ((e + 2) + - (2))%C in He by ring. rewrite E in He.
    replace (0 + - (2))%C with (- (2))%C in He by ring. rewrite Cmod_opp, Cmod_R, Rabs_pos_eq in He; lra. }
  assert (L2 : tends at_infC (fun e => 1 - (A * ((e - 1) / (e + 2))) / den * beta)%C (1 - A / den * beta)%C).
  { apply tends_minus; [exact mono_infC|apply tends_const|].
    replace (A / den * beta)%C with (A * 1 / den * beta)%C by (field; exact Hden). unfold Cdiv.
    repeat (apply tends_mult; [exact mono_infC| |apply tends_const]).
    apply tends_scal; [exact mono_infC|exact L1]. }
  pose proof (tends_div _ mono_infC _ _ _ _ (tends_scal _ mono_infC A _ _ L1) L2 Hq) as L3.
  intros eps Heps. destruct (L3 eps Heps) as [M1 H1].
  destruct (tends_away _ _ _ L2 Hq) as [M2 H2].
  exists (Rmax 2 (Rmax M1 M2)). intros e He.
  assert (He1 : 2 < Cmod e) by (eapply Rle_lt_trans; [apply Rmax_l|exact He]).
  assert (He2 : M1 < Cmod e) by (eapply Rle_lt_trans; [|exact He]; eapply Rle_trans; [apply Rmax_l|apply Rmax_r]).
  assert (He3 : M2 < Cmod e) by (eapply Rle_lt_trans; [|exact He]; eapply Rle_trans; [apply Rmax_r|apply Rmax_r]).
  assert (Hne : (e + 2 <> 0)%C).
  { intros E. replace e with ((e + 2) + - (2))%C in He1 by ring. rewrite E in He1.
    replace (0 + - (2))%C with (- (2))%C in He1 by ring. rewrite Cmod_opp, Cmod_R, Rabs_pos_eq in He1; lra. }
  specialize (H1 e He2). specialize (H2 e He3).
  exists (A * ((e - 1) / (e + 2)) / (1 - A * ((e - 1) / (e + 2)) / den * beta))%C. split.
  - unfold pdm_eff_pol. rewrite (pdm_defaults_alpha D r_tip (Some e) None _ (tip_dielectric _ _ Hne)).
    fold r A. cbn [rbind fst snd]. rewrite Eb. cbn [rbind]. fold z. f_equal.
    unfold pdm_geom_func. rewrite Eden. rewrite cdiv_ok by exact Hden.
    unfold csub, cmul, rc. cbn [olift2]. rewrite cdiv_ok; [reflexivity|].
    apply Cmod_gt_0. eapply Rlt_trans; [|exact H2]. apply Rmult_lt_0_compat; [|lra]. now apply Cmod_gt_0.
  - replace (A / (1 - A / den * beta))%C with (A * 1 / (1 - A / den * beta))%C; [exact H1|].
    f_equal. ring.
Qed.
(** C35. Example: the hypothesis holds, e.g. for C27's sample *)
Lemma C35_example_proof :
  let s := stack [RtoC 1; RtoC 2; RtoC 3] [5 / 10 ^ 9] None in
  exists a, pdm_eff_pol defaults0 s None None None None = Ok (Some a) /\ a <> RtoC 0.
Proof.
  intros s. destruct C27_example_proof as (_ & Ha & _ & _ & E). eexists. split; [exact E|].
  intros E0. apply Ha. apply RtoC_inj in E0. f_equal. lra.
Qed.

(** ** C43 *)
Lemma repeat_removelast {A} (e : A) m : removelast (repeat e (S m)) = repeat e m.
Proof. induction m as [|m IH]; [reflexivity|]. cbn [repeat removelast] in *. f_equal. exact IH. Qed.
Lemma trans_one (e : C) : e <> RtoC 0 ->
  trans_matrix (Some e / Some e)%cv = mkMat (rc 1) (rc 0) (rc 0) (rc 1).
Proof.
  intros He. rewrite cdiv_ok by exact He. replace (e / e)%C with (RtoC 1) by (field; exact He).
  unfold trans_matrix, cmul, cadd, rc. cbn [olift2]. rewrite !cdiv_ok by exact C2_neq_0.
  f_equal; f_equal; field; exact C2_neq_0.
Qed.
Definition transparent (M : mat) : Prop :=
  exists a b, a <> RtoC 0 /\ M = mkMat (Some a) (rc 0) (rc 0) (Some b).
Lemma prop_transparent (a b : C) : a <> RtoC 0 -> transparent (prop_matrix (Some a) (Some b)).
Proof.
  intros Ha. exists a, b. split; [exact Ha|]. unfold prop_matrix, cmul, rc. cbn [olift2]. f_equal; f_equal; ring.
Qed.
Lemma chain_transparent Ts M0 Ps : transparent M0 ->
  Forall (fun T => T = mkMat (rc 1) (rc 0) (rc 0) (rc 1)) Ts -> Forall transparent Ps ->
  transparent (chain M0 (combine Ts Ps)).
Proof.
  revert M0 Ps. induction Ts as [|T Ts IH]; intros M0 Ps H0 HT HP; [exact H0|].
  destruct Ps as [|P Ps]; [exact H0|]. cbn [combine]. unfold chain. cbn [fold_left fst snd].
  apply (IH (mmul (mmul M0 P) T) Ps).
  - inversion HT as [|? ? ET HT']. inversion HP as [|? ? EP HP'].
    destruct H0 as (a & b & Ha & ->). destruct EP as (c & d & Hc & ->). rewrite ET.
    exists (a * c)%C, (b * d)%C. split; [now apply Cmult_neq_0|].
    unfold mmul, rc, cmul, cadd. cbn [m00 m01 m10 m11 olift2]. f_equal; f_equal; ring.
  - now inversion HT.
  - now inversion HP.
Qed.

(** a sample made of the environment's material throughout reflects nothing *)
Lemma homogeneous_refl (e : C) m ts nu q : e <> RtoC 0 -> length ts = m ->
  refl_coef_qs (stack (repeat e (m + 2)) ts nu) (rr q) = Ok (Some (RtoC 0)).
Proof.
  intros He Hm.
  assert (TT : trans_matrices_qs (stack (repeat e (m + 2)) ts nu) = repeat (mkMat (rc 1) (rc 0) (rc 0) (rc 1)) (m + 1)).
  { unfold trans_matrices_qs, stack. cbn [eps_stack].
    replace (m + 2)%nat with (S (m + 1)) by lia. generalize (m + 1)%nat. intros k.
    assert (Em : forall j, map Some (repeat e j) = repeat (Some e) j) by (induction j; cbn; congruence).
    rewrite Em, repeat_removelast. cbn [repeat tl].
    induction k as [|k IH]; [reflexivity|]. cbn [repeat combine map fst snd]. rewrite IH.
    f_equal. apply trans_one. exact He. }
  assert (TM : exists M, transfer_matrix_qs (stack (repeat e (m + 2)) ts nu) (rr q) = Ok M /\ transparent M).
  { unfold transfer_matrix_qs. rewrite TT. replace (m + 1)%nat with (S m) by lia. cbn [repeat].
    assert (I : transparent (mkMat (rc 1) (rc 0) (rc 0) (rc 1))) by (exists (RtoC 1), (RtoC 1); split; [exact C1_neq_0|reflexivity]).
    destruct (multilayer _).
    - eexists. split; [reflexivity|]. apply chain_transparent; [exact I| |].
      + apply Forall_forall. intros T HT. eapply repeat_spec. exact HT.
      + unfold prop_matrices_qs. apply Forall_forall. intros P HP. apply in_map_iff in HP. destruct HP as (t & <- & _).
        unfold clip, rmul, rr. cbn [olift1 olift2]. unfold ofR, cexp. cbn [olift1].
        apply prop_transparent, Cexp_neq_0.
    - eexists. split; [reflexivity|]. exists (RtoC 1), (RtoC 1). split; [exact C1_neq_0|].
      unfold cmul, rc. cbn [m00 m01 m10 m11 olift2]. f_equal; f_equal; ring. }
  destruct TM as (M & EM & a & b & Ha & ->). unfold refl_coef_qs. rewrite EM. cbn [rbind m00 m10].
  unfold rc. rewrite cdiv_ok by exact Ha. do 2 f_equal. field. exact Ha.
Qed.

(** C43. A sample whose layers all have the environment's permittivity is
    invisible: at every height the finite dipole model with method 'Q_ave'
    (or 'bulk', the default, if there is no inner layer) gives 1 wherever its
    geometry functions are defined, and the point dipole model gives the bare
    tip polarizability. *)
Lemma C43_no_sample_proof :
  forall (laggauss : laggauss_t) (D : Defaults) (e : C) (ts : list R) nu (z_tip r_tip L_tip : option R)
    (g_factor : option C) (d_Q0 d_Q1 d_Qa : option R) (n_lag : option nat) (eps_tip alpha_tip : option C) (alpha : C),
  let s := stack (repeat e (length ts + 2)) ts nu in
  let z := given_or (d_z_tip D) z_tip in let r := given_or (d_r_tip D) r_tip in
  let L := given_or (d_L_tip D) L_tip in
  let d0 := given_or (131 / 100 * L / (L + 2 * r)) d_Q0 in
  let d1 := given_or (d_d_Q1 D) d_Q1 in let da := given_or (d_d_Qa D) d_Qa in
  e <> RtoC 0 ->
  (fdm_regular z d0 r L -> fdm_regular z d1 r L -> given_or (d_n_lag D) n_lag <> O -> z + r * da <> 0 ->
   fdm_eff_pol laggauss D s z_tip r_tip L_tip g_factor d_Q0 d_Q1 d_Qa n_lag (Some "Q_ave"%string) = Ok (rc 1)) /\
  (fdm_regular z d0 r L -> fdm_regular z d1 r L -> ts = [] ->
   fdm_eff_pol laggauss D s z_tip r_tip L_tip g_factor d_Q0 d_Q1 d_Qa n_lag None = Ok (rc 1)) /\
  (tip_alpha r eps_tip alpha_tip alpha -> r + z <> 0 ->
   pdm_eff_pol D s z_tip r_tip eps_tip alpha_tip = Ok (Some alpha)).
Proof.
  intros lg D e ts nu z_tip r_tip L_tip g d_Q0 d_Q1 d_Qa n_lag eps alt alpha s z r L d0 d1 da He.
  assert (HR : forall q, refl_coef_qs s (rr q) = Ok (Some (RtoC 0))) by (intros q; now apply homogeneous_refl).
  split; [|split].
  - intros R0 R1 Hn Hz. unfold fdm_eff_pol.
    rewrite (fdm_defaults_eq D r_tip L_tip g d_Q0 d_Q1 d_Qa) by apply R0. rewrite dflt_given. fold z r L d0 d1 da.
    cbn [String.eqb Ascii.eqb Bool.eqb]. change (rr z + rr r * rr da)%rv with (rr (z + r * da)).
    rewrite (above_ok lg D s (z + r * da) n_lag (fun _ => RtoC 0)); [|exact Hn|exact Hz|auto|eauto].
    cbn [rbind]. rewrite !geom_ok by assumption.
    replace (Csum _) with (RtoC 0).
    + unfold cmul, csub, rc. cbn [olift2]. rewrite cdiv_ok.
      * unfold cadd. cbn [olift2]. do 2 f_equal. field. 
        replace (1 - 0 * fdm_f z d1 r L (given_or (d_g_factor D) g))%C with (RtoC 1) by ring. auto.
      * replace (2 * (1 - 0 * fdm_f z d1 r L (given_or (d_g_factor D) g)))%C with (RtoC 2) by ring. exact C2_neq_0.
    + symmetry. generalize (lg (dflt (d_n_lag D) n_lag)). intros l. induction l as [|xw l IH]; [reflexivity|].
      cbn [map Csum fold_right]. unfold Csum in IH. rewrite IH. ring.
  - intros R0 R1 Hts. subst ts.
    assert (E : fdm_eff_pol lg D s z_tip r_tip L_tip g d_Q0 d_Q1 d_Qa n_lag None
              = fdm_eff_pol lg D s z_tip r_tip L_tip g d_Q0 d_Q1 d_Qa n_lag (Some "bulk"%string)) by reflexivity.
    rewrite E, (bulk_eff_pol lg D s z_tip r_tip L_tip g d_Q0 d_Q1 d_Qa n_lag _ eq_refl (HR 0) R0 R1).
    fold z r L d0 d1. set (f1 := fdm_f z d1 r L _). set (f0 := fdm_f z d0 r L _).
    rewrite cdiv_ok.
    + unfold cadd, rc. cbn [olift2]. do 2 f_equal. field. replace (1 - 0 * f1)%C with (RtoC 1) by ring. auto.
    + replace (2 * (1 - 0 * f1))%C with (RtoC 2) by ring. exact C2_neq_0.
  - intros Ht Hz. unfold pdm_eff_pol. rewrite (pdm_defaults_alpha _ _ _ _ _ Ht), HR. cbn [rbind fst snd].
    rewrite dflt_given. fold z r. rewrite pdm_geom_ok by exact Hz. unfold csub, cmul, rc. cbn [olift2].
    set (f := (alpha / _)%C). assert (E : (1 - f * 0 = 1)%C) by ring. rewrite E, cdiv_ok by exact C1_neq_0.
    do 2 f_equal. unfold Cdiv. rewrite <- RtoC_inv by lra. rewrite Rinv_1. ring.
Qed.

(** C43. Hence no harmonic: each harmonic that the number of intervals does
    not divide is 0, wherever the tip moves. *)
Lemma C43_no_harmonics_proof :
  forall (laggauss : laggauss_t) (D : Defaults) (e : C) (ts : list R) nu (A_tip : R) (n : Z)
    (z_tip r_tip L_tip : option R)
    (g_factor : option C) (d_Q0 d_Q1 d_Qa : option R) (n_lag n_trapz : option nat) (eps_tip alpha_tip : option C) (alpha : C),
  let s := stack (repeat e (length ts + 2)) ts nu in
  let z := given_or (d_z_tip D) z_tip in let r := given_or (d_r_tip D) r_tip in
  let L := given_or (d_L_tip D) L_tip in
  let d0 := given_or (131 / 100 * L / (L + 2 * r)) d_Q0 in
  let d1 := given_or (d_d_Q1 D) d_Q1 in let da := given_or (d_d_Qa D) d_Qa in
  let N := given_or (d_n_trapz D) n_trapz in
  e <> RtoC 0 -> N <> O -> ~ (Z.of_nat N | n)%Z ->
  0 <= z -> 0 <= A_tip -> 0 < r ->
  (0 < L -> r <> 4 * L -> 0 < d0 -> 0 < d1 -> 0 < da -> given_or (d_n_lag D) n_lag <> O ->
   fdm_eff_pol_n laggauss D s A_tip n z_tip n_trapz r_tip L_tip g_factor d_Q0 d_Q1 d_Qa n_lag (Some "Q_ave"%string)
   = Ok (rc 0) /\
   (ts = [] ->
    fdm_eff_pol_n laggauss D s A_tip n z_tip n_trapz r_tip L_tip g_factor d_Q0 d_Q1 d_Qa n_lag None = Ok (rc 0))) /\
  (tip_alpha r eps_tip alpha_tip alpha ->
   pdm_eff_pol_n D s A_tip n z_tip n_trapz r_tip eps_tip alpha_tip = Ok (rc 0)).
Proof.
  intros lg D e ts nu A n z_tip r_tip L_tip g d_Q0 d_Q1 d_Qa n_lag nt eps alt alpha s z r L d0 d1 da N He HN Hn Hz HA Hr.
  assert (K : forall x, z + A - Rabs A <= x <= z + A + Rabs A -> 0 <= x).
  { intros x Hx. rewrite Rabs_pos_eq in Hx by exact HA. lra. }
  split.
  - intros HL H4 Hd0 Hd1 Hda Hlag.
    assert (RG : forall x d, 0 <= x -> 0 < d -> fdm_regular x d r L).
    { intros x d Hx Hd. repeat split; auto. nra. }
    split.
    + unfold fdm_eff_pol_n. rewrite dflt_given. fold z.
      rewrite (demod_local D _ (fun _ => Ok (rc 1))).
      * apply (C36_constants_proof D (RtoC 1)); assumption.
      * intros x Hx. apply K in Hx.
        apply (C43_no_sample_proof lg D e ts nu (Some x) r_tip L_tip g d_Q0 d_Q1 d_Qa n_lag None None (RtoC 0) He);
          cbn [given_or]; auto; fold r da; nra.
    + intros Hts. unfold fdm_eff_pol_n. rewrite dflt_given. fold z.
      rewrite (demod_local D _ (fun _ => Ok (rc 1))).
      * apply (C36_constants_proof D (RtoC 1)); assumption.
      * intros x Hx. apply K in Hx.
        apply (C43_no_sample_proof lg D e ts nu (Some x) r_tip L_tip g d_Q0 d_Q1 d_Qa n_lag None None (RtoC 0) He);
          cbn [given_or]; auto.
  - intros Ht. unfold pdm_eff_pol_n. rewrite dflt_given. fold z.
    rewrite (demod_local D _ (fun _ => Ok (Some alpha))).
    + apply (C36_constants_proof D alpha); assumption.
    + intros x Hx. apply K in Hx.
      apply (C43_no_sample_proof lg D e ts nu (Some x) r_tip L_tip g d_Q0 d_Q1 d_Qa n_lag eps alt alpha He);
        cbn [given_or]; auto. fold r. lra.
Qed.

(** C43. Example: three layers of the environment's material (permittivity 2) *)
Lemma C43_example_proof : forall laggauss,
  fdm_eff_pol_n laggauss defaults0 (stack [RtoC 2; RtoC 2; RtoC 2] [7 / 10 ^ 9] None) (30 / 10 ^ 9) 3
    None None None None None None None None None (Some "Q_ave"%string) = Ok (rc 0).
Proof.
  intros lg.
  apply (C43_no_harmonics_proof lg defaults0 (RtoC 2) [7 / 10 ^ 9] None (30 / 10 ^ 9) 3 None None None None None None None None None None None (RtoC 0));
    cbn [given_or defaults0 d_n_trapz d_z_tip d_r_tip d_L_tip d_d_Q1 d_d_Qa d_n_lag]; try discriminate; try lra; try exact C2_neq_0.
  - intros [k Hk]. cbn in Hk. lia.
Qed.

(** C43. But method 'multi' - the default for a multilayer sample - does not
    give 1 there: the image charge is 0/0, and the result is not finite. *)
Lemma C43_multi_method_refuted_proof :
  forall (laggauss : laggauss_t) (D : Defaults) (e : C) (ts : list R) nu (z_tip r_tip L_tip : option R)
    (g_factor : option C) (d_Q0 d_Q1 d_Qa : option R) (n_lag : option nat),
  let s := stack (repeat e (length ts + 2)) ts nu in
  let z := given_or (d_z_tip D) z_tip in let r := given_or (d_r_tip D) r_tip in
  let L := given_or (d_L_tip D) L_tip in
  let d0 := given_or (131 / 100 * L / (L + 2 * r)) d_Q0 in
  let d1 := given_or (d_d_Q1 D) d_Q1 in
  e <> RtoC 0 -> 0 < r -> 0 < L -> 0 <= z -> 0 < d0 -> 0 < d1 -> given_or (d_n_lag D) n_lag <> O -> ts <> [] ->
  fdm_eff_pol laggauss D s z_tip r_tip L_tip g_factor d_Q0 d_Q1 d_Qa n_lag None = Ok None.
Proof.
  intros lg D e ts nu z_tip r_tip L_tip g d_Q0 d_Q1 d_Qa n_lag s z r L d0 d1 He Hr HL Hz Hd0 Hd1 Hn Hts.
  assert (HR : forall q, refl_coef_qs s (rr q) = Ok (Some (RtoC 0))) by (intros q; now apply homogeneous_refl).
  destruct (C33_default_method_proof lg D s z_tip r_tip L_tip g d_Q0 d_Q1 d_Qa n_lag) as [_ K].
  rewrite K.
  2:{ unfold s, stack. cbn [eps_stack]. rewrite map_length, repeat_length. destruct ts; [contradiction|]. cbn [length]. lia. }
  unfold fdm_eff_pol. rewrite (fdm_defaults_eq D r_tip L_tip g d_Q0 d_Q1 d_Qa) by assumption. rewrite dflt_given. fold z r L d0 d1.
  cbn [String.eqb Ascii.eqb Bool.eqb].
  assert (Z0 : forall (f : R * R -> C) l, Csum (map (fun xw : R * R => f xw * RtoC 0)%C l) = RtoC 0).
  { intros f l. induction l as [|xw l IH]; [reflexivity|]. cbn [map Csum fold_right]. unfold Csum in IH. rewrite IH. ring. }
  assert (ID : forall h, h <> 0 -> image_depth_and_charge lg D s (rr h) n_lag = Ok (None, None)).
  { intros h Hh. unfold image_depth_and_charge.
    rewrite (surf_ok lg D s h n_lag (fun _ => RtoC 0)); [|exact Hn|exact Hh|auto|eauto]. cbn [rbind fst snd].
    rewrite !Z0. assert (E : (0 / RtoC (4 * h ^ 2))%C = RtoC 0).
    { unfold Cdiv. ring. }
    rewrite E. unfold cpown. cbn [olift1]. rewrite !cdiv_zero. reflexivity. }
  change (rr z + rr r * rr d0)%rv with (rr (z + r * d0)). change (rr z + rr r * rr d1)%rv with (rr (z + r * d1)).
  rewrite !ID by nra. cbn [rbind fst snd]. reflexivity.
Qed.
