(** * Proofs: length units of the tip models *)
From Coq Require Import String Reals Lra Lia ZArith List Bool.
From Coquelicot Require Import Rcomplements Complex.
From Verif Require Import Num NumLemmas LimLemmas ModelBase ModelSample ModelTip StackLemmas Spec
  ProofsStackQS ProofsStackQS2 ProofsBulkFF ProofsSym ProofsPassive DemodLemmas ProofsDemod ProofsTip ProofsTip2 ProofsTip3.
Import ListNotations.
Open Scope R_scope.

(** ** C42 *)
Lemma rdiv_scale k a b : k <> 0 -> rdiv (Some (k * a)) (Some (k * b)) = rdiv (Some a) (Some b).
Proof.
  intros Hk. unfold rdiv. destruct (Req_EM_T b 0) as [->|Hb]; destruct (Req_EM_T (k * _) 0) as [E|E].
  - reflexivity.
  - exfalso. apply E. ring.
  - apply Rmult_integral in E. tauto.
  - f_equal. field. auto.
Qed.
Lemma geom_scale k z d r L g : k <> 0 ->
  fdm_geom_func (rr (k * z)) (rr d) (rr (k * r)) (rr (k * L)) g = fdm_geom_func (rr z) (rr d) (rr r) (rr L) g.
Proof.
  intros Hk. unfold fdm_geom_func, radd, rmul, rr. cbn [olift2].
  replace (k * r + 2 * (k * z) + d * (k * r)) with (k * (r + 2 * z + d * r)) by ring.
  replace (k * r + 4 * (k * z) + 2 * d * (k * r)) with (k * (r + 4 * z + 2 * d * r)) by ring.
  replace (2 * (k * L)) with (k * (2 * L)) by ring. replace (4 * (k * L)) with (k * (4 * L)) by ring.
  rewrite !rdiv_scale by exact Hk. reflexivity.
Qed.
Lemma geom_multi_scale k z (d : RV) r L g : k <> 0 ->
  fdm_geom_func_multi (rr (k * z)) (rr k * d)%rv (rr (k * r)) (rr (k * L)) g = fdm_geom_func_multi (rr z) d (rr r) (rr L) g.
Proof.
  intros Hk. destruct d as [d|]; [|destruct g; reflexivity].
  unfold fdm_geom_func_multi, radd, rmul, rr. cbn [olift2].
  replace (k * r + k * z + k * d) with (k * (r + z + d)) by ring.
  replace (k * r + 2 * (k * z) + 2 * (k * d)) with (k * (r + 2 * z + 2 * d)) by ring.
  replace (2 * (k * L)) with (k * (2 * L)) by ring. replace (4 * (k * L)) with (k * (4 * L)) by ring.
  rewrite !rdiv_scale by exact Hk. reflexivity.
Qed.
Lemma given_length k d o : given_or (k * d) (in_length k o) = k * given_or d o.
Proof. destruct o; reflexivity. Qed.
Lemma fdm_defaults_scale k D r_tip L_tip g d_Q0 d_Q1 d_Qa :
  let r := given_or (d_r_tip D) r_tip in let L := given_or (d_L_tip D) L_tip in
  k <> 0 -> L + 2 * r <> 0 ->
  let d0 := given_or (131 / 100 * L / (L + 2 * r)) d_Q0 in
  let g' := given_or (d_g_factor D) g in
  let d1 := given_or (d_d_Q1 D) d_Q1 in let da := given_or (d_d_Qa D) d_Qa in
  fdm_defaults D r_tip L_tip g d_Q0 d_Q1 d_Qa = (r, L, g', rr d0, d1, da) /\
  fdm_defaults (rescale_defaults k D) (in_length k r_tip) (in_length k L_tip) g d_Q0 d_Q1 d_Qa
  = (k * r, k * L, g', rr d0, d1, da).
Proof.
  intros r L Hk H d0 g' d1 da.
  assert (H' : k * L + 2 * (k * r) <> 0).
  { replace (k * L + 2 * (k * r)) with (k * (L + 2 * r)) by ring. now apply Rmult_integral_contrapositive_currified. }
  split.
  - rewrite (fdm_defaults_explicit D D r_tip L_tip g d_Q0 d_Q1 d_Qa H). reflexivity.
  - rewrite (fdm_defaults_explicit (rescale_defaults k D) D).
    + cbn [rescale_defaults d_r_tip d_L_tip]. rewrite !given_length. fold r L.
      replace (131 / 100 * (k * L) / (k * L + 2 * (k * r))) with (131 / 100 * L / (L + 2 * r)).
      * reflexivity.
      * field. auto.
    + cbn [rescale_defaults d_r_tip d_L_tip]. rewrite !given_length. exact H'.
Qed.
Lemma demod_scale k D f g x0 A n nt : (forall x, g (k * x) = f x) ->
  demod (rescale_defaults k D) g (k * x0) (k * A) n nt = demod D f x0 A n nt.
Proof.
  intros H. unfold demod. change (d_n_trapz (rescale_defaults k D)) with (d_n_trapz D).
  replace (k * x0 + 0 * (k * A)) with (k * (x0 + 0 * A)) by ring. rewrite H.
  assert (E : mapM (fun t => g (k * x0 + cos t * (k * A))) (thetas (dflt (d_n_trapz D) nt))
            = mapM (fun t => f (x0 + cos t * A)) (thetas (dflt (d_n_trapz D) nt))).
  { apply mapM_ext. intros t _. rewrite <- H. f_equal. ring. }
  rewrite E. reflexivity.
Qed.
Lemma demod_scal_res D (c : C) f x0 A n nt :
  demod D (fun x => map_res (fun v => Some c * v)%cv (f x)) x0 A n nt
  = map_res (fun v => Some c * v)%cv (demod D f x0 A n nt).
Proof.
  set (N := dflt (d_n_trapz D) nt). set (sc := fun v => (Some c * v)%cv).
  destruct (demod D f x0 A n nt) as [v|e] eqn:E; cbn [map_res].
  - destruct (demod_ok_inv _ _ _ _ _ _ _ E) as [[c' Hc] Hf]. fold N in Hf.
    destruct (Nat.eq_dec N 0) as [E0|HN].
    + rewrite (demod_N0 _ _ _ _ _ _ _ E0 E). apply demod_ok_N0; [exact E0| |].
      * rewrite Hc. cbn. eauto.
      * rewrite E0 in Hf. rewrite Hf by lia. cbn. eauto.
    + rewrite (demod_inv _ _ _ _ _ _ _ HN E).
      rewrite (demod_mean D _ (fun x => sc (val f x))); [|exact HN| |].
      * f_equal. fold N. unfold dmean, sc. rewrite <- mean_scal. apply mean_ext. intros k _.
        destruct (val f (height x0 A N k)) as [p|]; [|reflexivity]. unfold cmul. cbn [olift2]. f_equal. ring.
      * rewrite Hc. cbn. eauto.
      * intros k Hk. fold N. rewrite Hf by exact Hk. reflexivity.
  - revert E. unfold demod. destruct (f (x0 + 0 * A)) as [c'|e'] eqn:Ec; cbn [rbind map_res]; [|intros [= ->]; reflexivity].
    fold N. intros H.
    assert (K : forall l, mapM (fun t => map_res sc (f (x0 + cos t * A))) l
              = map_res (map sc) (mapM (fun t => f (x0 + cos t * A)) l)).
    { induction l as [|t l IH]; [reflexivity|]. cbn [mapM]. destruct (f (x0 + cos t * A)); [|reflexivity].
      cbn [map_res rbind]. rewrite IH. destruct (mapM (fun t => f (x0 + cos t * A)) l); reflexivity. }
    rewrite K. destruct (mapM _ (thetas N)); cbn [map_res rbind] in *; [discriminate|]. injection H as ->. reflexivity.
Qed.
Lemma rbind_ext {A B} (m m' : res A) (f f' : A -> res B) : m = m' -> (forall a, f a = f' a) -> rbind m f = rbind m' f'.
Proof. intros -> H. destruct m'; cbn; auto. Qed.
Lemma refl_scale0 k s : 0 < k -> refl_coef_qs (rescale_sample k s) (rr 0) = refl_coef_qs s (rr 0).
Proof.
  intros Hk. destruct (C17_units_refl_trans_qs_proof k s 0) as [E _]; [lra|].
  replace (0 / k) with 0 in E by (field; lra). exact E.
Qed.

Lemma fdm_eff_pol_scale k lg D s z_tip z_tip' r_tip L_tip g d_Q0 d_Q1 d_Qa n_lag m :
  let r := given_or (d_r_tip D) r_tip in let L := given_or (d_L_tip D) L_tip in
  0 < k -> L + 2 * r <> 0 -> given_or (k * d_z_tip D) z_tip' = k * given_or (d_z_tip D) z_tip ->
  fdm_eff_pol lg (rescale_defaults k D) (rescale_sample k s) z_tip' (in_length k r_tip) (in_length k L_tip)
    g d_Q0 d_Q1 d_Qa n_lag m
  = fdm_eff_pol lg D s z_tip r_tip L_tip g d_Q0 d_Q1 d_Qa n_lag m.
Proof.
  intros r L Hk H Ez. assert (Hk' : k <> 0) by lra. unfold fdm_eff_pol.
  destruct (fdm_defaults_scale k D r_tip L_tip g d_Q0 d_Q1 d_Qa Hk' H) as [-> ->]. fold r L.
  rewrite !dflt_given. cbn [rescale_defaults d_z_tip]. rewrite Ez.
  set (z := given_or (d_z_tip D) z_tip). set (d0 := given_or _ d_Q0). set (d1 := given_or _ d_Q1). set (da := given_or _ d_Qa).
  assert (HZ : forall d, (rr (k * z) + rr (k * r) * rr d)%rv = rr (k * (z + r * d))).
  { intros d. unfold radd, rmul, rr. cbn [olift2]. f_equal. ring. }
  assert (HZ' : forall d, (rr z + rr r * rr d)%rv = rr (z + r * d)) by reflexivity.
  rewrite !HZ, !HZ'. change (multilayer (rescale_sample k s)) with (n_layers (rescale_sample k s) <? 2)%nat || idtac.
  replace (multilayer (rescale_sample k s)) with (multilayer s) by reflexivity.
  rewrite !geom_scale by exact Hk'. rewrite refl_scale0 by exact Hk.
  destruct (C17_units_averages_proof lg (rescale_defaults k D) k s (z + r * d0) n_lag Hk) as (_ & _ & E0).
  destruct (C17_units_averages_proof lg (rescale_defaults k D) k s (z + r * d1) n_lag Hk) as (_ & _ & E1).
  destruct (C17_units_averages_proof lg (rescale_defaults k D) k s (z + r * da) n_lag Hk) as (Ea & _ & _).
  rewrite E0, E1, Ea.
  change (refl_coef_qs_above_surf lg (rescale_defaults k D) s) with (refl_coef_qs_above_surf lg D s).
  change (image_depth_and_charge lg (rescale_defaults k D) s) with (image_depth_and_charge lg D s).
  destruct (image_depth_and_charge lg D s (rr (z + r * d0)) n_lag) as [i0|]; cbn [map_res rbind fst snd]; [|reflexivity].
  destruct (image_depth_and_charge lg D s (rr (z + r * d1)) n_lag) as [i1|]; cbn [map_res rbind fst snd]; [|reflexivity].
  rewrite !geom_multi_scale by exact Hk'. reflexivity.
Qed.

(** C42. Finite dipole model: measuring all lengths (tip, amplitude,
    thicknesses, and the stored defaults) in a unit k times smaller changes
    no effective polarizability, no harmonic, no Taylor sum and no inversion,
    for any method. *)
Lemma C42_fdm_units_proof :
  forall (laggauss : laggauss_t) (k : R) (D : Defaults) (s : sample) (A_tip : R) (n : Z) (z_tip r_tip L_tip : option R)
    (g_factor : option C) (d_Q0 d_Q1 d_Qa : option R) (n_lag n_trapz n_tayl : option nat) (method : option string)
    (alpha : CV),
  let D' := rescale_defaults k D in let s' := rescale_sample k s in
  let z' := in_length k z_tip in let r' := in_length k r_tip in let L' := in_length k L_tip in
  0 < k -> given_or (d_L_tip D) L_tip + 2 * given_or (d_r_tip D) r_tip <> 0 ->
  fdm_eff_pol laggauss D' s' z' r' L' g_factor d_Q0 d_Q1 d_Qa n_lag method
    = fdm_eff_pol laggauss D s z_tip r_tip L_tip g_factor d_Q0 d_Q1 d_Qa n_lag method /\
  fdm_eff_pol_n laggauss D' s' (k * A_tip) n z' n_trapz r' L' g_factor d_Q0 d_Q1 d_Qa n_lag method
    = fdm_eff_pol_n laggauss D s A_tip n z_tip n_trapz r_tip L_tip g_factor d_Q0 d_Q1 d_Qa n_lag method /\
  fdm_eff_pol_n_taylor laggauss D' s' (k * A_tip) n z' r' L' g_factor d_Q0 d_Q1 d_Qa n_lag method n_trapz n_tayl
    = fdm_eff_pol_n_taylor laggauss D s A_tip n z_tip r_tip L_tip g_factor d_Q0 d_Q1 d_Qa n_lag method n_trapz n_tayl /\
  fdm_refl_coef_qs_from_eff_pol D' alpha z' r' L' g_factor d_Q0 d_Q1
    = fdm_refl_coef_qs_from_eff_pol D alpha z_tip r_tip L_tip g_factor d_Q0 d_Q1.
Proof.
  intros lg k D s A n z_tip r_tip L_tip g d_Q0 d_Q1 d_Qa n_lag nt nj m al D' s' z' r' L' Hk H.
  assert (Hk' : k <> 0) by lra.
  set (r := given_or (d_r_tip D) r_tip) in *. set (L := given_or (d_L_tip D) L_tip) in *.
  split; [|split; [|split]].
  - apply fdm_eff_pol_scale; [exact Hk|exact H|apply given_length].
  - unfold fdm_eff_pol_n. rewrite !dflt_given. cbn [D' rescale_defaults d_z_tip]. unfold z'. rewrite given_length.
    replace (k * given_or (d_z_tip D) z_tip + k * A) with (k * (given_or (d_z_tip D) z_tip + A)) by ring.
    apply demod_scale. intros x. apply fdm_eff_pol_scale; [exact Hk|exact H|reflexivity].
  - unfold fdm_eff_pol_n_taylor. unfold D', r', L'.
    destruct (fdm_defaults_scale k D r_tip L_tip g d_Q0 d_Q1 d_Qa Hk' H) as [-> ->]. fold r L.
    rewrite !dflt_given. change (d_z_tip (rescale_defaults k D)) with (k * d_z_tip D). change (d_n_tayl (rescale_defaults k D)) with (d_n_tayl D). unfold z'. rewrite given_length.
    set (z := given_or (d_z_tip D) z_tip). set (d0 := given_or _ d_Q0). set (d1 := given_or _ d_Q1). set (da := given_or _ d_Qa).
    replace (rr (k * z) + rr (k * r) * rr da)%rv with (rr (k * (z + r * da)))
      by (unfold radd, rmul, rr; cbn [olift2]; f_equal; ring).
    change (rr z + rr r * rr da)%rv with (rr (z + r * da)).
    destruct (C17_units_averages_proof lg (rescale_defaults k D) k s (z + r * da) n_lag Hk) as (Ea & _ & _).
    change (refl_coef_qs_above_surf lg (rescale_defaults k D) s) with (refl_coef_qs_above_surf lg D s) in Ea.
    unfold s'.
    rewrite Ea, refl_scale0 by exact Hk. replace (multilayer (rescale_sample k s)) with (multilayer s) by reflexivity.
    apply rbind_ext; [reflexivity|]. intros beta.
    assert (T : forall j, fdm_taylor_coef (rescale_defaults k D) (k * z) j (k * A) n (rr (k * r)) (rr (k * L))
                            (Some (given_or (d_g_factor D) g)) (rr d0) (rr d1) nt
              = fdm_taylor_coef D z j A n (rr r) (rr L) (Some (given_or (d_g_factor D) g)) (rr d0) (rr d1) nt).
    { intros j. unfold fdm_taylor_coef. replace (k * z + k * A) with (k * (z + A)) by ring.
      rewrite (demod_scale k D (fun z => Ok (fdm_geom_func_taylor (rr z) j (rr r) (rr L) (Some (given_or (d_g_factor D) g)) (rr d0) (rr d1)))).
      - reflexivity.
      - intros x. unfold fdm_geom_func_taylor. rewrite !geom_scale by exact Hk'. reflexivity. }
    assert (TT : forall l, mapM (fun j => let! a := fdm_taylor_coef (rescale_defaults k D) (k * z) j (k * A) n (rr (k * r)) (rr (k * L))
                            (Some (given_or (d_g_factor D) g)) (rr d0) (rr d1) nt in Ok (a * cpown beta j)%cv) l
      = mapM (fun j => let! a := fdm_taylor_coef D z j A n (rr r) (rr L) (Some (given_or (d_g_factor D) g)) (rr d0) (rr d1) nt in
                       Ok (a * cpown beta j)%cv) l).
    { intros l. apply mapM_ext. intros j _. rewrite T. reflexivity. }
    rewrite TT. reflexivity.
  - unfold fdm_refl_coef_qs_from_eff_pol, D', r', L', z'.
    destruct (fdm_defaults_scale k D r_tip L_tip g d_Q0 d_Q1 None Hk' H) as [-> ->]. fold r L.
    rewrite !dflt_given. cbn [rescale_defaults d_z_tip]. rewrite given_length, !geom_scale by exact Hk'. reflexivity.
Qed.

(** ** Point dipole *)
Lemma cmul_comm x y : (x * y)%cv = (y * x)%cv.
Proof. destruct x, y; try reflexivity. unfold cmul. cbn [olift2]. f_equal. ring. Qed.
Lemma pdm_defaults_scale k D r_tip eps alpha : k <> 0 ->
  pdm_defaults (rescale_defaults k D) (in_length k r_tip) eps (in_volume k alpha)
  = map_res (fun ra => ((k * fst ra)%R, (rc (k ^ 3) * snd ra)%cv)) (pdm_defaults D r_tip eps alpha).
Proof.
  intros Hk. unfold pdm_defaults.
  assert (E : dflt (d_r_tip (rescale_defaults k D)) (in_length k r_tip) = k * dflt (d_r_tip D) r_tip)
    by (destruct r_tip; reflexivity).
  rewrite E. set (r := dflt (d_r_tip D) r_tip).
  assert (EA : ofR (rr 4 * rr PI * rr (k * r) ^ 3)%rv = (rc (k ^ 3) * ofR (rr 4 * rr PI * rr r ^ 3)%rv)%cv).
  { unfold rmul, rpow, ofR, cmul, rc, rr. cbn [olift1 olift2]. f_equal. rewrite <- RtoC_mult. f_equal. ring. }
  destruct eps as [e|], alpha as [a|]; cbn [in_volume map_res fst snd]; try reflexivity.
  - rewrite EA. do 2 f_equal. unfold ofR, rmul, rpow, cmul, cadd, csub, rc, rr, cdiv. cbn [olift1 olift2].
    destruct (Ceq_dec (e + 2) 0); [reflexivity|]. f_equal. field. assumption.
  - rewrite EA. reflexivity.
Qed.
Lemma pdm_geom_scale k z r (a : CV) : k <> 0 ->
  pdm_geom_func (rr (k * z)) (rr (k * r)) (rc (k ^ 3) * a)%cv = pdm_geom_func (rr z) (rr r) a.
Proof.
  intros Hk. unfold pdm_geom_func.
  replace (ofR (rr 16 * rr PI * (rr (k * r) + rr (k * z)) ^ 3)%rv)
    with (rc (k ^ 3) * ofR (rr 16 * rr PI * (rr r + rr z) ^ 3)%rv)%cv.
  - rewrite cdiv_scale; [reflexivity|]. now apply pow_nonzero.
  - unfold radd, rmul, rpow, ofR, cmul, rc, rr. cbn [olift1 olift2]. f_equal. rewrite <- RtoC_mult. f_equal. ring.
Qed.
Lemma cmul_div (c : C) a b : (Some c * a / b)%cv = (Some c * (a / b))%cv.
Proof.
  destruct a as [a|], b as [b|]; try reflexivity. unfold cmul, cdiv. cbn [olift2].
  destruct (Ceq_dec b 0); [reflexivity|]. cbn [olift2]. f_equal. field. assumption.
Qed.
Lemma pdm_eff_pol_scale k D s z_tip z_tip' r_tip eps alpha :
  0 < k -> given_or (k * d_z_tip D) z_tip' = k * given_or (d_z_tip D) z_tip ->
  pdm_eff_pol (rescale_defaults k D) (rescale_sample k s) z_tip' (in_length k r_tip) eps (in_volume k alpha)
  = map_res (fun v => rc (k ^ 3) * v)%cv (pdm_eff_pol D s z_tip r_tip eps alpha).
Proof.
  intros Hk Ez. assert (Hk' : k <> 0) by lra. unfold pdm_eff_pol. rewrite pdm_defaults_scale by exact Hk'.
  destruct (pdm_defaults D r_tip eps alpha) as [[r a]|]; [|reflexivity]. cbn [map_res rbind fst snd].
  rewrite refl_scale0 by exact Hk. destruct (refl_coef_qs s (rr 0)) as [b|]; [|reflexivity]. cbn [map_res rbind].
  rewrite !dflt_given. cbn [rescale_defaults d_z_tip]. rewrite Ez, pdm_geom_scale by exact Hk'.
  unfold rc at 1. rewrite cmul_div. reflexivity.
Qed.

(** C42. Point dipole model: effective polarizabilities are volumes. They and
    their harmonics are multiplied by k^3 when all lengths are multiplied by k
    (alpha_tip, if given, by k^3); the inverse is unchanged.  The Taylor sum
    is unchanged too, which shows that it is not in the same unit as the
    harmonics it approximates (see C29). *)
Lemma C42_pdm_units_proof :
  forall (k : R) (D : Defaults) (s : sample) (A_tip : R) (n : Z) (z_tip r_tip : option R)
    (eps_tip alpha_tip : option C) (n_trapz n_tayl : option nat) (alpha : CV),
  let D' := rescale_defaults k D in let s' := rescale_sample k s in
  let z' := in_length k z_tip in let r' := in_length k r_tip in let a' := in_volume k alpha_tip in
  0 < k ->
  pdm_eff_pol D' s' z' r' eps_tip a'
    = map_res (fun v => rc (k ^ 3) * v)%cv (pdm_eff_pol D s z_tip r_tip eps_tip alpha_tip) /\
  pdm_eff_pol_n D' s' (k * A_tip) n z' n_trapz r' eps_tip a'
    = map_res (fun v => rc (k ^ 3) * v)%cv (pdm_eff_pol_n D s A_tip n z_tip n_trapz r_tip eps_tip alpha_tip) /\
  pdm_eff_pol_n_taylor D' s' (k * A_tip) n z' r' eps_tip a' n_trapz n_tayl
    = pdm_eff_pol_n_taylor D s A_tip n z_tip r_tip eps_tip alpha_tip n_trapz n_tayl /\
  pdm_refl_coef_qs_from_eff_pol D' (rc (k ^ 3) * alpha)%cv z' r' eps_tip a'
    = pdm_refl_coef_qs_from_eff_pol D alpha z_tip r_tip eps_tip alpha_tip.
Proof.
  intros k D s A n z_tip r_tip eps alpha nt nj al D' s' z' r' a' Hk. assert (Hk' : k <> 0) by lra.
  assert (Hk3 : k ^ 3 <> 0) by (now apply pow_nonzero).
  split; [|split; [|split]].
  - apply pdm_eff_pol_scale; [exact Hk|apply given_length].
  - unfold pdm_eff_pol_n. rewrite !dflt_given. cbn [D' rescale_defaults d_z_tip]. unfold z'. rewrite given_length.
    replace (k * given_or (d_z_tip D) z_tip + k * A) with (k * (given_or (d_z_tip D) z_tip + A)) by ring.
    rewrite (demod_scale k D (fun x => map_res (fun v => rc (k ^ 3) * v)%cv (pdm_eff_pol D s (Some x) r_tip eps alpha)))
      by (intros x; apply pdm_eff_pol_scale; [exact Hk|reflexivity]).
    apply demod_scal_res.
  - unfold pdm_eff_pol_n_taylor, D', r', a'. rewrite pdm_defaults_scale by exact Hk'.
    destruct (pdm_defaults D r_tip eps alpha) as [[r a]|]; [|reflexivity]. cbn [map_res rbind fst snd].
    unfold s'. rewrite refl_scale0 by exact Hk. destruct (refl_coef_qs s (rr 0)) as [b|]; [|reflexivity]. cbn [rbind].
    rewrite !dflt_given. change (d_z_tip (rescale_defaults k D)) with (k * d_z_tip D). change (d_n_tayl (rescale_defaults k D)) with (d_n_tayl D).
    unfold z'. rewrite given_length. set (z := given_or (d_z_tip D) z_tip).
    assert (TT : forall l, mapM (fun j => let! a := pdm_taylor_coef (rescale_defaults k D) (k * z) j (k * A) n (rr (k * r)) (rc (k ^ 3) * a)%cv nt in
                   Ok (a * cpown b j)%cv) l
        = mapM (fun j => let! a := pdm_taylor_coef D z j A n (rr r) a nt in Ok (a * cpown b j)%cv) l).
    { intros l. apply mapM_ext. intros j _. unfold pdm_taylor_coef. replace (k * z + k * A) with (k * (z + A)) by ring.
      rewrite (demod_scale k D (fun z => Ok (cpown (pdm_geom_func (rr z) (rr r) a) j))); [reflexivity|].
      intros x. rewrite pdm_geom_scale by exact Hk'. reflexivity. }
    rewrite TT. reflexivity.
  - unfold pdm_refl_coef_qs_from_eff_pol, D', r', a'. rewrite pdm_defaults_scale by exact Hk'.
    destruct (pdm_defaults D r_tip eps alpha) as [[r a]|]; [|reflexivity]. cbn [map_res rbind fst snd].
    rewrite !dflt_given. cbn [rescale_defaults d_z_tip]. unfold z'. rewrite given_length, pdm_geom_scale by exact Hk'.
    f_equal. set (f := pdm_geom_func _ _ a).
    replace (rc (k ^ 3) * al - rc (k ^ 3) * a)%cv with (rc (k ^ 3) * (al - a))%cv.
    2:{ destruct al, a; try reflexivity. unfold rc, cmul, csub. cbn [olift2]. f_equal. ring. }
    replace (f * (rc (k ^ 3) * al))%cv with (rc (k ^ 3) * (f * al))%cv.
    2:{ destruct al, f; try reflexivity. unfold rc, cmul. cbn [olift2]. f_equal. ring. }
    apply cdiv_scale. exact Hk3.
Qed.

(** C42. Example: metres to nanometres, default tip over a 5 nm film *)
Lemma C42_example_proof : forall laggauss,
  let Dnm := rescale_defaults (10 ^ 9) defaults0 in
  d_r_tip Dnm = 20 /\ d_L_tip Dnm = 300 /\
  fdm_eff_pol_n laggauss Dnm (stack [RtoC 1; RtoC 2; RtoC 3] [5] None) 30 3
    None None None None None None None None None None
  = fdm_eff_pol_n laggauss defaults0 (stack [RtoC 1; RtoC 2; RtoC 3] [5 / 10 ^ 9] None) (30 / 10 ^ 9) 3
    None None None None None None None None None None.
Proof.
  intros lg Dnm. unfold Dnm. split; [cbn; lra|]. split; [cbn; lra|].
  destruct (C42_fdm_units_proof lg (10 ^ 9) defaults0 (stack [RtoC 1; RtoC 2; RtoC 3] [5 / 10 ^ 9] None) (30 / 10 ^ 9) 3
    None None None None None None None None None None None None) as (_ & E & _); [lra|cbn; lra|].
  cbn [in_length] in E. rewrite <- E. f_equal; [|lra].
  unfold rescale_sample, stack. cbn [t_stack eps_stack nu_vac map]. f_equal. f_equal. lra.
Qed.
