(** * Proofs: which solution the root-finding inverses put first (C84), point dipole model *)
From Coq Require Import String Reals Lra Lia ZArith List Bool Permutation Sorted.
From Coquelicot Require Import Rcomplements Complex.
From Verif Require Import Num NumLemmas LimLemmas ModelBase ModelSample ModelTip NArr SpecArr NArrLemmas ModelObj SpecObj
  ModelArr ModelArrTip ModelInv StackLemmas Spec SpecPoly SpecInv SpecNear SpecFirst FTA ArrSample
  ProofsStackQS ProofsStackQS2 ProofsPassive DemodLemmas ProofsDemod ProofsTip ProofsTip2 ProofsTip3 ProofsTaylor
  ProofsArr ProofsArr2 ProofsArrTip InvLemmas ProofsInv ProofsInv2 ProofsInv3 ProofsInv4 ProofsNear ProofsConsist ProofsConsist2 ProofsConsist3
  PosDef ProofsContrast ProofsContrast2 PosPoly ProofsFirst ProofsFirst2.
Import ListNotations.
Open Scope R_scope.

Section PDM.
Context (D : Defaults) (A : R) (n : Z) (nt : option nat) (z_tip r_tip : option R) (eps_tip alt : option C) (alpha : R).
Let N := given_or (d_n_trapz D) nt. Let z := given_or (d_z_tip D) z_tip. Let r := given_or (d_r_tip D) r_tip.
Context (Ht : tip_alpha r eps_tip alt (RtoC alpha)) (Ha : 0 < alpha) (HN : N <> O) (HA : 0 < A) (Hz : 0 < r + z).
Definition pF (k : nat) : R := pdm_int alpha r z A N k.
Definition pc0 : R := sgn_pow n * harm N n (fun _ => 1).
Let q := qj n N pF pF. Let sg := sgn_pow n.

Lemma pF_dom i : dom N i pF.
Proof using Ha HN HA Hz. apply pdm_int_dom; assumption. Qed.
Lemma pq_pos j : 0 < q j.
Proof using Ha HN HA Hz. apply qj_pos; [exact HN|exact pF_dom|exact pF_dom]. Qed.
Lemma p_height k : 0 < r + tip_height z A N k.
Proof using HA Hz. rewrite tip_height_cs. pose proof (cs_bound N k). nra. Qed.
Lemma p_coef j : pdm_taylor_coef D z j A n (rr r) (Some (RtoC alpha)) nt = Ok (Some (cf q (RtoC pc0) sg j)).
Proof using Ha HN HA Hz.
  unfold pdm_taylor_coef.
  rewrite (demod_tip D _ (fun x => Cpown (RtoC alpha / RtoC (16 * PI * (r + x) ^ 3)) j)%C); [|exact HN|eauto|].
  - do 2 f_equal. fold N.
    transitivity (tmean z A n N (fun x => RtoC ((alpha / (16 * PI * (r + x) ^ 3)) ^ j))).
    + apply tmean_ext. intros k Hk. pose proof (p_height k) as X. pose proof PI_RGT_0. assert (0 < (r + tip_height z A N k) ^ 3) by (apply pow_lt, X).
      rewrite <- RtoC_div by nra. apply Cpown_real.
    + rewrite tmean_real by exact HN. destruct j as [|j]; [reflexivity|]. cbn [cf]. unfold q, qj, sg. do 2 f_equal. apply harm_ext. intros k Hk.
      unfold pF. rewrite pdm_int_eq by assumption. reflexivity.
  - intros k Hk. fold N in Hk |- *. f_equal. rewrite pdm_geom_ok by (apply Rgt_not_eq, p_height). reflexivity.
Qed.
Lemma p_taylor s m b : refl_coef_qs s (rr 0) = Ok (Some (RtoC b)) ->
  pdm_eff_pol_n_taylor D s A n z_tip r_tip eps_tip alt nt (Some (S m)) = Ok (Some (RtoC (pc0 + sg * tm q m b))).
Proof using Ht Ha HN HA Hz.
  intros Hb. rewrite (pdm_taylor_any _ _ _ _ _ _ _ _ _ _ _ _ _ (pdm_defaults_alpha _ _ _ _ _ Ht) Hb). f_equal. rewrite RtoC_plus, <- cfs_real. cbn [dflt].
  apply taylor_value; [apply cfs_length|]. intros j Hj. rewrite dflt_given. fold z r. unfold pdm_coef. rewrite p_coef. cbn [value]. now rewrite cfs_nth by lia.
Qed.
Lemma p_inverse eig sb sr thr ri ra env m b : library eig sb sr -> (1 <= m)%nat -> 0 <= b ->
  admissible (given_or (d_beta_threshold D) thr) ri ra (given_or (d_eps_env D) env) (RtoC b) ->
  exists result,
    pdm_refl_coef_qs_from_eff_pol_n eig sb sr D (scalar (Some (RtoC (pc0 + sg * tm q m b)))) (scalar A) (scalar n) (as_array z_tip) (as_array r_tip)
        (as_array eps_tip) (as_array alt) nt (Some (S m)) thr ri ra (as_array env) = Ok result /\
    smallest_first result b.
Proof using Ht Ha HN HA Hz.
  intros LIB Hm Hb Hadm. rewrite RtoC_plus. set (al := (RtoC pc0 + RtoC (sg * tm q m b))%C).
  destruct (C31_pdm_complete_proof eig sb sr D (scalar (Some al)) (scalar A) (scalar n) (as_array z_tip) (as_array r_tip)
        (as_array eps_tip) (as_array alt) nt (Some (S m)) thr ri ra (as_array env)
        [] (fun _ => cfs q (RtoC pc0) sg m) (fun _ => al) m LIB) as (result & ER & EL & HR).
  - apply env_as_array.
  - destruct Ht; cbn [as_array]; auto.
  - apply joint_pdm_scalars.
  - exists []. apply index_scalar.
  - exact Hm.
  - intros i Hi. rewrite !entry_scalar, !at_as_array. split; [reflexivity|].
    split; [apply cfs_degree; [exact pq_pos|apply sgn_sq|exact Hm]|]. split; [apply cfs_length|].
    exists r, (Some (RtoC alpha)). split; [apply pdm_defaults_alpha, Ht|].
    intros j Hj. rewrite cfs_length in Hj. rewrite cfs_nth by lia. apply p_coef.
  - exists result. split; [exact ER|].
    destruct (C32_pdm_layout_proof _ _ _ _ _ _ _ _ _ _ _ _ _ _ _ _ _ _ LIB (env_as_array _ _) ER) as (_ & _ & _ & _ & LU & LS).
    apply (first_of result q (RtoC pc0) sg m b (admissible (given_or (d_beta_threshold D) thr) ri ra (given_or (d_eps_env D) env)));
      [exact pq_pos|apply sgn_sq|exact Hm|exact Hb|exact Hadm|exact EL|apply LU, EL| | |].
    + apply LS. rewrite EL. apply index_scalar.
    + intros x k Hx. specialize (HR [] x k index_scalar). rewrite at_as_array in HR. apply HR, Hx.
    + intros v Hv. destruct (C30_pdm_sound_proof _ _ _ _ _ _ _ _ _ _ _ _ _ _ _ _ _ _ LIB (env_as_array _ _) ER [] v ltac:(rewrite EL; apply index_scalar) Hv)
        as (x & -> & Hx & _). rewrite at_as_array in Hx. exists x. auto.
Qed.
Lemma p_loop b : 0 <= b -> alpha * b < 16 * PI * (r + z) ^ 3 -> forall k, (k < N)%nat -> Rabs (b * pF k) < 1.
Proof using Ha HA Hz. intros Hb Hs k _. apply pdm_int_bound; assumption. Qed.
Lemma p_exact s b : refl_coef_qs s (rr 0) = Ok (Some (RtoC b)) -> 0 <= b -> alpha * b < 16 * PI * (r + z) ^ 3 ->
  pdm_eff_pol_n D s A n z_tip nt r_tip eps_tip alt = Ok (Some (RtoC (alpha * (pc0 + sg * exactS n N pF pF b)))).
Proof using Ht Ha HN HA Hz.
  intros Hb Hb0 Hs. rewrite (pdm_signal D s A n z_tip nt r_tip eps_tip alt alpha b Ht Ha Hb HN HA Hz Hb0 Hs). fold N z r.
  do 3 f_equal. unfold pc0, sg.
  replace (alpha * (sgn_pow n * harm N n (fun _ => 1) + sgn_pow n * exactS n N pF pF b))
    with (sgn_pow n * (alpha * (harm N n (fun _ => 1) + exactS n N pF pF b))) by ring. do 2 f_equal.
  unfold exactS. rewrite <- harm_plus. apply harm_ext. intros k Hk. pose proof (p_loop b Hb0 Hs k Hk) as B. apply Rabs_lt_between in B.
  unfold pF in *. field. lra.
Qed.
End PDM.

(** C84. The same for the point dipole model, for every sample, bulk or layered, with
    a real non-negative quasistatic reflection coefficient. *)
Lemma C84_pdm_first_proof :
  forall eig sb sr (D : Defaults) (s : sample) (A_tip : R) (n : Z) (z_tip r_tip : option R) (n_trapz : option nat)
    (eps_tip alpha_tip : option C) (thr : option R) (ri ra : bool) (eps_env : option C) (alpha b : R) (J : nat),
  let N := given_or (d_n_trapz D) n_trapz in let z := given_or (d_z_tip D) z_tip in
  let r := given_or (d_r_tip D) r_tip in
  library eig sb sr -> tip_alpha r eps_tip alpha_tip (RtoC alpha) -> 0 < alpha ->
  refl_coef_qs s (rr 0) = Ok (Some (RtoC b)) -> N <> O -> 0 < A_tip -> 0 < r + z -> 0 <= b -> (2 <= J)%nat ->
  admissible (given_or (d_beta_threshold D) thr) ri ra (given_or (d_eps_env D) eps_env) (RtoC b) ->
  exists (a : R) result,
    pdm_eff_pol_n_taylor D s A_tip n z_tip r_tip eps_tip alpha_tip n_trapz (Some J) = Ok (Some (RtoC a)) /\
    pdm_refl_coef_qs_from_eff_pol_n eig sb sr D (scalar (Some (RtoC a))) (scalar A_tip) (scalar n) (as_array z_tip) (as_array r_tip)
        (as_array eps_tip) (as_array alpha_tip) n_trapz (Some J) thr ri ra (as_array eps_env) = Ok result /\
    smallest_first result b.
Proof.
  intros eig sb sr D s A n z_tip r_tip nt eps_tip alt thr ri ra env alpha b J N z r LIB Ht Ha Hb HN HA Hz Hb0 HJ Hadm.
  destruct J as [|m]; [lia|].
  destruct (p_inverse D A n nt z_tip r_tip eps_tip alt alpha Ht Ha HN HA Hz eig sb sr thr ri ra env m b LIB ltac:(lia) Hb0 Hadm) as (result & ER & HF).
  eexists. exists result. split; [apply (p_taylor D A n nt z_tip r_tip eps_tip alt alpha Ht Ha HN HA Hz s m b Hb)|]. split; [exact ER|exact HF].
Qed.

(** C84. Noise in the signal is amplified by at most 1/|c_1|. *)
Lemma C84_pdm_stable_proof :
  forall (D : Defaults) (s s' : sample) (A_tip : R) (n : Z) (z_tip r_tip : option R) (n_trapz : option nat)
    (eps_tip alpha_tip : option C) (alpha b b' : R),
  let N := given_or (d_n_trapz D) n_trapz in let z := given_or (d_z_tip D) z_tip in
  let r := given_or (d_r_tip D) r_tip in
  tip_alpha r eps_tip alpha_tip (RtoC alpha) -> 0 < alpha ->
  refl_coef_qs s (rr 0) = Ok (Some (RtoC b)) -> refl_coef_qs s' (rr 0) = Ok (Some (RtoC b')) ->
  N <> O -> 0 < A_tip -> 0 < r + z -> 0 <= b -> 0 <= b' ->
  exists c1 : R, c1 <> 0 /\
    pdm_taylor_coef D z 1 A_tip n (rr r) (Some (RtoC alpha)) n_trapz = Ok (Some (RtoC c1)) /\
    forall J, (2 <= J)%nat -> exists a a' : R,
      pdm_eff_pol_n_taylor D s A_tip n z_tip r_tip eps_tip alpha_tip n_trapz (Some J) = Ok (Some (RtoC a)) /\
      pdm_eff_pol_n_taylor D s' A_tip n z_tip r_tip eps_tip alpha_tip n_trapz (Some J) = Ok (Some (RtoC a')) /\
      Rabs c1 * Rabs (b' - b) <= Rabs (a' - a).
Proof.
  intros D s s' A n z_tip r_tip nt eps_tip alt alpha b b' N z r Ht Ha Hb Hb' HN HA Hz Hb0 Hb0'.
  pose proof (pq_pos D A n nt z_tip r_tip alpha Ha HN HA Hz) as Q.
  pose proof (p_coef D A n nt z_tip r_tip alpha Ha HN HA Hz 1) as E1. cbn [cf] in E1. set (q := qj n (given_or (d_n_trapz D) nt) _ _) in *.
  exists (sgn_pow n * q O). split; [|split; [exact E1|]].
  - pose proof (Q O). pose proof (sgn_sq n). intro Z. assert (sgn_pow n <> 0) by (intro Y; rewrite Y in *; lra). apply Rmult_integral in Z. lra.
  - intros [|m] HJ; [lia|]. eexists. eexists. split; [apply (p_taylor D A n nt z_tip r_tip eps_tip alt alpha Ht Ha HN HA Hz s m b Hb)|].
    split; [apply (p_taylor D A n nt z_tip r_tip eps_tip alt alpha Ht Ha HN HA Hz s' m b' Hb')|]. fold q.
    match goal with |- _ <= Rabs ?u => replace u with (sgn_pow n * (tm q m b' - tm q m b)) by ring end.
    rewrite !Rabs_mult, sgn_abs, (Rabs_pos_eq (q O)) by (apply Rlt_le, Q). rewrite !Rmult_1_l.
    apply tm_slope; [exact Q|lia|exact Hb0|exact Hb0'].
Qed.

(** C84. The truncated inverse overestimates, by an amount that decreases to 0 with
    the number of terms (the exact signal being divided by the polarizability of
    the tip, as the inverse expects). *)
Lemma C84_pdm_overestimates_proof :
  forall eig sb sr (D : Defaults) (s : sample) (A_tip : R) (n : Z) (z_tip r_tip : option R) (n_trapz : option nat)
    (eps_tip alpha_tip : option C) (thr : option R) (ri ra : bool) (eps_env : option C) (alpha b : R),
  let N := given_or (d_n_trapz D) n_trapz in let z := given_or (d_z_tip D) z_tip in
  let r := given_or (d_r_tip D) r_tip in
  library eig sb sr -> tip_alpha r eps_tip alpha_tip (RtoC alpha) -> 0 < alpha ->
  refl_coef_qs s (rr 0) = Ok (Some (RtoC b)) -> N <> O -> 0 < A_tip -> 0 < r + z -> 0 <= b ->
  alpha * b < 16 * PI * (r + z) ^ 3 ->
  exists (a c1 : R) (est : nat -> R),
    pdm_eff_pol_n D s A_tip n z_tip n_trapz r_tip eps_tip alpha_tip = Ok (Some (RtoC (alpha * a))) /\
    pdm_taylor_coef D z 1 A_tip n (rr r) (Some (RtoC alpha)) n_trapz = Ok (Some (RtoC c1)) /\ c1 <> 0 /\
    (forall J, (2 <= J)%nat ->
      b <= est J /\ (0 < b -> b < est J) /\ (forall J', (J <= J')%nat -> est J' <= est J) /\
      (exists t : R, pdm_eff_pol_n_taylor D s A_tip n z_tip r_tip eps_tip alpha_tip n_trapz (Some J) = Ok (Some (RtoC t)) /\
         Rabs c1 * (est J - b) <= Rabs (a - t)) /\
      (admissible (given_or (d_beta_threshold D) thr) ri ra (given_or (d_eps_env D) eps_env) (RtoC (est J)) ->
       exists result,
         pdm_refl_coef_qs_from_eff_pol_n eig sb sr D (scalar (Some (RtoC a))) (scalar A_tip) (scalar n) (as_array z_tip) (as_array r_tip)
           (as_array eps_tip) (as_array alpha_tip) n_trapz (Some J) thr ri ra (as_array eps_env) = Ok result /\
         smallest_first result (est J))) /\
    (forall eps, 0 < eps -> exists J0, forall J, (J0 <= J)%nat -> est J - b < eps).
Proof.
  intros eig sb sr D s A n z_tip r_tip nt eps_tip alt thr ri ra env alpha b N z r LIB Ht Ha Hb HN HA Hz Hb0 Hs.
  pose proof (pq_pos D A n nt z_tip r_tip alpha Ha HN HA Hz) as Q.
  pose proof (p_coef D A n nt z_tip r_tip alpha Ha HN HA Hz 1) as E1. cbn [cf] in E1.
  pose proof (pF_dom D A nt z_tip r_tip alpha Ha HN HA Hz) as DF.
  pose proof (p_loop D A nt z_tip r_tip alpha Ha HA Hz b Hb0 Hs) as HF.
  pose proof (p_exact D A n nt z_tip r_tip eps_tip alt alpha Ht Ha HN HA Hz s b Hb Hb0 Hs) as EX.
  pose proof (fun m => p_taylor D A n nt z_tip r_tip eps_tip alt alpha Ht Ha HN HA Hz s m b Hb) as ET.
  pose proof (fun m e => p_inverse D A n nt z_tip r_tip eps_tip alt alpha Ht Ha HN HA Hz eig sb sr thr ri ra env m e LIB) as EI.
  set (F := pF D A nt z_tip r_tip alpha) in *. set (c := pc0 D n nt) in *.
  fold N in Q, E1, EX, ET, EI. set (q := qj n N F F) in *.
  destruct (est_exists n N HN F F DF DF b Hb0 HF) as (est & HE).
  assert (HE2 : forall J, (2 <= J)%nat -> 0 <= est (J - 2)%nat /\ tm q (J - 1) (est (J - 2)%nat) = exactS n N F F b).
  { intros J HJ. replace (J - 1)%nat with (S (J - 2)) by lia. apply HE. }
  exists (c + sgn_pow n * exactS n N F F b), (sgn_pow n * q O), (fun J => est (J - 2)%nat).
  split; [exact EX|]. split; [exact E1|]. pose proof (Q O) as Q0. split.
  { pose proof (sgn_sq n). intro Z. assert (sgn_pow n <> 0) by (intro Y; rewrite Y in *; lra). apply Rmult_integral in Z. lra. }
  split.
  - intros J HJ. destruct (HE2 J HJ) as [He EE].
    destruct (over n N HN F F DF DF b Hb0 HF (J - 1) _ ltac:(lia) He EE) as (O1 & O2 & O3).
    split; [exact O1|]. split; [exact O2|]. split; [|split].
    + intros J' HJ'. destruct (HE2 J' ltac:(lia)) as [He' EE']. replace (J' - 1)%nat with ((J - 1) + (J' - J))%nat in EE' by lia.
      exact (over_decr n N HN F F DF DF b (J - 1) (J' - J) _ _ ltac:(lia) He He' EE EE').
    + specialize (ET (J - 1)%nat). replace (S (J - 1)) with J in ET by lia. eexists. split; [exact ET|].
      rewrite (exact_split n N F F b HF (J - 1)).
      match goal with |- _ <= Rabs ?u => replace u with (sgn_pow n * remS n N F F (J - 1) b) by (unfold q; ring) end.
      rewrite !Rabs_mult, sgn_abs, (Rabs_pos_eq (q O)) by lra. rewrite !Rmult_1_l.
      rewrite Rabs_pos_eq by (apply remS_nonneg; assumption). exact O3.
    + intros Hadm. destruct (EI (J - 1)%nat _ ltac:(lia) He Hadm) as (result & ER & HFst). exists result. split; [|exact HFst].
      rewrite EE in ER. replace (S (J - 1)) with J in ER by lia. exact ER.
  - intros eps Heps. destruct (remS_small n N HN F F b HF (q O * eps) ltac:(now apply Rmult_lt_0_compat)) as (M & HM).
    exists (S (S M)). intros J HJ. destruct (HE2 J ltac:(lia)) as [He EE].
    destruct (over n N HN F F DF DF b Hb0 HF (J - 1) _ ltac:(lia) He EE) as (_ & _ & O3).
    specialize (HM (J - 1)%nat ltac:(lia)). fold q in O3. apply (Rmult_lt_reg_l (q O)); lra.
Qed.

(** C84. Example: a tip of radius 1 and length 3 with g = 2 tapping by 1/4 from
    contact over a sample of permittivity 3 (b = 1/2), third harmonic from seven
    samples, both restrictions requested.  All hypotheses hold, also that on the
    loop gain; the inverse of the series with five terms returns 1/2 first. *)
Lemma C84_example_proof : forall eig sb sr (laggauss : laggauss_t) (D : Defaults), library eig sb sr ->
  let s := stack [RtoC 1; RtoC 3] [] None in
  refl_coef_qs s (rr 0) = Ok (Some (RtoC (1 / 2))) /\ resolved 7 3 /\ 1 / 2 * Re (fdm_f 0 (1 / 2) 1 3 (RtoC 2)) < 1 /\
  exists a result,
    fdm_eff_pol_n_taylor laggauss D s (1 / 4) 3 (Some 0) (Some 1) (Some 3) (Some (RtoC 2)) (Some (1 / 2)) (Some (1 / 2)) None None None (Some 7%nat) (Some 5%nat)
      = Ok (Some (RtoC a)) /\
    fdm_refl_coef_qs_from_eff_pol_n eig sb sr D (scalar (Some (RtoC a))) (scalar (1 / 4)) (scalar 3%Z) (Some (scalar 0)) (Some (scalar 1))
      (Some (scalar 3)) (Some (scalar (RtoC 2))) (Some (scalar (1 / 2))) (Some (scalar (1 / 2))) (Some 7%nat) (Some 5%nat) (Some 1) true true
      (Some (scalar (RtoC 1))) = Ok result /\
    smallest_first result (1 / 2).
Proof.
  intros eig sb sr lg D LIB s.
  assert (Hb : refl_coef_qs s (rr 0) = Ok (Some (RtoC (1 / 2)))).
  { unfold s. rewrite (bulk_real 1 3 None ltac:(lra) ltac:(lra)). do 3 f_equal. field. }
  split; [exact Hb|]. split; [right; intros [q Hq]; lia|]. split.
  - rewrite fdm_f_real. change (Re (RtoC (fdm_r 0 (1 / 2) 1 3 2))) with (fdm_r 0 (1 / 2) 1 3 2). unfold fdm_r.
    replace (4 * 3 / (1 + 4 * 0 + 2 * 1 * (1 / 2))) with 6 by field. replace (4 * 3 / 1) with 12 by field.
    assert (0 < ln 12) by (rewrite <- ln_1; apply ln_increasing; lra). assert (ln 6 < ln 12) by (apply ln_increasing; lra).
    assert (ln 6 / ln 12 < 1) by (apply Rlt_div_l; lra). lra.
  - apply (C84_fdm_first_proof eig sb sr lg D s (1 / 4) 3 (Some 7%nat) (Some 0) (Some 1) (Some 3) (Some (RtoC 2)) (Some (1 / 2)) (Some (1 / 2)) None None
      (Some 1) true true (Some (RtoC 1)) 2 (1 / 2) 5); cbn [given_or]; try lra; try lia; try reflexivity; auto.
    assert (E : permitivitty (Some (RtoC (1 / 2))) (Some (RtoC 1)) = Some (RtoC 3)).
    { unfold permitivitty, rc. cbn [cmul cadd csub olift2]. rewrite cdiv_ok.
      - f_equal. rewrite <- !RtoC_plus, <- !RtoC_minus, <- ?RtoC_mult, <- RtoC_div by lra. f_equal. field.
      - rewrite <- RtoC_minus. apply RtoC_neq_0. lra. }
    split; [rewrite Cmod_R, Rabs_pos_eq; lra|]. split; intros _; exists (RtoC 3); (split; [exact E|]).
    + cbn. lra.
    + rewrite Cmod_R, Rabs_pos_eq; lra.
Qed.
