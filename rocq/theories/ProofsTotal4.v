(** * C98: the default Taylor signals as computed, and the bulk corollaries *)
From Coq Require Import String Reals Lra Lia ZArith List Bool Permutation.
From Coquelicot Require Import Coquelicot.
From Coq Require Import List.
From Verif Require Import Num NumLemmas ModelBase ModelSample ModelTip StackLemmas Spec SpecSampling DemodLemmas ProofsTip ProofsTip2 ProofsTip3 ProofsTip5
  SpecRound ModelRound ModelRound2 RoundLemmas RoundLemmas2 ProofsPassive ProofsTaylor ProofsDefault ProofsRounding ProofsRounding2 ProofsRounding3
  ProofsSampling3 ProofsSampling5 ProofsTotal ProofsTotal2 ProofsTotal3.
Import ListNotations.
Open Scope R_scope.

Lemma k_coef_ok m (fk : R -> C) z A n : (forall N, N <> O -> adds_up (m_order m N) N) ->
  k_demod_res m defaults0 (fun x => Ok (fk x)) (a_add m z A) A n None = Ok (k_demod m (m_order m 32) fk (a_add m z A) A n 32).
Proof.
  intros Ho. apply (demod_res_demod m defaults0 (fun x => Ok (fk x)) fk (a_add m z A) A n None); [cbn; lia|apply Ho; cbn; lia|eauto|reflexivity].
Qed.

Lemma ok_some (x y : C) : @Ok (option C) (Some x) = Ok (Some y) -> x = y.
Proof. congruence. Qed.

(** ** Point dipole *)
Lemma pdm_sum_small u delta : 0 <= u -> 0 <= delta ->
  Rl (fun j => (1 / 4) ^ j * (101 / 100) ^ j * (106 / 100 * (20 / 9 * (INR j * (388 * u)) + 670 * u) + 12 / 10 * (INR j * (401 / 100 * u + delta)) + 25 * u)) (seq 0 16)
  <= 1420 * u + delta.
Proof. intros Hu Hd. unfold Rl. cbn [seq map fold_right INR]. lra. Qed.

(** C98. The default Taylor series of the point-dipole signal as computed: on any machine of relative precision u, adding in
    any order, alpha_tip times what pdm.eff_pol_n_taylor returns is within (10^-7 + 4 10^-10 + 1420 u + delta) alpha_tip of the
    documented integral. *)
Lemma C98_pdm_taylor_proof : forall u (m : machine) (s : sample) (beta b : C) (delta A_tip z : R) (n : Z) (r_tip : option R),
  let r := given_or (20 / 10 ^ 9) r_tip in let alpha := RtoC (4 * PI * r ^ 3) in
  rounding u m -> 0 <= u <= / 10 ^ 6 ->
  refl_coef_qs s (rr 0) = Ok (Some beta) -> k_refl_coef_qs m s 0 = Ok b -> Cmod (b - beta)%C <= delta -> delta <= / 10 ^ 4 ->
  Cmod beta <= 101 / 100 -> (Z.abs n <= 4)%Z -> 0 < r -> 0 <= z -> 0 < A_tip <= 3 / 2 * r ->
  exists w : C, k_pdm_eff_pol_n_taylor m defaults0 s A_tip n (Some z) r_tip None None None None = Ok w /\
    Cmod (alpha * w - fourier_coefficient (fun x => alpha / (1 - alpha / RtoC (16 * PI * (r + x) ^ 3) * beta))%C (z + A_tip) A_tip n)%C
    <= (/ 10 ^ 7 + 4 / 10 ^ 10 + 1420 * u + delta) * (4 * PI * r ^ 3).
Proof.
  intros u m s beta b delta A z n r_tip r alpha Hm [Hu Hu1] Hb Hk Hd Hd1 Hb1 Hn Hr Hz HA. pose proof PI_RGT_0 as PP.
  assert (D0 : 0 <= delta) by (eapply Rle_trans; [apply Cmod_ge_0|exact Hd]).
  set (a := 4 * PI * r ^ 3) in *. set (a' := a_mul m (a_mul m 4 (a_lit m PI)) (a_pow m r 3)).
  assert (Pa : 0 < a) by (unfold a; assert (0 < r ^ 3) by (now apply pow_lt); nra).
  destruct (C79_pdm_default_proof s beta A z n r_tip Hb Hb1 Hn Hr Hz HA) as (v & Ev & Bv). fold r alpha a in Bv.
  destruct (C78_pdm_default_proof s beta A z n r_tip None Hb Hb1 ltac:(cbn; lia) Hr Hz ltac:(lra)) as (c & t & Ec & Et & Bc).
  rewrite Ev in Ec. apply ok_some in Ec. fold r in Ec. fold a in Ec. fold alpha in Ec. rewrite Ec in Bv.
  set (f := fun x => (alpha / RtoC (16 * PI * (r + x) ^ 3))%C).
  set (fk := fun x => k_pdm_geom_func m x r (RtoC a')).
  set (aj := fun j => tmean z A n 32 (fun x => Cpown (f x) j)). set (aj' := fun j => k_demod m (m_order m 32) (fun x => kpow m (fk x) (Z.of_nat j)) (a_add m z A) A n 32).
  exists (k_sum m (map (fun j => kmul m (aj' j) (kpow m b (Z.of_nat j))) (seq 0 16))). split.
  { unfold k_pdm_eff_pol_n_taylor, k_pdm_defaults. cbn [dflt rbind fst snd defaults0 d_n_tayl]. rewrite Hk. cbn [rbind].
    rewrite (mapM_ok _ (fun j => kmul m (aj' j) (kpow m b (Z.of_nat j)))); [reflexivity|].
    intros j _. unfold k_pdm_taylor_coef. rewrite dflt_given. change (given_or (d_r_tip defaults0) r_tip) with r. fold a'.
    rewrite (k_coef_ok m (fun x => kpow m (k_pdm_geom_func m x r (RtoC a')) (Z.of_nat j))); [reflexivity|apply Hm]. }
  assert (T : t = Csum (map (fun j => aj j * Cpown beta j)%C (seq 0 16))).
  { pose proof (pdm_taylor_value defaults0 s A n (Some z) None r_tip None None alpha beta 16) as V. cbv zeta in V.
    change (given_or (d_r_tip defaults0) r_tip) with r in V. cbn [given_or defaults0 d_n_trapz] in V.
    assert (V' : pdm_eff_pol_n_taylor defaults0 s A n (Some z) r_tip None None None (Some 16%nat) = Ok (Some (tmean z A n 32 (fun x => Csum (map (fun j => Cpown (f x * beta) j) (seq 0 16)))%C))).
    { apply V; [apply tip_conductor|exact Hb|lia|]. intros k Hk'. pose proof (ProofsDefault.tip_height_range z A 32 k ltac:(lra)). lra. }
    change (pdm_eff_pol_n_taylor defaults0 s A n (Some z) r_tip None None None (Some 16%nat)) with (pdm_eff_pol_n_taylor defaults0 s A n (Some z) r_tip None None None None) in V'.
    rewrite Et in V'. apply ok_some in V'. rewrite V'. unfold aj. rewrite <- (tmean_sum z A n 32 (fun j x => Cpown (f x * beta) j)%C).
    apply Csum_ext_in. intros j _. rewrite Cmult_comm, <- tmean_scal. apply tmean_ext. intros k _. rewrite ProofsTaylor.Cpown_mult. ring. }
  assert (GE : forall x x', z <= x <= z + 2 * A -> Rabs (x' - x) <= u * (201 / 100 * (z + A) + 67 * A) -> ap (f x) (fk x') (1 / 4) (1 / 4 * (1 + 383 * u))).
  { intros x x' Hx Hx'. assert (X1 : Rabs (x' - x) <= 104 * u * (r + x)).
    { eapply Rle_trans; [exact Hx'|]. replace (104 * u * (r + x)) with (u * (104 * (r + x))) by ring. apply Rmult_le_compat_l; lra. }
    pose proof (pdm_geom_near u m r x x' a' (proj1 Hm) ltac:(lra) Hr ltac:(lra) X1 (pdm_alpha_near u m r (proj1 Hm) ltac:(lra))) as NG. fold a in NG.
    assert (R3 : 0 < r ^ 3) by now apply pow_lt. assert (P3 : 0 < (r + x) ^ 3) by (apply pow_lt; lra).
    assert (Q3 : r ^ 3 <= (r + x) ^ 3) by (apply pow_incr; lra).
    assert (D16 : 0 < 16 * PI * (r + x) ^ 3) by (apply Rmult_lt_0_compat; lra).
    assert (FX : f x = RtoC (a / (16 * PI * (r + x) ^ 3))) by (unfold f, alpha; rewrite <- RtoC_div by lra; reflexivity).
    assert (B4 : Cmod (f x) <= 1 / 4).
    { rewrite FX, Cmod_R, Rabs_pos_eq by (apply Rlt_le, Rdiv_lt_0_compat; assumption). apply Rle_div_l; [exact D16|]. unfold a.
      assert (PI * r ^ 3 <= PI * (r + x) ^ 3) by (apply Rmult_le_compat_l; lra). lra. }
    split; [exact B4|]. rewrite <- FX in NG. unfold cnear in NG. eapply Rle_trans; [exact NG|].
    assert (383 * u * Cmod (f x) <= 383 * u * (1 / 4)) by (apply Rmult_le_compat_l; lra). lra. }
  assert (X0 : forall x : R, Rabs (x - x) <= u * (201 / 100 * (z + A) + 67 * A)) by (intros x; rewrite Rminus_eq_0, Rabs_R0; apply Rmult_le_pos; lra).
  assert (AJ : forall j, (j < 16)%nat -> let e := 20 / 9 * (INR j * (388 * u)) + 670 * u in ap (aj j) (aj' j) ((1 / 4) ^ j) ((1 / 4) ^ j * (1 + e)) /\ 0 <= e <= 35 / 1000).
  { intros j Hj. apply (power_term u m (fun x => Cpown (f x) j) (fun x => kpow m (fk x) (Z.of_nat j)) z A n (1 / 4) 388 j Hm ltac:(lra) Hn Hz ltac:(lra) ltac:(lra) ltac:(lra) Hj).
    - intros x Hx. rewrite Cmod_pown. apply pow_incr. split; [apply Cmod_ge_0|]. apply (proj1 (GE x x Hx (X0 x))).
    - intros x x' Hx Hx'. pose proof (kpow_ap u m (proj1 Hm) Hu ltac:(lra) j _ _ _ _ (GE x x' Hx Hx')) as [_ E]. eapply Rle_trans; [exact E|].
      apply Rplus_le_compat_r, pow_incr. split; [repeat apply Rmult_le_pos; lra|].
      assert (u * u <= / 10 ^ 6 * u) by (apply Rmult_le_compat_r; lra). lra. }
  pose proof (taylor_rounding u m aj aj' (fun j => (1 / 4) ^ j) (fun j => 20 / 9 * (INR j * (388 * u)) + 670 * u) beta b delta Hm (conj Hu Hu1) Hb1 Hd Hd1) as TR.
  assert (TR' := Rle_trans _ _ _ (TR ltac:(intros j Hj; destruct (AJ j Hj) as [Q1 Q2]; split; [exact Q1|lra])) (pdm_sum_small u delta Hu D0)). clear TR.
  rewrite <- T in TR'. set (w := k_sum m _) in *.
  set (I := fourier_coefficient _ _ _ _) in *.
  replace (alpha * w - I)%C with (alpha * (w - t) + (- (alpha * (c - t)) + (alpha * c - I)))%C by ring.
  assert (CA : Cmod alpha = a) by (unfold alpha; rewrite Cmod_R, Rabs_pos_eq; [reflexivity|lra]).
  eapply Rle_trans; [apply Cmod_triangle|]. eapply Rle_trans; [apply Rplus_le_compat_l, Cmod_triangle|]. rewrite Cmod_opp, !Cmod_mult, CA.
  apply (Rmult_le_compat_l a) in TR'; [|lra]. apply (Rmult_le_compat_l a) in Bc; [|lra]. lra.
Qed.

(** ** Finite dipole *)
Definition fdm_e (u : R) (j : nat) : R := match j with O => 0 | _ => 20 / 9 * (INR j * (917 * u)) + 684 * u end.
Definition fdm_W (j : nat) : R := match j with O => 1 | _ => (548 / 1000) ^ j / 2 end.
Lemma fdm_sum_small u delta : 0 <= u -> 0 <= delta ->
  Rl (fun j => fdm_W j * (101 / 100) ^ j * (106 / 100 * fdm_e u j + 12 / 10 * (INR j * (401 / 100 * u + delta)) + 25 * u)) (seq 0 16)
  <= 3600 * u + 2 * delta.
Proof. intros Hu Hd. unfold Rl, fdm_W, fdm_e. cbn [seq map fold_right INR]. lra. Qed.

(** C98. The default Taylor series of the finite-dipole signal as computed: on any machine of relative precision u, adding in
    any order, fdm.eff_pol_n_taylor is within 1.2 10^-4 + 3600 u + 2 delta of the documented integral. *)
Lemma C98_fdm_taylor_proof : forall u (m : machine) (laggauss : laggauss_t) (e0 e1 b : C) nu (delta A_tip z : R) (n : Z) d_Qa n_lag,
  let s := stack [e0; e1] [] nu in let beta := ((e1 - e0) / (e1 + e0))%C in
  let r := 20 / 10 ^ 9 in let L := 300 / 10 ^ 9 in let g := Cmult (RtoC (7 / 10)) (Cexp (0, 6 / 100)) in
  let f := fun d x => fdm_f x d r L g in
  rounding u m -> 0 <= u <= / 10 ^ 6 ->
  k_refl_coef_qs m s 0 = Ok b -> Cmod (b - beta)%C <= delta -> delta <= / 10 ^ 4 ->
  e1 <> RtoC 0 -> (e0 + e1 <> 0)%C -> Cmod beta <= 101 / 100 -> (Z.abs n <= 4)%Z ->
  0 <= z -> 0 < A_tip <= 30 / 10 ^ 9 -> z + 2 * A_tip <= 280 / 10 ^ 9 ->
  exists w : C,
    k_fdm_eff_pol_n_taylor m laggauss defaults0 s A_tip n (Some z) None None None None None d_Qa n_lag None None None = Ok w /\
    Cmod (w - fourier_coefficient (fun x => 1 + beta * f (131 / 100 * L / (L + 2 * r))%R x / (2 * (1 - beta * f (5 / 10)%R x)))%C
                (z + A_tip) A_tip n)%C <= 12 / 10 ^ 5 + 3600 * u + 2 * delta.
Proof.
  intros u m lg e0 e1 b nu delta A z n d_Qa n_lag s beta r L g f Hm [Hu Hu1] Hk Hd Hd1 H1 Hs Hb Hn Hz HA Hzm.
  assert (D0 : 0 <= delta) by (eapply Rle_trans; [apply Cmod_ge_0|exact Hd]).
  destruct (C80_fdm_default_proof lg e0 e1 nu A z n d_Qa n_lag H1 Hs Hb Hn Hz HA Hzm) as (v & Ev & Bv).
  destruct (C78_fdm_default_proof lg e0 e1 nu A z n None d_Qa n_lag H1 Hs Hb ltac:(cbn; lia)) as (v' & t & Ev' & Et & Bt); try lra.
  { cbn [given_or]. destruct (Z.eq_dec n 0) as [->|N0]; [now left|right]. intros [q Hq]. lia. }
  fold s in Ev, Ev', Et. rewrite Ev in Ev'. injection Ev' as <-.
  fold s beta in Ev, Bv. change (20 / 10 ^ 9) with r0 in Bv. change (300 / 10 ^ 9) with L0 in Bv. change (Cmult (RtoC (7 / 10)) (Cexp (0, 6 / 100))) with g0 in Bv.
  unfold f. change r with r0 in *. change L with L0 in *. change g with g0 in *. clear f g L r.
  change (131 / 100 * L0 / (L0 + 2 * r0)) with d00 in *.
  set (d0' := a_div m (a_mul m (a_lit m (131 / 100)) L0) (a_add m L0 (a_mul m 2 r0))).
  assert (Hq : refl_coef_qs s (rr 0) = Ok (Some beta)) by (now apply bulk_qs).
  assert (P : 0 < r0) by (unfold r0; lra).
  set (f0 := fun x => fdm_f x d00 r0 L0 g0) in *. set (f1 := fun x => fdm_f x (5 / 10) r0 L0 g0) in *.
  set (k0 := fun x => k_fdm_geom_func m x d0' r0 L0 g0). set (k1 := fun x => k_fdm_geom_func m x (5 / 10) r0 L0 g0).
  set (one := if Z.eqb n 0 then RtoC 1 else RtoC 0).
  set (dj := fun j => k_demod m (m_order m 32) (fun x => kmul m (k0 x) (kpow m (k1 x) (Z.of_nat j - 1))) (a_add m z A) A n 32).
  set (aj := fun j => match j with O => one | S i => (tmean z A n 32 (fun x => f0 x * Cpown (f1 x) i) / 2)%C end).
  set (aj' := fun j => if Nat.eqb j 0 then one else kdiv m (dj j) (RtoC 2)).
  exists (k_sum m (map (fun j => kmul m (aj' j) (kpow m b (Z.of_nat j))) (seq 0 16))). split.
  { unfold k_fdm_eff_pol_n_taylor, k_fdm_defaults. change (multilayer s) with false. cbn [dflt rbind defaults0 d_n_tayl d_r_tip d_L_tip d_g_factor d_d_Q1].
    change (String.eqb "bulk" "bulk") with true. cbv iota. rewrite Hk. cbn [rbind].
    rewrite (mapM_ok _ (fun j => kmul m (aj' j) (kpow m b (Z.of_nat j)))); [reflexivity|].
    intros j _. unfold k_fdm_taylor_coef, k_fdm_geom_func_taylor. change (20 / 10 ^ 9) with r0. change (300 / 10 ^ 9) with L0.
    change (Cmult (RtoC (7 / 10)) (Cexp (0, 6 / 100))) with g0. fold d0'.
    rewrite (k_coef_ok m (fun x => kmul m (k0 x) (kpow m (k1 x) (Z.of_nat j - 1)))); [reflexivity|apply Hm]. }
  assert (T : t = Csum (map (fun j => aj j * Cpown beta j)%C (seq 0 16))).
  { rewrite taylor_none_bulk in Et by reflexivity.
    pose proof (fdm_taylor_value lg defaults0 s A n (Some z) None None None None None None d_Qa n_lag beta 15) as V. cbv zeta in V.
    cbn [given_or defaults0 d_n_trapz d_z_tip d_r_tip d_L_tip d_g_factor d_d_Q1] in V. change (20 / 10 ^ 9) with r0 in V. change (300 / 10 ^ 9) with L0 in V.
    change (Cmult (RtoC (7 / 10)) (Cexp (0, 6 / 100))) with g0 in V. change (131 / 100 * L0 / (L0 + 2 * r0)) with d00 in V.
    fold one in V.
    assert (V' : fdm_eff_pol_n_taylor lg defaults0 s A n (Some z) None None None None None d_Qa n_lag (Some "bulk"%string) None (Some 16%nat)
       = Ok (Some (one + tmean z A n 32 (fun x => beta * f0 x / 2 * Csum (map (fun j => Cpown (beta * f1 x) j) (seq 0 15))))%C)).
    { apply V; [reflexivity|exact Hq|lia|]. intros k Hk'. pose proof (ProofsDefault.tip_height_range z A 32 k ltac:(lra)).
      split; [apply fdm_f_default; [lra|exact d00_range]|apply fdm_f_default; lra]. }
    change (fdm_eff_pol_n_taylor lg defaults0 s A n (Some z) None None None None None d_Qa n_lag (Some "bulk"%string) None (Some 16%nat))
      with (fdm_eff_pol_n_taylor lg defaults0 s A n (Some z) None None None None None d_Qa n_lag (Some "bulk"%string) None None) in V'.
    rewrite Et in V'. apply ok_some in V'. rewrite V'. change (seq 0 16) with (0%nat :: seq 1 15). rewrite <- seq_shift. cbn [map]. rewrite map_map.
    unfold Csum at 2. cbn [fold_right]. fold (Csum (map (fun x => (aj (S x) * Cpown beta (S x))%C) (seq 0 15))).
    f_equal; [unfold aj; cbn [Cpown]; ring|].
    transitivity (tmean z A n 32 (fun x => Csum (map (fun j => beta * f0 x / 2 * Cpown (beta * f1 x) j)%C (seq 0 15)))).
    { apply tmean_ext. intros k _. symmetry. apply Csum_scal. }
    rewrite <- (tmean_sum z A n 32 (fun j x => beta * f0 x / 2 * Cpown (beta * f1 x) j)%C).
    apply Csum_ext_in. intros j _. unfold aj. unfold Cdiv at 2. rewrite <- Cmult_assoc, Cmult_comm, <- tmean_scal. apply tmean_ext. intros k _.
    rewrite ProofsTaylor.Cpown_mult. cbn [Cpown]. unfold Cdiv. ring. }
  assert (GE : forall x x', z <= x <= z + 2 * A -> Rabs (x' - x) <= u * (201 / 100 * (z + A) + 67 * A) ->
     ap (f0 x) (k0 x') (548 / 1000) (548 / 1000 + 500 * u) /\ ap (f1 x) (k1 x') (548 / 1000) (548 / 1000 + 500 * u)).
  { intros x x' Hx Hx'. assert (X1 : Rabs (x' - x) <= 129 * u * r0).
    { eapply Rle_trans; [exact Hx'|]. replace (129 * u * r0) with (u * (129 * r0)) by ring. apply Rmult_le_compat_l; [lra|]. unfold r0. lra. }
    assert (N5 : near (6 * u) (5 / 10) (5 / 10)) by (unfold near; rewrite Rminus_eq_0, Rabs_R0; apply Rmult_le_pos; [lra|apply Rabs_pos]).
    pose proof (fdm_geom_near u m x x' d00 d0' (proj1 Hm) ltac:(lra) ltac:(lra) X1 d00_range (d00_near u m (proj1 Hm) ltac:(lra))) as F0.
    pose proof (fdm_geom_near u m x x' (5 / 10) (5 / 10) (proj1 Hm) ltac:(lra) ltac:(lra) X1 ltac:(lra) N5) as F1.
    destruct (fdm_f_default x d00 ltac:(lra) d00_range) as [_ B0]. destruct (fdm_f_default x (5 / 10) ltac:(lra) ltac:(lra)) as [_ B1].
    split; (split; [assumption|]); [unfold k0, f0|unfold k1, f1]; lra. }
  assert (X0 : forall x : R, Rabs (x - x) <= u * (201 / 100 * (z + A) + 67 * A)) by (intros x; rewrite Rminus_eq_0, Rabs_R0; apply Rmult_le_pos; lra).
  assert (U2 : u * u <= / 10 ^ 6 * u) by (apply Rmult_le_compat_r; lra).
  assert (AJ : forall j, (j < 16)%nat -> ap (aj j) (aj' j) (fdm_W j) (fdm_W j * (1 + fdm_e u j)) /\ 0 <= fdm_e u j <= 1 / 20).
  { intros [|i] Hj.
    - unfold fdm_W, fdm_e. cbn [aj aj' Nat.eqb]. split; [|lra]. rewrite Rplus_0_r, Rmult_1_r. apply ap_refl. unfold one. destruct (Z.eqb n 0); [rewrite Cmod_1|rewrite Cmod_0]; lra.
    - pose proof (power_term u m (fun x => f0 x * Cpown (f1 x) i)%C (fun x => kmul m (k0 x) (kpow m (k1 x) (Z.of_nat (S i) - 1))) z A n (548 / 1000) 917 (S i) Hm ltac:(lra) Hn Hz ltac:(lra) ltac:(lra) ltac:(lra) Hj) as PT.
      assert (PK : forall x x', z <= x <= z + 2 * A -> Rabs (x' - x) <= u * (201 / 100 * (z + A) + 67 * A) ->
         ap (f0 x * Cpown (f1 x) i)%C (kmul m (k0 x') (kpow m (k1 x') (Z.of_nat (S i) - 1))) ((548 / 1000) ^ S i) (((1 + 4 * u) * (548 / 1000 + 500 * u)) ^ S i)).
      { intros x x' Hx Hx'. destruct (GE x x' Hx Hx') as [Q0 Q1]. replace (Z.of_nat (S i) - 1)%Z with (Z.of_nat i) by lia.
        pose proof (kmul_ap u m (proj1 Hm) Hu ltac:(lra) _ _ _ _ _ _ _ _ Q0 (kpow_ap u m (proj1 Hm) Hu ltac:(lra) i _ _ _ _ Q1)) as Q.
        cbn [pow]. replace ((1 + 4 * u) * (548 / 1000 + 500 * u) * ((1 + 4 * u) * (548 / 1000 + 500 * u)) ^ i)
          with ((1 + 4 * u) * ((548 / 1000 + 500 * u) * ((1 + 4 * u) * (548 / 1000 + 500 * u)) ^ i)) by ring. exact Q. }
      specialize (PT ltac:(intros x Hx; exact (proj1 (PK x x Hx (X0 x))))).
      destruct PT as [PT PE].
      { intros x x' Hx Hx'. eapply Rle_trans; [exact (proj2 (PK x x' Hx Hx'))|]. apply Rplus_le_compat_r, pow_incr. split; [apply Rmult_le_pos; lra|]. lra. }
      fold (dj (S i)) in PT. set (w := (548 / 1000) ^ S i) in *. set (e := 20 / 9 * (INR (S i) * (917 * u)) + 670 * u) in *.
      assert (W0 : 0 < w) by (unfold w; apply pow_lt; lra).
      assert (EE : fdm_e u (S i) = e + 14 * u) by (unfold fdm_e, e; ring). assert (EW : fdm_W (S i) = w / 2) by reflexivity. rewrite EE, EW.
      split; [|lra]. cbn [aj aj' Nat.eqb]. fold (dj (S i)).
      assert (N2 : RtoC 2 <> RtoC 0) by (apply RtoC_neq_0; lra).
      assert (Q2 : ap (tmean z A n 32 (fun x => f0 x * Cpown (f1 x) i)%C / 2)%C (dj (S i) / 2)%C (w / 2) (w * (1 + e) / 2)).
      { destruct PT as [A1 A2]. assert (C2 : Cmod (RtoC 2) = 2) by (rewrite Cmod_R, Rabs_pos_eq; lra). split.
        - rewrite Cmod_div by exact N2. rewrite C2. lra.
        - replace (dj (S i) / 2 - tmean z A n 32 (fun x => f0 x * Cpown (f1 x) i) / 2)%C with ((dj (S i) - tmean z A n 32 (fun x => f0 x * Cpown (f1 x) i)) / 2)%C by (field; exact N2).
          rewrite Cmod_div by exact N2. rewrite C2. lra. }
      pose proof (ap_round (13 * u) _ _ _ _ _ ltac:(lra) Q2 (kdiv_near u m Hu ltac:(lra) (proj1 Hm) (dj (S i)) (RtoC 2) N2)) as Q3.
      apply (ap_weaken _ _ _ _ _ _ Q3); [lra|]. assert (w * (u * e) <= w * (u * (35 / 1000))) by (apply Rmult_le_compat_l; [lra|apply Rmult_le_compat_l; lra]).
      assert (0 <= w * u) by (apply Rmult_le_pos; lra). lra. }
  pose proof (Rle_trans _ _ _ (taylor_rounding u m aj aj' fdm_W (fdm_e u) beta b delta Hm (conj Hu Hu1) Hb Hd Hd1 AJ) (fdm_sum_small u delta Hu D0)) as TR.
  rewrite <- T in TR. set (w := k_sum m _) in *. set (I := fourier_coefficient _ _ _ _) in *.
  replace (w - I)%C with ((w - t) + (- (v - t) + (v - I)))%C by ring.
  eapply Rle_trans; [apply Cmod_triangle|]. eapply Rle_trans; [apply Rplus_le_compat_l, Cmod_triangle|]. rewrite Cmod_opp. lra.
Qed.

(** ** Bulk samples: no hypothesis left on the computed reflection coefficient *)

(** C98. Bulk samples, finite dipole, permittivities e0 (environment) and e1: within 2 10^-5 + 4760 u kappa^2 of the
    documented integral, kappa = (|e0| + |e1|) / |e0 + e1|. *)
Lemma C98_fdm_bulk_proof : forall u (m : machine) (laggauss : laggauss_t) (e0 e1 : C) nu (A_tip z : R) (n : Z) d_Qa n_lag,
  let beta := ((e1 - e0) / (e1 + e0))%C in let kappa := ((Cmod e0 + Cmod e1) / Cmod (e0 + e1)%C)%R in
  let r := 20 / 10 ^ 9 in let L := 300 / 10 ^ 9 in let g := Cmult (RtoC (7 / 10)) (Cexp (0, 6 / 100)) in
  let f := fun d x => fdm_f x d r L g in
  rounding u m -> 0 <= u -> 10 ^ 5 * u * kappa ^ 2 <= 1 ->
  e1 <> RtoC 0 -> (e0 + e1 <> 0)%C -> Cmod beta <= 101 / 100 -> (Z.abs n <= 4)%Z ->
  0 <= z -> 0 < A_tip <= 30 / 10 ^ 9 -> z + 2 * A_tip <= 280 / 10 ^ 9 ->
  exists w : C,
    k_fdm_eff_pol_n m laggauss defaults0 (stack [e0; e1] [] nu) A_tip n (Some z) None None None None None None d_Qa n_lag None = Ok w /\
    Cmod (w - fourier_coefficient (fun x => 1 + beta * f (131 / 100 * L / (L + 2 * r))%R x / (2 * (1 - beta * f (5 / 10)%R x)))%C
                (z + A_tip) A_tip n)%C <= 2 / 10 ^ 5 + 4760 * u * kappa ^ 2.
Proof.
  intros u m lg e0 e1 nu A z n d_Qa n_lag beta kappa r L g f Hm Hu Hk H1 Hs Hb Hn Hz HA Hzm.
  pose proof (spread_ge_1 e0 e1 Hs) as K1. unfold spread in K1. fold kappa in K1.
  assert (K2 : kappa <= kappa ^ 2) by nra. assert (UK : u * kappa <= u * kappa ^ 2) by (apply Rmult_le_compat_l; lra).
  assert (UK1 : u * 1 <= u * kappa) by (apply Rmult_le_compat_l; lra).
  destruct (C76_bulk_proof u m e0 e1 nu 0 (proj1 Hm) Hu H1 Hs) as (b & Eb & Bb); [fold kappa; lra|]. fold kappa beta in Bb.
  destruct (C98_fdm_total_proof u m lg e0 e1 b nu (320 * u * kappa ^ 2) A z n d_Qa n_lag Hm) as (w & Ew & Bw); auto; try lra.
  exists w. split; [exact Ew|]. eapply Rle_trans; [exact Bw|]. lra.
Qed.

(** C98. Bulk samples, both Taylor series. *)
Lemma C98_taylor_bulk_proof : forall u (m : machine) (laggauss : laggauss_t) (e0 e1 : C) nu (A_tip z : R) (n : Z) d_Qa n_lag,
  let beta := ((e1 - e0) / (e1 + e0))%C in let kappa := ((Cmod e0 + Cmod e1) / Cmod (e0 + e1)%C)%R in
  let r := 20 / 10 ^ 9 in let L := 300 / 10 ^ 9 in let g := Cmult (RtoC (7 / 10)) (Cexp (0, 6 / 100)) in
  let f := fun d x => fdm_f x d r L g in let alpha := RtoC (4 * PI * r ^ 3) in
  rounding u m -> 0 <= u -> 32 * 10 ^ 5 * u * kappa ^ 2 <= 1 ->
  e1 <> RtoC 0 -> (e0 + e1 <> 0)%C -> Cmod beta <= 101 / 100 -> (Z.abs n <= 4)%Z ->
  0 <= z -> 0 < A_tip <= 30 / 10 ^ 9 -> z + 2 * A_tip <= 280 / 10 ^ 9 ->
  exists w p : C,
    k_fdm_eff_pol_n_taylor m laggauss defaults0 (stack [e0; e1] [] nu) A_tip n (Some z) None None None None None d_Qa n_lag None None None = Ok w /\
    k_pdm_eff_pol_n_taylor m defaults0 (stack [e0; e1] [] nu) A_tip n (Some z) None None None None None = Ok p /\
    Cmod (w - fourier_coefficient (fun x => 1 + beta * f (131 / 100 * L / (L + 2 * r))%R x / (2 * (1 - beta * f (5 / 10)%R x)))%C
                (z + A_tip) A_tip n)%C <= 12 / 10 ^ 5 + 4240 * u * kappa ^ 2 /\
    Cmod (alpha * p - fourier_coefficient (fun x => alpha / (1 - alpha / RtoC (16 * PI * (r + x) ^ 3) * beta))%C (z + A_tip) A_tip n)%C
      <= (/ 10 ^ 7 + 4 / 10 ^ 10 + 1740 * u * kappa ^ 2) * (4 * PI * r ^ 3).
Proof.
  intros u m lg e0 e1 nu A z n d_Qa n_lag beta kappa r L g f alpha Hm Hu Hk H1 Hs Hb Hn Hz HA Hzm.
  pose proof (spread_ge_1 e0 e1 Hs) as K1. unfold spread in K1. fold kappa in K1.
  assert (K2 : kappa <= kappa ^ 2) by nra. assert (UK : u * kappa <= u * kappa ^ 2) by (apply Rmult_le_compat_l; lra).
  assert (UK1 : u * 1 <= u * kappa) by (apply Rmult_le_compat_l; lra).
  destruct (C76_bulk_proof u m e0 e1 nu 0 (proj1 Hm) Hu H1 Hs) as (b & Eb & Bb); [fold kappa; lra|]. fold kappa beta in Bb.
  destruct (C98_fdm_taylor_proof u m lg e0 e1 b nu (320 * u * kappa ^ 2) A z n d_Qa n_lag Hm) as (w & Ew & Bw); auto; try lra.
  destruct (C98_pdm_taylor_proof u m (stack [e0; e1] [] nu) beta b (320 * u * kappa ^ 2) A z n None Hm) as (p & Ep & Bp); auto; cbn [given_or]; try lra.
  { now apply bulk_qs. }
  exists w, p. split; [exact Ew|]. split; [exact Ep|]. split; [eapply Rle_trans; [exact Bw|]; lra|].
  eapply Rle_trans; [exact Bp|]. cbn [given_or]. fold r. apply Rmult_le_compat_r; [|lra].
  pose proof PI_RGT_0. assert (0 < r ^ 3) by (apply pow_lt; unfold r; lra). apply Rmult_le_pos; lra.
Qed.

(** C98. Both finite-dipole signals in double precision, permittivities away from resonance. *)
Lemma C98_fdm_double_proof : forall (m : machine) (laggauss : laggauss_t) (e0 e1 : C) nu (A_tip z : R) (n : Z) d_Qa n_lag,
  let beta := ((e1 - e0) / (e1 + e0))%C in
  let r := 20 / 10 ^ 9 in let L := 300 / 10 ^ 9 in let g := Cmult (RtoC (7 / 10)) (Cexp (0, 6 / 100)) in
  let f := fun d x => fdm_f x d r L g in
  let integral := fourier_coefficient (fun x => 1 + beta * f (131 / 100 * L / (L + 2 * r))%R x / (2 * (1 - beta * f (5 / 10)%R x)))%C (z + A_tip) A_tip n in
  rounding (/ 2 ^ 53) m -> e1 <> RtoC 0 -> (e0 + e1 <> 0)%C -> Cmod e0 + Cmod e1 <= 100 * Cmod (e0 + e1)%C ->
  Cmod beta <= 101 / 100 -> (Z.abs n <= 4)%Z ->
  0 <= z -> 0 < A_tip <= 30 / 10 ^ 9 -> z + 2 * A_tip <= 280 / 10 ^ 9 ->
  exists w t : C,
    k_fdm_eff_pol_n m laggauss defaults0 (stack [e0; e1] [] nu) A_tip n (Some z) None None None None None None d_Qa n_lag None = Ok w /\
    k_fdm_eff_pol_n_taylor m laggauss defaults0 (stack [e0; e1] [] nu) A_tip n (Some z) None None None None None d_Qa n_lag None None None = Ok t /\
    Cmod (w - integral)%C <= 2001 / 10 ^ 8 /\ Cmod (t - integral)%C <= 12001 / 10 ^ 8.
Proof.
  intros m lg e0 e1 nu A z n d_Qa n_lag beta r L g f I Hm H1 Hs Hk Hb Hn Hz HA Hzm.
  pose proof (proj1 (Cmod_gt_0 _) Hs) as PS. pose proof (spread_ge_1 e0 e1 Hs) as K1. unfold spread in K1.
  set (kappa := (Cmod e0 + Cmod e1) / Cmod (e0 + e1)%C) in *.
  assert (K2 : kappa <= 100) by (unfold kappa; apply Rle_div_l; assumption).
  assert (K3 : kappa ^ 2 <= 100 ^ 2) by (apply pow_incr; lra).
  destruct (C98_fdm_bulk_proof (/ 2 ^ 53) m lg e0 e1 nu A z n d_Qa n_lag Hm) as (w & Ew & Bw); auto; fold kappa; try lra.
  destruct (C98_taylor_bulk_proof (/ 2 ^ 53) m lg e0 e1 nu A z n d_Qa n_lag Hm) as (t & p & Et & _ & Bt & _); auto; fold kappa; try lra.
  exists w, t. split; [exact Ew|]. split; [exact Et|].
  split; [eapply Rle_trans; [exact Bw|]|eapply Rle_trans; [exact Bt|]]; fold kappa; lra.
Qed.

(** C98, a case: silicon-like permittivity 12 + i in air, second harmonic, 30 nm amplitude, in contact, on the machine that
    keeps 53 binary digits. *)
Lemma C98_double_example_proof : forall (laggauss : laggauss_t),
  let beta := (((12, 1)%R - RtoC 1) / ((12, 1)%R + RtoC 1))%C in
  let r := 20 / 10 ^ 9 in let L := 300 / 10 ^ 9 in let g := Cmult (RtoC (7 / 10)) (Cexp (0, 6 / 100)) in
  let f := fun d x => fdm_f x d r L g in let alpha := RtoC (4 * PI * r ^ 3) in
  let fdm_integral := fourier_coefficient (fun x => 1 + beta * f (131 / 100 * L / (L + 2 * r))%R x / (2 * (1 - beta * f (5 / 10)%R x)))%C (0 + 30 / 10 ^ 9) (30 / 10 ^ 9) 2 in
  let pdm_integral := fourier_coefficient (fun x => alpha / (1 - alpha / RtoC (16 * PI * (r + x) ^ 3) * beta))%C (0 + 30 / 10 ^ 9) (30 / 10 ^ 9) 2 in
  let s := stack [RtoC 1; (12, 1)] [] None in
  exists w t p : C,
    k_fdm_eff_pol_n (digits 53) laggauss defaults0 s (30 / 10 ^ 9) 2 (Some 0) None None None None None None None None None = Ok w /\
    k_fdm_eff_pol_n_taylor (digits 53) laggauss defaults0 s (30 / 10 ^ 9) 2 (Some 0) None None None None None None None None None None = Ok t /\
    k_pdm_eff_pol_n (digits 53) defaults0 s (30 / 10 ^ 9) 2 (Some 0) None None None None = Ok p /\
    Cmod (w - fdm_integral)%C <= 2001 / 10 ^ 8 /\ Cmod (t - fdm_integral)%C <= 12001 / 10 ^ 8 /\
    Cmod (p - pdm_integral)%C <= 102 / 100 * / 10 ^ 7 * (4 * PI * r ^ 3).
Proof.
  intros lg beta r L g f alpha I J s.
  assert (N1 : ((12, 1)%R + RtoC 1)%C <> RtoC 0) by (intros X; apply (f_equal fst) in X; cbn in X; lra).
  assert (N2 : (RtoC 1 + (12, 1)%R)%C <> RtoC 0) by (rewrite Cplus_comm; exact N1).
  assert (N3 : (12, 1)%R <> RtoC 0) by (intros X; apply (f_equal fst) in X; cbn in X; lra).
  assert (B : Cmod beta <= 101 / 100).
  { unfold beta. rewrite Cmod_div by exact N1. pose proof (Cmod_gt_0 ((12, 1)%R + RtoC 1)%C) as [G _]. specialize (G N1).
    apply Rle_div_l; [exact G|]. apply Rle_trans with (Cmod ((12, 1)%R + RtoC 1)%C); [|lra]. unfold Cmod. apply sqrt_le_1_alt. cbn. lra. }
  assert (K : Cmod (RtoC 1) + Cmod (12, 1)%R <= 100 * Cmod (RtoC 1 + (12, 1)%R)%C).
  { assert (X : Cmod (12, 1)%R <= 13).
    { unfold Cmod. rewrite <- (sqrt_Rsqr 13) by lra. apply sqrt_le_1_alt. unfold Rsqr. cbn. lra. }
    assert (Y : 13 <= Cmod (RtoC 1 + (12, 1)%R)%C).
    { unfold Cmod. rewrite <- (sqrt_Rsqr 13) at 1 by lra. apply sqrt_le_1_alt. unfold Rsqr. cbn. lra. }
    rewrite Cmod_1. lra. }
  destruct (C98_fdm_double_proof (digits 53) lg (RtoC 1) (12, 1) None (30 / 10 ^ 9) 0 2 None None (digits_rounding 53)) as (w & t & Ew & Et & Bw & Bt); auto; try lra; try lia.
  destruct (C98_pdm_double_proof (digits 53) (RtoC 1) (12, 1) None (30 / 10 ^ 9) 0 2 None (digits_rounding 53)) as (p & Ep & Bp); auto; cbn [given_or]; try lra; try lia.
  exists w, t, p. repeat split; assumption.
Qed.
