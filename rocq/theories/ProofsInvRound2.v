(** * C100: the root-finding inverses as computed *)
From Coq Require Import String Reals Lra Lia ZArith List Bool Permutation.
From Coquelicot Require Import Coquelicot.
From Coq Require Import List.
From Verif Require Import Num NumLemmas ModelBase ModelSample ModelTip StackLemmas Spec SpecSampling DemodLemmas ProofsTip ProofsTip2 ProofsTip3 ProofsTip5
  SpecRound SpecSolver ModelRound ModelRound2 ModelRoundInv RoundLemmas RoundLemmas2 ProofsPassive ProofsTaylor ProofsDefault ProofsRounding ProofsRounding2 ProofsRounding3
  ProofsSampling3 ProofsSampling5 ProofsTotal ProofsTotal2 ProofsTotal3 ProofsTotal4 ProofsInvRound.
Import ListNotations.
Open Scope R_scope.


(** the documented signals as functions of the quasistatic reflection coefficient *)
Definition fdm_signal (beta : C) (z A : R) (n : Z) : C :=
  let r := 20 / 10 ^ 9 in let L := 300 / 10 ^ 9 in let g := Cmult (RtoC (7 / 10)) (Cexp (0, 6 / 100)) in
  let f := fun d x => fdm_f x d r L g in
  fourier_coefficient (fun x => 1 + beta * f (131 / 100 * L / (L + 2 * r))%R x / (2 * (1 - beta * f (5 / 10)%R x)))%C (z + A) A n.
(** in units of the polarizability of the sphere *)
Definition pdm_signal (r : R) (beta : C) (z A : R) (n : Z) : C :=
  let alpha := RtoC (4 * PI * r ^ 3) in
  fourier_coefficient (fun x => alpha / (1 - alpha / RtoC (16 * PI * (r + x) ^ 3) * beta))%C (z + A) A n.

Lemma made_of_beta (beta : C) : beta <> RtoC (-1) ->
  (1 + beta)%C <> RtoC 0 /\ ((1 - beta) + (1 + beta) <> 0)%C /\ (((1 + beta) - (1 - beta)) / ((1 + beta) + (1 - beta)))%C = beta.
Proof.
  intros H. assert (N2 : RtoC 2 <> RtoC 0) by (apply RtoC_neq_0; lra).
  assert (E : ((1 - beta) + (1 + beta))%C = RtoC 2) by (replace (RtoC 2) with (RtoC 1 + RtoC 1)%C by (rewrite <- RtoC_plus; f_equal; lra); ring).
  split; [|split].
  - intros X. apply H. replace beta with ((1 + beta) - 1)%C by ring. rewrite X. rewrite <- RtoC_minus. f_equal. lra.
  - rewrite E. exact N2.
  - rewrite (Cplus_comm (1 + beta)%C (1 - beta)%C), E. replace (1 + beta - (1 - beta))%C with (RtoC 2 * beta)%C; [field; exact N2|].
    replace (RtoC 2) with (RtoC 1 + RtoC 1)%C by (rewrite <- RtoC_plus; f_equal; lra). ring.
Qed.

Lemma fdm_default_coefs u (m : machine) (A z : R) (n : Z) :
  let d0' := a_div m (a_mul m (a_lit m (131 / 100)) L0) (a_add m L0 (a_mul m 2 r0)) in
  rounding u m -> 0 <= u <= / 10 ^ 6 -> (Z.abs n <= 4)%Z -> 0 <= z -> 0 < A <= 30 / 10 ^ 9 -> z + 2 * A <= 280 / 10 ^ 9 ->
  exists aj aj' : nat -> C,
    (forall j, k_fdm_taylor_coef m defaults0 z j A n r0 L0 g0 d0' (5 / 10) None = Ok (aj' j)) /\
    (forall j, (j < 16)%nat -> ap (aj j) (aj' j) (fdm_W j) (fdm_W j * (1 + fdm_e u j)) /\ 0 <= fdm_e u j <= 1 / 20) /\
    (forall beta, Cmod beta <= 101 / 100 -> beta <> RtoC (-1) ->
       Cmod (Csum (map (fun j => aj j * Cpown beta j)%C (seq 0 16)) - fdm_signal beta z A n)%C <= 12 / 10 ^ 5 /\
       forall lg nu d_Qa n_lag, fdm_eff_pol_n_taylor lg defaults0 (stack [(1 - beta)%C; (1 + beta)%C] [] nu) A n (Some z) None None None None None d_Qa n_lag None None None
         = Ok (Some (Csum (map (fun j => aj j * Cpown beta j)%C (seq 0 16))))).
Proof.
  intros d0' Hm [Hu Hu1] Hn Hz HA Hzm.
  assert (P : 0 < r0) by (unfold r0; lra).
  set (f0 := fun x => fdm_f x d00 r0 L0 g0) in *. set (f1 := fun x => fdm_f x (5 / 10) r0 L0 g0) in *.
  set (k0 := fun x => k_fdm_geom_func m x d0' r0 L0 g0). set (k1 := fun x => k_fdm_geom_func m x (5 / 10) r0 L0 g0).
  set (one := if Z.eqb n 0 then RtoC 1 else RtoC 0).
  set (dj := fun j => k_demod m (m_order m 32) (fun x => kmul m (k0 x) (kpow m (k1 x) (Z.of_nat j - 1))) (a_add m z A) A n 32).
  set (aj := fun j => match j with O => one | S i => (tmean z A n 32 (fun x => f0 x * Cpown (f1 x) i) / 2)%C end).
  set (aj' := fun j => if Nat.eqb j 0 then one else kdiv m (dj j) (RtoC 2)).
  exists aj, aj'. split.
  { intros j. unfold k_fdm_taylor_coef, k_fdm_geom_func_taylor.
    rewrite (k_coef_ok m (fun x => kmul m (k0 x) (kpow m (k1 x) (Z.of_nat j - 1)))); [reflexivity|apply Hm]. }
  split.
  2: {
  intros beta Hb Hbm. destruct (made_of_beta beta Hbm) as (H1 & Hs & EB). set (e0 := (1 - beta)%C) in *. set (e1 := (1 + beta)%C) in *.
  assert (KEY : forall lg nu d_Qa n_lag, exists t, fdm_eff_pol_n_taylor lg defaults0 (stack [e0; e1] [] nu) A n (Some z) None None None None None d_Qa n_lag None None None = Ok (Some t) /\
    t = Csum (map (fun j => aj j * Cpown beta j)%C (seq 0 16)) /\ Cmod (t - fdm_signal beta z A n)%C <= 12 / 10 ^ 5).
  { intros lg nu d_Qa n_lag. set (s := stack [e0; e1] [] nu).
  pose proof Hb as Hb0. rewrite <- EB in Hb0.
  destruct (C80_fdm_default_proof lg e0 e1 nu A z n d_Qa n_lag H1 Hs Hb0 Hn Hz HA Hzm) as (v & Ev & Bv).
  destruct (C78_fdm_default_proof lg e0 e1 nu A z n None d_Qa n_lag H1 Hs Hb0 ltac:(cbn; lia)) as (v' & t & Ev' & Et & Bt); try lra.
  { cbn [given_or]. destruct (Z.eq_dec n 0) as [->|N0]; [now left|right]. intros [q Hq]. lia. }
  fold s in Ev, Ev', Et. rewrite Ev in Ev'. apply ok_some in Ev'. rewrite <- Ev' in Bt. rewrite EB in Bv. exists t. split; [exact Et|].
  assert (Hq : refl_coef_qs s (rr 0) = Ok (Some beta)) by (rewrite <- EB; now apply bulk_qs).
  assert (T : t = Csum (map (fun j => aj j * Cpown beta j)%C (seq 0 16))).
  { rewrite taylor_none_bulk in Et by reflexivity.
    pose proof (fdm_taylor_value lg defaults0 s A n (Some z) None None None None None None d_Qa n_lag beta 15) as V. cbv zeta in V.
    cbn [given_or defaults0 d_n_trapz d_z_tip d_r_tip d_L_tip d_g_factor d_d_Q1] in V. change (20 / 10 ^ 9) with r0 in V. change (300 / 10 ^ 9) with L0 in V.
    change (Cmult (RtoC (7 / 10)) (Cexp (0, 6 / 100))) with g0 in V. change (131 / 100 * L0 / (L0 + 2 * r0)) with d00 in V.
    fold one in V.
    assert (V' : fdm_eff_pol_n_taylor lg defaults0 s A n (Some z) None None None None None d_Qa n_lag (Some "bulk"%string) None (Some 16%nat)
       = Ok (Some (one + tmean z A n 32 (fun x => beta * f0 x / 2 * Csum (map (fun j => Cpown (beta * f1 x) j) (seq 0 15))))%C)).
    { apply V; [reflexivity|exact Hq|lia|]. intros k Hk'. pose proof (ProofsDefault.tip_height_range z A 32 k ltac:(lra)).
      split; [apply fdm_f_default; [lra|exact d00_range]|apply fdm_f_default; lra]. }
    change (fdm_eff_pol_n_taylor lg defaults0 s A n (Some z) None None None None None d_Qa n_lag (Some "bulk"%string) None (Some 16%nat))
      with (fdm_eff_pol_n_taylor lg defaults0 s A n (Some z) None None None None None d_Qa n_lag (Some "bulk"%string) None None) in V'.
    rewrite Et in V'. apply ok_some in V'. rewrite V'. change (seq 0 16) with (0%nat :: seq 1 15). rewrite <- seq_shift. cbn [map]. rewrite map_map.
    unfold Csum at 2. cbn [fold_right]. fold (Csum (map (fun x => (aj (S x) * Cpown beta (S x))%C) (seq 0 15))).
    f_equal; [unfold aj; cbn [Cpown]; ring|].
    transitivity (tmean z A n 32 (fun x => Csum (map (fun j => beta * f0 x / 2 * Cpown (beta * f1 x) j)%C (seq 0 15)))).
    { apply tmean_ext. intros k _. symmetry. apply Csum_scal. }
    rewrite <- (tmean_sum z A n 32 (fun j x => beta * f0 x / 2 * Cpown (beta * f1 x) j)%C).
    apply Csum_ext_in. intros j _. unfold aj. unfold Cdiv at 2. rewrite <- Cmult_assoc, Cmult_comm, <- tmean_scal. apply tmean_ext. intros k _.
    rewrite ProofsTaylor.Cpown_mult. cbn [Cpown]. unfold Cdiv. ring. }
  split; [exact T|]. unfold fdm_signal. set (I := fourier_coefficient _ _ _ _) in *. 
  replace (t - I)%C with (- (v - t) + (v - I))%C by ring. eapply Rle_trans; [apply Cmod_triangle|]. rewrite Cmod_opp. lra. }
  split.
  - destruct (KEY (fun _ => []) None None None) as (t & _ & Et & B). rewrite <- Et. exact B.
  - intros lg nu d_Qa n_lag. destruct (KEY lg nu d_Qa n_lag) as (t & E & Et & _). rewrite <- Et. exact E. }
  assert (GE : forall x x', z <= x <= z + 2 * A -> Rabs (x' - x) <= u * (201 / 100 * (z + A) + 67 * A) ->
     ap (f0 x) (k0 x') (548 / 1000) (548 / 1000 + 500 * u) /\ ap (f1 x) (k1 x') (548 / 1000) (548 / 1000 + 500 * u)).
  { intros x x' Hx Hx'. assert (X1 : Rabs (x' - x) <= 129 * u * r0).
    { eapply Rle_trans; [exact Hx'|]. replace (129 * u * r0) with (u * (129 * r0)) by ring. apply Rmult_le_compat_l; [lra|]. unfold r0. lra. }
    assert (N5 : near (6 * u) (5 / 10) (5 / 10)) by (unfold near; rewrite Rminus_eq_0, Rabs_R0; apply Rmult_le_pos; [lra|apply Rabs_pos]).
    pose proof (fdm_geom_near u m x x' d00 d0' (proj1 Hm) ltac:(lra) ltac:(lra) X1 d00_range (d00_near u m (proj1 Hm) ltac:(lra))) as F0.
    pose proof (fdm_geom_near u m x x' (5 / 10) (5 / 10) (proj1 Hm) ltac:(lra) ltac:(lra) X1 ltac:(lra) N5) as F1.
    destruct (fdm_f_default x d00 ltac:(lra) d00_range) as [_ B0]. destruct (fdm_f_default x (5 / 10) ltac:(lra) ltac:(lra)) as [_ B1].
    split; (split; [assumption|]); [unfold k0, f0|unfold k1, f1]; lra. }
  assert (X0 : forall x : R, Rabs (x - x) <= u * (201 / 100 * (z + A) + 67 * A)) by (intros x; rewrite Rminus_eq_0, Rabs_R0; apply Rmult_le_pos; lra).
  assert (U2 : u * u <= / 10 ^ 6 * u) by (apply Rmult_le_compat_r; lra).
  assert (AJ : forall j, (j < 16)%nat -> ap (aj j) (aj' j) (fdm_W j) (fdm_W j * (1 + fdm_e u j)) /\ 0 <= fdm_e u j <= 1 / 20).
  { intros [|i] Hj.
    - unfold fdm_W, fdm_e. cbn [aj aj' Nat.eqb]. split; [|lra]. rewrite Rplus_0_r, Rmult_1_r. apply ap_refl. unfold one. destruct (Z.eqb n 0); [rewrite Cmod_1|rewrite Cmod_0]; lra.
    - pose proof (power_term u m (fun x => f0 x * Cpown (f1 x) i)%C (fun x => kmul m (k0 x) (kpow m (k1 x) (Z.of_nat (S i) - 1))) z A n (548 / 1000) 917 (S i) Hm ltac:(lra) Hn Hz ltac:(lra) ltac:(lra) ltac:(lra) Hj) as PT.
      assert (PK : forall x x', z <= x <= z + 2 * A -> Rabs (x' - x) <= u * (201 / 100 * (z + A) + 67 * A) ->
         ap (f0 x * Cpown (f1 x) i)%C (kmul m (k0 x') (kpow m (k1 x') (Z.of_nat (S i) - 1))) ((548 / 1000) ^ S i) (((1 + 4 * u) * (548 / 1000 + 500 * u)) ^ S i)).
      { intros x x' Hx Hx'. destruct (GE x x' Hx Hx') as [Q0 Q1]. replace (Z.of_nat (S i) - 1)%Z with (Z.of_nat i) by lia.
        pose proof (kmul_ap u m (proj1 Hm) Hu ltac:(lra) _ _ _ _ _ _ _ _ Q0 (kpow_ap u m (proj1 Hm) Hu ltac:(lra) i _ _ _ _ Q1)) as Q.
        cbn [pow]. replace ((1 + 4 * u) * (548 / 1000 + 500 * u) * ((1 + 4 * u) * (548 / 1000 + 500 * u)) ^ i)
          with ((1 + 4 * u) * ((548 / 1000 + 500 * u) * ((1 + 4 * u) * (548 / 1000 + 500 * u)) ^ i)) by ring. exact Q. }
      specialize (PT ltac:(intros x Hx; exact (proj1 (PK x x Hx (X0 x))))).
      destruct PT as [PT PE].
      { intros x x' Hx Hx'. eapply Rle_trans; [exact (proj2 (PK x x' Hx Hx'))|]. apply Rplus_le_compat_r, pow_incr. split; [apply Rmult_le_pos; lra|]. lra. }
      fold (dj (S i)) in PT. set (w := (548 / 1000) ^ S i) in *. set (e := 20 / 9 * (INR (S i) * (917 * u)) + 670 * u) in *.
      assert (W0 : 0 < w) by (unfold w; apply pow_lt; lra).
      assert (EE : fdm_e u (S i) = e + 14 * u) by (unfold fdm_e, e; ring). assert (EW : fdm_W (S i) = w / 2) by reflexivity. rewrite EE, EW.
      split; [|lra]. cbn [aj aj' Nat.eqb]. fold (dj (S i)).
      assert (N2 : RtoC 2 <> RtoC 0) by (apply RtoC_neq_0; lra).
      assert (Q2 : ap (tmean z A n 32 (fun x => f0 x * Cpown (f1 x) i)%C / 2)%C (dj (S i) / 2)%C (w / 2) (w * (1 + e) / 2)).
      { destruct PT as [A1 A2]. assert (C2 : Cmod (RtoC 2) = 2) by (rewrite Cmod_R, Rabs_pos_eq; lra). split.
        - rewrite Cmod_div by exact N2. rewrite C2. lra.
        - replace (dj (S i) / 2 - tmean z A n 32 (fun x => f0 x * Cpown (f1 x) i) / 2)%C with ((dj (S i) - tmean z A n 32 (fun x => f0 x * Cpown (f1 x) i)) / 2)%C by (field; exact N2).
          rewrite Cmod_div by exact N2. rewrite C2. lra. }
      pose proof (ap_round (13 * u) _ _ _ _ _ ltac:(lra) Q2 (kdiv_near u m Hu ltac:(lra) (proj1 Hm) (dj (S i)) (RtoC 2) N2)) as Q3.
      apply (ap_weaken _ _ _ _ _ _ Q3); [lra|]. assert (w * (u * e) <= w * (u * (35 / 1000))) by (apply Rmult_le_compat_l; [lra|apply Rmult_le_compat_l; lra]).
      assert (0 <= w * u) by (apply Rmult_le_pos; lra). lra. }
  exact AJ.
Qed.

Lemma pdm_default_coefs u (m : machine) (r A z : R) (n : Z) :
  let a' := a_mul m (a_mul m 4 (a_lit m PI)) (a_pow m r 3) in
  rounding u m -> 0 <= u <= / 10 ^ 6 -> (Z.abs n <= 4)%Z -> 0 < r -> 0 <= z -> 0 < A <= 3 / 2 * r ->
  let e := fun j => 20 / 9 * (INR j * (388 * u)) + 670 * u in
  exists aj aj' : nat -> C,
    (forall j, k_pdm_taylor_coef m defaults0 z j A n r (RtoC a') None = Ok (aj' j)) /\
    (forall j, (j < 16)%nat -> ap (aj j) (aj' j) ((1 / 4) ^ j) ((1 / 4) ^ j * (1 + e j)) /\ 0 <= e j <= 35 / 1000) /\
    (forall beta, Cmod beta <= 101 / 100 -> beta <> RtoC (-1) ->
       Cmod (RtoC (4 * PI * r ^ 3) * Csum (map (fun j => aj j * Cpown beta j)%C (seq 0 16)) - pdm_signal r beta z A n)%C <= (/ 10 ^ 7 + 4 / 10 ^ 10) * (4 * PI * r ^ 3) /\
       forall nu, pdm_eff_pol_n_taylor defaults0 (stack [(1 - beta)%C; (1 + beta)%C] [] nu) A n (Some z) (Some r) None None None None
         = Ok (Some (Csum (map (fun j => aj j * Cpown beta j)%C (seq 0 16))))).
Proof.
  intros a' Hm [Hu Hu1] Hn Hr Hz HA e. pose proof PI_RGT_0 as PP.
  set (a := 4 * PI * r ^ 3) in *. set (alpha := RtoC a).
  assert (Pa : 0 < a) by (unfold a; assert (0 < r ^ 3) by (now apply pow_lt); nra).
  set (f := fun x => (alpha / RtoC (16 * PI * (r + x) ^ 3))%C).
  set (fk := fun x => k_pdm_geom_func m x r (RtoC a')).
  set (aj := fun j => tmean z A n 32 (fun x => Cpown (f x) j)). set (aj' := fun j => k_demod m (m_order m 32) (fun x => kpow m (fk x) (Z.of_nat j)) (a_add m z A) A n 32).
  exists aj, aj'. split.
  { intros j. unfold k_pdm_taylor_coef.
    rewrite (k_coef_ok m (fun x => kpow m (k_pdm_geom_func m x r (RtoC a')) (Z.of_nat j))); [reflexivity|apply Hm]. }
  split.
  2: {
  intros beta Hb1 Hbm. destruct (made_of_beta beta Hbm) as (H1 & Hs & EB). set (e0 := (1 - beta)%C) in *. set (e1 := (1 + beta)%C) in *.
  assert (KEY : forall nu, exists t, pdm_eff_pol_n_taylor defaults0 (stack [e0; e1] [] nu) A n (Some z) (Some r) None None None None = Ok (Some t) /\
    t = Csum (map (fun j => aj j * Cpown beta j)%C (seq 0 16)) /\ Cmod (alpha * t - pdm_signal r beta z A n)%C <= (/ 10 ^ 7 + 4 / 10 ^ 10) * a).
  { intros nu. set (s := stack [e0; e1] [] nu). set (r_tip := Some r).
  assert (Hb : refl_coef_qs s (rr 0) = Ok (Some beta)) by (rewrite <- EB; now apply bulk_qs).
  destruct (C79_pdm_default_proof s beta A z n r_tip Hb Hb1 Hn Hr Hz HA) as (v & Ev & Bv). cbn [r_tip given_or] in Bv. fold a alpha in Bv.
  destruct (C78_pdm_default_proof s beta A z n r_tip None Hb Hb1 ltac:(cbn; lia) Hr Hz ltac:(lra)) as (c & t & Ec & Et & Bc).
  rewrite Ev in Ec. apply ok_some in Ec. cbn [r_tip given_or] in Ec. fold a in Ec. fold alpha in Ec. rewrite Ec in Bv. exists t. split; [exact Et|].
  assert (T : t = Csum (map (fun j => aj j * Cpown beta j)%C (seq 0 16))).
  { pose proof (pdm_taylor_value defaults0 s A n (Some z) None r_tip None None alpha beta 16) as V. cbv zeta in V.
    change (given_or (d_r_tip defaults0) r_tip) with r in V. cbn [given_or defaults0 d_n_trapz] in V.
    assert (V' : pdm_eff_pol_n_taylor defaults0 s A n (Some z) r_tip None None None (Some 16%nat) = Ok (Some (tmean z A n 32 (fun x => Csum (map (fun j => Cpown (f x * beta) j) (seq 0 16)))%C))).
    { apply V; [apply tip_conductor|exact Hb|lia|]. intros k Hk'. pose proof (ProofsDefault.tip_height_range z A 32 k ltac:(lra)). lra. }
    change (pdm_eff_pol_n_taylor defaults0 s A n (Some z) r_tip None None None (Some 16%nat)) with (pdm_eff_pol_n_taylor defaults0 s A n (Some z) r_tip None None None None) in V'.
    rewrite Et in V'. apply ok_some in V'. rewrite V'. unfold aj. rewrite <- (tmean_sum z A n 32 (fun j x => Cpown (f x * beta) j)%C).
    apply Csum_ext_in. intros j _. rewrite Cmult_comm, <- tmean_scal. apply tmean_ext. intros k _. rewrite ProofsTaylor.Cpown_mult. ring. }
  split; [exact T|]. unfold pdm_signal. fold a. fold alpha. set (I := fourier_coefficient _ _ _ _) in *.
  replace (alpha * t - I)%C with (- (alpha * (c - t)) + (alpha * c - I))%C by ring.
  assert (CA : Cmod alpha = a) by (unfold alpha; rewrite Cmod_R, Rabs_pos_eq; [reflexivity|lra]).
  eapply Rle_trans; [apply Cmod_triangle|]. rewrite Cmod_opp, !Cmod_mult, CA.
  apply (Rmult_le_compat_l a) in Bc; [|lra]. lra. }
  split.
  - destruct (KEY None) as (t & _ & Et & B). rewrite <- Et. exact B.
  - intros nu. destruct (KEY nu) as (t & E & Et & _). rewrite <- Et. exact E. }
  assert (GE : forall x x', z <= x <= z + 2 * A -> Rabs (x' - x) <= u * (201 / 100 * (z + A) + 67 * A) -> ap (f x) (fk x') (1 / 4) (1 / 4 * (1 + 383 * u))).
  { intros x x' Hx Hx'. assert (X1 : Rabs (x' - x) <= 104 * u * (r + x)).
    { eapply Rle_trans; [exact Hx'|]. replace (104 * u * (r + x)) with (u * (104 * (r + x))) by ring. apply Rmult_le_compat_l; lra. }
    pose proof (pdm_geom_near u m r x x' a' (proj1 Hm) ltac:(lra) Hr ltac:(lra) X1 (pdm_alpha_near u m r (proj1 Hm) ltac:(lra))) as NG. fold a in NG.
    assert (R3 : 0 < r ^ 3) by now apply pow_lt. assert (P3 : 0 < (r + x) ^ 3) by (apply pow_lt; lra).
    assert (Q3 : r ^ 3 <= (r + x) ^ 3) by (apply pow_incr; lra).
    assert (D16 : 0 < 16 * PI * (r + x) ^ 3) by (apply Rmult_lt_0_compat; lra).
    assert (FX : f x = RtoC (a / (16 * PI * (r + x) ^ 3))) by (unfold f, alpha; rewrite <- RtoC_div by lra; reflexivity).
    assert (B4 : Cmod (f x) <= 1 / 4).
    { rewrite FX, Cmod_R, Rabs_pos_eq by (apply Rlt_le, Rdiv_lt_0_compat; assumption). apply Rle_div_l; [exact D16|]. unfold a.
      assert (PI * r ^ 3 <= PI * (r + x) ^ 3) by (apply Rmult_le_compat_l; lra). lra. }
    split; [exact B4|]. rewrite <- FX in NG. unfold cnear in NG. eapply Rle_trans; [exact NG|].
    assert (383 * u * Cmod (f x) <= 383 * u * (1 / 4)) by (apply Rmult_le_compat_l; lra). lra. }
  assert (X0 : forall x : R, Rabs (x - x) <= u * (201 / 100 * (z + A) + 67 * A)) by (intros x; rewrite Rminus_eq_0, Rabs_R0; apply Rmult_le_pos; lra).
  assert (AJ : forall j, (j < 16)%nat -> let e := 20 / 9 * (INR j * (388 * u)) + 670 * u in ap (aj j) (aj' j) ((1 / 4) ^ j) ((1 / 4) ^ j * (1 + e)) /\ 0 <= e <= 35 / 1000).
  { intros j Hj. apply (power_term u m (fun x => Cpown (f x) j) (fun x => kpow m (fk x) (Z.of_nat j)) z A n (1 / 4) 388 j Hm ltac:(lra) Hn Hz ltac:(lra) ltac:(lra) ltac:(lra) Hj).
    - intros x Hx. rewrite Cmod_pown. apply pow_incr. split; [apply Cmod_ge_0|]. apply (proj1 (GE x x Hx (X0 x))).
    - intros x x' Hx Hx'. pose proof (kpow_ap u m (proj1 Hm) Hu ltac:(lra) j _ _ _ _ (GE x x' Hx Hx')) as [_ E]. eapply Rle_trans; [exact E|].
      apply Rplus_le_compat_r, pow_incr. split; [repeat apply Rmult_le_pos; lra|].
      assert (u * u <= / 10 ^ 6 * u) by (apply Rmult_le_compat_r; lra). lra. }
  exact AJ.
Qed.
