(** * Proofs: which solution the root-finding inverses put first (C84), finite dipole model *)
From Coq Require Import String Reals Lra Lia ZArith List Bool Permutation Sorted.
From Coquelicot Require Import Rcomplements Complex.
From Verif Require Import Num NumLemmas LimLemmas ModelBase ModelSample ModelTip NArr SpecArr NArrLemmas ModelObj SpecObj
  ModelArr ModelArrTip ModelInv StackLemmas Spec SpecPoly SpecInv SpecNear SpecFirst FTA ArrSample
  ProofsStackQS ProofsStackQS2 ProofsPassive DemodLemmas ProofsDemod ProofsTip ProofsTip2 ProofsTip3 ProofsTaylor
  ProofsArr ProofsArr2 ProofsArrTip InvLemmas ProofsInv ProofsInv2 ProofsInv3 ProofsInv4 ProofsNear ProofsConsist ProofsConsist2
  PosDef ProofsContrast ProofsContrast2 PosPoly ProofsFirst.
Import ListNotations.
Open Scope R_scope.

Section FDM.
Context (lg : laggauss_t) (D : Defaults) (A : R) (n : Z) (nt : option nat) (z_tip r_tip L_tip : option R) (gf : option C)
  (d_Q0 d_Q1 d_Qa : option R) (n_lag : option nat) (g : R).
Let N := given_or (d_n_trapz D) nt. Let z := given_or (d_z_tip D) z_tip.
Let r := given_or (d_r_tip D) r_tip. Let L := given_or (d_L_tip D) L_tip.
Let d0 := given_or (131 / 100 * L / (L + 2 * r)) d_Q0. Let d1 := given_or (d_d_Q1 D) d_Q1.
Context (Hg : given_or (d_g_factor D) gf = RtoC g) (HN : N <> O) (HA : 0 < A) (HrL : r < 4 * L).
Context (R0 : in_reach z A d0 r L g) (R1 : in_reach z A d1 r L g).
Definition fV (k : nat) : R := / 2 * ff r L g A N z d0 k.
Definition fF (k : nat) : R := ff r L g A N z d1 k.
Definition fc0 : C := if Z.eqb n 0 then RtoC 1 else RtoC 0.
Let q := qj n N fV fF. Let sg := sgn_pow n.

Lemma f_WL : 0 < ln (4 * L / r).
Proof using HrL R0. rewrite <- ln_1. apply ln_increasing; [lra|]. apply Rlt_div_r; [apply R0|lra]. Qed.
Lemma fV_dom i : dom N i fV.
Proof using HN HA HrL R0. unfold fV. apply dom_scal; [lra|]. apply ff_dom; [exact HN|exact HA|exact f_WL|exact R0]. Qed.
Lemma fF_dom i : dom N i fF.
Proof using HN HA HrL R0 R1. unfold fF. apply ff_dom; [exact HN|exact HA|exact f_WL|exact R1]. Qed.
Lemma fq_pos j : 0 < q j.
Proof using HN HA HrL R0 R1. apply qj_pos; [exact HN|exact fV_dom|exact fF_dom]. Qed.
Lemma f_reg0 k : fdm_regular (tip_height z A N k) d0 r L.
Proof using HA HrL R0.
  assert (X : z <= tip_height z A N k) by (rewrite tip_height_cs; pose proof (cs_bound N k); nra). destruct R0 as (A1 & A2 & A3 & _).
  repeat split; lra.
Qed.
Lemma f_reg1 k : fdm_regular (tip_height z A N k) d1 r L.
Proof using HA HrL R1.
  assert (X : z <= tip_height z A N k) by (rewrite tip_height_cs; pose proof (cs_bound N k); nra). destruct R1 as (A1 & A2 & A3 & _).
  repeat split; lra.
Qed.
Lemma f_coef j : fdm_taylor_coef D z j A n (rr r) (rr L) (Some (RtoC g)) (rr d0) (rr d1) nt = Ok (Some (cf q fc0 sg j)).
Proof using HN HA HrL R0 R1.
  destruct j as [|j]; [apply taylor_coef_0|].
  rewrite (taylor_coef_S D z A n nt d0 d1 r L (RtoC g) HN (fun k _ => f_reg0 k) (fun k _ => f_reg1 k) j). do 2 f_equal. cbn [cf]. unfold q, qj, sg.
  transitivity (tmean z A n N (fun x => RtoC (/ 2 * fdm_r x d0 r L g * fdm_r x d1 r L g ^ j))); [|now rewrite tmean_real by exact HN].
  apply tmean_ext. intros k Hk. rewrite !fdm_f_real, Cpown_real, !RtoC_mult, RtoC_inv by lra. unfold Cdiv. ring.
Qed.
Lemma f_coefs m : coefficients (fun j => fdm_taylor_coef D z j A n (rr r) (rr L) (Some (RtoC g)) (rr d0) (rr d1) nt) (cfs q fc0 sg m).
Proof using HN HA HrL R0 R1. intros j Hj. rewrite cfs_length in Hj. rewrite cfs_nth by lia. apply f_coef. Qed.
Lemma f_taylor s m b : multilayer s = false -> refl_coef_qs s (rr 0) = Ok (Some (RtoC b)) ->
  fdm_eff_pol_n_taylor lg D s A n z_tip r_tip L_tip gf d_Q0 d_Q1 d_Qa n_lag None nt (Some (S m))
  = Ok (Some (fc0 + RtoC (sg * tm q m b)))%C.
Proof using Hg HN HA HrL R0 R1.
  intros Hm Hb. rewrite (fdm_taylor_bulk _ _ _ _ _ _ _ _ _ _ _ _ _ _ _ _ Hm Hb). f_equal. rewrite <- cfs_real. cbn [dflt].
  apply taylor_value; [apply cfs_length|]. intros j Hj.
  rewrite (fdm_defaults_eq D r_tip L_tip gf d_Q0 d_Q1 None) by (apply R0). rewrite Hg, dflt_given. fold z r L d0 d1. unfold fdm_coef.
  rewrite f_coef. cbn [value]. now rewrite cfs_nth by lia.
Qed.
Lemma f_inverse eig sb sr thr ri ra env m b : library eig sb sr -> (1 <= m)%nat -> 0 <= b ->
  admissible (given_or (d_beta_threshold D) thr) ri ra (given_or (d_eps_env D) env) (RtoC b) ->
  exists result,
    fdm_refl_coef_qs_from_eff_pol_n eig sb sr D (scalar (Some (fc0 + RtoC (sg * tm q m b))%C)) (scalar A) (scalar n) (as_array z_tip) (as_array r_tip)
        (as_array L_tip) (as_array gf) (as_array d_Q0) (as_array d_Q1) nt (Some (S m)) thr ri ra (as_array env) = Ok result /\
    smallest_first result b.
Proof using lg Hg HN HA HrL R0 R1.
  intros LIB Hm Hb Ha. set (al := (fc0 + RtoC (sg * tm q m b))%C).
  destruct (C31_fdm_complete_proof eig sb sr D (scalar (Some al)) (scalar A) (scalar n) (as_array z_tip) (as_array r_tip)
        (as_array L_tip) (as_array gf) (as_array d_Q0) (as_array d_Q1) nt (Some (S m)) thr ri ra (as_array env)
        [] (fun _ => cfs q fc0 sg m) (fun _ => al) m LIB) as (result & ER & EL & HR).
  - apply env_as_array.
  - apply joint_fdm_scalars.
  - exists []. apply index_scalar.
  - exact Hm.
  - intros i Hi. rewrite !entry_scalar, !at_as_array. split; [reflexivity|].
    split; [apply cfs_degree; [exact fq_pos|apply sgn_sq|exact Hm]|]. split; [apply cfs_length|].
    rewrite (fdm_defaults_eq D r_tip L_tip gf d_Q0 d_Q1 None) by apply R0. rewrite Hg. fold z r L d0 d1. apply f_coefs.
  - exists result. split; [exact ER|].
    destruct (C32_fdm_layout_proof _ _ _ _ _ _ _ _ _ _ _ _ _ _ _ _ _ _ _ _ LIB (env_as_array _ _) ER) as (_ & _ & _ & _ & LU & LS).
    apply (first_of result q fc0 sg m b (admissible (given_or (d_beta_threshold D) thr) ri ra (given_or (d_eps_env D) env)));
      [exact fq_pos|apply sgn_sq|exact Hm|exact Hb|exact Ha|exact EL|apply LU, EL| | |].
    + apply LS. rewrite EL. apply index_scalar.
    + intros x k Hx. specialize (HR [] x k index_scalar). rewrite at_as_array in HR. apply HR, Hx.
    + intros v Hv. destruct (C30_fdm_sound_proof _ _ _ lg _ _ _ _ _ _ _ _ _ _ _ _ _ _ _ _ _ LIB (env_as_array _ _) ER [] v ltac:(rewrite EL; apply index_scalar) Hv)
        as (x & -> & Hx & _). rewrite at_as_array in Hx. exists x. auto.
Qed.
Lemma f_exact s b : multilayer s = false -> refl_coef_qs s (rr 0) = Ok (Some (RtoC b)) -> resolved N n -> 0 <= b -> b * fdm_r z d1 r L g < 1 ->
  fdm_eff_pol_n lg D s A n z_tip nt r_tip L_tip gf d_Q0 d_Q1 d_Qa n_lag None = Ok (Some (fc0 + RtoC (sg * exactS n N fV fF b))%C).
Proof using Hg HN HA HrL R0 R1.
  intros Hm Hb Hn Hb0 Hs. rewrite eff_pol_n_none_bulk by exact Hm.
  rewrite (fdm_signal lg D s A n z_tip nt r_tip L_tip gf d_Q0 d_Q1 d_Qa n_lag g b Hg Hm Hb HN HA HrL R0 R1 Hb0 Hs). do 2 f_equal.
  fold N z r L d0 d1. unfold fc0. rewrite <- (tmean_one z A n N HN Hn). rewrite (tmean_real z A n N (fun _ => 1) HN), <- RtoC_plus. f_equal.
  unfold sg. rewrite <- Rmult_plus_distr_l. f_equal. unfold exactS. rewrite <- harm_plus. apply harm_ext. intros k Hk.
  unfold fdm_sig, fV, fF. unfold Rdiv. ring.
Qed.
Lemma f_loop b : 0 <= b -> b * fdm_r z d1 r L g < 1 -> forall k, (k < N)%nat -> Rabs (b * fF k) < 1.
Proof using HA HrL R0 R1. intros Hb Hs k _. apply ff_loop; [exact HA|exact f_WL|exact R1|exact Hb|exact Hs]. Qed.
Lemma fc0_real : exists c, fc0 = RtoC c.
Proof. unfold fc0. destruct (Z.eqb n 0); eauto. Qed.
End FDM.

(** C84. Finite dipole model with a real g factor, over a lossless bulk sample with
    non-negative reflection coefficient b, with two or more Taylor terms, and while
    the whole stroke stays below the heights where the geometry functions change
    sign: the inverse of the signal of the Taylor series returns b first, once, and
    every other solution it returns is strictly larger in magnitude. *)
Lemma C84_fdm_first_proof :
  forall eig sb sr (laggauss : laggauss_t) (D : Defaults) (s : sample) (A_tip : R) (n : Z) (n_trapz : option nat)
    (z_tip r_tip L_tip : option R) (g_factor : option C) (d_Q0 d_Q1 d_Qa : option R) (n_lag : option nat)
    (thr : option R) (ri ra : bool) (eps_env : option C) (g b : R) (J : nat),
  let N := given_or (d_n_trapz D) n_trapz in let z := given_or (d_z_tip D) z_tip in
  let r := given_or (d_r_tip D) r_tip in let L := given_or (d_L_tip D) L_tip in
  let d0 := given_or (131 / 100 * L / (L + 2 * r)) d_Q0 in let d1 := given_or (d_d_Q1 D) d_Q1 in
  library eig sb sr -> given_or (d_g_factor D) g_factor = RtoC g ->
  multilayer s = false -> refl_coef_qs s (rr 0) = Ok (Some (RtoC b)) ->
  N <> O -> 0 < A_tip -> 0 < r < 4 * L -> 0 < r + 4 * z + 2 * r * d0 -> 0 < r + 4 * z + 2 * r * d1 ->
  r + 2 * (z + 2 * A_tip) + r * d0 <= 2 * L * g -> r + 4 * (z + 2 * A_tip) + 2 * r * d0 <= 4 * L ->
  r + 2 * (z + 2 * A_tip) + r * d1 <= 2 * L * g -> r + 4 * (z + 2 * A_tip) + 2 * r * d1 <= 4 * L ->
  0 <= b -> (2 <= J)%nat ->
  admissible (given_or (d_beta_threshold D) thr) ri ra (given_or (d_eps_env D) eps_env) (RtoC b) ->
  exists (a : R) result,
    fdm_eff_pol_n_taylor laggauss D s A_tip n z_tip r_tip L_tip g_factor d_Q0 d_Q1 d_Qa n_lag None n_trapz (Some J) = Ok (Some (RtoC a)) /\
    fdm_refl_coef_qs_from_eff_pol_n eig sb sr D (scalar (Some (RtoC a))) (scalar A_tip) (scalar n) (as_array z_tip) (as_array r_tip)
        (as_array L_tip) (as_array g_factor) (as_array d_Q0) (as_array d_Q1) n_trapz (Some J) thr ri ra (as_array eps_env) = Ok result /\
    smallest_first result b.
Proof.
  intros eig sb sr lg D s A n nt z_tip r_tip L_tip gf d_Q0 d_Q1 d_Qa n_lag thr ri ra env g b J N z r L d0 d1
    LIB Hg Hm Hb HN HA [Hr HrL] P0 P1 G0 V0 G1 V1 Hb0 HJ Ha.
  assert (R0 : in_reach z A d0 r L g) by (repeat split; lra). assert (R1 : in_reach z A d1 r L g) by (repeat split; lra).
  destruct J as [|m]; [lia|]. destruct (fc0_real n) as (c & Ec).
  pose proof (f_taylor lg D A n nt z_tip r_tip L_tip gf d_Q0 d_Q1 d_Qa n_lag g Hg HN HA HrL R0 R1 s m b Hm Hb) as ET.
  destruct (f_inverse lg D A n nt z_tip r_tip L_tip gf d_Q0 d_Q1 g Hg HN HA HrL R0 R1 eig sb sr thr ri ra env m b LIB ltac:(lia) Hb0 Ha) as (result & ER & HF).
  rewrite Ec, <- RtoC_plus in ET, ER. eexists. exists result. split; [exact ET|]. split; [exact ER|exact HF].
Qed.

(** C84. The response of the Taylor series to the reflection coefficient is at
    least its first coefficient: two lossless samples whose signals differ by
    delta have reflection coefficients that differ by at most delta / |c_1|, for
    any number of terms; noise in the signal is amplified by at most 1/|c_1|. *)
Lemma C84_fdm_stable_proof :
  forall (laggauss : laggauss_t) (D : Defaults) (s s' : sample) (A_tip : R) (n : Z) (n_trapz : option nat)
    (z_tip r_tip L_tip : option R) (g_factor : option C) (d_Q0 d_Q1 d_Qa : option R) (n_lag : option nat) (g b b' : R),
  let N := given_or (d_n_trapz D) n_trapz in let z := given_or (d_z_tip D) z_tip in
  let r := given_or (d_r_tip D) r_tip in let L := given_or (d_L_tip D) L_tip in
  let d0 := given_or (131 / 100 * L / (L + 2 * r)) d_Q0 in let d1 := given_or (d_d_Q1 D) d_Q1 in
  given_or (d_g_factor D) g_factor = RtoC g ->
  multilayer s = false -> refl_coef_qs s (rr 0) = Ok (Some (RtoC b)) ->
  multilayer s' = false -> refl_coef_qs s' (rr 0) = Ok (Some (RtoC b')) ->
  N <> O -> 0 < A_tip -> 0 < r < 4 * L -> 0 < r + 4 * z + 2 * r * d0 -> 0 < r + 4 * z + 2 * r * d1 ->
  r + 2 * (z + 2 * A_tip) + r * d0 <= 2 * L * g -> r + 4 * (z + 2 * A_tip) + 2 * r * d0 <= 4 * L ->
  r + 2 * (z + 2 * A_tip) + r * d1 <= 2 * L * g -> r + 4 * (z + 2 * A_tip) + 2 * r * d1 <= 4 * L ->
  0 <= b -> 0 <= b' ->
  exists c1 : R, c1 <> 0 /\
    fdm_taylor_coef D z 1 A_tip n (rr r) (rr L) (Some (RtoC g)) (rr d0) (rr d1) n_trapz = Ok (Some (RtoC c1)) /\
    forall J, (2 <= J)%nat -> exists a a' : R,
      fdm_eff_pol_n_taylor laggauss D s A_tip n z_tip r_tip L_tip g_factor d_Q0 d_Q1 d_Qa n_lag None n_trapz (Some J) = Ok (Some (RtoC a)) /\
      fdm_eff_pol_n_taylor laggauss D s' A_tip n z_tip r_tip L_tip g_factor d_Q0 d_Q1 d_Qa n_lag None n_trapz (Some J) = Ok (Some (RtoC a')) /\
      Rabs c1 * Rabs (b' - b) <= Rabs (a' - a).
Proof.
  intros lg D s s' A n nt z_tip r_tip L_tip gf d_Q0 d_Q1 d_Qa n_lag g b b' N z r L d0 d1
    Hg Hm Hb Hm' Hb' HN HA [Hr HrL] P0 P1 G0 V0 G1 V1 Hb0 Hb0'.
  assert (R0 : in_reach z A d0 r L g) by (repeat split; lra). assert (R1 : in_reach z A d1 r L g) by (repeat split; lra).
  destruct (fc0_real n) as (c & Ec).
  pose proof (fq_pos D A n nt z_tip r_tip L_tip d_Q0 d_Q1 g HN HA HrL R0 R1) as Q.
  pose proof (f_coef D A n nt z_tip r_tip L_tip d_Q0 d_Q1 g HN HA HrL R0 R1 1) as E1. cbn [cf] in E1.
  set (q := qj n (given_or (d_n_trapz D) nt) _ _) in *.
  exists (sgn_pow n * q O). split; [|split; [exact E1|]].
  - pose proof (Q O). pose proof (sgn_sq n). intro Z. assert (sgn_pow n <> 0) by (intro Y; rewrite Y in *; lra). apply Rmult_integral in Z. lra.
  - intros [|m] HJ; [lia|].
    pose proof (f_taylor lg D A n nt z_tip r_tip L_tip gf d_Q0 d_Q1 d_Qa n_lag g Hg HN HA HrL R0 R1 s m b Hm Hb) as ET.
    pose proof (f_taylor lg D A n nt z_tip r_tip L_tip gf d_Q0 d_Q1 d_Qa n_lag g Hg HN HA HrL R0 R1 s' m b' Hm' Hb') as ET'.
    fold q in ET, ET'. rewrite Ec, <- RtoC_plus in ET, ET'. eexists. eexists. split; [exact ET|]. split; [exact ET'|].
    match goal with |- _ <= Rabs ?u => replace u with (sgn_pow n * (tm q m b' - tm q m b)) by ring end.
    rewrite !Rabs_mult, sgn_abs, (Rabs_pos_eq (q O)) by (apply Rlt_le, Q). rewrite !Rmult_1_l.
    apply tm_slope; [exact Q|lia|exact Hb0|exact Hb0'].
Qed.

(** C84. Inverting the exact signal of a lossless sample with a truncated series
    overestimates the reflection coefficient: for every number of terms the
    truncated series has exactly one non-negative solution est J for the exact
    signal; it is larger than the true value (unless that is 0), decreases with
    the number of terms, is off by at most the truncation error divided by the
    first Taylor coefficient, tends to the true value, and is what the inverse
    returns first if it meets the requested restrictions. *)
Lemma C84_fdm_overestimates_proof :
  forall eig sb sr (laggauss : laggauss_t) (D : Defaults) (s : sample) (A_tip : R) (n : Z) (n_trapz : option nat)
    (z_tip r_tip L_tip : option R) (g_factor : option C) (d_Q0 d_Q1 d_Qa : option R) (n_lag : option nat)
    (thr : option R) (ri ra : bool) (eps_env : option C) (g b : R),
  let N := given_or (d_n_trapz D) n_trapz in let z := given_or (d_z_tip D) z_tip in
  let r := given_or (d_r_tip D) r_tip in let L := given_or (d_L_tip D) L_tip in
  let d0 := given_or (131 / 100 * L / (L + 2 * r)) d_Q0 in let d1 := given_or (d_d_Q1 D) d_Q1 in
  library eig sb sr -> given_or (d_g_factor D) g_factor = RtoC g ->
  multilayer s = false -> refl_coef_qs s (rr 0) = Ok (Some (RtoC b)) ->
  N <> O -> resolved N n -> 0 < A_tip -> 0 < r < 4 * L -> 0 < r + 4 * z + 2 * r * d0 -> 0 < r + 4 * z + 2 * r * d1 ->
  r + 2 * (z + 2 * A_tip) + r * d0 <= 2 * L * g -> r + 4 * (z + 2 * A_tip) + 2 * r * d0 <= 4 * L ->
  r + 2 * (z + 2 * A_tip) + r * d1 <= 2 * L * g -> r + 4 * (z + 2 * A_tip) + 2 * r * d1 <= 4 * L ->
  0 <= b -> b * Re (fdm_f z d1 r L (RtoC g)) < 1 ->
  exists (a c1 : R) (est : nat -> R),
    fdm_eff_pol_n laggauss D s A_tip n z_tip n_trapz r_tip L_tip g_factor d_Q0 d_Q1 d_Qa n_lag None = Ok (Some (RtoC a)) /\
    fdm_taylor_coef D z 1 A_tip n (rr r) (rr L) (Some (RtoC g)) (rr d0) (rr d1) n_trapz = Ok (Some (RtoC c1)) /\ c1 <> 0 /\
    (forall J, (2 <= J)%nat ->
      b <= est J /\ (0 < b -> b < est J) /\ (forall J', (J <= J')%nat -> est J' <= est J) /\
      (exists t : R, fdm_eff_pol_n_taylor laggauss D s A_tip n z_tip r_tip L_tip g_factor d_Q0 d_Q1 d_Qa n_lag None n_trapz (Some J) = Ok (Some (RtoC t)) /\
         Rabs c1 * (est J - b) <= Rabs (a - t)) /\
      (admissible (given_or (d_beta_threshold D) thr) ri ra (given_or (d_eps_env D) eps_env) (RtoC (est J)) ->
       exists result,
         fdm_refl_coef_qs_from_eff_pol_n eig sb sr D (scalar (Some (RtoC a))) (scalar A_tip) (scalar n) (as_array z_tip) (as_array r_tip)
           (as_array L_tip) (as_array g_factor) (as_array d_Q0) (as_array d_Q1) n_trapz (Some J) thr ri ra (as_array eps_env) = Ok result /\
         smallest_first result (est J))) /\
    (forall eps, 0 < eps -> exists J0, forall J, (J0 <= J)%nat -> est J - b < eps).
Proof.
  intros eig sb sr lg D s A n nt z_tip r_tip L_tip gf d_Q0 d_Q1 d_Qa n_lag thr ri ra env g b N z r L d0 d1
    LIB Hg Hm Hb HN Hn HA [Hr HrL] P0 P1 G0 V0 G1 V1 Hb0 Hs.
  rewrite fdm_f_real in Hs. change (Re (RtoC (fdm_r z d1 r L g))) with (fdm_r z d1 r L g) in Hs.
  assert (R0 : in_reach z A d0 r L g) by (repeat split; lra). assert (R1 : in_reach z A d1 r L g) by (repeat split; lra).
  destruct (fc0_real n) as (c & Ec).
  pose proof (fq_pos D A n nt z_tip r_tip L_tip d_Q0 d_Q1 g HN HA HrL R0 R1) as Q.
  pose proof (f_coef D A n nt z_tip r_tip L_tip d_Q0 d_Q1 g HN HA HrL R0 R1 1) as E1. cbn [cf] in E1.
  pose proof (fV_dom D A nt z_tip r_tip L_tip d_Q0 g HN HA HrL R0) as DV.
  pose proof (fF_dom D A nt z_tip r_tip L_tip d_Q0 d_Q1 g HN HA HrL R0 R1) as DF.
  pose proof (f_loop D A nt z_tip r_tip L_tip d_Q0 d_Q1 g HA HrL R0 R1 b Hb0 Hs) as HF.
  pose proof (f_exact lg D A n nt z_tip r_tip L_tip gf d_Q0 d_Q1 d_Qa n_lag g Hg HN HA HrL R0 R1 s b Hm Hb Hn Hb0 Hs) as EX.
  pose proof (fun m => f_taylor lg D A n nt z_tip r_tip L_tip gf d_Q0 d_Q1 d_Qa n_lag g Hg HN HA HrL R0 R1 s m b Hm Hb) as ET.
  pose proof (fun m e => f_inverse lg D A n nt z_tip r_tip L_tip gf d_Q0 d_Q1 g Hg HN HA HrL R0 R1 eig sb sr thr ri ra env m e LIB) as EI.
  set (V := fV D A nt z_tip r_tip L_tip d_Q0 g) in *. set (F := fF D A nt z_tip r_tip L_tip d_Q1 g) in *.
  fold N in Q, E1, EX, ET, EI. set (q := qj n N V F) in *.
  destruct (est_exists n N HN V F DV DF b Hb0 HF) as (est & HE).
  assert (HE2 : forall J, (2 <= J)%nat -> 0 <= est (J - 2)%nat /\ tm q (J - 1) (est (J - 2)%nat) = exactS n N V F b).
  { intros J HJ. replace (J - 1)%nat with (S (J - 2)) by lia. apply HE. }
  rewrite Ec, <- RtoC_plus in EX.
  exists (c + sgn_pow n * exactS n N V F b), (sgn_pow n * q O), (fun J => est (J - 2)%nat).
  split; [exact EX|]. split; [exact E1|]. pose proof (Q O) as Q0. split.
  { pose proof (sgn_sq n). intro Z. assert (sgn_pow n <> 0) by (intro Y; rewrite Y in *; lra). apply Rmult_integral in Z. lra. }
  split.
  - intros J HJ. destruct (HE2 J HJ) as [He EE].
    destruct (over n N HN V F DV DF b Hb0 HF (J - 1) _ ltac:(lia) He EE) as (O1 & O2 & O3).
    split; [exact O1|]. split; [exact O2|]. split; [|split].
    + intros J' HJ'. destruct (HE2 J' ltac:(lia)) as [He' EE']. replace (J' - 1)%nat with ((J - 1) + (J' - J))%nat in EE' by lia.
      exact (over_decr n N HN V F DV DF b (J - 1) (J' - J) _ _ ltac:(lia) He He' EE EE').
    + specialize (ET (J - 1)%nat). replace (S (J - 1)) with J in ET by lia. rewrite Ec, <- RtoC_plus in ET. eexists. split; [exact ET|].
      rewrite (exact_split n N V F b HF (J - 1)).
      match goal with |- _ <= Rabs ?u => replace u with (sgn_pow n * remS n N V F (J - 1) b) by (unfold q; ring) end.
      rewrite !Rabs_mult, sgn_abs, (Rabs_pos_eq (q O)) by lra. rewrite !Rmult_1_l.
      rewrite Rabs_pos_eq by (apply remS_nonneg; assumption). exact O3.
    + intros Ha. destruct (EI (J - 1)%nat _ ltac:(lia) He Ha) as (result & ER & HFst). exists result. split; [|exact HFst].
      rewrite EE, Ec, <- RtoC_plus in ER. replace (S (J - 1)) with J in ER by lia. exact ER.
  - intros eps Heps. destruct (remS_small n N HN V F b HF (q O * eps) ltac:(now apply Rmult_lt_0_compat)) as (M & HM).
    exists (S (S M)). intros J HJ. destruct (HE2 J ltac:(lia)) as [He EE].
    destruct (over n N HN V F DV DF b Hb0 HF (J - 1) _ ltac:(lia) He EE) as (_ & _ & O3).
    specialize (HM (J - 1)%nat ltac:(lia)). fold q in O3. apply (Rmult_lt_reg_l (q O)); lra.
Qed.
