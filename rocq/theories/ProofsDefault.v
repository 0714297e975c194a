(** * Proofs: the default number of Taylor terms is enough for the default tip (C78) *)
From Coq Require Import String Reals Lra Lia ZArith List Bool Permutation Sorted.
From Coquelicot Require Import Rcomplements Complex ElemFct.
From Verif Require Import Num NumLemmas LimLemmas ModelBase ModelSample ModelTip NArr SpecArr NArrLemmas ModelObj SpecObj
  ModelArr ModelArrTip ModelInv StackLemmas Spec SpecPoly SpecInv SpecNear FTA ArrSample
  ProofsStackQS ProofsStackQS2 ProofsPassive DemodLemmas ProofsDemod ProofsTip ProofsTip2 ProofsTip3 ProofsTaylor
  ProofsArr ProofsArr2 ProofsArrTip InvLemmas ProofsInv ProofsInv2 ProofsInv3 ProofsInv4 ProofsInv5 ProofsConsist3 ProofsRound.
Import ListNotations.
Open Scope R_scope.

(** ** numbers *)
Lemma exp_poly x : 0 <= x -> 1 + x + x ^ 2 / 2 + x ^ 3 / 6 + x ^ 4 / 24 + x ^ 5 / 120 + x ^ 6 / 720 + x ^ 7 / 5040 + x ^ 8 / 40320 + x ^ 9 / 362880 <= exp x.
Proof.
  intros H. eapply Rle_trans; [|apply (exp_ge_taylor x 9 H)]. apply Req_le.
  assert (E : forall k, INR (fact (S k)) = INR (S k) * INR (fact k)) by (intros; rewrite fact_simpl; apply mult_INR).
  cbn [sum_f_R0]. rewrite !E. change (INR (fact 0)) with 1. cbn [INR]. field.
Qed.
Lemma ln30_le : ln 30 <= 341 / 100.
Proof.
  rewrite <- (ln_exp (341 / 100)). apply ln_le; [lra|]. eapply Rle_trans; [|apply exp_poly; lra]. lra.
Qed.
Lemma ln60_le : ln 60 <= 42 / 10.
Proof.
  rewrite <- (ln_exp (42 / 10)). apply ln_le; [lra|]. eapply Rle_trans; [|apply exp_poly; lra]. lra.
Qed.
Lemma ln2_ge : 65 / 100 <= ln 2.
Proof.
  assert (E : exp (- (65 / 100)) = exp (- (65 / 800)) ^ 8).
  { cbn [pow]. rewrite Rmult_1_r, <- !exp_plus. f_equal. lra. }
  assert (B : 1 - 65 / 800 <= exp (- (65 / 800))) by (pose proof (exp_ineq1_le (- (65 / 800))); lra).
  assert (P : (1 - 65 / 800) ^ 8 <= exp (- (65 / 800)) ^ 8) by (apply pow_incr; lra).
  assert (H : / 2 <= exp (- (65 / 100))) by (rewrite E; lra).
  rewrite exp_Ropp in H. apply Rinv_le_contravar in H; [|lra]. rewrite !Rinv_inv in H.
  rewrite <- (ln_exp (65 / 100)). apply ln_le; [apply exp_pos|exact H].
Qed.
Lemma ln60_split : ln 60 = ln 30 + ln 2.
Proof. rewrite <- ln_mult by lra. f_equal. lra. Qed.
Lemma ln_ratio : 0 <= ln 30 / ln 60 <= 84 / 100.
Proof.
  pose proof ln30_le. pose proof ln2_ge. assert (0 < ln 30) by (rewrite <- ln_1; apply ln_increasing; lra).
  rewrite ln60_split. split; [apply Rlt_le, Rdiv_lt_0_compat; lra|]. apply (Rmult_le_reg_r (ln 30 + ln 2)); [lra|].
  unfold Rdiv. rewrite Rmult_assoc, Rinv_l by lra. lra.
Qed.
Lemma cos_006 : 1 - 18 / 10000 <= cos (6 / 100).
Proof.
  pose proof (cos_2a_sin (3 / 100)) as E. replace (2 * (3 / 100)) with (6 / 100) in E by lra. rewrite E.
  assert (S1 : 0 <= sin (3 / 100)) by (apply sin_ge_0; pose proof PI_RGT_0; pose proof PI2_3_2; lra).
  assert (S2 : sin (3 / 100) <= 3 / 100) by (apply Rlt_le, sin_lt_x; lra). nra.
Qed.

(** ** the default tip *)
Definition r0 := 20 / 10 ^ 9.
Definition L0 := 300 / 10 ^ 9.
Definition g0 : C := Cmult (RtoC (7 / 10)) (Cexp (0, 6 / 100)).
Lemma g0_dist c : 5 / 100 <= c <= 101 / 100 -> Cmod (g0 - RtoC c)%C <= 652 / 1000.
Proof.
  intros H. apply Rsqr_incr_0_var; [|lra]. unfold Rsqr.
  replace (Cmod (g0 - RtoC c)%C * Cmod (g0 - RtoC c)%C) with (Cmod (g0 - RtoC c)%C ^ 2) by ring.
  rewrite Cmod_sqr.
  assert (E : (g0 - RtoC c)%C = ((7 / 10 * cos (6 / 100) - c)%R, (7 / 10 * sin (6 / 100))%R)).
  { unfold g0, Cexp, Cminus, Cplus, Copp, Cmult, RtoC. cbn [fst snd Re Im]. rewrite exp_0. f_equal; ring. }
  rewrite E. unfold Re, Im. cbn [fst snd]. pose proof (sin2_cos2 (6 / 100)) as S. unfold Rsqr in S. pose proof cos_006 as K.
  set (x := cos (6 / 100)) in *. set (y := sin (6 / 100)) in *.
  replace ((7 / 10 * x - c) ^ 2 + (7 / 10 * y) ^ 2) with ((7 / 10) ^ 2 * (y * y + x * x) - 14 / 10 * c * x + c ^ 2) by field. rewrite S.
  assert (c * (1 - 18 / 10000) <= c * x) by (apply Rmult_le_compat_l; lra). nra.
Qed.
Lemma fdm_f_default x d : 0 <= x <= 280 / 10 ^ 9 -> 1 / 2 <= d <= 116 / 100 ->
  fdm_regular x d r0 L0 /\ Cmod (fdm_f x d r0 L0 g0) <= 548 / 1000.
Proof.
  intros Hx Hd. unfold fdm_f. split; [unfold fdm_regular, r0, L0; lra|]. rewrite Cmod_mult, Cmod_R.
  assert (B1 : Cmod (g0 - RtoC ((r0 + 2 * x + r0 * d) / (2 * L0)))%C <= 652 / 1000).
  { apply g0_dist. unfold r0, L0. split; [apply Rle_div_r; lra|apply Rle_div_l; lra]. }
  assert (E1 : 4 * L0 / r0 = 60) by (unfold L0, r0; field).
  set (a := 4 * L0 / (r0 + 4 * x + 2 * r0 * d)).
  assert (A1 : 1 <= a <= 30).
  { unfold a, r0, L0. split; [apply Rle_div_r; lra|apply Rle_div_l; lra]. }
  assert (LA : 0 <= ln a <= ln 30).
  { split; [rewrite <- ln_1; apply ln_le; lra|apply ln_le; lra]. }
  rewrite E1. destruct ln_ratio as [_ Hr]. assert (P60 : 0 < ln 60) by (rewrite <- ln_1; apply ln_increasing; lra).
  assert (B2 : Rabs (ln a / ln 60) <= 84 / 100).
  { rewrite Rabs_pos_eq by (apply Rmult_le_pos; [lra|apply Rlt_le, Rinv_0_lt_compat; lra]).
    eapply Rle_trans; [|exact Hr]. apply Rmult_le_compat_r; [apply Rlt_le, Rinv_0_lt_compat; lra|lra]. }
  eapply Rle_trans; [apply Rmult_le_compat; [apply Cmod_ge_0|apply Rabs_pos|exact B1|exact B2]|]. lra.
Qed.
Lemma tip_height_range z A N k : 0 <= A -> z <= tip_height z A N k <= z + 2 * A.
Proof.
  intros H. unfold tip_height. pose proof (COS_bound (2 * PI * INR k / INR N)). nra.
Qed.
Definition rho0 := 5535 / 10000.
Lemma rho0_small : rho0 * rho0 ^ 15 / (2 * (1 - rho0)) <= 1 / 10 ^ 4.
Proof. unfold rho0. lra. Qed.
Lemma default_bounds (b : C) z A N k : Cmod b <= 101 / 100 -> 0 <= z -> 0 <= A -> z + 2 * A <= 280 / 10 ^ 9 ->
  let x := tip_height z A N k in let d0 := 131 / 100 * L0 / (L0 + 2 * r0) in
  fdm_regular x d0 r0 L0 /\ fdm_regular x (5 / 10) r0 L0 /\
  Cmod (b * fdm_f x d0 r0 L0 g0)%C <= rho0 /\ Cmod (b * fdm_f x (5 / 10) r0 L0 g0)%C <= rho0.
Proof.
  intros Hb Hz HA Hm x d0. pose proof (tip_height_range z A N k HA) as Hx. fold x in Hx.
  destruct (fdm_f_default x d0) as [R0 B0]; [lra|unfold d0, L0, r0; split; [apply Rle_div_r; lra|apply Rle_div_l; lra]|].
  destruct (fdm_f_default x (5 / 10)) as [R1 B1]; [lra|lra|].
  assert (M : forall w, Cmod w <= 548 / 1000 -> Cmod (b * w)%C <= rho0).
  { intros w Hw. rewrite Cmod_mult. eapply Rle_trans; [apply Rmult_le_compat; [apply Cmod_ge_0|apply Cmod_ge_0|exact Hb|exact Hw]|]. unfold rho0. lra. }
  auto.
Qed.

(** C78. With the default tip (and the default number of terms, 16),
    fdm.eff_pol_n_taylor differs from fdm.eff_pol_n by at most 10^-4 for every
    bulk sample the default beta_threshold admits, every amplitude and height
    that stays below 280 nm, every resolved harmonic. *)
Lemma C78_fdm_default_proof : forall (laggauss : laggauss_t) (e0 e1 : C) nu (A_tip z : R) (n : Z) (n_trapz : option nat) d_Qa n_lag,
  let s := stack [e0; e1] [] nu in let N := given_or 32%nat n_trapz in
  e1 <> RtoC 0 -> (e0 + e1 <> 0)%C -> Cmod ((e1 - e0) / (e1 + e0))%C <= 101 / 100 ->
  N <> O -> resolved N n -> 0 <= z -> 0 <= A_tip -> z + 2 * A_tip <= 280 / 10 ^ 9 ->
  exists a t : C,
    fdm_eff_pol_n laggauss defaults0 s A_tip n (Some z) n_trapz None None None None None d_Qa n_lag None = Ok (Some a) /\
    fdm_eff_pol_n_taylor laggauss defaults0 s A_tip n (Some z) None None None None None d_Qa n_lag None n_trapz None = Ok (Some t) /\
    Cmod (a - t)%C <= 1 / 10 ^ 4.
Proof.
  intros lg e0 e1 nu A z n nt da nl s N He1 He Hb HN Hn Hz HA Hm.
  destruct (C28_error_bound_proof lg defaults0 e0 e1 nu A n nt (Some z) None None None None None da nl rho0 rho0) as (a & Ea & Q); auto.
  - unfold rho0. lra.
  - intros k Hk. apply (default_bounds _ z A _ k Hb Hz HA Hm).
  - destruct (Q 15%nat) as (t & Et & B). exists a, t. split; [exact Ea|]. split; [exact Et|].
    eapply Rle_trans; [exact B|exact rho0_small].
Qed.

(** C78. Hence whatever fdm.refl_coef_qs_from_eff_pol_n returns with the default tip
    and Taylor settings reproduces, as a bulk sample in the exact model, the
    signal it was computed from to 10^-4. *)
Lemma C78_fdm_inverse_proof : forall eig sb sr (laggauss : laggauss_t) alpha A n z n_trapz ri ra env result,
  library eig sb sr -> env_fits env (fdm_inverse_operands alpha A n z None None None None None) ->
  fdm_refl_coef_qs_from_eff_pol_n eig sb sr defaults0 alpha A n z None None None None None n_trapz None None ri ra env = Ok result ->
  forall i v, index_of (elements result) i -> In v (unmasked result i) ->
  let N := given_or 32%nat n_trapz in let z_i := given_or 0 (at_index z i) in
  N <> O -> resolved N (entry n i) -> 0 <= z_i -> 0 <= entry A i -> z_i + 2 * entry A i <= 280 / 10 ^ 9 ->
  exists b, v = Some b /\
    forall (e0 e1 : C) nu d_Qa n_lag, e1 <> RtoC 0 -> (e0 + e1 <> 0)%C -> b = ((e1 - e0) / (e1 + e0))%C ->
    exists al y, entry alpha i = Some al /\
      fdm_eff_pol_n laggauss defaults0 (stack [e0; e1] [] nu) (entry A i) (entry n i) (at_index z i) n_trapz None None None None None
        d_Qa n_lag None = Ok (Some y) /\ Cmod (y - al)%C <= 1 / 10 ^ 4.
Proof.
  intros eig sb sr lg alpha A n z nt ri ra env result LIB HE HR i v Hi Hv N z_i HN Hn Hz HA Hm.
  destruct (C30_fdm_sound_proof eig sb sr lg defaults0 alpha A n z None None None None None nt None None ri ra env result LIB HE HR i v Hi Hv) as (b' & Eb' & [Hb' _] & _).
  destruct (C66_fdm_round_trip_proof eig sb sr lg defaults0 alpha A n z None None None None None nt None None ri ra env result LIB HE HR i v Hi Hv) as (b & Eb & Q).
  rewrite Eb in Eb'. injection Eb' as <-. cbn [given_or defaults0 d_beta_threshold] in Hb'.
  exists b. split; [exact Eb|]. intros e0 e1 nu da nl H1 H2 H3.
  destruct (Q e0 e1 nu da nl 15%nat rho0 rho0) as (al & y & Ea & Ey & B); auto.
  - unfold rho0. lra.
  - intros k Hk. apply (default_bounds _ z_i (entry A i) _ k Hb' Hz HA Hm).
  - exists al, y. split; [exact Ea|]. split; [exact Ey|]. eapply Rle_trans; [exact B|exact rho0_small].
Qed.

(** ** point dipole model *)
Lemma pdm_gain_le r x (b : C) : 0 < r -> 0 <= x -> Cmod b <= 101 / 100 ->
  r + x <> 0 /\ Cmod (RtoC (4 * PI * r ^ 3) / RtoC (16 * PI * (r + x) ^ 3) * b)%C <= 101 / 400.
Proof.
  intros Hr Hx Hb. split; [lra|]. pose proof PI_RGT_0. assert (P3 : 0 < (r + x) ^ 3) by (apply pow_lt; lra).
  assert (Q3 : 0 < r ^ 3) by (now apply pow_lt). assert (M3 : r ^ 3 <= (r + x) ^ 3) by (apply pow_incr; lra).
  assert (D : 16 * PI * (r + x) ^ 3 <> 0) by (apply Rgt_not_eq, Rmult_lt_0_compat; lra).
  rewrite <- RtoC_div by exact D. rewrite Cmod_mult, Cmod_R.
  assert (E : 4 * PI * r ^ 3 / (16 * PI * (r + x) ^ 3) = / 4 * (r ^ 3 / (r + x) ^ 3)) by (field; split; lra).
  assert (U : 0 <= r ^ 3 / (r + x) ^ 3 <= 1).
  { split; [apply Rlt_le, Rdiv_lt_0_compat; lra|]. apply Rle_div_l; lra. }
  rewrite E, Rabs_pos_eq by lra. replace (101 / 400) with (/ 4 * (101 / 100)) by field.
  apply Rmult_le_compat; [lra|apply Cmod_ge_0|lra|exact Hb].
Qed.
Lemma pdm_tail_small : (101 / 400) ^ 16 / (1 - 101 / 400) <= 4 / 10 ^ 10.
Proof. lra. Qed.

(** C78. With a perfectly conducting tip of any radius and the default number of
    terms, alpha_tip times pdm.eff_pol_n_taylor differs from pdm.eff_pol_n by at
    most 4 10^-10 alpha_tip for every sample the default beta_threshold admits,
    at every height, amplitude and harmonic. *)
Lemma C78_pdm_default_proof : forall (s : sample) (beta : C) (A_tip z : R) (n : Z) (r_tip : option R) (n_trapz : option nat),
  let r := given_or (20 / 10 ^ 9) r_tip in
  refl_coef_qs s (rr 0) = Ok (Some beta) -> Cmod beta <= 101 / 100 -> given_or 32%nat n_trapz <> O ->
  0 < r -> 0 <= z -> 0 <= A_tip ->
  exists c t : C,
    pdm_eff_pol_n defaults0 s A_tip n (Some z) n_trapz r_tip None None = Ok (Some (RtoC (4 * PI * r ^ 3) * c)%C) /\
    pdm_eff_pol_n_taylor defaults0 s A_tip n (Some z) r_tip None None n_trapz None = Ok (Some t) /\
    Cmod (c - t)%C <= 4 / 10 ^ 10.
Proof.
  intros s b A z n r_tip nt r Hb Hm HN Hr Hz HA.
  set (a_i := RtoC (4 * PI * r ^ 3)). set (f := fun x => (a_i / RtoC (16 * PI * (r + x) ^ 3))%C).
  set (N := given_or 32%nat nt) in *.
  assert (G : forall k, r + tip_height z A N k <> 0 /\ Cmod (f (tip_height z A N k) * b)%C <= 101 / 400).
  { intros k. pose proof (tip_height_range z A N k HA). apply pdm_gain_le; lra. }
  destruct (C29_exact_remainder_proof defaults0 s A n (Some z) r_tip nt None None a_i b 16%nat) as (a & t & e & Ha & Et & Ee & E).
  - constructor.
  - exact Hb.
  - exact HN.
  - intros k Hk. destruct (G k) as [Q1 Q2]. cbv zeta. split; [exact Q1|]. apply (Cmod_1_minus _ (101 / 400)); [exact Q2|lra].
  - exists (t + e)%C, t. split; [rewrite Ha, E; reflexivity|]. split; [exact Et|]. replace (t + e - t)%C with e by ring.
    assert (X : e = tmean z A n N (fun x => Cpown (f x * b) 16 / (1 - f x * b))%C).
    { assert (X : demod defaults0 (fun x => Ok (Some (Cpown (f x * b) 16 / (1 - f x * b))%C)) (z + A) A n nt
        = Ok (Some (tmean z A n N (fun x => Cpown (f x * b) 16 / (1 - f x * b))%C))).
      { apply demod_tip; [exact HN|eauto|]. reflexivity. }
      pose proof (eq_trans (eq_sym Ee) X) as Y. congruence. }
    rewrite X. apply tmean_bound; [exact HN|]. intros k Hk. destruct (G k) as [_ Q2]. set (x := tip_height z A N k) in *.
    destruct (Cmod_1_minus _ (101 / 400) Q2 ltac:(lra)) as [N1 B1]. rewrite Cmod_div by exact N1. rewrite Cmod_pown.
    pose proof (Cmod_ge_0 (f x * b)%C). eapply Rle_trans; [|exact pdm_tail_small]. unfold Rdiv at 1. apply Rmult_le_compat.
    + apply pow_le. lra.
    + apply Rlt_le, Rinv_0_lt_compat. lra.
    + apply pow_incr. lra.
    + apply Rinv_le_contravar; lra.
Qed.

(** C78. What pdm.refl_coef_qs_from_eff_pol_n returns for such a tip reproduces the
    normalised signal to 4 10^-10. *)
Lemma C78_pdm_inverse_proof : forall eig sb sr alpha A n z r n_trapz ri ra env result,
  library eig sb sr -> env_fits env (pdm_inverse_operands alpha A n z r None None) ->
  pdm_refl_coef_qs_from_eff_pol_n eig sb sr defaults0 alpha A n z r None None n_trapz None None ri ra env = Ok result ->
  forall i v, index_of (elements result) i -> In v (unmasked result i) ->
  let z_i := given_or 0 (at_index z i) in let r_i := given_or (20 / 10 ^ 9) (at_index r i) in
  given_or 32%nat n_trapz <> O -> 0 < r_i -> 0 <= z_i -> 0 <= entry A i ->
  exists b, v = Some b /\
    forall (s : sample), refl_coef_qs s (rr 0) = Ok (Some b) ->
    exists al c, entry alpha i = Some al /\
      pdm_eff_pol_n defaults0 s (entry A i) (entry n i) (at_index z i) n_trapz (at_index r i) None None
        = Ok (Some (RtoC (4 * PI * r_i ^ 3) * c)%C) /\
      Cmod (c - al)%C <= 4 / 10 ^ 10.
Proof.
  intros eig sb sr alpha A n z r nt ri ra env result LIB HE HR i v Hi Hv z_i r_i HN Hr Hz HA.
  destruct (C30_pdm_sound_proof eig sb sr defaults0 alpha A n z r None None nt None None ri ra env result LIB HE HR i v Hi Hv) as (b' & Eb' & [Hb' _] & _).
  destruct (C66_pdm_round_trip_proof eig sb sr defaults0 alpha A n z r None None nt None None ri ra env result LIB HE HR i v Hi Hv) as (b & Eb & Q).
  rewrite Eb in Eb'. injection Eb' as <-. cbn [given_or defaults0 d_beta_threshold] in Hb'.
  exists b. split; [exact Eb|]. intros s Hs.
  destruct (Q s (RtoC (4 * PI * r_i ^ 3)) (101 / 400)) as (al & c & Ea & Ey & B); auto.
  - constructor.
  - lra.
  - intros k Hk. pose proof (tip_height_range z_i (entry A i) (given_or 32%nat nt) k HA). apply pdm_gain_le; [exact Hr|cbn [defaults0 d_z_tip d_n_trapz]; fold z_i; lra|exact Hb'].
  - exists al, c. split; [exact Ea|]. split; [exact Ey|]. eapply Rle_trans; [exact B|exact pdm_tail_small].
Qed.

(** ** high above the sample *)
(** C78. The bound on the height cannot be dropped: 2 micrometres above a lossless
    sample (beta = 9/10), the same call of fdm.eff_pol_n_taylor is off by more
    than 10. *)
Lemma C78_high_tip_refuted_proof : forall (laggauss : laggauss_t),
  let s := stack [RtoC 1; RtoC 19] [] None in let z := 2 / 10 ^ 6 in
  exists a t : C,
    fdm_eff_pol_n laggauss defaults0 s 0 0 (Some z) None None None None None None None None None = Ok (Some a) /\
    fdm_eff_pol_n_taylor laggauss defaults0 s 0 0 (Some z) None None None None None None None None None None = Ok (Some t) /\
    10 < Cmod (a - t)%C.
Proof.
  intros lg s z. set (b := ((RtoC 19 - RtoC 1) / (RtoC 19 + RtoC 1))%C).
  assert (Eb : b = RtoC (9 / 10)).
  { unfold b. rewrite <- RtoC_minus, <- RtoC_plus, <- RtoC_div by lra. f_equal. field. }
  set (d0 := 131 / 100 * L0 / (L0 + 2 * r0)).
  assert (Hd0 : 1 / 2 <= d0 <= 116 / 100) by (unfold d0, L0, r0; split; [apply Rle_div_r; lra|apply Rle_div_l; lra]).
  assert (G : Cmod g0 = 7 / 10).
  { unfold g0. rewrite Cmod_mult, Cmod_R, Rabs_pos_eq by lra. unfold Cexp, Cmod. cbn [fst snd Re Im].
    unfold Re, Im. cbn [fst snd]. rewrite exp_0. pose proof (sin2_cos2 (6 / 100)) as S. unfold Rsqr in S.
    replace ((1 * cos (6 / 100)) ^ 2 + (1 * sin (6 / 100)) ^ 2) with (sin (6 / 100) * sin (6 / 100) + cos (6 / 100) * cos (6 / 100)) by ring. rewrite S, sqrt_1. ring. }
  assert (P60 : 0 < ln 60) by (rewrite <- ln_1; apply ln_increasing; lra). pose proof ln60_le as L60.
  assert (F : forall d, 1 / 2 <= d <= 116 / 100 -> fdm_regular z d r0 L0 /\ 128 / 100 <= Cmod (b * fdm_f z d r0 L0 g0)%C).
  { intros d Hd. split; [unfold fdm_regular, z, r0, L0; lra|]. rewrite Eb, Cmod_mult, Cmod_R, Rabs_pos_eq by lra. unfold fdm_f.
    rewrite Cmod_mult, Cmod_R. set (c := (r0 + 2 * z + r0 * d) / (2 * L0)).
    assert (Hc : 67 / 10 <= c) by (unfold c, z, r0, L0; apply Rle_div_r; lra).
    assert (M : 6 <= Cmod (g0 - RtoC c)%C).
    { pose proof (Cmod_triangle (g0 - RtoC c)%C (- g0)%C) as T. replace (g0 - RtoC c + - g0)%C with (- RtoC c)%C in T by ring.
      rewrite !Cmod_opp, Cmod_R, Rabs_pos_eq in T by lra. lra. }
    replace (4 * L0 / r0) with 60 by (unfold L0, r0; field). set (q := 4 * L0 / (r0 + 4 * z + 2 * r0 * d)).
    assert (Q : 0 < q <= / 3).
    { unfold q, L0, r0, z. split; [apply Rdiv_lt_0_compat; lra|apply Rle_div_l; lra]. }
    assert (LQ : ln q <= - (1)).
    { rewrite <- (ln_exp (- (1))). apply ln_le; [lra|]. rewrite exp_Ropp. eapply Rle_trans; [apply Q|].
      apply Rinv_le_contravar; [apply exp_pos|apply exp_le_3]. }
    assert (R : 10 / 42 <= Rabs (ln q / ln 60)).
    { rewrite <- Rabs_Ropp. replace (- (ln q / ln 60)) with ((- ln q) / ln 60) by (field; lra).
      rewrite Rabs_pos_eq by (apply Rmult_le_pos; [lra|apply Rlt_le, Rinv_0_lt_compat; lra]).
      apply (Rmult_le_reg_r (ln 60)); [exact P60|]. unfold Rdiv. rewrite (Rmult_assoc (- ln q)), Rinv_l by lra. lra. }
    assert (6 * (10 / 42) <= Cmod (g0 - RtoC c)%C * Rabs (ln q / ln 60)) by (apply Rmult_le_compat; lra). lra. }
  destruct (F d0 Hd0) as [R0 F0]. destruct (F (5 / 10) ltac:(lra)) as [R1 F1].
  assert (N1 : (1 - b * fdm_f z (5 / 10) r0 L0 g0 <> 0)%C).
  { intros E. assert (E' : (b * fdm_f z (5 / 10) r0 L0 g0)%C = RtoC 1).
    { replace (b * fdm_f z (5 / 10) r0 L0 g0)%C with (1 - (1 - b * fdm_f z (5 / 10) r0 L0 g0))%C by ring. rewrite E. ring. }
    rewrite E', Cmod_1 in F1. lra. }
  assert (TH : forall k, tip_height z 0 32 k = z) by (intros; unfold tip_height; ring).
  destruct (C28_exact_remainder_proof lg defaults0 (RtoC 1) (RtoC 19) None 0 0 None (Some z) None None None None None None None 15%nat) as (a & t & e & Ea & Et & Ee & E).
  - apply RtoC_neq_0. lra.
  - rewrite <- RtoC_plus. apply RtoC_neq_0. lra.
  - discriminate.
  - now left.
  - intros k Hk. cbv zeta. cbn [given_or defaults0 d_n_trapz d_r_tip d_L_tip d_g_factor d_d_Q1]. rewrite TH. auto.
  - exists a, t. split; [exact Ea|]. split; [exact Et|]. replace (a - t)%C with e by (rewrite E; ring).
    set (f0 := fun x => fdm_f x d0 r0 L0 g0). set (f1 := fun x => fdm_f x (5 / 10) r0 L0 g0).
    assert (X : e = tmean z 0 0 32 (fun x => b * f0 x / 2 * Cpown (b * f1 x) 15 / (1 - b * f1 x))%C).
    { assert (X : demod defaults0 (fun x => Ok (Some (b * f0 x / 2 * Cpown (b * f1 x) 15 / (1 - b * f1 x))%C)) (z + 0) 0 0 None
        = Ok (Some (tmean z 0 0 32 (fun x => b * f0 x / 2 * Cpown (b * f1 x) 15 / (1 - b * f1 x))%C))).
      { apply demod_tip; [discriminate|eauto|]. reflexivity. }
      pose proof (eq_trans (eq_sym Ee) X) as Y. congruence. }
    set (w := (b * f0 z / 2 * Cpown (b * f1 z) 15 / (1 - b * f1 z))%C).
    assert (X2 : e = w).
    { rewrite X. rewrite (tmean_ext z 0 0 32 _ (fun _ => w * RtoC 1)%C) by (intros; rewrite TH; unfold w; ring).
      rewrite tmean_scal, tmean_one by (try discriminate; now left). cbn [Z.eqb]. ring. }
    rewrite X2. unfold w. rewrite Cmod_div by exact N1. rewrite Cmod_mult, Cmod_pown. fold (f0 z) in F0. fold (f1 z) in F1.
    set (p := Cmod (b * f1 z)%C) in *.
    assert (HD : Cmod (1 - b * f1 z)%C <= 1 + p).
    { eapply Rle_trans; [apply Cmod_triangle|]. rewrite Cmod_1, Cmod_opp. apply Rle_refl. }
    assert (PD : 0 < Cmod (1 - b * f1 z)%C) by (apply Cmod_gt_0; exact N1).
    assert (H0 : 64 / 100 <= Cmod (b * f0 z / 2)%C).
    { rewrite Cmod_div by exact C2_neq_0. rewrite (Cmod_R 2), (Rabs_pos_eq 2) by lra. lra. }
    assert (HP : 128 / 100 ^ 1 <= p) by lra.
    assert (P14 : (128 / 100) ^ 14 <= p ^ 14) by (apply pow_incr; lra).
    assert (Q : 17 * (1 + p) < p ^ 15).
    { replace (p ^ 15) with (p * p ^ 14) by ring. assert (31 <= p ^ 14) by lra. assert (p * 31 <= p * p ^ 14) by (apply Rmult_le_compat_l; lra). lra. }
    assert (64 / 100 * p ^ 15 <= Cmod (b * f0 z / 2)%C * p ^ 15) by (apply Rmult_le_compat_r; [apply pow_le; lra|exact H0]).
    apply (Rmult_lt_reg_r (Cmod (1 - b * f1 z)%C)); [exact PD|]. unfold Rdiv at 1. rewrite Rmult_assoc, Rinv_l by lra. lra.
Qed.

(** C78. Example: silicon (permittivity 12) in vacuum, tapping by 30 nm in contact,
    third harmonic: the hypotheses hold. *)
Lemma C78_default_example_proof :
  RtoC 12 <> RtoC 0 /\ (RtoC 1 + RtoC 12 <> 0)%C /\ Cmod ((RtoC 12 - RtoC 1) / (RtoC 12 + RtoC 1))%C <= 101 / 100 /\
  resolved 32 3 /\ 0 + 2 * (30 / 10 ^ 9) <= 280 / 10 ^ 9 /\
  refl_coef_qs (stack [RtoC 1; RtoC 12] [] None) (rr 0) = Ok (Some (RtoC (11 / 13))).
Proof.
  split; [apply RtoC_neq_0; lra|]. split; [rewrite <- RtoC_plus; apply RtoC_neq_0; lra|]. split.
  { rewrite <- RtoC_minus, <- RtoC_plus, <- RtoC_div by lra. rewrite Cmod_R, Rabs_pos_eq by lra. lra. }
  split. { right. intros [k Hk]. lia. } split; [lra|].
  rewrite bulk_qs by (rewrite <- ?RtoC_plus; apply RtoC_neq_0; lra). do 2 f_equal.
  rewrite <- RtoC_minus, <- RtoC_plus, <- RtoC_div by lra. f_equal. field.
Qed.
