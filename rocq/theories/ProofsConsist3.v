(** * Proofs: consistency of the root-finding inverses: permittivity, examples (C65) *)
From Coq Require Import String Reals Lra Lia ZArith List Bool Permutation Sorted.
From Coquelicot Require Import Rcomplements Complex.
From Verif Require Import Num NumLemmas LimLemmas ModelBase ModelSample ModelTip NArr SpecArr NArrLemmas ModelObj SpecObj
  ModelArr ModelArrTip ModelInv StackLemmas Spec SpecPoly SpecInv SpecNear FTA ArrSample
  ProofsStackQS ProofsStackQS2 ProofsPassive DemodLemmas ProofsDemod ProofsTip ProofsTip2 ProofsTip3 ProofsTaylor
  ProofsArr ProofsArr2 ProofsArrTip InvLemmas ProofsInv ProofsInv2 ProofsInv3 ProofsInv4 ProofsInv5
  ProofsNear ProofsConsist ProofsConsist2.
Import ListNotations.
Open Scope R_scope.

(** C65. ... and [permitivitty] of that value, in the sample's environment, is as
    close as desired to the permittivity of the sample. *)
Lemma C65_permittivity_proof :
  forall eig sb sr (laggauss : laggauss_t) (D : Defaults) (e0 e1 : C) nu (A_tip : R) (n : Z) (n_trapz : option nat)
    (z_tip r_tip L_tip : option R) (g_factor : option C) (d_Q0 d_Q1 d_Qa : option R) (n_lag : option nat)
    (thr : option R) (ri ra : bool) (eps_env : option C) (response : C),
  let s := stack [e0; e1] [] nu in let beta := ((e1 - e0) / (e1 + e0))%C in
  let N := given_or (d_n_trapz D) n_trapz in let z := given_or (d_z_tip D) z_tip in
  let r := given_or (d_r_tip D) r_tip in let L := given_or (d_L_tip D) L_tip in
  let d0 := given_or (131 / 100 * L / (L + 2 * r)) d_Q0 in let d1 := given_or (d_d_Q1 D) d_Q1 in
  let f0 := fun x => fdm_f x d0 r L (given_or (d_g_factor D) g_factor) in
  let f1 := fun x => fdm_f x d1 r L (given_or (d_g_factor D) g_factor) in
  library eig sb sr -> e0 <> RtoC 0 -> e1 <> RtoC 0 -> (e0 + e1 <> 0)%C -> N <> O -> resolved N n ->
  (forall k, (k < N)%nat -> let x := tip_height z A_tip N k in
     fdm_regular x d0 r L /\ fdm_regular x d1 r L /\ Cmod (beta * f1 x)%C < 1) ->
  demod D (fun x => Ok (Some (f0 x / (2 * ((1 - beta * f1 x) * (1 - beta * f1 x))))%C)) (z + A_tip) A_tip n n_trapz
    = Ok (Some response) -> response <> RtoC 0 ->
  interior (given_or (d_beta_threshold D) thr) ri ra (given_or (d_eps_env D) eps_env) beta ->
  exists a : C,
    fdm_eff_pol_n laggauss D s A_tip n z_tip n_trapz r_tip L_tip g_factor d_Q0 d_Q1 d_Qa n_lag None = Ok (Some a) /\
    forall eps, 0 < eps -> exists J0, forall J, (J0 <= J)%nat -> exists result b e,
      fdm_refl_coef_qs_from_eff_pol_n eig sb sr D (scalar (Some a)) (scalar A_tip) (scalar n) (as_array z_tip) (as_array r_tip)
        (as_array L_tip) (as_array g_factor) (as_array d_Q0) (as_array d_Q1) n_trapz (Some J) thr ri ra (as_array eps_env) = Ok result /\
      elements result = [] /\ In b (unmasked result []) /\ permitivitty b (Some e0) = Some e /\ Cmod (e - e1)%C < eps.
Proof.
  intros eig sb sr lg D e0 e1 nu A n nt z_tip r_tip L_tip g d_Q0 d_Q1 d_Qa n_lag thr ri ra env resp s beta N z r L d0 d1 f0 f1
    LIB H0 H1 H2 HN Hn HK HS HS0 HI.
  destruct (C65_fdm_consistent_proof eig sb sr lg D e0 e1 nu A n nt z_tip r_tip L_tip g d_Q0 d_Q1 d_Qa n_lag thr ri ra env resp
    LIB H1 H2 HN Hn HK HS HS0 HI) as (a & Ha & Hc).
  exists a. split; [exact Ha|]. intros eps He.
  assert (H2' : (e1 + e0 <> 0)%C) by (replace (e1 + e0)%C with (e0 + e1)%C by ring; exact H2).
  assert (N1 : (1 - beta <> 0)%C).
  { intro E. assert (E2 : (2 * e0 = (1 - beta) * (e1 + e0))%C) by (unfold beta; field; exact H2').
    rewrite E, Cmult_0_l in E2. exact (Cmult_neq_0 _ _ C2_neq_0 H0 E2). }
  assert (P : permitivitty (Some beta) (Some e0) = Some e1).
  { unfold permitivitty, rc. cbn [cmul cadd csub olift2]. rewrite cdiv_ok by exact N1. f_equal. unfold beta. field.
    split; [exact H2'|]. replace (e1 + e0 - (e1 - e0))%C with (2 * e0)%C by ring. apply Cmult_neq_0; [exact C2_neq_0|exact H0]. }
  destruct (permitivitty_near _ _ _ P eps He) as (d & Hd & Hnear).
  destruct (Hc d Hd) as [J0 HJ0]. exists J0. intros J HJ. destruct (HJ0 J HJ) as (result & b & ER & EL & Hin & Hb).
  destruct (Hnear b Hb) as (e & Ee & Le). exists result, (Some b), e. split; [exact ER|]. split; [exact EL|]. split; [exact Hin|]. split; [exact Ee|exact Le].
Qed.

(** ** Geometry functions at convenient parameters: r = L = 1, d = 1/2 *)
Lemma f_at_0 : forall g, fdm_f 0 (1 / 2) 1 1 g = ((g - RtoC (3 / 4)) * RtoC (1 / 2))%C.
Proof.
  intro g. unfold fdm_f. replace (4 * 1 / (1 + 4 * 0 + 2 * 1 * (1 / 2)))%R with 2%R by field. replace (4 * 1 / 1)%R with 4%R by field.
  pose proof ln_lt_2. rewrite ln_4_2. replace ((1 + 2 * 0 + 1 * (1 / 2)) / (2 * 1))%R with (3 / 4)%R by field.
  replace (ln 2 / (2 * ln 2))%R with (1 / 2)%R by (field; lra). reflexivity.
Qed.
Lemma f_at_half : forall g, fdm_f (1 / 2) (1 / 2) 1 1 g = RtoC 0.
Proof.
  intro g. unfold fdm_f. replace (4 * 1 / (1 + 4 * (1 / 2) + 2 * 1 * (1 / 2)))%R with 1%R by field. rewrite ln_1.
  replace (0 / ln (4 * 1 / 1))%R with 0%R by (unfold Rdiv; ring). ring.
Qed.
Lemma height_2 : forall k, (k < 2)%nat -> tip_height 0 (1 / 4) 2 k = 0 \/ tip_height 0 (1 / 4) 2 k = 1 / 2.
Proof.
  intros [|[|k]] Hk; [left|right|lia]; unfold tip_height.
  - replace (2 * PI * INR 0 / INR 2)%R with 0%R by (cbn [INR]; field). rewrite cos_0. ring.
  - replace (2 * PI * INR 1 / INR 2)%R with PI by (cbn [INR]; field). rewrite cos_PI. field.
Qed.

(** C65. Example: a tip with r = L = 1, g = 11/4, tapping by 1/4 from contact with
    a sample of permittivity 3, first harmonic from two samples, with
    [reject_subvacuum_eps_abs]: all hypotheses hold; the response is -1. *)
Lemma C65_example_proof : forall D,
  (exists eig sb sr, library eig sb sr) /\
  let beta := ((RtoC 3 - RtoC 1) / (RtoC 3 + RtoC 1))%C in
  let f := fun x => fdm_f x (1 / 2) 1 1 (RtoC (11 / 4)) in
  resolved 2 1 /\
  (forall k, (k < 2)%nat -> let x := tip_height 0 (1 / 4) 2 k in
     fdm_regular x (1 / 2) 1 1 /\ Cmod (beta * f x)%C < 1) /\
  demod D (fun x => Ok (Some (f x / (2 * ((1 - beta * f x) * (1 - beta * f x))))%C)) (0 + 1 / 4) (1 / 4) 1 (Some 2%nat)
    = Ok (Some (RtoC (-1))) /\
  interior 1 false true (RtoC 1) beta.
Proof.
  intro D. split; [exact library_exists|]. intros beta f.
  assert (Eb : beta = RtoC (1 / 2)).
  { unfold beta. rewrite <- RtoC_minus, <- RtoC_plus, <- RtoC_div by lra. f_equal. field. }
  assert (F0 : f 0 = RtoC 1). { unfold f. rewrite f_at_0, <- RtoC_minus, <- RtoC_mult. f_equal. field. }
  assert (F1 : f (1 / 2) = RtoC 0) by apply f_at_half.
  split; [|split; [|split]].
  - right. intros [q Hq]. lia.
  - intros k Hk x. unfold x. destruct (height_2 k Hk) as [-> | ->]; (split; [unfold fdm_regular; lra|]).
    + rewrite F0, Eb, <- RtoC_mult, Cmod_R, Rabs_pos_eq; lra.
    + rewrite F1, Cmult_0_r, Cmod_0. lra.
  - rewrite (demod_pure D _ (fun x => Some (f x / (2 * ((1 - beta * f x) * (1 - beta * f x))))%C)) by reflexivity. f_equal. cbn [dflt].
    rewrite (demod_two _ _ _ (RtoC 0) (RtoC 2)).
    + f_equal. rewrite <- RtoC_minus, <- RtoC_div by lra. f_equal. field.
    + replace (0 + 1 / 4 + 1 / 4) with (1 / 2) by field. rewrite F1. f_equal. rewrite Cmult_0_r. field. exact C2_neq_0.
    + replace (0 + 1 / 4 - 1 / 4) with 0 by field. rewrite F0, Eb. f_equal.
      rewrite <- !RtoC_mult, <- !RtoC_minus, <- !RtoC_mult, <- RtoC_div by lra. f_equal. field.
  - rewrite Eb. split; [rewrite Cmod_R, Rabs_pos_eq; lra|]. split; [discriminate|]. intros _. exists (RtoC 3).
    destruct half_admissible as (_ & _ & H). destruct (H eq_refl) as (e & He & _). split; [|rewrite Cmod_R, Rabs_pos_eq; lra].
    unfold permitivitty, rc. cbn [cmul cadd csub olift2]. rewrite cdiv_ok.
    + f_equal. rewrite <- !RtoC_plus, <- !RtoC_minus, <- ?RtoC_mult, <- RtoC_div by lra. f_equal. field.
    + rewrite <- RtoC_minus. apply RtoC_neq_0. lra.
Qed.
