(** * Proofs: thin and thick films (C91), what a fixed number of nodes loses, and a concrete film *)
From Coq Require Import String Reals Lra Lia ZArith List Bool.
From Coquelicot Require Import Coquelicot.
From Coq Require Import List.
From Verif Require Import Num NumLemmas ModelBase ModelSample ModelTip StackLemmas Spec SpecQuad SpecThin
  ProofsStackQS ProofsStackQS2 ProofsSym ProofsPassive Laguerre Laguerre2 QuadConv ProofsQuad ProofsQuad2 ProofsNlag ProofsFilm ProofsConsist3 ProofsThin ProofsThin2 ProofsThin3.
Import ListNotations.
Open Scope R_scope.

Lemma image_real (a b : R) : a + b <> 0 -> image_factor (RtoC a) (RtoC b) = RtoC ((b - a) / (b + a)).
Proof. intro H. unfold image_factor. rewrite <- RtoC_minus, <- RtoC_plus, <- RtoC_div by lra. reflexivity. Qed.
Lemma half_exp n : exp (- INR n) <= (/ 2) ^ n.
Proof.
  replace (- INR n) with (INR n * -1) by ring. rewrite <- exp_npow. apply pow_incr. split; [left; apply exp_pos|].
  change (-1) with (- (1)). rewrite exp_Ropp. apply Rinv_le_contravar; [lra|]. pose proof (exp_ineq1_le 1). lra.
Qed.
Lemma half_mono n m : (n <= m)%nat -> (/ 2) ^ m <= (/ 2) ^ n.
Proof.
  intro H. rewrite !pow_inv. apply Rinv_le_contravar; [apply pow_lt; lra|]. apply Rle_pow; [lra|exact H].
Qed.
Lemma clip_floor : exp (- 2 * MAX_EXP_ARG) <= (/ 2) ^ 40.
Proof.
  apply Rle_trans with (/ 2 ^ 1023).
  - replace (-2 * MAX_EXP_ARG) with (- (2 * MAX_EXP_ARG)) by ring. rewrite exp_Ropp. apply Rinv_le_contravar; [apply pow_lt; lra|].
    assert (X : 2 ^ 1023 <= exp MAX_EXP_ARG).
    { unfold MAX_EXP_ARG. assert (P : 0 < 2 ^ 1023) by (apply pow_lt; lra).
      assert (Q : / 2 ^ 52 <= 1). { apply Rle_trans with (/ 1); [apply Rinv_le_contravar; [lra|apply pow_R1_Rle; lra]|lra]. }
      rewrite exp_ln; [|apply Rmult_lt_0_compat; lra]. nra. }
    eapply Rle_trans; [exact X|]. assert (0 < MAX_EXP_ARG) by apply MAX_pos. left. apply exp_increasing. lra.
  - rewrite <- pow_inv. apply half_mono. lia.
Qed.

Section Concrete.
  Let b : C := image_factor (RtoC 1) (RtoC 3).
  Let c : C := image_factor (RtoC 3) (RtoC 5).
  Lemma conc : b = RtoC (1 / 2) /\ c = RtoC (1 / 4) /\ film_contrast b c = RtoC (3 / 16) /\ Cmod b * Cmod c <= 1 / 8 /\
    Cmod (film_contrast b c) = 3 / 16 /\ image_factor (RtoC 1) (RtoC 5) = RtoC (2 / 3).
  Proof.
    assert (Eb : b = RtoC (1 / 2)) by (unfold b; rewrite image_real by lra; f_equal; field).
    assert (Ec : c = RtoC (1 / 4)) by (unfold c; rewrite image_real by lra; f_equal; field).
    assert (EK : film_contrast b c = RtoC (3 / 16)).
    { unfold film_contrast. rewrite Eb, Ec, <- RtoC_mult, <- RtoC_minus, <- RtoC_mult. f_equal. field. }
    split; [exact Eb|]. split; [exact Ec|]. split; [exact EK|]. split; [|split].
    - rewrite Eb, Ec, !Cmod_R, !Rabs_pos_eq by lra. lra.
    - rewrite EK, Cmod_R, Rabs_pos_eq by lra. reflexivity.
    - rewrite image_real by lra. f_equal. field.
  Qed.
End Concrete.
Lemma conc_neq (x y : R) : x + y <> 0 -> (RtoC x + RtoC y <> 0)%C.
Proof. intro H. rewrite <- RtoC_plus. now apply RtoC_neq_0. Qed.

(** C91. With any number of nodes up to 1000 (the default is 32) there are films through
    which the sum lets less than a hundredth of the substrate's documented
    contribution pass (here: 40000 times thicker than the height of the charge). *)
Lemma C91_subsurface_lost_proof :
  forall (laggauss : laggauss_t) (D : Defaults) nu (n : nat) (r : nat -> C) (l : C),
  (forall J, (0 < J)%nat -> documented_rule J (laggauss J)) -> (1 <= n <= 1000)%nat ->
  let s := stack [RtoC 1; RtoC 3; RtoC 5] [40000] nu in
  (forall m, refl_coef_qs_above_surf laggauss D s (rr 1) (Some (S m)) = Ok (Some (r m))) -> Cseq_lim r l ->
  exists B, refl_coef_qs_above_surf laggauss D s (rr 1) (Some n) = Ok (Some B) /\ 0 < Cmod (l - RtoC (1 / 2))%C /\
    Cmod (B - RtoC (1 / 2))%C <= Cmod (l - RtoC (1 / 2))%C / 100.
Proof.
  intros lg D nu n r l HR [Hn Hn'] s Er Lr.
  destruct conc as (Eb & Ec & EK & Hk & MK & _).
  assert (A1 : (RtoC 3 + RtoC 1 <> 0)%C) by (apply conc_neq; lra). assert (A2 : (RtoC 5 + RtoC 3 <> 0)%C) by (apply conc_neq; lra).
  assert (N1 : RtoC 3 <> RtoC 0) by (apply RtoC_neq_0; lra). assert (N2 : RtoC 5 <> RtoC 0) by (apply RtoC_neq_0; lra).
  destruct (C91_thick_film_proof lg D (RtoC 1) (RtoC 3) (RtoC 5) 40000 1 (1 / 8) nu (Some n) Hn (HR n Hn) A1 A2 N1 N2 Hk ltac:(lra) ltac:(lra) ltac:(lra)) as (B & EB & _ & DB).
  destruct (C91_image_series_proof lg D (RtoC 1) (RtoC 3) (RtoC 5) 40000 1 (1 / 8) nu HR A1 A2 N1 N2 Hk ltac:(lra) ltac:(lra) ltac:(lra)) as (r' & l' & Er' & Lr' & DM).
  assert (El : l = l').
  { apply (Cl_unique r); [exact Lr|]. apply (Cl_ext r'); [|exact Lr']. intro m. pose proof (Er m) as X. unfold s in X. rewrite (Er' m) in X. congruence. }
  subst l'. specialize (DM 1%nat). exists B. split; [exact EB|].
  cbn [given_or] in DB. rewrite MK, Eb in DB. rewrite MK, EK, Eb in DM. clear Er Er' Lr Lr' HR.
  set (fl := exp (-2 * MAX_EXP_ARG)) in *. assert (F : fl <= (/ 2) ^ 40) by apply clip_floor.
  assert (F0 : 0 < fl) by apply exp_pos.
  assert (X : exp (- (40000 / (INR n * 1))) <= (/ 2) ^ 40).
  { apply Rle_trans with (exp (- INR 40)); [|apply half_exp].
    assert (Pn : 0 < INR n) by (apply lt_0_INR; lia).
    assert (Ln : INR n <= 1000) by (replace 1000 with (INR 1000) by (rewrite INR_IZR_INZ; reflexivity); apply le_INR; exact Hn').
    assert (Q : INR 40 <= 40000 / (INR n * 1)).
    { replace (INR 40) with 40 by (rewrite INR_IZR_INZ; reflexivity). apply (Rmult_le_reg_r (INR n)); [exact Pn|].
      replace (40000 / (INR n * 1) * INR n) with 40000 by (field; lra). nra. }
    destruct Q as [Q|Q]; [left; apply exp_increasing; lra|right; f_equal; lra]. }
  cbn [Csum_to Cpown] in DM.
  replace (l - (RtoC (1 / 2) + RtoC (3 / 16) * (0 + 1 * RtoC (1 / (1 + INR 1 * (40000 / 1)) ^ 2)%R)))%C
    with ((l - RtoC (1 / 2)) - RtoC (3 / 16 * (1 / (1 + 40000) ^ 2)))%C in DM.
  2:{ rewrite RtoC_mult. replace (1 + INR 1 * (40000 / 1)) with (1 + 40000) by (simpl; field). ring. }
  pose proof (Cmod_triangle (l - RtoC (1 / 2) - RtoC (3 / 16 * (1 / (1 + 40000) ^ 2)))%C (- (l - RtoC (1 / 2)))%C) as T.
  replace (l - RtoC (1 / 2) - RtoC (3 / 16 * (1 / (1 + 40000) ^ 2)) + - (l - RtoC (1 / 2)))%C with (- RtoC (3 / 16 * (1 / (1 + 40000) ^ 2)))%C in T by ring.
  rewrite !Cmod_opp, Cmod_R, Rabs_pos_eq in T by lra.
  replace ((/ 2) ^ 40) with (/ 1099511627776) in * by (simpl; field). split; [lra|]. lra.
Qed.

(** C91. A concrete thin film: permittivity 3 on 5 in vacuum, a tenth as thick as the
    height of the charge, with the documented rule of 1000 nodes. *)
Lemma C91_film_example_proof :
  exists (laggauss : laggauss_t) (B : C),
  (forall J, (0 < J)%nat -> documented_rule J (laggauss J)) /\
  refl_coef_qs_above_surf laggauss defaults0 (stack [RtoC 1; RtoC 3; RtoC 5] [1] None) (rr 10) (Some 1000%nat) = Ok (Some B) /\
  Cmod (B - RtoC (2 / 3))%C <= 1 / 20 /\
  Cmod (B - RtoC (86 / 135))%C <= 1 / 59.
Proof.
  exists documented_laggauss.
  destruct conc as (Eb & Ec & EK & Hk & MK & ES).
  assert (A1 : (RtoC 3 + RtoC 1 <> 0)%C) by (apply conc_neq; lra). assert (A2 : (RtoC 5 + RtoC 3 <> 0)%C) by (apply conc_neq; lra).
  assert (A3 : (RtoC 5 + RtoC 1 <> 0)%C) by (apply conc_neq; lra).
  assert (N1 : RtoC 3 <> RtoC 0) by (apply RtoC_neq_0; lra). assert (N2 : RtoC 5 <> RtoC 0) by (apply RtoC_neq_0; lra).
  assert (HD : forall J, (0 < J)%nat -> documented_rule J (documented_laggauss J)) by apply documented_laggauss_ok.
  destruct (C91_thin_film_proof documented_laggauss defaults0 (RtoC 1) (RtoC 3) (RtoC 5) 1 10 (1 / 8) None (Some 1000%nat) ltac:(cbn [given_or]; lia) (HD 1000%nat ltac:(lia)) A1 A2 A3 N1 N2 Hk ltac:(lra) ltac:(lra) ltac:(lra)) as (B & EB & D1 & D2).
  exists B. split; [exact HD|]. split; [exact EB|]. rewrite ES, MK in D1. rewrite ES, MK, EK, Eb, Ec in D2. split; [lra|].
  replace (RtoC (2 / 3) - RtoC (2 * (1 / 10)) * RtoC (3 / 16) / ((1 + RtoC (1 / 2) * RtoC (1 / 4)) * (1 + RtoC (1 / 2) * RtoC (1 / 4))))%C with (RtoC (2 / 3 - 2 * (1 / 10) * (3 / 16) / ((1 + 1 / 2 * (1 / 4)) * (1 + 1 / 2 * (1 / 4))))) in D2.
  - replace (2 / 3 - 2 * (1 / 10) * (3 / 16) / ((1 + 1 / 2 * (1 / 4)) * (1 + 1 / 2 * (1 / 4)))) with (86 / 135) in D2 by field. lra.
  - rewrite <- !RtoC_mult, <- !RtoC_plus, <- !RtoC_mult, <- RtoC_div, <- RtoC_minus by lra. f_equal; field.
Qed.

(** C91. A concrete tip over that film (radius and semi-axis 1, oscillator at rest on the surface). *)
Lemma C91_tip_example_proof :
  exists (laggauss : laggauss_t) (a a' : C),
  let run s := fdm_eff_pol laggauss defaults0 s (Some 0) (Some 1) (Some 1) (Some (RtoC (7 / 4))) (Some (1 / 2)) (Some (1 / 2)) (Some 10) (Some 1000%nat) (Some "Q_ave"%string) in
  run (stack [RtoC 1; RtoC 3; RtoC 5] [1] None) = Ok (Some a) /\
  run (stack [RtoC 1; RtoC 5] [] None) = Ok (Some a') /\
  Cmod (a - a')%C <= 1 / 32.
Proof.
  exists documented_laggauss.
  destruct conc as (Eb & Ec & EK & Hk & MK & ES).
  assert (A1 : (RtoC 3 + RtoC 1 <> 0)%C) by (apply conc_neq; lra). assert (A2 : (RtoC 5 + RtoC 3 <> 0)%C) by (apply conc_neq; lra).
  assert (A3 : (RtoC 5 + RtoC 1 <> 0)%C) by (apply conc_neq; lra).
  assert (N1 : RtoC 3 <> RtoC 0) by (apply RtoC_neq_0; lra). assert (N2 : RtoC 5 <> RtoC 0) by (apply RtoC_neq_0; lra).
  assert (HD : forall J, (0 < J)%nat -> documented_rule J (documented_laggauss J)) by apply documented_laggauss_ok.
  assert (EF : fdm_f 0 (1 / 2) 1 1 (RtoC (7 / 4)) = RtoC (1 / 2)).
  { rewrite f_at_0, <- RtoC_minus, <- RtoC_mult. f_equal. field. }
  assert (RG : fdm_regular 0 (1 / 2) 1 1) by (unfold fdm_regular; cbn; repeat split; try lra; try (pose proof ln_lt_2; rewrite ?ln_4_2; lra)).
  destruct (C91_fdm_thin_film_proof documented_laggauss defaults0 (RtoC 1) (RtoC 3) (RtoC 5) 1 (1 / 8) (358 / 1000) None (Some 0) (Some 1) (Some 1) (Some (RtoC (7 / 4))) (Some (1 / 2)) (Some (1 / 2)) (Some 10) (Some 1000%nat)
    ltac:(cbn [given_or]; lia) (HD 1000%nat ltac:(lia)) A1 A2 A3 N1 N2 Hk ltac:(lra) ltac:(cbn [given_or]; lra) ltac:(lra) RG RG) as (a & a' & E1 & E2 & DD).
  - cbn [given_or]. rewrite EF, ES, MK, !Cmod_R, !Rabs_pos_eq by lra. lra.
  - lra.
  - exists a, a'. split; [exact E1|]. split; [exact E2|]. eapply Rle_trans; [exact DD|].
    cbn [given_or]. rewrite EF, MK, !Cmod_R, !Rabs_pos_eq by lra. lra.
Qed.

(** C91. A concrete documented limit: the same film as thick as the height, from two images. *)
Lemma C91_images_example_proof :
  exists (laggauss : laggauss_t) (r : nat -> C) (l : C),
  (forall J, (0 < J)%nat -> documented_rule J (laggauss J)) /\
  (forall n, refl_coef_qs_above_surf laggauss defaults0 (stack [RtoC 1; RtoC 3; RtoC 5] [1] None) (rr 1) (Some (S n)) = Ok (Some (r n))) /\
  Cseq_lim r l /\ Cmod (l - RtoC (1 / 2 + 3 / 16 * (1 / 4 - 1 / 8 * (1 / 9))))%C <= 1 / 1000.
Proof.
  exists documented_laggauss.
  destruct conc as (Eb & Ec & EK & Hk & MK & _).
  assert (A1 : (RtoC 3 + RtoC 1 <> 0)%C) by (apply conc_neq; lra). assert (A2 : (RtoC 5 + RtoC 3 <> 0)%C) by (apply conc_neq; lra).
  assert (N1 : RtoC 3 <> RtoC 0) by (apply RtoC_neq_0; lra). assert (N2 : RtoC 5 <> RtoC 0) by (apply RtoC_neq_0; lra).
  assert (HD : forall J, (0 < J)%nat -> documented_rule J (documented_laggauss J)) by apply documented_laggauss_ok.
  destruct (C91_image_series_proof documented_laggauss defaults0 (RtoC 1) (RtoC 3) (RtoC 5) 1 1 (1 / 8) None HD A1 A2 N1 N2 Hk ltac:(lra) ltac:(lra) ltac:(lra)) as (r & l & Er & Lr & DM).
  exists r, l. split; [exact HD|]. split; [exact Er|]. split; [exact Lr|].
  specialize (DM 2%nat). rewrite MK, EK, Eb, Ec in DM. pose proof clip_floor as F.
  replace ((/ 2) ^ 40) with (/ 1099511627776) in F by (simpl; field).
  cbn [Csum_to Cpown] in DM.
  match type of DM with Cmod (l - ?x)%C <= _ => replace x with (RtoC (1 / 2 + 3 / 16 * (1 / 4 - 1 / 8 * (1 / 9)))) in DM end.
  - lra.
  - replace (1 / (1 + INR 1 * (1 / 1)) ^ 2) with (1 / 4) by (simpl; field). replace (1 / (1 + INR 2 * (1 / 1)) ^ 2) with (1 / 9) by (simpl; field).
    rewrite RtoC_plus, !RtoC_mult, RtoC_minus, RtoC_mult. replace (RtoC (1 / 8)) with (RtoC (1 / 2) * RtoC (1 / 4))%C by (rewrite <- RtoC_mult; f_equal; field). ring.
Qed.
