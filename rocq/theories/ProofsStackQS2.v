(** * Proofs: determinants, reciprocity, large momentum, unit scaling (quasistatic) *)
From Coq Require Import String Reals Lra Lia ZArith List Bool.
From Coquelicot Require Import Rcomplements Complex.
From Verif Require Import Num NumLemmas ModelBase ModelSample ModelTip StackLemmas Spec ProofsStackQS.
Import ListNotations.
Open Scope R_scope.

(** ** Determinants *)
Section Det.
Context {L : Type} (T : L -> L -> cmat) (P : L -> R -> cmat) (f : L -> C).
Context (HT : forall a b, f b <> RtoC 0 -> det (T a b) = (f a / f b)%C).
Context (HP : forall l t, det (P l t) = RtoC 1).
Lemma det_stackM inner : forall l0 ln,
  Forall (fun l => f l <> RtoC 0) (map fst inner ++ [ln]) ->
  det (stackM T P l0 inner ln) = (f l0 / f ln)%C.
Proof.
  induction inner as [|[l t] rest IH]; intros l0 ln H; cbn in H.
  - apply HT. now inversion H.
  - apply Forall_cons_iff in H. destruct H as [Hl Hr].
    cbn [stackM]. rewrite !det_mul, HP, HT, (IH l ln Hr) by exact Hl.
    apply Forall_app in Hr. destruct Hr as [_ Hr]. apply Forall_inv in Hr. field. auto.
Qed.
End Det.

Lemma det_Pqs q l t : det (Pqs q l t) = RtoC 1.
Proof.
  unfold Pqs. rewrite det_pP, <- RtoC_mult, <- exp_plus.
  replace (clipR (q * t) + - clipR (q * t)) with 0 by ring. now rewrite exp_0.
Qed.

(** ** Reciprocity *)
Definition flip (A : cmat) : cmat := mkC (c00 A) (- c10 A)%C (- c01 A)%C (c11 A).
Definition smul (k : C) (A : cmat) : cmat :=
  mkC (k * c00 A)%C (k * c01 A)%C (k * c10 A)%C (k * c11 A)%C.
Lemma flip_mul A B : flip (pmul A B) = pmul (flip B) (flip A).
Proof. apply cmat_eq; simpl; ring. Qed.
Lemma flip_pP a b : flip (pP a b) = pP a b.
Proof. apply cmat_eq; simpl; ring. Qed.

Section Rev.
Context {L : Type} (T : L -> L -> cmat) (P : L -> R -> cmat) (f : L -> C).
Context (HT : forall a b, f a <> RtoC 0 -> f b <> RtoC 0 ->
              T b a = smul (f b / f a)%C (flip (T a b))).
Context (HP : forall l t, flip (P l t) = P l t).
Lemma stackM_rev inner : forall l0 ln,
  f l0 <> RtoC 0 -> Forall (fun l => f l <> RtoC 0) (map fst inner ++ [ln]) ->
  stackM T P ln (rev inner) l0 = smul (f ln / f l0)%C (flip (stackM T P l0 inner ln)).
Proof.
  induction inner as [|[l t] rest IH]; intros l0 ln H0 H; cbn in H.
  - apply HT; [exact H0|]. now inversion H.
  - apply Forall_cons_iff in H. destruct H as [Hl Hr].
    cbn [rev stackM]. rewrite stackM_app. cbn [stackM].
    rewrite (IH l ln Hl Hr), (HT l0 l H0 Hl), !flip_mul, HP, !pmul_assoc.
    apply cmat_eq; simpl; field; auto.
Qed.
End Rev.

Lemma Tqs_rev a b : a <> RtoC 0 -> b <> RtoC 0 -> Tqs b a = smul (b / a)%C (flip (Tqs a b)).
Proof. intros Ha Hb. apply cmat_eq; simpl; field; auto. Qed.

Lemma eps_of_rev {L} (e0 : L) inner en : rev (eps_of e0 inner en) = eps_of en (rev inner) e0.
Proof. unfold eps_of. simpl. rewrite rev_app_distr, map_rev. reflexivity. Qed.

(** C16. The quasistatic transfer matrix has determinant eps_first/eps_last. *)
Lemma C16_det_transfer_matrix_qs_proof :
  forall (e0 : C) (mid : list C) (en : C) (ts : list R) nu (q : R),
  length mid = length ts -> nonzero_below (e0 :: mid ++ [en]) ->
  exists M, transfer_matrix_qs (stack (e0 :: mid ++ [en]) ts nu) (rr q) = Ok M /\
            (m00 M * m11 M - m01 M * m10 M)%cv = Some (e0 / en)%C.
Proof.
  intros e0 mid en ts nu q Hl Hn.
  destruct (stack_decomp (e0 :: mid ++ [en]) ts) as (a & inner & b & E & ->).
  { simpl. rewrite app_length. simpl. lia. }
  rewrite E in *. rewrite stack_struct.
  unfold eps_of in E. injection E as -> E. apply app_inj_tail in E. destruct E as [-> ->].
  rewrite transfer_matrix_qs_struct by exact Hn.
  eexists. split; [reflexivity|].
  change (Some (det (Mqs q a inner b)) = Some (a / b)%C). f_equal.
  apply (det_stackM Tqs (Pqs q) (fun e => e)).
  - intros x y _. apply det_pT.
  - apply det_Pqs.
  - exact Hn.
Qed.

(** C16. Reversing the stack multiplies the transmission coefficient by
    eps_first/eps_last. *)
Lemma C16_reciprocity_qs_proof :
  forall (e0 : C) (mid : list C) (en : C) (ts : list R) nu (q : R),
  length mid = length ts -> Forall (fun e => e <> RtoC 0) (e0 :: mid ++ [en]) ->
  trans_coef_qs (stack (rev (e0 :: mid ++ [en])) (rev ts) nu) (rr q)
  = (let! t := trans_coef_qs (stack (e0 :: mid ++ [en]) ts nu) (rr q) in
     Ok (Some (e0 / en)%C * t)%cv).
Proof.
  intros e0 mid en ts nu q Hl Hn.
  destruct (stack_decomp (e0 :: mid ++ [en]) ts) as (a & inner & b & E & ->).
  { simpl. rewrite app_length. simpl. lia. }
  rewrite E in *. rewrite eps_of_rev, <- map_rev, !stack_struct.
  unfold eps_of in E. injection E as -> E. apply app_inj_tail in E. destruct E as [-> ->].
  unfold eps_of in Hn. apply Forall_cons_iff in Hn. destruct Hn as [Ha Hn].
  rewrite !trans_coef_qs_struct.
  2: exact Hn.
  2:{ apply Forall_app in Hn. destruct Hn as [Hn1 Hn2]. apply Forall_app. split; [|auto].
      rewrite map_rev. apply Forall_rev. exact Hn1. }
  cbn [rbind]. f_equal. unfold Mqs at 1.
  rewrite (stackM_rev Tqs (Pqs q) (fun e => e) Tqs_rev) by (auto; intros; apply flip_pP).
  cbn [c00 smul flip]. fold (Mqs q). set (m := c00 (Mqs q a inner b)).
  assert (Hb : b <> RtoC 0) by (apply Forall_app in Hn; destruct Hn as [_ Hn]; now inversion Hn).
  destruct (Ceq_dec m 0) as [E|E].
  - rewrite E. replace (b / a * 0)%C with (RtoC 0) by ring. rewrite !cdiv_zero. reflexivity.
  - unfold rc. rewrite !cdiv_ok by (auto; apply Cmult_neq_0; auto; apply Cdiv_neq_0; auto).
    unfold cmul. cbn [olift2]. f_equal. field. auto.
Qed.

(** ** C13: large momentum *)
Lemma exp_small (d t : R) : 0 < d -> 0 < t -> exists Q, forall q, Q <= q -> exp (- 2 * q * t) < d.
Proof.
  intros Hd Ht. exists ((1 - ln d) / (2 * t)). intros q Hq.
  replace d with (exp (ln d)) at 1 by (apply exp_ln; exact Hd).
  apply exp_increasing.
  assert (H : 1 - ln d <= 2 * t * q).
  { replace (1 - ln d) with (2 * t * ((1 - ln d) / (2 * t))) by (field; lra).
    apply Rmult_le_compat_l; lra. }
  lra.
Qed.

Lemma Cmod_opp_1 (z : C) : 1 - Cmod z <= Cmod (1 + z)%C.
Proof.
  pose proof (Cmod_triangle (1 + z)%C (- z)%C) as H.
  replace (1 + z + - z)%C with (RtoC 1) in H by ring. rewrite Cmod_opp, Cmod_1 in H. lra.
Qed.

(** the estimate behind both theorems *)
Lemma airy_estimate (b r1 X : C) (B : R) :
  Cmod r1 <= B -> 2 * (Cmod b * (B * Cmod X)) <= 1 ->
  (1 + b * (r1 * X) <> 0)%C /\
  Cmod ((b + r1 * X) / (1 + b * (r1 * X)) - b)%C <= 2 * B * Cmod (1 - b * b)%C * Cmod X.
Proof.
  intros HB H2.
  assert (HB0 : 0 <= B) by (pose proof (Cmod_ge_0 r1); lra).
  pose proof (Cmod_ge_0 b) as Hb. pose proof (Cmod_ge_0 X) as HX. pose proof (Cmod_ge_0 r1) as Hr.
  assert (Hm : Cmod (b * (r1 * X))%C <= 1 / 2).
  { rewrite !Cmod_mult. assert (Cmod r1 * Cmod X <= B * Cmod X) by (apply Rmult_le_compat_r; auto).
    assert (Cmod b * (Cmod r1 * Cmod X) <= Cmod b * (B * Cmod X)) by (apply Rmult_le_compat_l; auto). lra. }
  pose proof (Cmod_opp_1 (b * (r1 * X))%C) as Hd.
  assert (Hn : (1 + b * (r1 * X) <> 0)%C).
  { intros E. rewrite E, Cmod_0 in Hd. lra. }
  split; [exact Hn|].
  replace ((b + r1 * X) / (1 + b * (r1 * X)) - b)%C
    with (r1 * (1 - b * b) * X / (1 + b * (r1 * X)))%C by (field; exact Hn).
  rewrite Cmod_div, !Cmod_mult by exact Hn.
  set (D := Cmod (1 + b * (r1 * X))%C) in *.
  assert (HD : 1 / 2 <= D) by lra.
  set (K := Cmod (1 - b * b)%C). assert (HK : 0 <= K) by apply Cmod_ge_0.
  apply Rle_trans with (B * K * Cmod X / D).
  - apply Rmult_le_compat_r; [left; apply Rinv_0_lt_compat; lra|].
    repeat apply Rmult_le_compat_r; auto.
  - replace (2 * B * K * Cmod X) with (B * K * Cmod X * / (1 / 2)) by field.
    apply Rmult_le_compat_l; [repeat apply Rmult_le_pos; auto|].
    apply Rinv_le_contravar; lra.
Qed.

(** C13. If the reflection of everything below the top interface is bounded
    by B at momentum q, the whole stack's reflection is within
    2 B |1 - beta_0^2| e^{-2 min(q t_0, clip)} of the top interface's
    coefficient beta_0. *)
Lemma C13_top_interface_dominates_proof :
  forall (e0 e1 : C) (rest : list C) (t : R) (ts : list R) nu (q : R) (r1 b : C) (B : R),
  wf (e1 :: rest) ts -> nonzero_below (e0 :: e1 :: rest) ->
  (e1 + e0 <> 0)%C -> b = ((e1 - e0) / (e1 + e0))%C ->
  refl_coef_qs (stack (e1 :: rest) ts nu) (rr q) = Ok (Some r1) -> Cmod r1 <= B ->
  0 <= q * t ->
  2 * (Cmod b * (B * exp (- 2 * Rmin (q * t) MAX_EXP_ARG))) <= 1 ->
  exists r, refl_coef_qs (stack (e0 :: e1 :: rest) (t :: ts) nu) (rr q) = Ok (Some r) /\
            Cmod (r - b)%C <= 2 * B * Cmod (1 - b * b)%C * exp (- 2 * Rmin (q * t) MAX_EXP_ARG).
Proof.
  intros e0 e1 rest t ts nu q r1 b B Hw Hn Hs Eb Hr HB Hq H2.
  destruct (stack_decomp (e1 :: rest) ts Hw) as (a & inner & en & E & ->).
  rewrite E in *. injection E as -> ->. rewrite stack_struct in Hr.
  unfold nonzero_below in Hn. cbn [tl] in Hn. apply Forall_cons_iff in Hn. destruct Hn as [Ha Hn].
  rewrite refl_coef_qs_struct in Hr by exact Hn. injection Hr as Hr.
  apply cdiv_Some in Hr. destruct Hr as (x & y & [= <-] & [= <-] & Hy & Hr).
  match goal with |- exists r, refl_coef_qs ?S _ = _ /\ _ =>
    change S with (qs_sample e0 ((a, t) :: inner) en nu) end.
  rewrite refl_coef_qs_struct by (cbn; auto).
  unfold Mqs in *. cbn [stackM]. 
  destruct (qs_T_ok e0 a b (conj Ha (conj Hs Eb))) as (s & Hs0 & E0 & E1 & E2 & E3).
  set (u := c00 (stackM Tqs (Pqs q) a inner en)) in *.
  assert (Hv : c10 (stackM Tqs (Pqs q) a inner en) = (r1 * u)%C) by (rewrite Hr; field; exact Hy).
  set (m := Rmin (q * t) MAX_EXP_ARG) in *.
  assert (Hc : clipR (q * t) = m).
  { unfold clipR. rewrite Rmax_left; [reflexivity|]. pose proof MAX_pos. lra. }
  set (X := RtoC (exp (- 2 * m))).
  assert (HX : Cmod X = exp (- 2 * m)).
  { unfold X. rewrite Cmod_R, Rabs_pos_eq; [reflexivity|]. left. apply exp_pos. }
  rewrite <- HX in H2. destruct (airy_estimate b r1 X B HB H2) as [Hd Hest].
  exists ((b + r1 * X) / (1 + b * (r1 * X)))%C. split; [|rewrite HX in Hest; exact Hest].
  f_equal. cbn [pmul c00 c01 c10 c11]. rewrite E0, E1, E2, E3, Hv. fold u.
  replace (Pqs q a t) with (pP (RtoC (exp m)) (RtoC (exp (- m)))) by (unfold Pqs; rewrite Hc; reflexivity).
  cbn [pP c00 c01 c10 c11].
  assert (HA : RtoC (exp m) <> RtoC 0) by (apply RtoC_neq_0; pose proof (exp_pos m); lra).
  assert (HE : RtoC (exp (- m)) = (RtoC (exp m) * X)%C).
  { unfold X. rewrite <- RtoC_mult, <- exp_plus. f_equal. f_equal. ring. }
  rewrite HE. set (A := RtoC (exp m)) in *.
  apply div_Some_r.
  - replace (s * (A * u + 0 * (r1 * u)) + s * b * (0 * u + A * X * (r1 * u)))%C
      with (s * (A * (u * (1 + b * (r1 * X)))))%C by ring.
    repeat apply Cmult_neq_0; assumption.
  - field. exact Hd.
Qed.

(** C13. Without the clip (the Parratt recursion itself): if every inner
    layer has positive thickness and no two neighbouring permittivities
    cancel, the recursion is well defined for all large q and tends to the
    top interface's coefficient as q grows. *)
Lemma C13_limit_is_top_interface_proof :
  forall (e0 e1 : C) (rest : list C) (ts : list R),
  wf (e0 :: e1 :: rest) ts -> Forall (fun t => 0 < t) ts ->
  nonzero_below (e0 :: e1 :: rest) ->
  Forall (fun p => fst p + snd p <> 0)%C (combine (e0 :: e1 :: rest) (e1 :: rest)) ->
  forall eps, 0 < eps ->
  exists Q, forall q, Q <= q ->
  exists r, parratt qs_iface (qs_round q) (e0 :: e1 :: rest) ts r /\
            Cmod (r - (e1 - e0) / (e1 + e0))%C < eps.
Proof.
  intros e0 e1 rest ts. revert e0 e1 rest.
  induction ts as [|t ts IH]; intros e0 e1 rest Hw Ht Hn Hs eps Heps.
  - destruct rest; [|unfold wf in Hw; simpl in Hw; lia].
    exists 0. intros q _. exists ((e1 - e0) / (e1 + e0))%C. split.
    + constructor. unfold nonzero_below in Hn. cbn in Hn, Hs.
      apply Forall_inv in Hn. apply Forall_inv in Hs. cbn in Hs.
      repeat split; auto. rewrite Cplus_comm. exact Hs.
    + replace (_ - _)%C with (RtoC 0) by ring. rewrite Cmod_0. exact Heps.
  - destruct rest as [|e2 rest]; [unfold wf in Hw; simpl in Hw; lia|].
    apply Forall_cons_iff in Ht. destruct Ht as [Ht Hts].
    unfold nonzero_below in *. cbn [tl] in Hn. pose proof Hn as Hn'.
    apply Forall_cons_iff in Hn. destruct Hn as [He1 Hn].
    cbn [combine] in Hs. apply Forall_cons_iff in Hs. destruct Hs as [Hs1 Hs]. cbn [fst snd] in Hs1.
    destruct (IH e1 e2 rest) with (eps := 1) as (Q1 & HQ1); auto; try lra.
    { unfold wf in *. simpl in *. lia. }
    set (b := ((e1 - e0) / (e1 + e0))%C) in *.
    set (b1 := ((e2 - e1) / (e2 + e1))%C) in *.
    set (B := Cmod b1 + 1). pose proof (Cmod_ge_0 b1) as Hb1. pose proof (Cmod_ge_0 b) as Hb.
    set (K := Cmod (1 - b * b)%C). assert (HK : 0 <= K) by apply Cmod_ge_0.
    set (d := Rmin (/ (2 * (Cmod b + 1) * B)) (eps / (2 * B * (K + 1)))).
    assert (HB : 0 < B) by (unfold B; lra).
    assert (Hd : 0 < d).
    { unfold d. apply Rmin_glb_lt.
      - apply Rinv_0_lt_compat. apply Rmult_lt_0_compat; lra.
      - apply Rdiv_lt_0_compat; [lra|]. apply Rmult_lt_0_compat; lra. }
    destruct (exp_small d t Hd Ht) as (Q2 & HQ2).
    exists (Rmax Q1 Q2). intros q Hq.
    destruct (HQ1 q) as (r1 & Hp & Hr1); [eapply Rle_trans; [apply Rmax_l|exact Hq]|].
    assert (HE : exp (- 2 * q * t) < d) by (apply HQ2; eapply Rle_trans; [apply Rmax_r|exact Hq]).
    set (X := qs_round q e1 t). assert (HX : Cmod X = exp (- 2 * q * t)).
    { unfold X, qs_round. rewrite Cmod_R, Rabs_pos_eq; [reflexivity|]. left. apply exp_pos. }
    assert (HrB : Cmod r1 <= B).
    { replace r1 with (b1 + (r1 - b1))%C by ring. eapply Rle_trans; [apply Cmod_triangle|].
      unfold B. lra. }
    assert (Hd1 : d <= / (2 * (Cmod b + 1) * B)) by apply Rmin_l.
    assert (Hd2 : d <= eps / (2 * B * (K + 1))) by apply Rmin_r.
    assert (H2 : 2 * (Cmod b * (B * Cmod X)) <= 1).
    { rewrite HX. pose proof (exp_pos (- 2 * q * t)).
      apply Rle_trans with (2 * (Cmod b + 1) * B * exp (- 2 * q * t)); [nra|].
      apply Rle_trans with (2 * (Cmod b + 1) * B * / (2 * (Cmod b + 1) * B)).
      - apply Rmult_le_compat_l; [nra|lra].
      - right. apply Rinv_r. nra. }
    destruct (airy_estimate b r1 X B HrB H2) as [Hden Hest].
    eexists. split.
    + eapply parratt_layer.
      * split; [exact He1|split; [|reflexivity]]. rewrite Cplus_comm. exact Hs1.
      * exact Hp.
      * exact Hden.
    + fold b X. eapply Rle_lt_trans; [exact Hest|]. fold K. rewrite HX.
      apply Rle_lt_trans with (2 * B * (K + 1) * exp (- 2 * q * t)).
      { pose proof (exp_pos (- 2 * q * t)). nra. }
      apply Rlt_le_trans with (2 * B * (K + 1) * d).
      { apply Rmult_lt_compat_l; [nra|exact HE]. }
      apply Rle_trans with (2 * B * (K + 1) * (eps / (2 * B * (K + 1)))).
      { apply Rmult_le_compat_l; [nra|exact Hd2]. }
      right. field. split; lra.
Qed.

(** example: one film, q t = 1 *)
Lemma C13_example_proof :
  exists r, refl_coef_qs (stack [RtoC 1; RtoC 3; RtoC 2] [1] None) (rr 1) = Ok (Some r) /\
            Cmod (r - RtoC (1/2))%C <= 2 * (1/5) * Cmod (1 - RtoC (1/2) * RtoC (1/2))%C * exp (- 2 * Rmin (1 * 1) MAX_EXP_ARG).
Proof.
  assert (N : forall x, x <> 0 -> RtoC x <> RtoC 0) by exact RtoC_neq_0.
  apply C13_top_interface_dominates_proof with (r1 := RtoC (-1/5)).
  - reflexivity.
  - repeat constructor; apply N; lra.
  - rewrite <- RtoC_plus. apply N. lra.
  - rewrite <- RtoC_plus, <- RtoC_minus, <- RtoC_div by lra. f_equal. lra.
  - destruct (bulk_refl_any (RtoC 3) (RtoC 2) None (rr 1)) as [-> _]; [apply N; lra|].
    unfold refl_coef_qs_single, cadd, csub. cbn [olift2].
    rewrite <- RtoC_plus, <- RtoC_minus, cdiv_ok by (apply N; lra).
    rewrite <- RtoC_div by lra. do 3 f_equal. lra.
  - rewrite Cmod_R, Rabs_left by lra. lra.
  - lra.
  - rewrite Cmod_R, Rabs_pos_eq by lra.
    assert (H : exp (- 2 * Rmin (1 * 1) MAX_EXP_ARG) <= 1).
    { assert (Hm : 0 < Rmin (1 * 1) MAX_EXP_ARG) by (apply Rmin_glb_lt; [lra|apply MAX_pos]).
      pose proof (exp_increasing (- 2 * Rmin (1 * 1) MAX_EXP_ARG) 0 ltac:(lra)) as H.
      rewrite exp_0 in H. lra. }
    lra.
Qed.
