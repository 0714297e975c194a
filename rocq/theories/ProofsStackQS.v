(** * Proofs: quasistatic stacks *)
From Coq Require Import String Reals Lra Lia ZArith List Bool.
From Coquelicot Require Import Rcomplements Complex.
From Verif Require Import Num NumLemmas ModelBase ModelSample ModelTip StackLemmas Spec.
Import ListNotations.
Open Scope R_scope.

(** ** Generic Parratt soundness *)
Section Parratt.
Context {L : Type} (T : L -> L -> cmat) (P : L -> R -> cmat).
Context (iface : L -> L -> C -> Prop) (round : L -> R -> C).
Context (HT : forall a b r, iface a b r ->
  exists s, s <> RtoC 0 /\ c00 (T a b) = s /\ c01 (T a b) = (s * r)%C /\
            c10 (T a b) = (s * r)%C /\ c11 (T a b) = s).
Context (okt : R -> Prop).
Context (HP : forall l t, okt t -> exists A, A <> RtoC 0 /\ P l t = pP A (A * round l t)%C).

Lemma parratt_length ls ts r : parratt iface round ls ts r -> wf ls ts.
Proof. unfold wf. induction 1; simpl in *; lia. Qed.

Lemma parratt_inv_bottom a b r : parratt iface round [a; b] [] r -> iface a b r.
Proof. intros H. inversion H. assumption. Qed.
Lemma parratt_inv_layer a b rest t ts r :
  parratt iface round (a :: b :: rest) (t :: ts) r ->
  exists r0 r1, iface a b r0 /\ parratt iface round (b :: rest) ts r1 /\
    (1 + r0 * (r1 * round b t))%C <> RtoC 0 /\
    r = ((r0 + r1 * round b t) / (1 + r0 * (r1 * round b t)))%C.
Proof. intros H. inversion H. eauto 8. Qed.

Lemma parratt_sound inner : forall l0 ln r,
  Forall okt (map snd inner) ->
  parratt iface round (eps_of l0 inner ln) (map snd inner) r ->
  c00 (stackM T P l0 inner ln) <> RtoC 0 /\
  c10 (stackM T P l0 inner ln) = (r * c00 (stackM T P l0 inner ln))%C.
Proof.
  induction inner as [|[l t] rest IH]; intros l0 ln r Ht H.
  - apply parratt_inv_bottom in H. destruct (HT _ _ _ H) as (s & Hs & E0 & E1 & E2 & E3).
    simpl. rewrite E0, E2. split; [exact Hs|ring].
  - change (eps_of l0 ((l, t) :: rest) ln) with (l0 :: l :: (map fst rest ++ [ln])) in H.
    cbn [map snd] in H, Ht.
    apply parratt_inv_layer in H; destruct H as (r0 & r1 & Hi & Hp & Hd & ->).
    apply Forall_cons_iff in Ht; destruct Ht as [Ht1 Ht2].
    destruct (IH l ln r1 Ht2 Hp) as [Hu Hr].
    destruct (HT _ _ _ Hi) as (s & Hs & E0 & E1 & E2 & E3).
    destruct (HP l t Ht1) as (A & HA & HPe).
    cbn [stackM]; rewrite HPe; cbn [c00 c01 c10 c11 pmul pP].
    rewrite E0, E1, E2, E3, Hr.
    set (u := c00 (stackM T P l rest ln)) in *.
    set (X := round l t) in *.
    replace (s * (A * u + 0 * (r1 * u)) + s * r0 * (0 * u + A * X * (r1 * u)))%C
      with (s * (A * (u * (1 + r0 * (r1 * X)))))%C by ring.
    split; [repeat apply Cmult_neq_0; assumption|]. field. exact Hd.
Qed.
End Parratt.

Lemma MAX_pos : 0 < MAX_EXP_ARG.
Proof.
  unfold MAX_EXP_ARG. rewrite <- ln_1. apply ln_increasing; [lra|].
  assert (1 < 2 - / 2 ^ 52).
  { assert (/ 2 ^ 52 < 1); [|lra]. rewrite <- Rinv_1. apply Rinv_lt_contravar; [|apply Rlt_pow_R1; [lra|lia]].
    rewrite Rmult_1_l. apply pow_lt. lra. }
  assert (1 <= 2 ^ 1023) by (apply pow_R1_Rle; lra).
  nra.
Qed.
Lemma clipR_id x : Rabs x <= MAX_EXP_ARG -> clipR x = x.
Proof.
  intros H. apply Rabs_le_between in H. unfold clipR.
  rewrite Rmax_left by lra. apply Rmin_left. lra.
Qed.
Lemma clipR_0 : clipR 0 = 0.
Proof. apply clipR_id. rewrite Rabs_R0. pose proof MAX_pos. lra. Qed.

Lemma stack_struct e0 inner en nu : stack (eps_of e0 inner en) (map snd inner) nu = qs_sample e0 inner en nu.
Proof. reflexivity. Qed.

Lemma parratt_qs_nonzero q : forall es ts r, parratt qs_iface (qs_round q) es ts r -> nonzero_below es.
Proof.
  unfold nonzero_below. induction 1; simpl in *; constructor; auto.
  - now destruct H.
  - now destruct H.
Qed.

Lemma div_Some_r (a b r : C) : b <> RtoC 0 -> a = (r * b)%C -> (Some a / Some b)%cv = Some r.
Proof. intros H ->. rewrite cdiv_ok by exact H. f_equal. field. exact H. Qed.

Lemma qs_T_ok a b r : qs_iface a b r ->
  exists s, s <> RtoC 0 /\ c00 (Tqs a b) = s /\ c01 (Tqs a b) = (s * r)%C /\
            c10 (Tqs a b) = (s * r)%C /\ c11 (Tqs a b) = s.
Proof.
  intros (Hb & Hs & ->). exists ((b + a) / (2 * b))%C. simpl. split.
  - apply Cdiv_neq_0; auto.
  - repeat split; field; auto.
Qed.

Lemma qs_P_ok q (l : C) t : Rabs (q * t) <= MAX_EXP_ARG ->
  exists A, A <> RtoC 0 /\ Pqs q l t = pP A (A * qs_round q l t)%C.
Proof.
  intros H. exists (RtoC (exp (q * t))). split.
  - apply RtoC_neq_0. pose proof (exp_pos (q * t)). lra.
  - unfold Pqs, qs_round. rewrite clipR_id by exact H. f_equal.
    rewrite <- RtoC_mult, <- exp_plus. f_equal. f_equal. ring.
Qed.

(** C07. refl_coef_qs of a stack is the Airy/Parratt recursion over its
    interfaces with round-trip factor e^{-2 q t}, whenever no denominator of
    the recursion vanishes and no product q t reaches the overflow clip. *)
Lemma C07_refl_coef_qs_is_parratt_proof :
  forall (es : list C) (ts : list R) nu (q : R) (r : C),
  parratt qs_iface (qs_round q) es ts r ->
  Forall (fun t => Rabs (q * t) <= MAX_EXP_ARG) ts ->
  refl_coef_qs (stack es ts nu) (rr q) = Ok (Some r).
Proof.
  intros es ts nu q r H Ht.
  pose proof (parratt_length _ _ _ _ _ H) as Hw.
  pose proof (parratt_qs_nonzero _ _ _ _ H) as Hn.
  destruct (stack_decomp es ts Hw) as (e0 & inner & en & -> & ->).
  rewrite stack_struct, refl_coef_qs_struct by exact Hn.
  destruct (parratt_sound Tqs (Pqs q) _ _ qs_T_ok _ (qs_P_ok q) inner e0 en r Ht H) as [H0 H1].
  f_equal. apply div_Some_r; assumption.
Qed.

(** example: a film of permittivity 3 and thickness 2 between 1 and 2, q = 1/2 *)
Lemma C07_example_proof :
  parratt qs_iface (qs_round (1/2)) [RtoC 1; RtoC 3; RtoC 2] [2]
    ((RtoC (1/2) + RtoC (-1/5) * RtoC (exp (- 2 * (1/2) * 2)))
      / (1 + RtoC (1/2) * (RtoC (-1/5) * RtoC (exp (- 2 * (1/2) * 2)))))%C.
Proof.
  constructor.
  - repeat split; try (rewrite <- ?RtoC_plus; apply RtoC_neq_0; lra).
    rewrite <- RtoC_plus, <- RtoC_minus, <- RtoC_div by lra. f_equal. lra.
  - constructor. repeat split; try (rewrite <- ?RtoC_plus; apply RtoC_neq_0; lra).
    rewrite <- RtoC_plus, <- RtoC_minus, <- RtoC_div by lra. f_equal. lra.
  - unfold qs_round. rewrite <- !RtoC_mult, <- RtoC_plus. apply RtoC_neq_0.
    pose proof (exp_increasing (-2 * (1/2) * 2) 0 ltac:(lra)) as H. rewrite exp_0 in H.
    pose proof (exp_pos (-2 * (1/2) * 2)). nra.
Qed.

(** ** C04: single interface conversions *)
Lemma C1b (b : C) : b <> RtoC 1 -> (1 - b)%C <> RtoC 0.
Proof. intros H E. apply H. symmetry. apply Csub_eq0. exact E. Qed.

(** C04. permitivitty undoes refl_coef_qs_single ... *)
Lemma C04_permitivitty_inverts_refl_proof :
  forall ei ej : C, ei <> RtoC 0 -> (ei + ej)%C <> RtoC 0 ->
  permitivitty (refl_coef_qs_single (Some ei) (Some ej)) (Some ei) = Some ej.
Proof.
  intros ei ej Hi Hs. unfold permitivitty, refl_coef_qs_single, cadd, csub, cmul, rc. cbn [olift2].
  assert (Hs' : (ej + ei)%C <> RtoC 0) by (intros E; apply Hs; rewrite <- E; ring).
  rewrite cdiv_ok by exact Hs'. cbn [olift2].
  assert (H2 : (1 - (ej - ei) / (ej + ei))%C = (2 * ei / (ej + ei))%C) by (field; auto).
  rewrite H2.
  rewrite cdiv_ok by (apply Cdiv_neq_0; auto). f_equal. field. repeat split; auto.
Qed.

(** C04. ... and conversely. *)
Lemma C04_refl_inverts_permitivitty_proof :
  forall ei b : C, ei <> RtoC 0 -> b <> RtoC 1 ->
  refl_coef_qs_single (Some ei) (permitivitty (Some b) (Some ei)) = Some b.
Proof.
  intros ei b Hi Hb. unfold permitivitty, refl_coef_qs_single, cadd, csub, cmul, rc. cbn [olift2].
  pose proof (C1b b Hb) as H1.
  rewrite cdiv_ok by exact H1. cbn [olift2].
  assert (H2 : (ei * (1 + b) / (1 - b) + ei)%C = (2 * ei / (1 - b))%C) by (field; auto).
  rewrite H2, cdiv_ok by (apply Cdiv_neq_0; auto). f_equal. field. repeat split; auto.
Qed.

(** C04. Antisymmetry: swapping the media flips the sign (and a vanishing
    denominator stays one). *)
Lemma C04_refl_antisymmetric_proof :
  forall ei ej : C,
  refl_coef_qs_single (Some ej) (Some ei)
  = (rc (-1) * refl_coef_qs_single (Some ei) (Some ej))%cv.
Proof.
  intros ei ej. unfold refl_coef_qs_single, cadd, csub, cmul, rc. cbn [olift2].
  rewrite (Cplus_comm ei ej).
  destruct (Ceq_dec (ej + ei) 0) as [E|E].
  - rewrite E, !cdiv_zero. reflexivity.
  - rewrite !cdiv_ok by exact E. cbn [olift2]. f_equal. field. exact E.
Qed.

(** C04. Only the ratio of the permittivities matters. *)
Lemma C04_refl_scale_invariant_proof :
  forall k ei ej : C, k <> RtoC 0 ->
  refl_coef_qs_single (Some (k * ei)%C) (Some (k * ej)%C)
  = refl_coef_qs_single (Some ei) (Some ej).
Proof.
  intros k ei ej Hk. unfold refl_coef_qs_single, cadd, csub, cmul, rc. cbn [olift2].
  replace (k * ej + k * ei)%C with (k * (ej + ei))%C by ring.
  destruct (Ceq_dec (ej + ei) 0) as [E|E].
  - rewrite E. replace (k * 0)%C with (RtoC 0) by ring. rewrite !cdiv_zero. reflexivity.
  - rewrite !cdiv_ok by auto. f_equal. field. auto.
Qed.

(** ** C12: bulk samples *)
Lemma bulk_refl_any e0 e1 nu q : e1 <> RtoC 0 ->
  refl_coef_qs (stack [e0; e1] [] nu) q = Ok (refl_coef_qs_single (Some e0) (Some e1)) /\
  trans_coef_qs (stack [e0; e1] [] nu) q
    = Ok (Some (2 * e1)%C / Some (e0 + e1)%C)%cv.
Proof.
  intros H. unfold refl_coef_qs, trans_coef_qs, transfer_matrix_qs, trans_matrices_qs, stack.
  cbn [eps_stack map removelast tl combine fst snd multilayer n_layers length].
  rewrite cdiv_ok by exact H. rewrite trans_matrix_Some.
  change (Nat.ltb 2 2) with false. cbn [rbind].
  unfold refl_coef_qs_single, cadd, csub, cmul, rc. cbn.
  replace (e0 + e1)%C with (e1 + e0)%C by ring.
  destruct (Ceq_dec (e1 + e0) 0) as [E|E].
  - replace ((1 + e0 / e1) / 2 * 1)%C with (RtoC 0).
    + rewrite E, !cdiv_zero. auto.
    + replace ((1 + e0 / e1) / 2 * 1)%C with ((e1 + e0) / (2 * e1))%C by (field; auto).
      rewrite E. field. auto.
  - assert (H1 : ((1 + e0 / e1) / 2 * 1)%C = ((e1 + e0) / (2 * e1))%C) by (field; auto).
    rewrite H1. rewrite !cdiv_ok by (auto; apply Cdiv_neq_0; auto).
    split; f_equal; f_equal; field; auto.
Qed.

(** C12. A bulk sample reflects the same at every momentum: the
    single-interface coefficient, which is also its only beta_stack entry. *)
Lemma C12_bulk_refl_independent_of_q_proof :
  forall (e0 e1 : C) nu (q : RV), e1 <> RtoC 0 ->
  refl_coef_qs (stack [e0; e1] [] nu) q = Ok (refl_coef_qs_single (Some e0) (Some e1)) /\
  beta_stack (stack [e0; e1] [] nu) = [refl_coef_qs_single (Some e0) (Some e1)].
Proof. intros e0 e1 nu q H. split; [apply bulk_refl_any; exact H|reflexivity]. Qed.

(** C12. ... with transmission 1 + reflection. *)
Lemma C12_bulk_trans_is_one_plus_refl_proof :
  forall (e0 e1 : C) nu (q : RV) (r t : C), e1 <> RtoC 0 ->
  refl_coef_qs (stack [e0; e1] [] nu) q = Ok (Some r) ->
  trans_coef_qs (stack [e0; e1] [] nu) q = Ok (Some t) ->
  t = (1 + r)%C.
Proof.
  intros e0 e1 nu q r t H Hr Ht. destruct (bulk_refl_any e0 e1 nu q H) as [E1 E2].
  rewrite E1 in Hr. rewrite E2 in Ht. injection Hr as Hr. injection Ht as Ht.
  unfold refl_coef_qs_single, cadd, csub in Hr. cbn [olift2] in Hr.
  apply cdiv_Some in Hr. destruct Hr as (x & y & [= <-] & [= <-] & Hn & ->).
  apply cdiv_Some in Ht. destruct Ht as (x & y & [= <-] & [= <-] & Hn' & ->).
  field. auto.
Qed.

(** example: vacuum on permittivity 3: r = 1/2 and t = 3/2 at every q *)
Lemma C12_example_proof : forall q : RV,
  refl_coef_qs (stack [RtoC 1; RtoC 3] [] None) q = Ok (rc (1/2)) /\
  trans_coef_qs (stack [RtoC 1; RtoC 3] [] None) q = Ok (rc (3/2)).
Proof.
  intros q. destruct (bulk_refl_any (RtoC 1) (RtoC 3) None q) as [E1 E2]; [apply RtoC_neq_0; lra|].
  rewrite E1, E2. unfold refl_coef_qs_single, cadd, csub, rc. cbn [olift2].
  rewrite <- !RtoC_plus, <- !RtoC_minus, <- !RtoC_mult.
  rewrite !cdiv_ok by (apply RtoC_neq_0; lra). rewrite <- !RtoC_div by lra.
  split; do 3 f_equal; lra.
Qed.

(** ** C09: zero momentum *)
Lemma Mqs_0 inner : forall e0 en,
  Forall (fun e => e <> RtoC 0) (map fst inner ++ [en]) ->
  Mqs 0 e0 inner en = pT (e0 / en).
Proof.
  induction inner as [|[e t] rest IH]; intros e0 en H; [reflexivity|].
  cbn in H. apply Forall_cons_iff in H. destruct H as [He Hr].
  unfold Mqs in *. cbn [stackM]. rewrite (IH e en Hr).
  assert (Hn : en <> RtoC 0).
  { rewrite Forall_app in Hr. destruct Hr as [_ Hr]. now inversion Hr. }
  unfold Pqs. rewrite Rmult_0_l, clipR_0, Ropp_0, exp_0, pP_1, pmul_I_l.
  unfold Tqs. rewrite pT_mul. f_equal. field. auto.
Qed.

(** C09. At q = 0 the reflection and transmission of any stack are those of
    the environment/substrate interface alone. *)
Lemma C09_zero_momentum_sees_only_ends_proof :
  forall (e0 : C) (mid : list C) (en : C) (ts : list R) nu,
  length mid = length ts ->
  Forall (fun e => e <> RtoC 0) mid -> en <> RtoC 0 ->
  refl_coef_qs (stack (e0 :: mid ++ [en]) ts nu) (rr 0)
    = Ok (refl_coef_qs_single (Some e0) (Some en)) /\
  trans_coef_qs (stack (e0 :: mid ++ [en]) ts nu) (rr 0)
    = Ok (Some (2 * en)%C / Some (e0 + en)%C)%cv.
Proof.
  intros e0 mid en ts nu Hl Hm Hn.
  destruct (stack_decomp (e0 :: mid ++ [en]) ts) as (a & inner & b & E & ->).
  { simpl. rewrite app_length. simpl. lia. }
  rewrite E, stack_struct.
  unfold eps_of in E. injection E as -> E. apply app_inj_tail in E. destruct E as [-> ->].
  assert (HF : Forall (fun e => e <> RtoC 0) (map fst inner ++ [b])).
  { apply Forall_app. auto. }
  rewrite refl_coef_qs_struct, trans_coef_qs_struct by exact HF.
  rewrite Mqs_0 by exact HF.
  destruct (bulk_refl_any a b nu (rr 0) Hn) as [E1 E2].
  rewrite <- E1, <- E2.
  change (stack [a; b] [] nu) with (qs_sample a [] b nu).
  rewrite refl_coef_qs_struct, trans_coef_qs_struct by (simpl; auto).
  split; reflexivity.
Qed.

(** C09. Hence the point dipole model treats a multilayer sample exactly as
    its bare substrate: same values, same exceptions. *)
Lemma C09_pdm_ignores_inner_layers_proof :
  forall D (e0 : C) (mid : list C) (en : C) (ts : list R) nu
         (A_tip : R) (n : Z) z_tip r_tip eps_tip alpha_tip n_trapz n_tayl,
  length mid = length ts ->
  Forall (fun e => e <> RtoC 0) mid -> en <> RtoC 0 ->
  pdm_eff_pol D (stack (e0 :: mid ++ [en]) ts nu) z_tip r_tip eps_tip alpha_tip
    = pdm_eff_pol D (stack [e0; en] [] nu) z_tip r_tip eps_tip alpha_tip /\
  pdm_eff_pol_n D (stack (e0 :: mid ++ [en]) ts nu) A_tip n z_tip n_trapz r_tip eps_tip alpha_tip
    = pdm_eff_pol_n D (stack [e0; en] [] nu) A_tip n z_tip n_trapz r_tip eps_tip alpha_tip /\
  pdm_eff_pol_n_taylor D (stack (e0 :: mid ++ [en]) ts nu) A_tip n z_tip r_tip eps_tip alpha_tip n_trapz n_tayl
    = pdm_eff_pol_n_taylor D (stack [e0; en] [] nu) A_tip n z_tip r_tip eps_tip alpha_tip n_trapz n_tayl.
Proof.
  intros D e0 mid en ts nu A_tip n z r et at_ N J Hl Hm Hn.
  assert (H : refl_coef_qs (stack (e0 :: mid ++ [en]) ts nu) (rr 0)
              = refl_coef_qs (stack [e0; en] [] nu) (rr 0)).
  { destruct (C09_zero_momentum_sees_only_ends_proof e0 mid en ts nu Hl Hm Hn) as [-> _].
    symmetry. apply (bulk_refl_any e0 en nu (rr 0) Hn). }
  assert (Hp : forall z', pdm_eff_pol D (stack (e0 :: mid ++ [en]) ts nu) z' r et at_
    = pdm_eff_pol D (stack [e0; en] [] nu) z' r et at_).
  { intros z'. unfold pdm_eff_pol. rewrite H. reflexivity. }
  split; [apply Hp|split].
  - unfold pdm_eff_pol_n, demod. rewrite Hp.
    destruct (pdm_eff_pol D (stack [e0; en] [] nu) _ r et at_); simpl; [|reflexivity].
    erewrite mapM_ext; [reflexivity|]. intros; apply Hp.
  - unfold pdm_eff_pol_n_taylor. rewrite H. reflexivity.
Qed.

(** ** C10: equivalent stacks *)
Lemma stackM_app {L} (T : L -> L -> cmat) P i1 : forall l0 l t i2 ln,
  stackM T P l0 (i1 ++ (l, t) :: i2) ln
  = pmul (stackM T P l0 i1 l) (pmul (P l t) (stackM T P l i2 ln)).
Proof.
  induction i1 as [|[a ta] i1 IH]; intros l0 l t i2 ln; [reflexivity|].
  cbn [stackM app]. rewrite IH, !pmul_assoc. reflexivity.
Qed.

(** splitting a two-part stack at a layer boundary *)
Lemma split_decomp {L} (l1 l2 : list L) (t1 t2 : list R) :
  length l1 = (length t1 + 1)%nat -> length l2 = (length t2 + 1)%nat ->
  exists a i1 i2 b, l1 = a :: map fst i1 /\ t1 = map snd i1 /\
                    l2 = map fst i2 ++ [b] /\ t2 = map snd i2.
Proof.
  intros H1 H2. destruct l1 as [|a l1]; [simpl in H1; lia|].
  assert (E : forall (l : list L) (t : list R), length l = length t -> exists i, l = map fst i /\ t = map snd i).
  { induction l as [|x l IH]; intros [|y t] Hl; simpl in Hl; try lia.
    - exists []. auto.
    - destruct (IH t) as (i & -> & ->); [lia|]. exists ((x, y) :: i). auto. }
  destruct (E l1 t1) as (i1 & -> & ->); [simpl in H1; lia|].
  destruct (exists_last (l := l2)) as (l2' & b & ->); [intros ->; simpl in H2; lia|].
  rewrite app_length in H2. simpl in H2.
  destruct (E l2' t2) as (i2 & -> & ->); [lia|].
  exists a, i1, i2, b. auto.
Qed.

Lemma eps_of_app {L} (a : L) i1 (x : list (L * R)) i2 b :
  (a :: map fst i1) ++ map fst x ++ (map fst i2 ++ [b]) = eps_of a (i1 ++ x ++ i2) b.
Proof. unfold eps_of. rewrite !map_app, <- !app_assoc. reflexivity. Qed.

Lemma Forall_tl_struct (e0 : C) inner en :
  nonzero_below (eps_of e0 inner en) = Forall (fun e => e <> RtoC 0) (map fst inner ++ [en]).
Proof. reflexivity. Qed.

Lemma insert_zero_T (i1 : list (C * R)) : forall a e q i2 b,
  Forall (fun e => e <> RtoC 0) (map fst i1 ++ e :: map fst i2 ++ [b]) ->
  Mqs q a (i1 ++ (e, 0) :: i2) b = Mqs q a (i1 ++ i2) b.
Proof.
  unfold Mqs. induction i1 as [|[x tx] i1 IH]; intros a e q i2 b H.
  - cbn in H. apply Forall_cons_iff in H. destruct H as [He H].
    cbn [app stackM]. unfold Pqs at 1. rewrite Rmult_0_r, clipR_0, Ropp_0, exp_0, pP_1, pmul_I_l.
    destruct i2 as [|[y ty] i2].
    + cbn [stackM]. unfold Tqs. rewrite pT_mul. f_equal.
      apply Forall_inv in H. field. auto.
    + cbn [stackM]. rewrite <- pmul_assoc. f_equal. unfold Tqs. rewrite pT_mul. f_equal.
      apply Forall_inv in H. field. auto.
  - cbn [app stackM]. cbn in H. apply Forall_inv_tail in H. rewrite (IH _ _ _ _ _ H). reflexivity.
Qed.

(** C10. Inserting a layer of zero thickness anywhere between environment and
    substrate leaves the quasistatic transfer matrix unchanged.
    [l1]/[t1] are the materials and thicknesses above the insertion point
    (environment included), [l2]/[t2] those below (substrate included). *)
Lemma C10_zero_thickness_layer_invisible_proof :
  forall (l1 l2 : list C) (t1 t2 : list R) (e : C) nu (q : R),
  length l1 = (length t1 + 1)%nat -> length l2 = (length t2 + 1)%nat ->
  nonzero_below (l1 ++ e :: l2) ->
  transfer_matrix_qs (stack (l1 ++ e :: l2) (t1 ++ 0 :: t2) nu) (rr q)
  = transfer_matrix_qs (stack (l1 ++ l2) (t1 ++ t2) nu) (rr q) /\
  refl_coef_qs (stack (l1 ++ e :: l2) (t1 ++ 0 :: t2) nu) (rr q)
  = refl_coef_qs (stack (l1 ++ l2) (t1 ++ t2) nu) (rr q) /\
  trans_coef_qs (stack (l1 ++ e :: l2) (t1 ++ 0 :: t2) nu) (rr q)
  = trans_coef_qs (stack (l1 ++ l2) (t1 ++ t2) nu) (rr q).
Proof.
  intros l1 l2 t1 t2 e nu q H1 H2 Hn.
  destruct (split_decomp l1 l2 t1 t2 H1 H2) as (a & i1 & i2 & b & -> & -> & -> & ->).
  assert (E : transfer_matrix_qs (stack ((a :: map fst i1) ++ e :: map fst i2 ++ [b]) (map snd i1 ++ 0 :: map snd i2) nu) (rr q)
    = transfer_matrix_qs (stack ((a :: map fst i1) ++ map fst i2 ++ [b]) (map snd i1 ++ map snd i2) nu) (rr q)).
  { pose proof (eps_of_app a i1 [(e, 0)] i2 b) as E1. cbn in E1.
    pose proof (eps_of_app a i1 [] i2 b) as E2. cbn in E2.
    cbn [app]. cbn [app] in Hn. rewrite E1 in *. rewrite E2.
    change (0 :: map snd i2) with (map snd ((e, 0) :: i2)). rewrite <- !map_app.
    rewrite !stack_struct.
    rewrite Forall_tl_struct, map_app in Hn. cbn in Hn. rewrite <- app_assoc in Hn. cbn in Hn.
    rewrite !transfer_matrix_qs_struct.
    - rewrite insert_zero_T by exact Hn. reflexivity.
    - rewrite map_app, <- app_assoc. apply Forall_app in Hn. destruct Hn as [Hn1 Hn2].
      apply Forall_app. split; [exact Hn1|]. now apply Forall_inv_tail in Hn2.
    - rewrite map_app, <- app_assoc. exact Hn. }
  split; [exact E|]. unfold refl_coef_qs, trans_coef_qs. rewrite E. auto.
Qed.

Lemma pT_self e : e <> RtoC 0 -> Tqs e e = pI.
Proof. intros H. unfold Tqs. replace (e / e)%C with (RtoC 1) by (field; auto). apply pT_1. Qed.

Lemma split_T (i1 : list (C * R)) : forall a e q x y i2 b,
  e <> RtoC 0 -> 0 <= q * x -> 0 <= q * y -> q * (x + y) <= MAX_EXP_ARG ->
  Mqs q a (i1 ++ (e, x) :: (e, y) :: i2) b = Mqs q a (i1 ++ (e, x + y) :: i2) b.
Proof.
  unfold Mqs. induction i1 as [|[u tu] i1 IH]; intros a e q x y i2 b He Hx Hy Hm.
  - cbn [app stackM]. f_equal. rewrite pT_self, pmul_I_l by exact He.
    rewrite <- pmul_assoc. f_equal. unfold Pqs. rewrite pP_mul.
    rewrite !clipR_id by (rewrite Rabs_pos_eq; lra).
    rewrite <- !RtoC_mult, <- !exp_plus. f_equal; f_equal; f_equal; ring.
  - cbn [app stackM]. rewrite IH by assumption. reflexivity.
Qed.

(** C10. Splitting a layer of thickness x + y into two layers of the same
    material of thicknesses x and y changes nothing. *)
Lemma C10_split_layer_invisible_proof :
  forall (l1 l2 : list C) (t1 t2 : list R) (e : C) nu (q x y : R),
  length l1 = (length t1 + 1)%nat -> length l2 = (length t2 + 1)%nat ->
  nonzero_below (l1 ++ e :: l2) ->
  0 <= q * x -> 0 <= q * y -> q * (x + y) <= MAX_EXP_ARG ->
  transfer_matrix_qs (stack (l1 ++ e :: e :: l2) (t1 ++ x :: y :: t2) nu) (rr q)
  = transfer_matrix_qs (stack (l1 ++ e :: l2) (t1 ++ (x + y) :: t2) nu) (rr q) /\
  refl_coef_qs (stack (l1 ++ e :: e :: l2) (t1 ++ x :: y :: t2) nu) (rr q)
  = refl_coef_qs (stack (l1 ++ e :: l2) (t1 ++ (x + y) :: t2) nu) (rr q) /\
  trans_coef_qs (stack (l1 ++ e :: e :: l2) (t1 ++ x :: y :: t2) nu) (rr q)
  = trans_coef_qs (stack (l1 ++ e :: l2) (t1 ++ (x + y) :: t2) nu) (rr q).
Proof.
  intros l1 l2 t1 t2 e nu q x y H1 H2 Hn Hx Hy Hm.
  destruct (split_decomp l1 l2 t1 t2 H1 H2) as (a & i1 & i2 & b & -> & -> & -> & ->).
  assert (E : transfer_matrix_qs (stack ((a :: map fst i1) ++ e :: e :: map fst i2 ++ [b]) (map snd i1 ++ x :: y :: map snd i2) nu) (rr q)
    = transfer_matrix_qs (stack ((a :: map fst i1) ++ e :: map fst i2 ++ [b]) (map snd i1 ++ (x + y) :: map snd i2) nu) (rr q)).
  { pose proof (eps_of_app a i1 [(e, x); (e, y)] i2 b) as E1. cbn in E1.
    pose proof (eps_of_app a i1 [(e, x + y)] i2 b) as E2. cbn in E2.
    cbn [app]. cbn [app] in Hn. rewrite E1. rewrite E2 in *.
    change (x :: y :: map snd i2) with (map snd ((e, x) :: (e, y) :: i2)).
    change ((x + y) :: map snd i2) with (map snd ((e, x + y) :: i2)).
    rewrite <- !map_app. rewrite !stack_struct.
    rewrite Forall_tl_struct, map_app in Hn. cbn in Hn. rewrite <- app_assoc in Hn. cbn in Hn.
    assert (He : e <> RtoC 0).
    { apply Forall_app in Hn. destruct Hn as [_ Hn]. now inversion Hn. }
    rewrite !transfer_matrix_qs_struct.
    - rewrite split_T by assumption. reflexivity.
    - rewrite map_app, <- app_assoc. exact Hn.
    - rewrite map_app, <- app_assoc. cbn. apply Forall_app in Hn. destruct Hn as [Hn1 Hn2].
      apply Forall_app. auto. }
  split; [exact E|]. unfold refl_coef_qs, trans_coef_qs. rewrite E. auto.
Qed.
