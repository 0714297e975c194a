(** * Proofs: the documented quadrature rule, and convergence of the momentum
    integrals to the documented ones as n_lag grows *)
From Coq Require Import String Reals Lra Lia ZArith List Bool Permutation.
From Coquelicot Require Import Coquelicot.
From Coq Require Import List.
From Verif Require Import Num NumLemmas ModelBase ModelSample ModelTip StackLemmas Spec
  ProofsStackQS ProofsStackQS2 ProofsSym ProofsPassive SpecQuad Laguerre Laguerre2 QuadConv
  SpecWave WaveLemmas.
Import ListNotations.
Open Scope R_scope.

(** ** The documented rule *)
(** C58. For every order the rule of the docstring (roots of the Laguerre
    polynomial, weights x / ((J+1) L_(J+1)(x))^2) exists ... *)
Lemma C58_documented_rule_exists_proof :
  forall J, (0 < J)%nat -> exists rule, documented_rule J rule.
Proof. exact documented_exists. Qed.

(** C58. ... is unique up to the order of its nodes ... *)
Lemma C58_documented_rule_unique_proof :
  forall J rule rule', (0 < J)%nat -> documented_rule J rule -> documented_rule J rule' -> Permutation rule rule'.
Proof.
  intros J rule rule' HJ (L1 & N1 & R1) (L2 & N2 & R2).
  assert (Sub : forall xw, In xw rule -> In xw rule').
  { intros xw Hin. rewrite Forall_forall in R1, R2. destruct (R1 xw Hin) as [Hr Hw].
    destruct (in_dec Req_EM_T (fst xw) (map fst rule')) as [Hi|Hni].
    - apply in_map_iff in Hi. destruct Hi as (xw' & E & Hin'). destruct (R2 xw' Hin') as [_ Hw'].
      assert (xw' = xw); [|subst; exact Hin']. destruct xw, xw'. simpl in *. subst. reflexivity.
    - exfalso.
      assert (Z : pzero (lagp J)).
      { apply (roots_zero (fst xw :: map fst rule')).
        - constructor; assumption.
        - simpl. rewrite map_length, L2. apply lagp_len.
        - constructor; [rewrite lagp_ev, <- lag_laguerre; exact Hr|]. apply Forall_forall. intros x Hx.
          apply in_map_iff in Hx. destruct Hx as (xw' & <- & Hin'). rewrite lagp_ev, <- lag_laguerre. apply R2. exact Hin'. }
      pose proof (ev_zero (lagp J) 0 Z) as E. rewrite lagp_ev, lag_at_0 in E. lra. }
  apply NoDup_Permutation_bis.
  - exact (NoDup_map_inv fst rule N1).
  - lia.
  - exact Sub.
Qed.

(** C58. ... has positive nodes and weights and integrates every power below
    x^(2J) against e^-x exactly; in particular it meets the assumption under
    which C14 and C23-C25 are stated. *)
Lemma limI_integral (f : R -> R) l : cont f -> limI f l -> integral_to_infinity (fun x => f x * exp (- x)) l.
Proof.
  intros Hc H. split; [intros b _; apply ib_ex; exact Hc|]. apply is_lim_spec. intros eps.
  destruct (H eps (cond_pos eps)) as [B HB]. exists (Rmax 0 B). intros b Hb.
  pose proof (Rmax_l 0 B). pose proof (Rmax_r 0 B). apply HB; lra.
Qed.
Lemma C58_documented_rule_exact_proof :
  forall J rule, (0 < J)%nat -> documented_rule J rule ->
  Forall (fun xw => 0 < fst xw /\ 0 < snd xw) rule /\
  (forall k, (k < 2 * J)%nat ->
     integral_to_infinity (fun x => x ^ k * exp (- x)) (Rsum (map (fun xw => snd xw * fst xw ^ k) rule))) /\
  laguerre_rule rule.
Proof.
  intros J rule HJ HD. destruct (documented_exact J rule HJ HD) as [P E]. split; [exact P|]. split.
  - intros k Hk. specialize (E k Hk). unfold qsum in E. unfold Rsum. rewrite E.
    apply (limI_integral (fun x => x ^ k)); [apply cont_pow|apply limI_pow].
  - split; [exact P|]. pose proof (E 0%nat ltac:(lia)) as E0. pose proof (E 1%nat ltac:(lia)) as E1.
    unfold qsum in *. unfold Rsum. simpl in E0, E1. split.
    + rewrite <- E0. f_equal. apply map_ext. intros; ring.
    + rewrite <- E1. f_equal. apply map_ext. intros; ring.
Qed.

(** ** The reflection coefficient as a function of the momentum *)
Lemma fc_inv f z : f z <> RtoC 0 -> fcont f z -> fcont (fun x => / f x)%C z.
Proof.
  intros Hn [H1 H2].
  assert (N : Re (f z) * Re (f z) + Im (f z) * Im (f z) <> 0).
  { intros E. apply Hn. assert (Re (f z) = 0 /\ Im (f z) = 0) as [E1 E2].
    { pose proof (Rle_0_sqr (Re (f z))). pose proof (Rle_0_sqr (Im (f z))). unfold Rsqr in *.
      split; apply Rsqr_0_uniq; unfold Rsqr; lra. }
    apply C_eq; assumption. }
  assert (D : continuity_pt (fun x => / (Re (f x) * Re (f x) + Im (f x) * Im (f x))) z).
  { apply (continuity_pt_inv (fun x => Re (f x) * Re (f x) + Im (f x) * Im (f x))); [|exact N].
    apply (continuity_pt_plus (fun x => Re (f x) * Re (f x)) (fun x => Im (f x) * Im (f x)));
      apply (continuity_pt_mult (fun x => _ (f x)) (fun x => _ (f x))); assumption. }
  split.
  - apply (continuity_pt_ext (fun x => Re (f x) * / (Re (f x) * Re (f x) + Im (f x) * Im (f x)))).
    + intros x. unfold Cinv, Re, Im. simpl. unfold Rdiv. do 2 f_equal. ring.
    + apply (continuity_pt_mult (fun x => Re (f x))); assumption.
  - apply (continuity_pt_ext (fun x => (- Im (f x)) * / (Re (f x) * Re (f x) + Im (f x) * Im (f x)))).
    + intros x. unfold Cinv, Re, Im. simpl. unfold Rdiv. do 2 f_equal. ring.
    + apply (continuity_pt_mult (fun x => - Im (f x))); [|exact D]. apply (continuity_pt_opp (fun x => Im (f x))). exact H2.
Qed.
Lemma fc_R (f : R -> R) z : continuity_pt f z -> fcont (fun x => RtoC (f x)) z.
Proof. intros H. split; [exact H|]. apply continuity_pt_const. intros x y. reflexivity. Qed.
Lemma fc_comp f (g : R -> R) z : continuity_pt g z -> fcont f (g z) -> fcont (fun x => f (g x)) z.
Proof.
  intros Hg [H1 H2]. split.
  - apply (continuity_pt_comp g (fun x => Re (f x))); assumption.
  - apply (continuity_pt_comp g (fun x => Im (f x))); assumption.
Qed.
Lemma clipR_lip x y : Rabs (clipR x - clipR y) <= Rabs (x - y).
Proof.
  unfold clipR, Rmin, Rmax. repeat (destruct (Rle_dec _ _)); unfold Rabs; repeat destruct (Rcase_abs _); lra.
Qed.
Lemma clipR_cont x : continuity_pt clipR x.
Proof.
  intros eps He. exists eps. split; [exact He|]. intros y [_ Hy]. simpl in *. unfold R_dist in *.
  pose proof (clipR_lip y x). lra.
Qed.
Definition mcont (M : R -> cmat) (q : R) : Prop :=
  fcont (fun x => c00 (M x)) q /\ fcont (fun x => c01 (M x)) q /\ fcont (fun x => c10 (M x)) q /\ fcont (fun x => c11 (M x)) q.
Lemma mcont_mul M N q : mcont M q -> mcont N q -> mcont (fun x => pmul (M x) (N x)) q.
Proof.
  intros (a & b & c & d) (a' & b' & c' & d'). unfold mcont, pmul. cbn [c00 c01 c10 c11].
  repeat match goal with |- _ /\ _ => split end;
    first [solve [apply fc_plus; apply fc_mult; assumption]
          | idtac].
Qed.
Lemma Mqs_cont inner : forall e0 en q, mcont (fun q => Mqs q e0 inner en) q.
Proof.
  induction inner as [|[l t] rest IH]; intros e0 en q; unfold Mqs; cbn [stackM].
  - unfold Tqs, pT. repeat (split; [apply fc_const|]). apply fc_const.
  - apply (mcont_mul (fun _ => Tqs e0 l)).
    + unfold Tqs, pT. repeat (split; [apply fc_const|]). apply fc_const.
    + apply (mcont_mul (fun q => Pqs q l t) (fun q => stackM Tqs (Pqs q) l rest en)); [|apply IH].
      assert (K : forall s, continuity_pt (fun q => exp (s * clipR (q * t))) q).
      { intros s. apply (continuity_pt_comp (fun q => s * clipR (q * t)) exp).
        - apply (continuity_pt_mult (fun _ => s) (fun q => clipR (q * t))); [apply continuity_pt_const; intros x y; reflexivity|].
          apply (continuity_pt_comp (fun q => q * t) clipR); [|apply clipR_cont].
          apply (continuity_pt_mult (fun q => q) (fun _ => t)); [apply derivable_continuous_pt, derivable_pt_id|].
          apply continuity_pt_const. intros x y; reflexivity.
        - apply derivable_continuous_pt, derivable_pt_exp. }
      unfold mcont, Pqs, pP. cbn [c00 c01 c10 c11]. split; [|split; [apply fc_const|split; [apply fc_const|]]]; apply fc_R.
      * apply (continuity_pt_ext (fun q => exp (1 * clipR (q * t)))); [intros; now rewrite Rmult_1_l|apply K].
      * apply (continuity_pt_ext (fun q => exp (-1 * clipR (q * t)))); [intros; f_equal; ring|apply K].
Qed.
(** beyond some momentum every layer is clipped *)
Lemma Mqs_eventually inner : forall e0 en, exists Q, 0 <= Q /\ forall q, Q <= q -> Mqs q e0 inner en = Mqs Q e0 inner en.
Proof.
  induction inner as [|[l t] rest IH]; intros e0 en.
  - exists 0. split; [lra|]. reflexivity.
  - destruct (IH l en) as [Q1 [HQ1 H1]].
    assert (Hmax : 0 < MAX_EXP_ARG) by apply MAX_pos.
    assert (Ht : exists Q2, 0 <= Q2 /\ exists v, forall q, Q2 <= q -> clipR (q * t) = v).
    { destruct (Rtotal_order t 0) as [Hneg|[->|Hpos]].
      - exists (MAX_EXP_ARG / (- t)). split; [apply Rdiv_le_0_compat; lra|]. exists (- MAX_EXP_ARG). intros q Hq.
        assert (MAX_EXP_ARG <= q * (- t)).
        { replace MAX_EXP_ARG with (MAX_EXP_ARG / - t * - t) by (field; lra). apply Rmult_le_compat_r; lra. }
        unfold clipR. rewrite Rmax_right by lra. apply Rmin_left. lra.
      - exists 0. split; [lra|]. exists (clipR 0). intros q _. now rewrite Rmult_0_r.
      - exists (MAX_EXP_ARG / t). split; [apply Rdiv_le_0_compat; lra|]. exists MAX_EXP_ARG. intros q Hq.
        assert (MAX_EXP_ARG <= q * t).
        { replace MAX_EXP_ARG with (MAX_EXP_ARG / t * t) by (field; lra). apply Rmult_le_compat_r; lra. }
        unfold clipR. rewrite Rmax_left by lra. apply Rmin_right. lra. }
    destruct Ht as (Q2 & HQ2 & v & H2).
    exists (Rmax Q1 Q2). pose proof (Rmax_l Q1 Q2). pose proof (Rmax_r Q1 Q2). split; [lra|]. intros q Hq.
    unfold Mqs in *. cbn [stackM]. rewrite (H1 q), (H1 (Rmax Q1 Q2)) by lra.
    unfold Pqs. rewrite (H2 q), (H2 (Rmax Q1 Q2)) by lra. reflexivity.
Qed.

(** everything about one real component of beta *)
Section Component.
  Context (rule : nat -> list (R * R)) (HR : forall J, (0 < J)%nat -> documented_rule J (rule J)).
  Context (z : R) (Hz : 0 < z) (g : R -> R).
  Context (Hg : forall q, 0 <= q -> continuity_pt (fun q => g (Rabs q)) q).
  Context (Q : R) (HQ0 : 0 <= Q) (HQ : forall q, Q <= q -> g q = g Q).

  Lemma rules_exact : exact_rules rule.
  Proof. intros n Hn. apply (documented_exact n (rule n) Hn). apply HR. exact Hn. Qed.
  Definition G (x : R) : R := g (Rabs (x / (2 * z))).
  Lemma G_cont : cont G.
  Proof.
    intros x. apply continuity_pt_filterlim. unfold G.
    assert (H0 : continuity_pt (fun q => g (Rabs q)) (Rabs (x / (2 * z)))) by (apply Hg, Rabs_pos).
    apply (continuity_pt_ext (fun x => (fun q => g (Rabs q)) (Rabs (x / (2 * z))))).
    { intros y. simpl. now rewrite Rabs_Rabsolu. }
    apply (continuity_pt_comp (fun x => Rabs (x / (2 * z))) (fun q => g (Rabs q))); [|exact H0].
    apply (continuity_pt_comp (fun x => x / (2 * z)) Rabs); [|apply Rcontinuity_abs].
    apply (continuity_pt_mult (fun x => x) (fun _ => / (2 * z))); [apply derivable_continuous_pt, derivable_pt_id|].
    apply continuity_pt_const. intros u v; reflexivity.
  Qed.
  Lemma G_lim : is_lim G p_infty (g Q).
  Proof.
    apply is_lim_spec. intros eps. exists (2 * z * Q). intros x Hx. unfold G.
    assert (Hq : Q <= x / (2 * z)).
    { apply (Rmult_le_reg_r (2 * z)); [lra|]. replace (x / (2 * z) * (2 * z)) with x by (field; lra). lra. }
    rewrite (Rabs_pos_eq (x / (2 * z))) by lra. rewrite (HQ _ Hq). rewrite Rminus_diag_eq, Rabs_R0 by reflexivity. apply cond_pos.
  Qed.
  Lemma component k : exists l,
    integral_to_infinity (fun q => g q * (q ^ k * exp (- 2 * z * q))) (l / (2 * z) ^ S k) /\
    is_lim_seq (fun n => qsum (fun x => x ^ k * g (x / (2 * z))) (rule (S n))) l.
  Proof.
    destruct (cv_limit rule rules_exact G (g Q) k G_cont G_lim) as [l (Hc & HI & HL)]. exists l. split.
    - destruct (limI_integral _ _ Hc HI) as [E1 E2].
      assert (Ex : forall b, 0 <= b -> is_RInt (fun q => g q * (q ^ k * exp (- 2 * z * q))) 0 b
                 (/ (2 * z) ^ S k * RInt (fun x => x ^ k * G x * exp (- x)) 0 (2 * z * b))).
      { intros b Hb. assert (Hb2 : 0 <= 2 * z * b) by (apply Rmult_le_pos; lra).
        pose proof (RInt_correct (V := R_CompleteNormedModule) _ _ _ (E1 (2 * z * b) Hb2)) as I.
        assert (I' : is_RInt (fun x => x ^ k * G x * exp (- x)) (2 * z * 0 + 0) (2 * z * b + 0)
                       (RInt (fun x => x ^ k * G x * exp (- x)) 0 (2 * z * b))).
        { replace (2 * z * 0 + 0) with 0 by ring. replace (2 * z * b + 0) with (2 * z * b) by ring. exact I. }
        apply (is_RInt_comp_lin (V := R_NormedModule)) in I'.
        apply (is_RInt_scal (V := R_NormedModule) _ _ _ (/ (2 * z) ^ S k)) in I'.
        refine (is_RInt_ext _ _ _ _ _ _ I'). intros q Hq. rewrite Rmin_left, Rmax_right in Hq by lra.
        unfold scal. simpl. unfold mult. simpl. unfold G.
        replace ((2 * z * q + 0) / (2 * z)) with q by (field; lra). rewrite Rabs_pos_eq by lra.
        replace (2 * z * q + 0) with (2 * z * q) by ring. replace (- (2 * z * q)) with (- 2 * z * q) by ring.
        rewrite !Rpow_mult_distr. assert (2 ^ k <> 0) by (apply pow_nonzero; lra). assert (z ^ k <> 0) by (apply pow_nonzero; lra).
        match goal with |- ?a = ?b => change (@eq R a b) end. field. repeat split; lra. }
      split; [intros b Hb; eexists; apply (Ex b Hb)|].
      apply (is_lim_ext_loc (fun b => / (2 * z) ^ S k * RInt (fun x => x ^ k * G x * exp (- x)) 0 (2 * z * b))).
      + exists 0. intros b Hb. symmetry. apply (is_RInt_unique (V := R_CompleteNormedModule)). apply Ex. lra.
      + replace (Finite (l / (2 * z) ^ S k)) with (Rbar_mult (/ (2 * z) ^ S k) l) by (simpl; f_equal; unfold Rdiv; ring).
        apply (is_lim_scal_l (fun b => RInt (fun x => x ^ k * G x * exp (- x)) 0 (2 * z * b))).
        apply (is_lim_comp (fun y => RInt (fun x => x ^ k * G x * exp (- x)) 0 y) (fun b => 2 * z * b) p_infty l p_infty).
        * exact E2.
        * apply is_lim_spec. intros M. exists (M / (2 * z)). intros b Hb.
          apply (Rmult_lt_compat_r (2 * z)) in Hb; [|lra]. replace (M / (2 * z) * (2 * z)) with M in Hb by (field; lra). lra.
        * exists 0. intros b _. discriminate.
    - apply is_lim_seq_spec. intros eps. destruct (HL eps (cond_pos eps)) as [N HN]. exists N. intros n Hn.
      replace (qsum (fun x => x ^ k * g (x / (2 * z))) (rule (S n))) with (qsum (fun x => x ^ k * G x) (rule (S n))); [apply HN; lia|].
      destruct (rules_exact (S n) ltac:(lia)) as [P _]. unfold qsum. f_equal. apply map_ext_in. intros xw Hin.
      rewrite Forall_forall in P. destruct (P xw Hin) as [Px _]. unfold G. rewrite Rabs_pos_eq; [reflexivity|].
      apply Rlt_le, Rdiv_lt_0_compat; lra.
  Qed.
End Component.

Lemma Csum_qsum (f : R -> C) (u : R -> R) (r : list (R * R)) :
  Csum (map (fun xw => RtoC (snd xw * u (fst xw)) * f (fst xw))%C r)
  = (qsum (fun x => u x * Re (f x)) r, qsum (fun x => u x * Im (f x)) r).
Proof.
  unfold Csum, qsum. induction r as [|[x w] r IH]; [reflexivity|]. cbn [map fold_right fst snd]. rewrite IH.
  apply injective_projections; unfold Re, Im; simpl; ring.
Qed.

(** the coefficient of a stack as one function of q, continuous and finally constant *)
Lemma stack_beta e0 inner en nu (b : R -> C) :
  Forall (fun e => e <> RtoC 0) (map fst inner ++ [en]) ->
  (forall q, 0 <= q -> refl_coef_qs (qs_sample e0 inner en nu) (rr q) = Ok (Some (b q))) ->
  (forall q, 0 <= q -> fcont (fun q => b (Rabs q)) q) /\
  exists Q, 0 <= Q /\ forall q, Q <= q -> b q = b Q.
Proof.
  intros Hn Hb.
  assert (K : forall q, 0 <= q -> c00 (Mqs q e0 inner en) <> RtoC 0 /\ b q = (c10 (Mqs q e0 inner en) * / c00 (Mqs q e0 inner en))%C).
  { intros q Hq. specialize (Hb q Hq). rewrite refl_coef_qs_struct in Hb by exact Hn. injection Hb as Hb.
    apply cdiv_Some in Hb. destruct Hb as (x & y & [= <-] & [= <-] & Hy & Hr). split; [exact Hy|exact Hr]. }
  split.
  - intros q Hq.
    apply (fc_ext (fun q => (c10 (Mqs (Rabs q) e0 inner en) * / c00 (Mqs (Rabs q) e0 inner en))%C)).
    { intros x. symmetry. apply K, Rabs_pos. }
    destruct (Mqs_cont inner e0 en (Rabs q)) as (H0 & _ & H1 & _).
    apply (fc_mult (fun q => c10 (Mqs (Rabs q) e0 inner en)) (fun q => / c00 (Mqs (Rabs q) e0 inner en))%C).
    + apply (fc_comp (fun q => c10 (Mqs q e0 inner en)) Rabs); [apply Rcontinuity_abs|exact H1].
    + apply (fc_inv (fun q => c00 (Mqs (Rabs q) e0 inner en))); [apply K, Rabs_pos|].
      apply (fc_comp (fun q => c00 (Mqs q e0 inner en)) Rabs); [apply Rcontinuity_abs|exact H0].
  - destruct (Mqs_eventually inner e0 en) as [Q [HQ H]]. exists Q. split; [exact HQ|]. intros q Hq.
    destruct (K q ltac:(lra)) as [_ ->]. destruct (K Q HQ) as [_ ->]. rewrite (H q Hq). reflexivity.
Qed.

Lemma RtoC_div_parts (a : C) (r : R) : r <> 0 -> (a / RtoC r)%C = (Re a / r, Im a / r).
Proof. intros H. apply injective_projections; unfold Re, Im, Rdiv; simpl; field; exact H. Qed.
Lemma lim_div (u : nat -> R) (l r : R) : is_lim_seq u l -> is_lim_seq (fun n => u n / r) (l / r).
Proof.
  intros H. apply (is_lim_seq_ext (fun n => / r * u n)); [intros; unfold Rdiv; ring|].
  replace (Finite (l / r)) with (Rbar_mult (/ r) l) by (simpl; f_equal; unfold Rdiv; ring).
  apply is_lim_seq_scal_l. exact H.
Qed.
Lemma integral_ext f g l : (forall x, f x = g x) -> integral_to_infinity f l -> integral_to_infinity g l.
Proof.
  intros E [H1 H2]. split.
  - intros b Hb. apply (ex_RInt_ext f); [intros; apply E|]. apply H1. exact Hb.
  - apply (is_lim_ext (fun b => RInt f 0 b)); [|exact H2]. intros b. apply RInt_ext. intros; apply E.
Qed.
Lemma integral_unique f l l' : integral_to_infinity f l -> integral_to_infinity f l' -> l = l'.
Proof. intros [_ H1] [_ H2]. apply is_lim_unique in H1, H2. rewrite H1 in H2. now injection H2. Qed.
Lemma Cintegral_unique f l l' : Cintegral_to_infinity f l -> Cintegral_to_infinity f l' -> l = l'.
Proof.
  intros [H1 H2] [H1' H2']. apply injective_projections; [exact (integral_unique _ _ _ H1 H1')|exact (integral_unique _ _ _ H2 H2')].
Qed.

(** one momentum integral: limit of the quadrature sums, and its value *)
Lemma beta_integral (rule : nat -> list (R * R)) e0 inner en nu (b : R -> C) z k :
  (forall J, (0 < J)%nat -> documented_rule J (rule J)) -> 0 < z ->
  Forall (fun e => e <> RtoC 0) (map fst inner ++ [en]) ->
  (forall q, 0 <= q -> refl_coef_qs (qs_sample e0 inner en nu) (rr q) = Ok (Some (b q))) ->
  exists I : C,
    Cintegral_to_infinity (fun q => b q * RtoC (q ^ k * exp (- 2 * z * q)))%C I /\
    Cseq_lim (fun n => Csum (map (fun xw => RtoC (snd xw * fst xw ^ k) * b (fst xw / (2 * z))%R)%C (rule (S n))) / RtoC ((2 * z) ^ S k))%C I.
Proof.
  intros HR Hz Hn Hb. destruct (stack_beta e0 inner en nu b Hn Hb) as [Hc (Q & HQ0 & HQ)].
  assert (Hp : (2 * z) ^ S k <> 0) by (apply pow_nonzero; lra).
  destruct (component rule HR z Hz (fun q => Re (b q)) (fun q Hq => proj1 (Hc q Hq)) Q HQ0 (fun q Hq => f_equal Re (HQ q Hq)) k) as (l1 & I1 & S1).
  destruct (component rule HR z Hz (fun q => Im (b q)) (fun q Hq => proj2 (Hc q Hq)) Q HQ0 (fun q Hq => f_equal Im (HQ q Hq)) k) as (l2 & I2 & S2).
  exists (l1 / (2 * z) ^ S k, l2 / (2 * z) ^ S k). split.
  - split; [refine (integral_ext _ _ _ _ I1)|refine (integral_ext _ _ _ _ I2)];
      intros q; unfold Re, Im; simpl; ring.
  - split; [change (Re (l1 / (2 * z) ^ S k, l2 / (2 * z) ^ S k)) with (l1 / (2 * z) ^ S k)
             |change (Im (l1 / (2 * z) ^ S k, l2 / (2 * z) ^ S k)) with (l2 / (2 * z) ^ S k)].
    + apply (is_lim_seq_ext (fun n => qsum (fun x => x ^ k * Re (b (x / (2 * z)))) (rule (S n)) / (2 * z) ^ S k)).
      * intros n. rewrite RtoC_div_parts by exact Hp. rewrite (Csum_qsum (fun x => b (x / (2 * z))) (fun x => x ^ k)). reflexivity.
      * apply lim_div. exact S1.
    + apply (is_lim_seq_ext (fun n => qsum (fun x => x ^ k * Im (b (x / (2 * z)))) (rule (S n)) / (2 * z) ^ S k)).
      * intros n. rewrite RtoC_div_parts by exact Hp. rewrite (Csum_qsum (fun x => b (x / (2 * z))) (fun x => x ^ k)). reflexivity.
      * apply lim_div. exact S2.
Qed.

Lemma stack_inner (e0 : C) mid en ts nu :
  length mid = length ts -> Forall (fun e => e <> RtoC 0) mid -> en <> RtoC 0 ->
  exists inner, stack (e0 :: mid ++ [en]) ts nu = qs_sample e0 inner en nu /\ Forall (fun e => e <> RtoC 0) (map fst inner ++ [en]).
Proof.
  intros Hl Hm He. destruct (stack_decomp (e0 :: mid ++ [en]) ts) as (a & inner & c & E & ->).
  { simpl. rewrite app_length. simpl. lia. }
  exists inner. rewrite E, stack_struct. unfold eps_of in E. injection E as <- E. apply app_inj_tail in E. destruct E as [-> <-].
  split; [reflexivity|]. apply Forall_app. split; [exact Hm|constructor; [exact He|constructor]].
Qed.

(** C59. surf_pot_and_field: both documented integrals exist and the sums of the
    code converge to them as n_lag grows. *)
Lemma C59_surf_pot_and_field_converges_proof :
  forall (laggauss : laggauss_t) (D : Defaults) (e0 : C) (mid : list C) (en : C) (ts : list R) nu (z : R) (b : R -> C),
  (forall J, (0 < J)%nat -> documented_rule J (laggauss J)) ->
  length mid = length ts -> Forall (fun e => e <> RtoC 0) mid -> en <> RtoC 0 -> 0 < z ->
  (forall q, 0 <= q -> refl_coef_qs (stack (e0 :: mid ++ [en]) ts nu) (rr q) = Ok (Some (b q))) ->
  exists (phi E : C) (u v : nat -> C),
    Cintegral_to_infinity (fun q => b q * RtoC (exp (- 2 * z * q)))%C phi /\
    Cintegral_to_infinity (fun q => b q * RtoC (q * exp (- 2 * z * q)))%C E /\
    (forall n, surf_pot_and_field laggauss D (stack (e0 :: mid ++ [en]) ts nu) (rr z) (Some (S n)) = Ok (Some (u n), Some (v n))) /\
    Cseq_lim u phi /\ Cseq_lim v E.
Proof.
  intros lg D e0 mid en ts nu z b HR Hl Hm He Hz Hb.
  destruct (stack_inner e0 mid en ts nu Hl Hm He) as (inner & Es & Hn). rewrite Es in *.
  destruct (beta_integral lg e0 inner en nu b z 0 HR Hz Hn Hb) as (phi & I0 & S0).
  destruct (beta_integral lg e0 inner en nu b z 1 HR Hz Hn Hb) as (E & I1 & S1).
  exists phi, E. eexists. eexists. split; [|split; [|split; [|split; [exact S0|exact S1]]]].
  - destruct I0 as [J1 J2]. split; [refine (integral_ext _ _ _ _ J1)|refine (integral_ext _ _ _ _ J2)];
      intros q; unfold Re, Im; simpl; ring.
  - destruct I1 as [J1 J2]. split; [refine (integral_ext _ _ _ _ J1)|refine (integral_ext _ _ _ _ J2)];
      intros q; unfold Re, Im; simpl; ring.
  - intros n. rewrite (surf_ok lg D _ z (Some (S n)) b).
    + cbn [dflt]. do 3 f_equal.
      * f_equal; [|f_equal; ring]. f_equal. apply map_ext. intros xw. do 2 f_equal. ring.
      * f_equal; [|f_equal; ring]. f_equal. apply map_ext. intros xw. do 2 f_equal. ring.
    + discriminate.
    + lra.
    + intros xw Hin. apply Hb. cbn [dflt] in Hin.
      destruct (documented_exact (S n) (lg (S n)) ltac:(lia) (HR (S n) ltac:(lia))) as [P _].
      rewrite Forall_forall in P. destruct (P xw Hin). apply Rlt_le, Rdiv_lt_0_compat; lra.
    + eexists. apply Hb. lra.
Qed.
