(** * Proofs: convergence of the average and of the image charge *)
From Coq Require Import String Reals Lra Lia ZArith List Bool Permutation.
From Coquelicot Require Import Coquelicot.
From Coq Require Import List.
From Verif Require Import Num NumLemmas ModelBase ModelSample ModelTip StackLemmas Spec
  ProofsStackQS ProofsStackQS2 ProofsSym ProofsPassive SpecQuad Laguerre Laguerre2 QuadConv
  SpecWave WaveLemmas ProofsQuad.
Import ListNotations.
Open Scope R_scope.

(** ** Limits of complex sequences *)
Lemma Cl_mult u v a b : Cseq_lim u a -> Cseq_lim v b -> Cseq_lim (fun n => u n * v n)%C (a * b)%C.
Proof.
  intros [Hu1 Hu2] [Hv1 Hv2]. split.
  - apply (is_lim_seq_ext (fun n => Re (u n) * Re (v n) - Im (u n) * Im (v n))); [reflexivity|].
    change (Finite (Re (a * b)%C)) with (Finite (Re a * Re b - Im a * Im b)).
    apply is_lim_seq_minus'; apply is_lim_seq_mult'; assumption.
  - apply (is_lim_seq_ext (fun n => Re (u n) * Im (v n) + Im (u n) * Re (v n))); [reflexivity|].
    change (Finite (Im (a * b)%C)) with (Finite (Re a * Im b + Im a * Re b)).
    apply is_lim_seq_plus'; apply is_lim_seq_mult'; assumption.
Qed.
Lemma nrm2_pos (a : C) : a <> RtoC 0 -> 0 < Re a * Re a + Im a * Im a.
Proof.
  intros H. pose proof (Rle_0_sqr (Re a)). pose proof (Rle_0_sqr (Im a)). unfold Rsqr in *.
  assert (Re a * Re a + Im a * Im a <> 0); [|lra]. intros E. apply H.
  apply C_eq; apply Rsqr_0_uniq; unfold Rsqr; lra.
Qed.
Lemma Cl_inv v b : b <> RtoC 0 -> Cseq_lim v b -> Cseq_lim (fun n => / v n)%C (/ b)%C.
Proof.
  intros Hb [H1 H2]. pose proof (nrm2_pos b Hb) as Hp.
  assert (HN : is_lim_seq (fun n => Re (v n) * Re (v n) + Im (v n) * Im (v n)) (Re b * Re b + Im b * Im b)).
  { apply is_lim_seq_plus'; apply is_lim_seq_mult'; assumption. }
  split.
  - apply (is_lim_seq_ext (fun n => Re (v n) / (Re (v n) * Re (v n) + Im (v n) * Im (v n)))).
    { intros n. unfold Cinv, Re, Im. simpl. unfold Rdiv. do 2 f_equal. ring. }
    replace (Re (/ b)%C) with (Re b / (Re b * Re b + Im b * Im b)) by (unfold Cinv, Re, Im; simpl; unfold Rdiv; do 2 f_equal; ring).
    apply is_lim_seq_div'; [exact H1|exact HN|lra].
  - apply (is_lim_seq_ext (fun n => - Im (v n) / (Re (v n) * Re (v n) + Im (v n) * Im (v n)))).
    { intros n. unfold Cinv, Re, Im. simpl. unfold Rdiv. do 2 f_equal. ring. }
    replace (Im (/ b)%C) with (- Im b / (Re b * Re b + Im b * Im b)) by (unfold Cinv, Re, Im; simpl; unfold Rdiv; do 2 f_equal; ring).
    apply is_lim_seq_div'; [|exact HN|lra].
    apply (is_lim_seq_opp (fun n => Im (v n)) (Im b)). exact H2.
Qed.
Lemma Cl_mod u a : Cseq_lim u a -> is_lim_seq (fun n => Cmod (u n)) (Cmod a).
Proof.
  intros [H1 H2]. apply (is_lim_seq_ext (fun n => sqrt (Re (u n) * Re (u n) + Im (u n) * Im (u n)))).
  { intros n. unfold Cmod, Re, Im. f_equal. ring. }
  replace (Cmod a) with (sqrt (Re a * Re a + Im a * Im a)) by (unfold Cmod, Re, Im; f_equal; ring).
  apply (is_lim_seq_continuous sqrt (fun n => Re (u n) * Re (u n) + Im (u n) * Im (u n)) (Re a * Re a + Im a * Im a)).
  - apply continuity_pt_sqrt. pose proof (Rle_0_sqr (Re a)). pose proof (Rle_0_sqr (Im a)). unfold Rsqr in *. lra.
  - apply is_lim_seq_plus'; apply is_lim_seq_mult'; assumption.
Qed.
Lemma Cl_nonzero v b : b <> RtoC 0 -> Cseq_lim v b -> exists N, forall n, (N <= n)%nat -> v n <> RtoC 0.
Proof.
  intros Hb H. apply Cl_mod in H. apply is_lim_seq_spec in H.
  assert (Hm : 0 < Cmod b) by (apply Cmod_gt_0; exact Hb).
  destruct (H (mkposreal _ Hm)) as [N HN]. exists N. intros n Hn E. specialize (HN n Hn). simpl in HN.
  rewrite E, Cmod_0 in HN. rewrite Rminus_0_l, Rabs_Ropp, Rabs_pos_eq in HN; lra.
Qed.

(** the denominator integral of sample.py:507, "solved explicitly as 1 / (4 z_Q^2)" *)
Lemma weight_integral z : 0 < z -> integral_to_infinity (fun q => q * exp (- 2 * z * q)) (1 / (4 * z ^ 2)).
Proof.
  intros Hz.
  set (F := fun q => - (q / (2 * z) + 1 / (4 * z ^ 2)) * exp (- 2 * z * q)).
  assert (HD : forall q, is_derive F q (q * exp (- 2 * z * q))).
  { intros q. unfold F. auto_derive; [trivial|]. field. lra. }
  assert (HI : forall b, is_RInt (fun q => q * exp (- 2 * z * q)) 0 b (F b - F 0)).
  { intros b. apply (is_RInt_derive (V := R_CompleteNormedModule) F).
    - intros x _. apply HD.
    - intros x _. apply (ex_derive_continuous (fun q => q * exp (- 2 * z * q))). auto_derive. trivial. }
  split; [intros b _; eexists; apply HI|].
  apply (is_lim_ext (fun b => F b + 1 / (4 * z ^ 2))).
  { intros b. symmetry. apply (is_RInt_unique (V := R_CompleteNormedModule)).
    replace (F b + 1 / (4 * z ^ 2)) with (F b - F 0); [apply HI|]. unfold F. rewrite Rmult_0_r, exp_0. field. lra. }
  replace (Finite (1 / (4 * z ^ 2))) with (Rbar_plus 0 (1 / (4 * z ^ 2))) by (simpl; f_equal; ring).
  apply (is_lim_plus F (fun _ => 1 / (4 * z ^ 2)) p_infty 0 (1 / (4 * z ^ 2))); [|apply is_lim_const|reflexivity].
  (* x e^-x -> 0 *)
  assert (L1 : is_lim (fun y => y * exp y) m_infty 0) by apply is_lim_mul_exp_m.
  assert (L2 : is_lim exp m_infty 0) by apply is_lim_exp_m.
  assert (LC : is_lim (fun q => - 2 * z * q) p_infty m_infty).
  { apply is_lim_spec. intros M. exists (Rmax 0 (- M / (2 * z))). intros q Hq.
    pose proof (Rmax_r 0 (- M / (2 * z))) as Hr.
    assert (Hq' : - M / (2 * z) < q) by lra. apply (Rmult_lt_compat_r (2 * z)) in Hq'; [|lra].
    replace (- M / (2 * z) * (2 * z)) with (- M) in Hq' by (field; lra). lra. }
  assert (L1' : is_lim (fun q => (- 2 * z * q) * exp (- 2 * z * q)) p_infty 0).
  { apply (is_lim_comp (fun y => y * exp y) (fun q => - 2 * z * q) p_infty 0 m_infty L1 LC). exists 0. intros y _. discriminate. }
  assert (L2' : is_lim (fun q => exp (- 2 * z * q)) p_infty 0).
  { apply (is_lim_comp exp (fun q => - 2 * z * q) p_infty 0 m_infty L2 LC). exists 0. intros y _. discriminate. }
  apply (is_lim_ext (fun q => (1 / (4 * z ^ 2)) * ((- 2 * z * q) * exp (- 2 * z * q)) + (- (1 / (4 * z ^ 2))) * exp (- 2 * z * q))).
  { intros q. unfold F. field. lra. }
  replace (Finite 0) with (Rbar_plus (Rbar_mult (1 / (4 * z ^ 2)) 0) (Rbar_mult (- (1 / (4 * z ^ 2))) 0)) by (simpl; f_equal; ring).
  eapply is_lim_plus; [apply is_lim_scal_l; exact L1'|apply is_lim_scal_l; exact L2'|]. simpl. rewrite !Rmult_0_r. reflexivity.
Qed.

(** C59. refl_coef_qs_above_surf converges to the quotient of integrals of its
    docstring. *)
Lemma C59_average_converges_proof :
  forall (laggauss : laggauss_t) (D : Defaults) (e0 : C) (mid : list C) (en : C) (ts : list R) nu (z : R) (b : R -> C),
  (forall J, (0 < J)%nat -> documented_rule J (laggauss J)) ->
  length mid = length ts -> Forall (fun e => e <> RtoC 0) mid -> en <> RtoC 0 -> 0 < z ->
  (forall q, 0 <= q -> refl_coef_qs (stack (e0 :: mid ++ [en]) ts nu) (rr q) = Ok (Some (b q))) ->
  exists (N : C) (W : R) (r : nat -> C),
    Cintegral_to_infinity (fun q => b q * RtoC (q * exp (- 2 * z * q)))%C N /\
    integral_to_infinity (fun q => q * exp (- 2 * z * q)) W /\ 0 < W /\
    (forall n, refl_coef_qs_above_surf laggauss D (stack (e0 :: mid ++ [en]) ts nu) (rr z) (Some (S n)) = Ok (Some (r n))) /\
    Cseq_lim r (N / RtoC W)%C.
Proof.
  intros lg D e0 mid en ts nu z b HR Hl Hm He Hz Hb.
  destruct (C59_surf_pot_and_field_converges_proof lg D e0 mid en ts nu z b HR Hl Hm He Hz Hb) as (phi & E & u & v & _ & IE & Hs & _ & HE).
  assert (Hz2 : 0 < 4 * z ^ 2) by (pose proof (pow_lt z 2 Hz); lra).
  exists E, (1 / (4 * z ^ 2)), (fun n => RtoC (4 * z ^ 2) * v n)%C.
  split; [exact IE|]. split; [apply weight_integral; exact Hz|]. split; [apply Rdiv_lt_0_compat; lra|]. split.
  - intros n. rewrite C24_average_is_scaled_field_proof by lra. rewrite Hs. reflexivity.
  - replace (E / RtoC (1 / (4 * z ^ 2)))%C with (RtoC (4 * z ^ 2) * E)%C.
    + apply (Cl_mult (fun _ => RtoC (4 * z ^ 2))); [|exact HE]. split; apply is_lim_seq_const.
    + replace (1 / (4 * z ^ 2)) with (/ (4 * z ^ 2)) by (field; lra). rewrite RtoC_inv by lra.
      field. split; apply RtoC_neq_0; lra.
Qed.

(** C59. image_depth_and_charge converges to the documented depth and charge of
    the two integrals, provided the field integral is not zero (from some n_lag on
    the sums are then not zero either, so that no nan appears). *)
Lemma C59_image_converges_proof :
  forall (laggauss : laggauss_t) (D : Defaults) (e0 : C) (mid : list C) (en : C) (ts : list R) nu (z : R) (b : R -> C) (phi E : C),
  (forall J, (0 < J)%nat -> documented_rule J (laggauss J)) ->
  length mid = length ts -> Forall (fun e => e <> RtoC 0) mid -> en <> RtoC 0 -> 0 < z ->
  (forall q, 0 <= q -> refl_coef_qs (stack (e0 :: mid ++ [en]) ts nu) (rr q) = Ok (Some (b q))) ->
  Cintegral_to_infinity (fun q => b q * RtoC (exp (- 2 * z * q)))%C phi ->
  Cintegral_to_infinity (fun q => b q * RtoC (q * exp (- 2 * z * q)))%C E ->
  E <> RtoC 0 ->
  exists (N : nat) (d : nat -> R) (c : nat -> C),
    (forall n, (N <= n)%nat ->
       image_depth_and_charge laggauss D (stack (e0 :: mid ++ [en]) ts nu) (rr z) (Some n) = Ok (Some (d n), Some (c n))) /\
    is_lim_seq d (Cmod (phi / E)%C - z) /\ Cseq_lim c (phi * phi / E)%C.
Proof.
  intros lg D e0 mid en ts nu z b phi E HR Hl Hm He Hz Hb Hphi HE HE0.
  destruct (C59_surf_pot_and_field_converges_proof lg D e0 mid en ts nu z b HR Hl Hm He Hz Hb) as (phi' & E' & u & v & I1 & I2 & Hs & L1 & L2).
  rewrite (Cintegral_unique _ _ _ I1 Hphi) in L1. rewrite (Cintegral_unique _ _ _ I2 HE) in L2.
  destruct (Cl_nonzero v E HE0 L2) as [N HN].
  exists (S N), (fun n => Cmod (u (pred n) / v (pred n))%C - z), (fun n => (u (pred n) * u (pred n) / v (pred n))%C). split.
  - intros n Hn. destruct n as [|n]; [lia|]. unfold image_depth_and_charge. rewrite Hs. cbn [rbind fst snd pred].
    rewrite cdiv_ok by (apply HN; lia).
    unfold cpown. cbn [olift1]. rewrite cdiv_ok by (apply HN; lia).
    unfold cabs, rsub, rr. cbn [olift1 olift2]. do 3 f_equal. f_equal. cbn [Cpown]. ring.
  - pose proof (Cl_inv v E HE0 L2) as L3. split.
    + apply is_lim_seq_incr_1. cbn [pred].
      replace (Finite (Cmod (phi / E)%C - z)) with (Rbar_minus (Cmod (phi / E)%C) z) by reflexivity.
      apply is_lim_seq_minus'; [|apply is_lim_seq_const]. apply (Cl_mod (fun n => u n / v n)%C). apply Cl_mult; assumption.
    + pose proof (Cl_mult _ _ _ _ (Cl_mult _ _ _ _ L1 L1) L3) as [M1 M2]. split; apply is_lim_seq_incr_1; cbn [pred]; assumption.
Qed.

(** a continuous positive integrand has a positive integral *)
Lemma integral_pos (f : R -> R) l :
  (forall q, 0 <= q -> continuity_pt (fun q => f (Rabs q)) q) -> (forall q, 0 < q -> 0 < f q) ->
  integral_to_infinity f l -> 0 < l.
Proof.
  intros Hc Hp [H1 H2].
  assert (H01 : 0 < RInt f 0 1).
  { rewrite (RInt_ext f (fun q => f (Rabs q))).
    - apply RInt_gt_0; [lra| |].
      + intros x Hx. rewrite Rabs_pos_eq by lra. apply Hp. lra.
      + intros x Hx. apply continuity_pt_filterlim. apply Hc. lra.
    - intros x Hx. rewrite Rmin_left, Rmax_right in Hx by lra. rewrite Rabs_pos_eq by lra. reflexivity. }
  apply Rlt_le_trans with (1 := H01).
  assert (HL : Rbar_le (RInt f 0 1) l); [|exact HL].
  apply (is_lim_le_loc (fun _ => RInt f 0 1) (fun b => RInt f 0 b) p_infty).
  - exists 1. intros b Hb.
    assert (E0 : ex_RInt f 0 1) by (apply H1; lra). assert (Eb : ex_RInt f 0 b) by (apply H1; lra).
    assert (E1 : ex_RInt f 1 b) by (apply (ex_RInt_Chasles_2 f 0); [lra|exact Eb]).
    pose proof (RInt_Chasles f 0 1 b E0 E1) as HC. unfold plus in HC. simpl in HC. rewrite <- HC.
    assert (0 <= RInt f 1 b); [|lra]. apply RInt_ge_0; [lra|exact E1|]. intros x Hx. apply Rlt_le, Hp. lra.
  - apply is_lim_const.
  - exact H2.
Qed.
Lemma expz_cont z k q : continuity_pt (fun q => Rabs q ^ k * exp (- 2 * z * Rabs q)) q.
Proof.
  apply (continuity_pt_comp Rabs (fun q => q ^ k * exp (- 2 * z * q))); [apply Rcontinuity_abs|].
  apply continuity_pt_filterlim. apply (ex_derive_continuous (fun q => q ^ k * exp (- 2 * z * q))). auto_derive. trivial.
Qed.

(** C59. For a passive sample on a lossy substrate under a transparent medium
    nothing has to be assumed: every coefficient, every integral and every limit
    exists, and both integrals have a positive imaginary part. *)
Lemma C59_lossy_substrate_converges_proof :
  forall (laggauss : laggauss_t) (D : Defaults) (e0 : R) (mid : list C) (en : C) (ts : list R) nu (z : R),
  (forall J, (0 < J)%nat -> documented_rule J (laggauss J)) ->
  length mid = length ts -> 0 < e0 ->
  Forall (fun e => e <> RtoC 0 /\ 0 <= Im e) mid -> 0 < Im en ->
  Forall (fun t => 0 <= t) ts -> 0 < z ->
  let s := stack (RtoC e0 :: mid ++ [en]) ts nu in
  exists (b : R -> C) (phi E : C) (u v r : nat -> C) (d : nat -> R) (c : nat -> C) (N : nat),
    (forall q, 0 <= q -> refl_coef_qs s (rr q) = Ok (Some (b q))) /\
    Cintegral_to_infinity (fun q => b q * RtoC (exp (- 2 * z * q)))%C phi /\
    Cintegral_to_infinity (fun q => b q * RtoC (q * exp (- 2 * z * q)))%C E /\
    0 < Im phi /\ 0 < Im E /\
    (forall n, surf_pot_and_field laggauss D s (rr z) (Some (S n)) = Ok (Some (u n), Some (v n))) /\
    Cseq_lim u phi /\ Cseq_lim v E /\
    (forall n, refl_coef_qs_above_surf laggauss D s (rr z) (Some (S n)) = Ok (Some (r n))) /\
    Cseq_lim r (RtoC (4 * z ^ 2) * E)%C /\
    (forall n, (N <= n)%nat -> image_depth_and_charge laggauss D s (rr z) (Some n) = Ok (Some (d n), Some (c n))) /\
    is_lim_seq d (Cmod (phi / E)%C - z) /\ Cseq_lim c (phi * phi / E)%C.
Proof.
  intros lg D e0 mid en ts nu z HR Hl He0 Hmid Hen Hts Hz s.
  set (b := fun q => match refl_coef_qs s (rr (Rabs q)) with Ok (Some r) => r | _ => RtoC 0 end).
  assert (Hb : forall q, 0 <= q -> refl_coef_qs s (rr q) = Ok (Some (b q)) /\ 0 < Im (b q)).
  { intros q Hq. destruct (C14_lossy_substrate_absorbs_proof e0 mid en ts nu q Hl He0 Hmid Hen Hts Hq) as (r & Hr & Hi).
    unfold b. rewrite Rabs_pos_eq by exact Hq. unfold s. rewrite Hr. auto. }
  assert (Hb1 : forall q, 0 <= q -> refl_coef_qs s (rr q) = Ok (Some (b q))) by (intros q Hq; apply Hb; exact Hq).
  assert (Hm : Forall (fun e => e <> RtoC 0) mid).
  { apply Forall_forall. intros e Hi. rewrite Forall_forall in Hmid. apply Hmid. exact Hi. }
  assert (Hn : en <> RtoC 0) by (intros ->; unfold Im in Hen; simpl in Hen; lra).
  destruct (C59_surf_pot_and_field_converges_proof lg D e0 mid en ts nu z b HR Hl Hm Hn Hz Hb1) as (phi & E & u & v & I1 & I2 & Hs & L1 & L2).
  destruct (C59_average_converges_proof lg D e0 mid en ts nu z b HR Hl Hm Hn Hz Hb1) as (E' & W & r & I3 & I4 & HW & Hr & L3).
  rewrite (Cintegral_unique _ _ _ I3 I2) in L3. rewrite (integral_unique _ _ _ I4 (weight_integral z Hz)) in L3.
  assert (Hz2 : 0 < 4 * z ^ 2) by (pose proof (pow_lt z 2 Hz); lra).
  assert (Ef : (E / RtoC (1 / (4 * z ^ 2)))%C = (RtoC (4 * z ^ 2) * E)%C).
  { replace (1 / (4 * z ^ 2)) with (/ (4 * z ^ 2)) by (field; lra). rewrite RtoC_inv by lra.
    field. split; apply RtoC_neq_0; lra. }
  rewrite Ef in L3.
  destruct (stack_inner e0 mid en ts nu Hl Hm Hn) as (inner & Es & HF).
  assert (Hc : forall q, 0 <= q -> fcont (fun q => b (Rabs q)) q).
  { apply (stack_beta e0 inner en nu b HF). rewrite <- Es. exact Hb1. }
  assert (P : forall k I, Cintegral_to_infinity (fun q => b q * RtoC (q ^ k * exp (- 2 * z * q)))%C I -> 0 < Im I).
  { intros k I [_ HI]. refine (integral_pos _ _ _ _ HI).
    - intros q Hq. destruct (Hc q Hq) as [_ Hc2].
      apply (continuity_pt_ext (fun q => Im (b (Rabs q)) * (Rabs q ^ k * exp (- 2 * z * Rabs q)))).
      { intros x. unfold Im. simpl. ring. }
      apply (continuity_pt_mult (fun q => Im (b (Rabs q)))); [exact Hc2|apply expz_cont].
    - intros q Hq. replace (Im (b q * RtoC (q ^ k * exp (- 2 * z * q)))%C) with (Im (b q) * (q ^ k * exp (- 2 * z * q))) by (unfold Im; simpl; ring).
      apply Rmult_lt_0_compat; [apply Hb; lra|]. apply Rmult_lt_0_compat; [apply pow_lt; exact Hq|apply exp_pos]. }
  assert (P0 : 0 < Im phi).
  { apply (P 0%nat). destruct I1 as [J1 J2]. split; [refine (integral_ext _ _ _ _ J1)|refine (integral_ext _ _ _ _ J2)];
      intros q; unfold Re, Im; simpl; ring. }
  assert (P1 : 0 < Im E).
  { apply (P 1%nat). destruct I2 as [J1 J2]. split; [refine (integral_ext _ _ _ _ J1)|refine (integral_ext _ _ _ _ J2)];
      intros q; unfold Re, Im; simpl; ring. }
  assert (HE0 : E <> RtoC 0) by (intros HE; rewrite HE in P1; unfold Im in P1; simpl in P1; lra).
  destruct (C59_image_converges_proof lg D e0 mid en ts nu z b phi E HR Hl Hm Hn Hz Hb1 I1 I2 HE0) as (N & d & c & Hi & L4 & L5).
  exists b, phi, E, u, v, r, d, c, N.
  repeat match goal with |- _ /\ _ => split end; assumption.
Qed.

(** ** Concrete cases *)
(** C58: the rules of order one and two *)
Lemma laguerre_1 x : laguerre 1 x = 1 - x.
Proof. rewrite lag_laguerre, lag_1. ring. Qed.
Lemma laguerre_2 x : laguerre 2 x = 1 - 2 * x + x ^ 2 / 2.
Proof. rewrite lag_laguerre. pose proof (lag_rec 0 x) as H. rewrite lag_1, lag_0 in H. simpl INR in H. lra. Qed.
Lemma laguerre_3 x : laguerre 3 x = 1 - 3 * x + 3 / 2 * x ^ 2 - x ^ 3 / 6.
Proof.
  pose proof (lag_rec 1 x) as H. rewrite lag_1 in H. pose proof (laguerre_2 x) as H2. rewrite lag_laguerre in H2.
  rewrite lag_laguerre. rewrite H2 in H. simpl INR in H. apply (Rmult_eq_reg_l 3); [|lra].
  replace (1 + 1 + 1) with 3 in H by ring. rewrite H. field.
Qed.
Definition rule2 : list (R * R) := [(2 - sqrt 2, (2 + sqrt 2) / 4); (2 + sqrt 2, (2 - sqrt 2) / 4)].
Lemma sqrt2_facts : 1 < sqrt 2 < 2 /\ sqrt 2 * sqrt 2 = 2.
Proof.
  assert (E : sqrt 2 * sqrt 2 = 2) by (apply sqrt_sqrt; lra). pose proof (sqrt_pos 2). split; [|exact E].
  split; apply Rsqr_incrst_0; unfold Rsqr; try lra.
Qed.
Lemma C58_example_proof :
  documented_rule 1 [(1, 1)] /\ documented_rule 2 rule2 /\
  Rsum (map (fun xw => snd xw * fst xw ^ 3) rule2) = 6 /\
  integral_to_infinity (fun x => x ^ 3 * exp (- x)) 6 /\
  Rsum (map (fun xw => snd xw * fst xw ^ 4) rule2) = 20 /\
  integral_to_infinity (fun x => x ^ 4 * exp (- x)) 24.
Proof.
  destruct sqrt2_facts as [[S1 S2] SS]. set (s := sqrt 2) in *.
  assert (S3 : s ^ 3 = 2 * s) by (simpl; rewrite Rmult_1_r, SS; ring).
  assert (S4 : s ^ 4 = 4) by (simpl; rewrite Rmult_1_r; transitivity ((s * s) * (s * s)); [ring|rewrite SS; ring]).
  assert (S5 : s ^ 2 = 2) by (simpl; rewrite Rmult_1_r; exact SS).
  assert (S6 : s ^ 5 = 4 * s) by (simpl in *; rewrite Rmult_1_r in *; transitivity ((s * s) * (s * s) * s); [ring|rewrite SS; ring]).
  split; [|split; [|split; [|split; [|split]]]].
  - split; [reflexivity|]. split; [constructor; [intros []|constructor]|]. constructor; [|constructor].
    cbn [fst snd]. change (1 + 1)%nat with 2%nat. rewrite laguerre_1, laguerre_2. simpl INR. split; [ring|field].
  - split; [reflexivity|]. split.
    { constructor; [|constructor; [intros []|constructor]]. intros [E|[]]. simpl in E. fold s in E. lra. }
    unfold rule2. fold s. constructor; [|constructor; [|constructor]]; cbn [fst snd]; change (2 + 1)%nat with 3%nat;
      rewrite laguerre_2, laguerre_3; simpl INR.
    + split; [replace (1 - 2 * (2 - s) + (2 - s) ^ 2 / 2) with (s ^ 2 / 2 - 1) by field; rewrite S5; lra|].
      replace (1 - 3 * (2 - s) + 3 / 2 * (2 - s) ^ 2 - (2 - s) ^ 3 / 6) with ((4 - 4 * s) / 6 + (s ^ 2 - 2) / 2 + (s ^ 3 - 2 * s) / 6) by field.
      rewrite S5, S3. replace ((1 + 1 + 1) * ((4 - 4 * s) / 6 + (2 - 2) / 2 + (2 * s - 2 * s) / 6)) with (2 * (1 - s)) by field.
      apply (Rmult_eq_reg_r (4 * (1 - s) ^ 2)); [|apply Rmult_integral_contrapositive; split; [lra|apply pow_nonzero; lra]].
      replace ((2 - s) / (2 * (1 - s)) ^ 2 * (4 * (1 - s) ^ 2)) with (2 - s) by (field; lra).
      replace ((2 + s) / 4 * (4 * (1 - s) ^ 2)) with (2 - 3 * s + s ^ 3) by field. rewrite S3. lra.
    + split; [replace (1 - 2 * (2 + s) + (2 + s) ^ 2 / 2) with (s ^ 2 / 2 - 1) by field; rewrite S5; lra|].
      replace (1 - 3 * (2 + s) + 3 / 2 * (2 + s) ^ 2 - (2 + s) ^ 3 / 6) with ((4 + 4 * s) / 6 + (s ^ 2 - 2) / 2 - (s ^ 3 - 2 * s) / 6) by field.
      rewrite S5, S3. replace ((1 + 1 + 1) * ((4 + 4 * s) / 6 + (2 - 2) / 2 - (2 * s - 2 * s) / 6)) with (2 * (1 + s)) by field.
      apply (Rmult_eq_reg_r (4 * (1 + s) ^ 2)); [|apply Rmult_integral_contrapositive; split; [lra|apply pow_nonzero; lra]].
      replace ((2 + s) / (2 * (1 + s)) ^ 2 * (4 * (1 + s) ^ 2)) with (2 + s) by (field; lra).
      replace ((2 - s) / 4 * (4 * (1 + s) ^ 2)) with (2 + 3 * s - s ^ 3) by field. rewrite S3. lra.
  - unfold rule2, Rsum. fold s. cbn [map fold_right fst snd].
    replace ((2 + s) / 4 * (2 - s) ^ 3 + ((2 - s) / 4 * (2 + s) ^ 3 + 0)) with (8 - s ^ 4 / 2) by field. rewrite S4. lra.
  - change 6 with (INR (fact 3)) || replace 6 with (INR (fact 3)) by (simpl; ring).
    apply (limI_integral (fun x => x ^ 3)); [apply cont_pow|apply limI_pow].
  - unfold rule2, Rsum. fold s. cbn [map fold_right fst snd].
    replace ((2 + s) / 4 * (2 - s) ^ 4 + ((2 - s) / 4 * (2 + s) ^ 4 + 0)) with (16 + 8 * s ^ 2 - 3 * s ^ 4) by field. rewrite S4, S5. lra.
  - replace 24 with (INR (fact 4)) by (simpl; ring).
    apply (limI_integral (fun x => x ^ 4)); [apply cont_pow|apply limI_pow].
Qed.

(** a function delivering the documented rule of every order: the nodes are taken
    one by one, each the largest root of L_J not yet used *)
Section Nodes.
  Context (J : nat) (HJ : (0 < J)%nat).
  Definition unused (used : list R) (x : R) : Prop := x = 0 \/ laguerre J x = 0 /\ ~ In x used.
  Lemma roots_list : exists roots, length roots = J /\ NoDup roots /\ (forall x, laguerre J x = 0 <-> In x roots) /\ Forall (fun x => 0 < x) roots.
  Proof.
    destruct (documented_exists J HJ) as [rule HD]. destruct (documented_exact J rule HJ HD) as [P _]. destruct HD as (L & N & F).
    exists (map fst rule). rewrite map_length. split; [exact L|]. split; [exact N|]. split.
    - intros x. split.
      + intros Hx. destruct (in_dec Req_EM_T x (map fst rule)) as [Hi|Hni]; [exact Hi|exfalso].
        assert (Z : pzero (lagp J)).
        { apply (roots_zero (x :: map fst rule)).
          - constructor; assumption.
          - simpl. rewrite map_length, L. apply lagp_len.
          - constructor; [rewrite lagp_ev, <- lag_laguerre; exact Hx|]. apply Forall_forall. intros y Hy.
            apply in_map_iff in Hy. destruct Hy as (xw & <- & Hin). rewrite lagp_ev, <- lag_laguerre.
            rewrite Forall_forall in F. apply F. exact Hin. }
        pose proof (ev_zero (lagp J) 0 Z) as E. rewrite lagp_ev, lag_at_0 in E. lra.
      + intros Hx. apply in_map_iff in Hx. destruct Hx as (xw & <- & Hin). rewrite Forall_forall in F. apply F. exact Hin.
    - apply Forall_forall. intros x Hx. apply in_map_iff in Hx. destruct Hx as (xw & <- & Hin). rewrite Forall_forall in P. apply P. exact Hin.
  Qed.
  Lemma unused_bound used : bound (unused used).
  Proof.
    destruct roots_list as (roots & _ & _ & HR & _). exists (fold_right Rmax 0 roots). intros x [->|[Hx _]].
    - clear HR. induction roots as [|r l IH]; simpl; [lra|]. eapply Rle_trans; [exact IH|apply Rmax_r].
    - apply HR in Hx. clear HR. induction roots as [|r l IH]; [destruct Hx|]. simpl. destruct Hx as [->|Hx]; [apply Rmax_l|].
      eapply Rle_trans; [exact (IH Hx)|apply Rmax_r].
  Qed.
  Lemma unused_some used : exists x, unused used x.
  Proof. exists 0. left. reflexivity. Qed.
  Definition next_node (used : list R) : R := proj1_sig (completeness _ (unused_bound used) (unused_some used)).
  Fixpoint nodes (k : nat) : list R := match k with O => [] | S k => next_node (nodes k) :: nodes k end.
  Lemma finite_max : forall (l : list R) (P : R -> Prop), (exists x, In x l /\ P x) -> exists m, In m l /\ P m /\ forall y, In y l -> P y -> y <= m.
  Proof.
    intros l P. induction l as [|a l IH]; [intros (x & [] & _)|]. intros (x & Hin & Px).
    destruct (Classical_Prop.classic (exists x, In x l /\ P x)) as [He|Hn].
    - destruct (IH He) as (m & Hm & Pm & Hmax). destruct (Classical_Prop.classic (P a)) as [Pa|Pa].
      + destruct (Rle_dec a m) as [Ha|Ha].
        * exists m. split; [right; exact Hm|]. split; [exact Pm|]. intros y [<-|Hy] Py; [exact Ha|auto].
        * exists a. split; [left; reflexivity|]. split; [exact Pa|]. intros y [<-|Hy] Py; [lra|]. specialize (Hmax y Hy Py). lra.
      + exists m. split; [right; exact Hm|]. split; [exact Pm|]. intros y [<-|Hy] Py; [contradiction|auto].
    - destruct Hin as [<-|Hin]; [|exfalso; apply Hn; eauto].
      exists a. split; [left; reflexivity|]. split; [exact Px|]. intros y [<-|Hy] Py; [lra|]. exfalso. apply Hn. eauto.
  Qed.
  Lemma next_root used : NoDup used -> (length used < J)%nat -> (forall x, In x used -> laguerre J x = 0) ->
    laguerre J (next_node used) = 0 /\ ~ In (next_node used) used.
  Proof.
    intros Hd Hl Hu. destruct roots_list as (roots & L & N & HR & HP).
    assert (Hex : exists x, In x roots /\ ~ In x used).
    { destruct (Classical_Prop.classic (exists x, In x roots /\ ~ In x used)) as [H|H]; [exact H|exfalso].
      assert (I : incl roots used). { intros x Hx. destruct (in_dec Req_EM_T x used) as [Hi|Hi]; [exact Hi|exfalso; apply H; eauto]. }
      pose proof (NoDup_incl_length N I). lia. }
    destruct (finite_max roots (fun x => ~ In x used) Hex) as (m & Hm & Hnm & Hmax).
    rewrite Forall_forall in HP.
    unfold next_node. destruct (completeness _ _ _) as [v [Hv1 Hv2]]. simpl.
    assert (v = m); [|subst v; split; [apply HR; exact Hm|exact Hnm]].
    apply Rle_antisym.
    - apply Hv2. intros x [->|[Hx Hnx]]; [apply Rlt_le, HP; exact Hm|]. apply Hmax; [apply HR; exact Hx|exact Hnx].
    - apply Hv1. right. split; [apply HR; exact Hm|exact Hnm].
  Qed.
  Lemma nodes_ok k : (k <= J)%nat -> length (nodes k) = k /\ NoDup (nodes k) /\ forall x, In x (nodes k) -> laguerre J x = 0.
  Proof.
    induction k as [|k IH]; intros Hk.
    - split; [reflexivity|]. split; [constructor|intros x []].
    - destruct (IH ltac:(lia)) as (L & N & R0). destruct (next_root (nodes k) N ltac:(lia) R0) as [H1 H2].
      cbn [nodes length]. split; [lia|]. split; [constructor; assumption|]. intros x [<-|Hx]; auto.
  Qed.
End Nodes.
Definition documented_laggauss : laggauss_t := fun J =>
  match lt_dec 0 J with
  | left HJ => map (fun x => (x, x / (INR (J + 1) * laguerre (J + 1) x) ^ 2)) (nodes J HJ J)
  | right _ => []
  end.
Lemma documented_laggauss_ok J : (0 < J)%nat -> documented_rule J (documented_laggauss J).
Proof.
  intros H. unfold documented_laggauss. destruct (lt_dec 0 J) as [HJ|]; [|contradiction].
  destruct (nodes_ok J HJ J (le_n J)) as (L & N & R0). split; [rewrite map_length; exact L|]. split.
  - rewrite map_map. cbn [fst]. rewrite map_id. exact N.
  - apply Forall_forall. intros xw Hx. apply in_map_iff in Hx. destruct Hx as (x & <- & Hx). cbn [fst snd]. split; [apply R0; exact Hx|reflexivity].
Qed.

(** C59: a film with a resonance on a weakly absorbing substrate, charge at height 3/2 *)
Lemma C59_example_proof : forall (D : Defaults),
  exists (laggauss : laggauss_t),
  (forall J, (0 < J)%nat -> documented_rule J (laggauss J)) /\
  let s := stack [RtoC 1; (-2, 1/10)%R; (11, 1/100)%R] [30] None in
  exists (b : R -> C) (phi E : C) (u v : nat -> C),
    (forall q, 0 <= q -> refl_coef_qs s (rr q) = Ok (Some (b q))) /\
    Cintegral_to_infinity (fun q => b q * RtoC (exp (- 2 * (3/2) * q)))%C phi /\
    Cintegral_to_infinity (fun q => b q * RtoC (q * exp (- 2 * (3/2) * q)))%C E /\
    E <> RtoC 0 /\
    (forall n, surf_pot_and_field laggauss D s (rr (3/2)) (Some (S n)) = Ok (Some (u n), Some (v n))) /\
    Cseq_lim u phi /\ Cseq_lim v E.
Proof.
  intros D. exists documented_laggauss. split; [apply documented_laggauss_ok|]. intros s.
  destruct (C59_lossy_substrate_converges_proof documented_laggauss D 1 [(-2, 1/10)%R] (11, 1/100)%R [30] None (3/2))
    as (b & phi & E & u & v & _ & _ & _ & _ & H1 & H2 & H3 & _ & H4 & H5 & H6 & H7 & _).
  - apply documented_laggauss_ok.
  - reflexivity.
  - lra.
  - constructor; [|constructor]. split; [apply C_neq_0; lra|unfold Im; simpl; lra].
  - unfold Im; simpl; lra.
  - constructor; [lra|constructor].
  - lra.
  - exists b, phi, E, u, v. split; [exact H1|]. split; [exact H2|]. split; [exact H3|]. split.
    + intros HE. rewrite HE in H4. unfold Im in H4. simpl in H4. lra.
    + split; [exact H5|]. split; [exact H6|exact H7].
Qed.
