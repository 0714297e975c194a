(** * Proofs: inversion by minimisation *)
From Coq Require Import String Reals Lra Lia ZArith List Bool.
From Coquelicot Require Import Rcomplements Complex.
From Verif Require Import Num NumLemmas LimLemmas ModelBase ModelSample ModelTip StackLemmas Spec
  ProofsStackQS ProofsStackQS2 ProofsBulkFF ProofsSym ProofsPassive DemodLemmas ProofsDemod ProofsTip ProofsTip2 ProofsTip3
  ProofsTaylor PosDef ProofsContrast ProofsContrast2 SpecMajor Majorant ProofsMajor ProofsMajor2 ModelFit.
Import ListNotations.
Open Scope R_scope.

(** ** differences of demodulated signals *)
Lemma one_minus_mod u k : Cmod u <= k -> k < 1 -> 1 - k <= Cmod (1 - u)%C.
Proof.
  intros H Hk. assert (T := Cmod_triangle (1 - u)%C u). replace (1 - u + u)%C with (RtoC 1) in T by ring.
  rewrite Cmod_R, Rabs_R1 in T. lra.
Qed.
Lemma loop_rest u v k : Cmod u <= k -> Cmod v <= k -> k < 1 -> (1 - u <> 0)%C -> (1 - v <> 0)%C ->
  Cmod (/ ((1 - u) * (1 - v)) - 1)%C <= / (1 - k) ^ 2 - 1.
Proof.
  intros Hu Hv Hk Nu Nv.
  replace (/ ((1 - u) * (1 - v)) - 1)%C with (u * (/ (1 - u) * / (1 - v)) + v * / (1 - v))%C by (field; auto).
  assert (Iu := one_minus_mod u k Hu Hk). assert (Iv := one_minus_mod v k Hv Hk). pose proof (Cmod_ge_0 u). pose proof (Cmod_ge_0 v).
  eapply Rle_trans; [apply Cmod_triangle|]. rewrite !Cmod_mult, !Cmod_inv by assumption.
  assert (Ju : / Cmod (1 - u)%C <= / (1 - k)) by (apply Rinv_le_contravar; lra).
  assert (Jv : / Cmod (1 - v)%C <= / (1 - k)) by (apply Rinv_le_contravar; lra).
  assert (Pu : 0 < / Cmod (1 - u)%C) by (apply Rinv_0_lt_compat; lra). assert (Pv : 0 < / Cmod (1 - v)%C) by (apply Rinv_0_lt_compat; lra).
  replace (/ (1 - k) ^ 2 - 1) with (k * (/ (1 - k) * / (1 - k)) + k * / (1 - k)) by (field; lra).
  apply Rplus_le_compat; (apply Rmult_le_compat; [lra| |lra|]); try lra.
  - apply Rmult_le_pos; lra.
  - apply Rmult_le_compat; lra.
Qed.
Lemma signal_diff z A n N (f0 f1 : R -> C) (b1 b2 : C) F k : N <> O ->
  (forall i, (i < N)%nat -> let x := tip_height z A N i in Cmod (f0 x) <= 2 * F /\ Cmod b1 * Cmod (f1 x) <= k /\ Cmod b2 * Cmod (f1 x) <= k) -> k < 1 ->
  Cmod (tmean z A n N (fun x => 1 + b1 * f0 x / (2 * (1 - b1 * f1 x)))%C - tmean z A n N (fun x => 1 + b2 * f0 x / (2 * (1 - b2 * f1 x)))%C
        - (b1 - b2) * tmean z A n N (fun x => f0 x / 2)%C)%C <= F * (/ (1 - k) ^ 2 - 1) * Cmod (b1 - b2)%C.
Proof.
  intros HN H Hk.
  replace (tmean z A n N (fun x => 1 + b1 * f0 x / (2 * (1 - b1 * f1 x)))%C - tmean z A n N (fun x => 1 + b2 * f0 x / (2 * (1 - b2 * f1 x)))%C
        - (b1 - b2) * tmean z A n N (fun x => f0 x / 2)%C)%C
    with (tmean z A n N (fun x => (b1 - b2) * (f0 x / 2 * (/ ((1 - b1 * f1 x) * (1 - b2 * f1 x)) - 1)))%C).
  2:{ set (R0 := fun x : R => ((b1 - b2) * (f0 x / 2 * (/ ((1 - b1 * f1 x) * (1 - b2 * f1 x)) - 1)))%C).
      assert (E : tmean z A n N (fun x => 1 + b1 * f0 x / (2 * (1 - b1 * f1 x)))%C
        = tmean z A n N (fun x => (1 + b2 * f0 x / (2 * (1 - b2 * f1 x))) + ((b1 - b2) * (f0 x / 2) + R0 x))%C).
      { apply tmean_ext. intros i Hi. destruct (H i Hi) as (_ & B1 & B2).
        rewrite <- Cmod_mult in B1, B2. set (x := tip_height z A N i) in *. unfold R0.
        assert (N1 : (1 - b1 * f1 x <> 0)%C) by (intro E; assert (I := one_minus_mod _ _ B1 Hk); rewrite E, Cmod_0 in I; lra).
        assert (N2 : (1 - b2 * f1 x <> 0)%C) by (intro E; assert (I := one_minus_mod _ _ B2 Hk); rewrite E, Cmod_0 in I; lra).
        field. repeat split; auto. }
      rewrite E, (tmean_plus z A n N (fun x => 1 + b2 * f0 x / (2 * (1 - b2 * f1 x)))%C (fun x => (b1 - b2) * (f0 x / 2) + R0 x)%C),
        (tmean_plus z A n N (fun x => (b1 - b2) * (f0 x / 2))%C R0), (tmean_scal z A n N (b1 - b2)%C (fun x => f0 x / 2)%C). ring. }
  unfold tmean. apply cmean_bound; [exact HN|]. intros i Hi. destruct (H i Hi) as (B0 & B1 & B2). rewrite <- Cmod_mult in B1, B2.
  set (x := tip_height z A N i) in *.
  assert (N1 : (1 - b1 * f1 x <> 0)%C) by (intro E; assert (I := one_minus_mod _ _ B1 Hk); rewrite E, Cmod_0 in I; lra).
  assert (N2 : (1 - b2 * f1 x <> 0)%C) by (intro E; assert (I := one_minus_mod _ _ B2 Hk); rewrite E, Cmod_0 in I; lra).
  assert (L := loop_rest _ _ k B1 B2 Hk N1 N2). rewrite !Cmod_mult, ph_mod, Rmult_1_r, (Rmult_comm _ (Cmod (b1 - b2)%C)).
  apply Rmult_le_compat_l; [apply Cmod_ge_0|]. apply Rmult_le_compat; try apply Cmod_ge_0; [|exact L].
  unfold Cdiv. rewrite Cmod_mult, Cmod_inv, Cmod_R, (Rabs_pos_eq 2) by (try lra; apply RtoC_neq_0; lra). lra.
Qed.
(** the first coefficient *)
Lemma first_coef z A n N (f : R -> C) : N <> O -> Cmod (tmean z A n N (fun x => f x / 2)%C)
  = Cmod (cosine z A n N (fun x => Re (f x) / 2), cosine z A n N (fun x => Im (f x) / 2)).
Proof.
  intros HN. rewrite tmean_complex, sgn_Cmod by exact HN. f_equal. unfold hC. rewrite !cosine_harm.
  f_equal; apply harm_ext; intros k _; unfold Cdiv, Cinv, Cmult, Re, Im, RtoC; cbn [fst snd]; field.
Qed.

(** ** the reflection coefficient of a bulk sample *)
Lemma bulk_b (v e b : C) : v <> RtoC 0 -> refl_coef_qs_single (Some v) (Some e) = Some b ->
  (e + v <> 0)%C /\ b = ((e - v) / (e + v))%C.
Proof.
  intros Hv H. unfold refl_coef_qs_single, csub, cadd in H. cbn [olift2] in H. apply cdiv_Some in H.
  destruct H as (p & q & Ep & Eq & Nq & ->). injection Ep as <-. injection Eq as <-. auto.
Qed.
Lemma bulk_call (v e b : C) : v <> RtoC 0 -> e <> RtoC 0 -> refl_coef_qs_single (Some v) (Some e) = Some b ->
  multilayer (mkSample [Some v; Some e] [] None) = false /\ refl_coef_qs (mkSample [Some v; Some e] [] None) (rr 0) = Ok (Some b).
Proof. intros Hv He H. split; [reflexivity|]. rewrite <- H. exact (proj1 (bulk_refl_any v e None (rr 0) He)). Qed.
Lemma eps_error (v e e' b b' : C) rho : v <> RtoC 0 -> refl_coef_qs_single (Some v) (Some e) = Some b ->
  refl_coef_qs_single (Some v) (Some e') = Some b' -> Cmod b <= rho -> Cmod b' <= rho -> rho < 1 ->
  Cmod (e' - e)%C <= 2 * Cmod v / (1 - rho) ^ 2 * Cmod (b' - b)%C.
Proof.
  intros Hv H H' Hb Hb' Hr. destruct (bulk_b v e b Hv H) as [N E]. destruct (bulk_b v e' b' Hv H') as [N' E'].
  assert (K : ((e' - e) * ((1 - b) * (1 - b')) = 2 * v * (b' - b))%C) by (subst b b'; field; auto).
  apply (f_equal Cmod) in K. rewrite !Cmod_mult, Cmod_R, (Rabs_pos_eq 2) in K by lra.
  assert (I := one_minus_mod b rho Hb Hr). assert (I' := one_minus_mod b' rho Hb' Hr).
  assert (Q : (1 - rho) ^ 2 <= Cmod (1 - b)%C * Cmod (1 - b')%C) by (replace ((1 - rho) ^ 2) with ((1 - rho) * (1 - rho)) by ring; apply Rmult_le_compat; lra).
  assert (P : 0 < (1 - rho) ^ 2) by (apply pow_lt; lra).
  replace (2 * Cmod v / (1 - rho) ^ 2 * Cmod (b' - b)%C) with (2 * Cmod v * Cmod (b' - b)%C / (1 - rho) ^ 2) by (unfold Rdiv; ring).
  apply Rle_div_r; [exact P|]. rewrite <- K. apply Rmult_le_compat_l; [apply Cmod_ge_0|exact Q].
Qed.
Lemma nonzero_eps (v e b : C) rho : v <> RtoC 0 -> refl_coef_qs_single (Some v) (Some e) = Some b -> Cmod b <= rho -> rho < 1 -> e <> RtoC 0.
Proof.
  intros Hv H Hb Hr ->. destruct (bulk_b v 0%C b Hv H) as [N E].
  assert (b = RtoC (-1)) by (rewrite E; field; auto). subst b. rewrite H0, Cmod_R, Rabs_left in Hb; lra.
Qed.
