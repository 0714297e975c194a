(** * Complementary media and the perfect lens (C101) *)
From Coq Require Import String Reals Lra Lia ZArith List Bool.
From Coquelicot Require Import Rcomplements Complex.
From Verif Require Import Num NumLemmas ModelBase ModelSample ModelTip StackLemmas Spec SpecLens ProofsStackQS ProofsStackQS2 ProofsSym ProofsTip3.
Import ListNotations.
Open Scope R_scope.

(** a layer between two media, seen from a common reference medium *)
Definition Nl (q : R) (e : C) (t : R) : cmat := pmul (pT (/ e)) (pmul (Pqs q e t) (pT e)).
Fixpoint Np (q : R) (inner : list (C * R)) : cmat :=
  match inner with [] => pI | (e, t) :: rest => pmul (Nl q e t) (Np q rest) end.
Arguments Nl q e%C_scope t.
Lemma Mqs_Np q inner : forall e0 en, Forall (fun e => e <> RtoC 0) (map fst inner ++ [en]) ->
  Mqs q e0 inner en = pmul (pT e0) (pmul (Np q inner) (pT (/ en))).
Proof.
  unfold Mqs. induction inner as [|[e t] rest IH]; intros e0 en H; cbn [stackM Np map fst app] in *.
  - rewrite pmul_I_l, pT_mul. reflexivity.
  - inversion H as [|? ? He Hr]; subst. rewrite (IH e en Hr). unfold Nl, Tqs. rewrite !pmul_assoc. unfold Cdiv.
    rewrite <- (pT_mul e0 (/ e)%C). rewrite !pmul_assoc. reflexivity.
Qed.
Lemma Np_app q i1 i2 : Np q (i1 ++ i2) = pmul (Np q i1) (Np q i2).
Proof. induction i1 as [|[e t] r IH]; cbn [app Np]; [now rewrite pmul_I_l|]. rewrite IH, pmul_assoc. reflexivity. Qed.
Lemma Nl_opp q e t : e <> RtoC 0 -> Nl q (- e) t = pmul (pT (/ e)) (pmul (pP (RtoC (exp (- clipR (q * t)))) (RtoC (exp (clipR (q * t))))) (pT e)).
Proof.
  intros He. assert (Ho : (- e)%C <> RtoC 0) by (intros X; apply He; replace e with (- (- e))%C by ring; rewrite X; ring).
  unfold Nl, Pqs. replace (/ - e)%C with (/ e * - RtoC 1)%C by (field; auto). replace (- e)%C with (- RtoC 1 * e)%C by ring.
  rewrite <- !pT_mul, !pmul_assoc. f_equal. rewrite <- !pmul_assoc. f_equal. apply cmat_eq; cbn; field; auto.
Qed.
Lemma Nl_cancel q e t : e <> RtoC 0 -> pmul (Nl q e t) (Nl q (- e) t) = pI.
Proof.
  intros He. rewrite Nl_opp by exact He. unfold Nl, Pqs. rewrite !pmul_assoc. rewrite <- (pmul_assoc (pT e) (pT (/ e)%C)), pT_mul.
  rewrite Cinv_r by exact He. rewrite pT_1, pmul_I_l. rewrite <- (pmul_assoc (pP _ _) (pP _ _)), pP_mul, <- !RtoC_mult, <- !exp_plus.
  rewrite Rplus_opp_r, Rplus_opp_l, exp_0, pP_1, pmul_I_l, pT_mul, Cinv_l by exact He. apply pT_1.
Qed.
Lemma Np_block q L : Forall (fun e => e <> RtoC 0) (map fst L) -> Np q (L ++ complement L) = pI.
Proof.
  unfold complement. induction L as [|[e t] L IH]; intros H; [reflexivity|]. cbn [map fst] in H. inversion H; subst.
  cbn [rev]. rewrite map_app. cbn [map fst snd]. rewrite app_assoc. cbn [app Np]. rewrite Np_app, IH by assumption. cbn [Np].
  rewrite pmul_I_l, pmul_I_r. apply Nl_cancel. assumption.
Qed.
Lemma complement_nz L : Forall (fun e => e <> RtoC 0) (map fst L) -> Forall (fun e => e <> RtoC 0) (map fst (complement L)).
Proof.
  intros H. unfold complement. rewrite map_map. cbn [fst]. rewrite map_rev. apply Forall_rev. apply Forall_forall. intros x Hx.
  apply in_map_iff in Hx. destruct Hx as (p & <- & Hp). rewrite Forall_forall in H. intros E. apply (H (fst p)); [now apply in_map|].
  replace (fst p) with (- (- fst p))%C by ring. rewrite E. ring.
Qed.

(** C101. Complementary media annihilate: any sequence of layers followed by its mirror image with negated permittivities, anywhere in
    a stack and at any momentum, leaves the quasistatic transfer matrix, reflection and transmission as if neither were there. *)
Lemma C101_complementary_proof :
  forall (l1 l2 : list C) (t1 t2 : list R) (L : list (C * R)) nu (q : R),
  length l1 = (length t1 + 1)%nat -> length l2 = (length t2 + 1)%nat ->
  nonzero_below (l1 ++ map fst L ++ l2) ->
  let s := stack (l1 ++ map fst (L ++ complement L) ++ l2) (t1 ++ map snd (L ++ complement L) ++ t2) nu in
  let s' := stack (l1 ++ l2) (t1 ++ t2) nu in
  transfer_matrix_qs s (rr q) = transfer_matrix_qs s' (rr q) /\
  refl_coef_qs s (rr q) = refl_coef_qs s' (rr q) /\ trans_coef_qs s (rr q) = trans_coef_qs s' (rr q).
Proof.
  intros l1 l2 t1 t2 L nu q H1 H2 Hn s s'.
  destruct (split_decomp l1 l2 t1 t2 H1 H2) as (a & i1 & i2 & b & -> & -> & -> & ->).
  assert (E : transfer_matrix_qs s (rr q) = transfer_matrix_qs s' (rr q)).
  { unfold s, s'. rewrite eps_of_app. pose proof (eps_of_app a i1 [] i2 b) as E2. cbn [map app] in E2. cbn [app]. rewrite E2.
    rewrite <- !map_app, !stack_struct. rewrite eps_of_app, Forall_tl_struct, !map_app, <- !app_assoc in Hn.
    apply Forall_app in Hn. destruct Hn as [N1 Hn]. apply Forall_app in Hn. destruct Hn as [NL N2].
    assert (F1 : Forall (fun e => e <> RtoC 0) (map fst (i1 ++ i2) ++ [b])) by (rewrite map_app, <- app_assoc; apply Forall_app; split; assumption).
    assert (F2 : Forall (fun e => e <> RtoC 0) (map fst (i1 ++ (L ++ complement L) ++ i2) ++ [b])).
    { rewrite !map_app, <- !app_assoc. apply Forall_app; split; [exact N1|]. apply Forall_app; split; [exact NL|]. apply Forall_app; split; [now apply complement_nz|exact N2]. }
    rewrite !transfer_matrix_qs_struct by assumption. rewrite !Mqs_Np by assumption. do 2 f_equal. f_equal. f_equal.
    rewrite (Np_app q i1 ((L ++ complement L) ++ i2)), (Np_app q (L ++ complement L) i2), Np_block by exact NL. rewrite pmul_I_l, Np_app. reflexivity. }
  split; [exact E|]. unfold refl_coef_qs, trans_coef_qs. rewrite E. auto.
Qed.

Lemma same_sampled lg s s' z n : z <> 0 -> (forall q, refl_coef_qs s (rr q) = refl_coef_qs s' (rr q)) ->
  sampled_beta lg s (rr z) n = sampled_beta lg s' (rr z) n.
Proof.
  intros Hz H. unfold sampled_beta. destruct (Nat.eqb n 0); [reflexivity|]. rewrite H. destruct (refl_coef_qs s' (rr z)) as [b0|]; [|reflexivity]. cbn [rbind].
  assert (EQ : forall x, (rr x / (rr 2 * rr z))%rv = rr (x / (2 * z))) by (intros x; unfold rmul, rr; cbn [olift2]; rewrite rdiv_ok by lra; reflexivity).
  induction (lg n) as [|[x w] l IH]; [reflexivity|]. cbn [mapM fst snd]. rewrite !EQ, H. rewrite IH. reflexivity.
Qed.
Lemma same_image lg D s s' z n : z <> 0 -> (forall q, refl_coef_qs s (rr q) = refl_coef_qs s' (rr q)) ->
  refl_coef_qs_above_surf lg D s (rr z) n = refl_coef_qs_above_surf lg D s' (rr z) n /\
  surf_pot_and_field lg D s (rr z) n = surf_pot_and_field lg D s' (rr z) n /\
  image_depth_and_charge lg D s (rr z) n = image_depth_and_charge lg D s' (rr z) n.
Proof.
  intros Hz H. assert (E : surf_pot_and_field lg D s (rr z) n = surf_pot_and_field lg D s' (rr z) n) by (unfold surf_pot_and_field; rewrite (same_sampled lg s s') by assumption; reflexivity).
  repeat split; [unfold refl_coef_qs_above_surf; rewrite (same_sampled lg s s') by assumption; reflexivity|exact E|unfold image_depth_and_charge; rewrite E; reflexivity].
Qed.
