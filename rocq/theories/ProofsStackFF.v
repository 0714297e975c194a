(** * Proofs: far-field transfer matrices *)
From Coq Require Import String Reals Lra Lia ZArith List Bool.
From Coquelicot Require Import Rcomplements Complex.
From Verif Require Import Num NumLemmas ModelBase ModelSample ModelTip StackLemmas Spec
  ProofsStackQS ProofsStackQS2.
Import ListNotations.
Open Scope R_scope.

(** ** The principal square root is the model's *)
Lemma Csqrt_principal z : principal (Csqrt z).
Proof.
  unfold principal. pose proof (Csqrt_Re_nonneg z) as [H|H]; [left; exact H|right].
  split; [auto|]. unfold Csqrt, Re, Im in *. cbn [fst snd] in *.
  pose proof (Cmod_ge_Re z) as Hm. apply Rabs_le_between in Hm. unfold Re in Hm.
  symmetry in H. apply sqrt_eq_0 in H; [|lra].
  pose proof (Cmod_sqr z) as H2. unfold Re, Im in H2.
  assert (Hi : snd z = 0).
  { assert (Hx : snd z ^ 2 = 0).
    { replace (Cmod z) with (- fst z) in H2 by lra. nra. }
    simpl in Hx. nra. }
  rewrite Hi. destruct (Rle_dec 0 0); [|lra]. rewrite Rmult_1_l. apply sqrt_pos.
Qed.

Lemma Csqr_eq (k k' : C) : (k * k)%C = (k' * k')%C -> k = k' \/ k = (- k')%C.
Proof.
  intros H. assert (E : ((k - k') * (k + k'))%C = RtoC 0).
  { replace ((k - k') * (k + k'))%C with (k * k - k' * k')%C by ring. rewrite H. ring. }
  apply Cmult_integral in E. destruct E as [E|E]; [left|right].
  - apply Csub_eq0. exact E.
  - apply Csub_eq0. rewrite <- E. ring.
Qed.

Lemma principal_unique k k' : principal k -> principal k' -> (k * k)%C = (k' * k')%C -> k = k'.
Proof.
  intros Hk Hk' E. apply Csqr_eq in E. destruct E as [E|E]; [exact E|].
  unfold principal in *. destruct k as [a b], k' as [c d]. unfold Copp in E. cbn in E.
  injection E as -> ->. unfold Re, Im in *. cbn [fst snd] in *.
  f_equal; lra.
Qed.

Lemma kz_principal nu q e : principal (kz nu q e).
Proof. apply Csqrt_principal. Qed.
Lemma kz_is_kz nu q e : is_kz nu q e (kz nu q e).
Proof. unfold is_kz, kz. apply Csqrt_sqr. Qed.
Lemma is_kz_sign nu q e k : is_kz nu q e k -> k = kz nu q e \/ k = (- kz nu q e)%C.
Proof. intros H. apply Csqr_eq. rewrite H. symmetry. apply kz_is_kz. Qed.
Lemma is_kz_principal nu q e k : is_kz nu q e k -> principal k -> k = kz nu q e.
Proof.
  intros H Hp. apply principal_unique; [exact Hp|apply kz_principal|].
  rewrite H. symmetry. apply kz_is_kz.
Qed.

(** ** Stacks of (permittivity, wavevector) layers *)
Definition lfactor (p : bool) (a b : C * C) : C :=
  if p then (fst a * snd b / (fst b * snd a))%C else (snd b / snd a)%C.
Definition TL (p : bool) (a b : C * C) : cmat := pT (lfactor p a b).
Definition PL (l : C * C) (t : R) : cmat :=
  pP (Cexp ((0, -1)%R * (snd l * RtoC t))%C) (Cexp ((0, 1)%R * (snd l * RtoC t))%C).
Definition okl (p : bool) (a b : C * C) : Prop :=
  snd a <> RtoC 0 /\ (p = true -> fst b <> RtoC 0).
Fixpoint okL (p : bool) (l0 : C * C) (inner : list ((C * C) * R)) (ln : C * C) : Prop :=
  match inner with
  | [] => okl p l0 ln
  | (l, _) :: rest => okl p l0 l /\ okL p l rest ln
  end.

Definition withk (nu q : R) (e : C) : C * C := (e, kz nu q e).
Definition withki nu q (i : list (C * R)) := map (fun et => (withk nu q (fst et), snd et)) i.

Lemma Mff_withk p nu q inner : forall e0 en,
  Mff p nu q e0 inner en = stackM (TL p) PL (withk nu q e0) (withki nu q inner) (withk nu q en).
Proof.
  unfold Mff. induction inner as [|[e t] rest IH]; intros e0 en; [reflexivity|].
  cbn [stackM withki map fst snd]. f_equal. f_equal. apply IH.
Qed.

Definition J : cmat := mkC (RtoC 0) (RtoC 1) (RtoC 1) (RtoC 0).
Lemma pT_opp_l x : pT (- x) = pmul J (pT x).
Proof. apply cmat_eq; simpl; field; auto. Qed.
Lemma pT_opp_r x : pT (- x) = pmul (pT x) J.
Proof. apply cmat_eq; simpl; field; auto. Qed.
Lemma PL_opp e k t : PL (e, - k)%C t = pmul J (pmul (PL (e, k) t) J).
Proof.
  unfold PL. cbn [snd].
  replace ((0, -1)%R * (- k * RtoC t))%C with ((0, 1)%R * (k * RtoC t))%C.
  2:{ apply C_eq; unfold Re, Im; simpl; ring. }
  replace ((0, 1)%R * (- k * RtoC t))%C with ((0, -1)%R * (k * RtoC t))%C.
  2:{ apply C_eq; unfold Re, Im; simpl; ring. }
  apply cmat_eq; simpl; ring.
Qed.
Lemma J_J : pmul J J = pI.
Proof. apply cmat_eq; simpl; ring. Qed.
Lemma J_J_l A : pmul J (pmul J A) = A.
Proof. rewrite <- pmul_assoc, J_J, pmul_I_l. reflexivity. Qed.

Lemma Copp_neq_0 (k : C) : k <> RtoC 0 -> (- k)%C <> RtoC 0.
Proof. intros H E. apply H. replace k with (- - k)%C by ring. rewrite E. ring. Qed.

Lemma TL_opp_l p e k b : okl p (e, k) b -> TL p (e, - k)%C b = pmul J (TL p (e, k) b).
Proof.
  intros [H1 H2]. cbn in *. unfold TL. rewrite <- pT_opp_l. f_equal.
  unfold lfactor. cbn. destruct p; field; repeat split; auto using Copp_neq_0.
Qed.
Lemma TL_opp_r p a e k : okl p a (e, k) -> TL p a (e, - k)%C = pmul (TL p a (e, k)) J.
Proof.
  intros [H1 H2]. cbn in *. unfold TL. rewrite <- pT_opp_r. f_equal.
  unfold lfactor. cbn. destruct p; field; repeat split; auto.
Qed.

(** same layer up to the sign of the wavevector *)
Definition signeq (l l' : C * C) : Prop := fst l' = fst l /\ (snd l' = snd l \/ snd l' = (- snd l)%C).
Definition signeqt (p p' : (C * C) * R) : Prop := signeq (fst p) (fst p') /\ snd p' = snd p.

Lemma okl_sign p e k b : okl p (e, k) b -> okl p (e, - k)%C b.
Proof. intros [H1 H2]. split; auto. cbn in *. apply Copp_neq_0. exact H1. Qed.

Lemma stackM_branch p : forall inner inner', Forall2 signeqt inner inner' ->
  forall l0 ln, okL p l0 inner ln ->
  stackM (TL p) PL l0 inner' ln = stackM (TL p) PL l0 inner ln /\
  stackM (TL p) PL (fst l0, - snd l0)%C inner' ln = pmul J (stackM (TL p) PL l0 inner ln).
Proof.
  induction 1 as [|[[e k] t] [[e' k'] t'] inner inner' [[He Hk] Ht] HF IH];
    intros [a ka] ln Hok.
  - cbn [stackM fst snd]. split; [reflexivity|]. apply TL_opp_l. exact Hok.
  - cbn [fst snd] in He, Hk, Ht. subst e' t'. destruct Hok as [Hok1 Hok2].
    destruct (IH (e, k) ln Hok2) as [IH1 IH2]. cbn [fst snd] in IH2.
    cbn [stackM fst snd]. destruct Hk as [-> | ->].
    + rewrite IH1. split; [reflexivity|].
      rewrite TL_opp_l, !pmul_assoc by exact Hok1. reflexivity.
    + rewrite IH2, PL_opp. rewrite !(TL_opp_r p _ e k) by (exact Hok1 || apply okl_sign; exact Hok1).
      rewrite !pmul_assoc, !J_J_l. split; [reflexivity|].
      rewrite TL_opp_l, !pmul_assoc by exact Hok1. reflexivity.
Qed.

(** ** Parratt for the far field *)
Definition fresnel (p : bool) := if p then fresnel_p else fresnel_s.

Lemma ff_T_ok p a b r : fresnel p a b r ->
  exists s, s <> RtoC 0 /\ c00 (TL p a b) = s /\ c01 (TL p a b) = (s * r)%C /\
            c10 (TL p a b) = (s * r)%C /\ c11 (TL p a b) = s.
Proof.
  destruct a as [ea ka], b as [eb kb]. destruct p; cbn.
  - intros (Hb & Ha & Hs & ->). exists ((eb * ka + ea * kb) / (2 * (eb * ka)))%C.
    split; [apply Cdiv_neq_0; auto|]. repeat split; field; auto.
  - intros (Ha & Hs & ->). exists ((ka + kb) / (2 * ka))%C.
    split; [apply Cdiv_neq_0; auto|]. repeat split; field; auto.
Qed.
Lemma ff_P_ok (l : C * C) t : True ->
  exists A, A <> RtoC 0 /\ PL l t = pP A (A * ff_round l t)%C.
Proof.
  intros _. exists (Cexp ((0, -1)%R * (snd l * RtoC t))%C). split; [apply Cexp_neq_0|].
  unfold PL, ff_round. f_equal. rewrite <- Cexp_plus. f_equal.
  apply C_eq; unfold Re, Im; simpl; ring.
Qed.

Lemma parratt_okL p inner : forall l0 ln r,
  parratt (fresnel p) ff_round (eps_of l0 inner ln) (map snd inner) r -> okL p l0 inner ln.
Proof.
  assert (HF : forall a b r, fresnel p a b r -> okl p a b).
  { intros [ea ka] [eb kb] r. unfold okl. destruct p; cbn.
    - intros (? & ? & ? & _). auto.
    - intros (? & ? & _). split; auto; discriminate. }
  induction inner as [|[l t] rest IH]; intros l0 ln r H.
  - apply parratt_inv_bottom in H. cbn. eauto.
  - change (eps_of l0 ((l, t) :: rest) ln) with (l0 :: l :: (map fst rest ++ [ln])) in H.
    cbn [map snd] in H. apply parratt_inv_layer in H. destruct H as (r0 & r1 & Hi & Hp & _).
    cbn [okL]. split; eauto.
Qed.

Lemma okL_flip_inner p : forall inner inner', Forall2 signeqt inner inner' ->
  forall l0 l0' ln, signeq l0 l0' -> okL p l0' inner' ln -> okL p l0 inner ln.
Proof.
  assert (Hn : forall a b : C, b = a \/ b = (- a)%C -> b <> RtoC 0 -> a <> RtoC 0).
  { intros a b [-> | ->] Hb; auto. intros ->. apply Hb. ring. }
  induction 1 as [|[l t] [l' t'] inner inner' [[He Hk] Ht] HF IH];
    intros l0 l0' ln [H0 H0'] Hok.
  - destruct Hok as [K1 K2]. split; [|auto]. eapply Hn; eauto.
  - destruct Hok as [[K1 K2] K3]. cbn [fst snd] in *. split.
    + split; [eapply Hn; eauto|]. intros E. rewrite <- He. auto.
    + eapply IH; [|exact K3]. split; auto.
Qed.

Lemma okL_okff p nu q inner : forall e0 en,
  okL p (withk nu q e0) (withki nu q inner) (withk nu q en) -> okstack (okff p nu q) e0 inner en.
Proof.
  induction inner as [|[e t] rest IH]; intros e0 en H.
  - exact H.
  - destruct H as [H1 H2]. split; [exact H1|]. apply IH. exact H2.
Qed.

Lemma pol_pol_str p : pol p = pol_str p.
Proof. reflexivity. Qed.

Lemma withki_snd nu q i : map snd (withki nu q i) = map snd i.
Proof. unfold withki. rewrite map_map. reflexivity. Qed.
Lemma withki_fst nu q i : map fst (withki nu q i) = map (withk nu q) (map fst i).
Proof. unfold withki. rewrite !map_map. reflexivity. Qed.

(** C11. The far-field reflection coefficient is given by the Airy/Parratt
    recursion over the Fresnel interface coefficients for ANY choice of
    square-root branch inside the finite layers; only environment and
    substrate must use the principal branch.  A layer is a pair
    (permittivity, normal wavevector). *)
Lemma C11_refl_coef_branch_independent_proof :
  forall (p : bool) (first : C * C) (mid : list (C * C)) (last : C * C) (ts : list R) nu0 (nu q : R) (r : C),
  Forall (fun l => is_kz nu q (fst l) (snd l)) (first :: mid ++ [last]) ->
  principal (snd first) -> principal (snd last) ->
  parratt (if p then fresnel_p else fresnel_s) ff_round (first :: mid ++ [last]) ts r ->
  refl_coef (stack (map fst (first :: mid ++ [last])) ts nu0) (Some q) None (Some nu) (pol p)
  = Ok (Some r).
Proof.
  intros p l0 mid ln ts nu0 nu q r Hk P0 Pn H.
  pose proof (parratt_length _ _ _ _ _ H) as Hw.
  destruct (stack_decomp _ _ Hw) as (a & inner & b & E & ->).
  rewrite E in *. injection E as E1 E2. apply app_inj_tail in E2. destruct E2 as [E2 E3]. subst a b mid.
  fold (fresnel p) in H.
  apply Forall_cons_iff in Hk. destruct Hk as [K0 Hk]. apply Forall_app in Hk. destruct Hk as [Ki Kn].
  apply Forall_inv in Kn.
  assert (E0 : l0 = withk nu q (fst l0)).
  { destruct l0 as [e k]. unfold withk. cbn in *. f_equal. apply is_kz_principal; auto. }
  assert (En : ln = withk nu q (fst ln)).
  { destruct ln as [e k]. unfold withk. cbn in *. f_equal. apply is_kz_principal; auto. }
  set (i0 := map (fun p : (C * C) * R => (fst (fst p), snd p)) inner).
  assert (HF : Forall2 signeqt (withki nu q i0) inner).
  { unfold i0. clear - Ki. induction inner as [|[[e k] t] rest IH]; constructor.
    - cbn in Ki. apply Forall_inv in Ki. cbn in Ki. repeat split. cbn.
      destruct (is_kz_sign _ _ _ _ Ki); auto.
    - apply IH. cbn in Ki. now apply Forall_inv_tail in Ki. }
  assert (Hok' : okL p l0 inner ln) by (eapply parratt_okL; exact H).
  assert (Hok : okL p l0 (withki nu q i0) ln).
  { eapply okL_flip_inner; [exact HF| |exact Hok']. split; auto. }
  destruct (parratt_sound (TL p) PL _ _ (ff_T_ok p) (fun _ => True) ff_P_ok inner l0 ln r) as [H0 H1].
  { clear. induction (map snd inner); constructor; auto. }
  { exact H. }
  destruct (stackM_branch p _ _ HF l0 ln Hok) as [EM _]. rewrite EM in H0, H1.
  rewrite E0, En in H0, H1, Hok. rewrite <- Mff_withk in H0, H1.
  assert (ES : stack (map fst (eps_of l0 inner ln)) (map snd inner) nu0
               = qs_sample (fst l0) i0 (fst ln) nu0).
  { unfold stack, qs_sample, i0, eps_of. cbn [map]. rewrite !map_app, !map_map. reflexivity. }
  rewrite ES, pol_pol_str.
  rewrite (refl_coef_struct _ _ _ _ _ _ _ _ nu q); [|reflexivity|reflexivity|apply okL_okff; exact Hok].
  f_equal. apply div_Some_r; assumption.
Qed.

(** C08. refl_coef is the Airy/Parratt recursion over the Fresnel
    coefficients with wavevectors on the principal branch and round-trip
    phase e^{2 i k t}. *)
Lemma C08_refl_coef_is_fresnel_parratt_proof :
  forall (p : bool) (ls : list (C * C)) (ts : list R) nu0 (nu q : R) (r : C),
  Forall (fun l => is_kz nu q (fst l) (snd l) /\ principal (snd l)) ls ->
  parratt (if p then fresnel_p else fresnel_s) ff_round ls ts r ->
  refl_coef (stack (map fst ls) ts nu0) (Some q) None (Some nu) (pol p) = Ok (Some r).
Proof.
  intros p ls ts nu0 nu q r Hk H.
  pose proof (parratt_length _ _ _ _ _ H) as Hw.
  destruct (stack_decomp _ _ Hw) as (a & inner & b & -> & Et).
  unfold eps_of in *. apply C11_refl_coef_branch_independent_proof; auto.
  - eapply Forall_impl; [|exact Hk]. intros l [? _]. assumption.
  - apply Forall_inv in Hk. tauto.
  - apply Forall_cons_iff in Hk. destruct Hk as [_ Hk]. apply Forall_app in Hk. destruct Hk as [_ Hk].
    apply Forall_inv in Hk. tauto.
Qed.
