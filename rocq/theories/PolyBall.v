(** * Approximation of functions on [-1,1] by polynomials with a geometric rate

    [geo s M F]: F is a uniform limit of sums of polynomials P_i of degree k_i,
    bounded by m_i on [-1,1], with sum of m_i s^k_i at most M.  Such F can be
    approximated by polynomials of degree below d to within M s^-d, and the bounds
    M add and multiply under sums and products. *)
From Coq Require Import Reals Lra Lia Arith.
From Coquelicot Require Import Coquelicot.
From Verif Require Import Num NumLemmas Spec ProofsDemod ProofsTaylor.
Open Scope R_scope.

(** ** polynomials of bounded degree *)
Inductive pdeg : nat -> (R -> C) -> Prop :=
| pd_const c P : (forall t, P t = c) -> pdeg 0 P
| pd_step k c P Q : pdeg k P -> (forall t, Q t = (c + RtoC t * P t)%C) -> pdeg (S k) Q.

Lemma pdeg_ext k P Q : (forall t, Q t = P t) -> pdeg k P -> pdeg k Q.
Proof.
  intros E H. destruct H as [c P H|k c P P' H H'].
  - apply (pd_const c). intros t. now rewrite E, H.
  - apply (pd_step k c P); [exact H|]. intros t. now rewrite E, H'.
Qed.
Lemma pdeg_up k P : pdeg k P -> pdeg (S k) P.
Proof.
  induction 1 as [c P H|k c P Q H IH HQ].
  - apply (pd_step 0 c (fun _ => RtoC 0)); [apply (pd_const (RtoC 0)); reflexivity|]. intros t. rewrite H. ring.
  - apply (pd_step (S k) c P); assumption.
Qed.
Lemma pdeg_le j k P : (j <= k)%nat -> pdeg j P -> pdeg k P.
Proof. induction 1; [auto|]. intros H'. now apply pdeg_up, IHle. Qed.
Lemma pdeg_scal k a P : pdeg k P -> pdeg k (fun t => a * P t)%C.
Proof.
  induction 1 as [c P H|k c P Q H IH HQ].
  - apply (pd_const (a * c)%C). intros t. now rewrite H.
  - apply (pd_step k (a * c)%C (fun t => a * P t)%C); [exact IH|]. intros t. rewrite HQ. ring.
Qed.
Lemma pdeg_add k P : pdeg k P -> forall Q, pdeg k Q -> pdeg k (fun t => P t + Q t)%C.
Proof.
  induction 1 as [c P H|k c P P' H IH HP']; intros Q HQ.
  - inversion HQ as [c' Q' H'|]; subst. apply (pd_const (c + c')%C). intros t. now rewrite H, H'.
  - inversion HQ as [|k' c' Q' Q'' H' HQ'']; subst. apply (pd_step k (c + c')%C (fun t => P t + Q' t)%C); [now apply IH|].
    intros t. rewrite HP', HQ''. ring.
Qed.
Lemma pdeg_shift k P : pdeg k P -> pdeg (S k) (fun t => RtoC t * P t)%C.
Proof. intros H. apply (pd_step k (RtoC 0) P); [exact H|]. intros t. ring. Qed.
Lemma pdeg_mul j P : pdeg j P -> forall k Q, pdeg k Q -> pdeg (j + k) (fun t => P t * Q t)%C.
Proof.
  induction 1 as [c P H|j c P P' H IH HP']; intros k Q HQ.
  - cbn. apply (pdeg_ext _ (fun t => c * Q t)%C); [intros t; now rewrite H|now apply pdeg_scal].
  - cbn [Nat.add]. apply (pdeg_ext _ (fun t => c * Q t + RtoC t * (P t * Q t))%C); [intros t; rewrite HP'; ring|].
    apply pdeg_add; [apply (pdeg_le k); [lia|now apply pdeg_scal]|]. apply pdeg_shift. now apply IH.
Qed.
Lemma Csum_to_shift (a : nat -> C) d : Csum_to a (S d) = (a O + Csum_to (fun m => a (S m)) d)%C.
Proof.
  induction d as [|d IH]; [cbn; ring|]. change (Csum_to a (S (S d))) with (Csum_to a (S d) + a (S d))%C. rewrite IH. cbn. ring.
Qed.
Lemma pdeg_poly k P : pdeg k P -> exists c, forall t, P t = poly c (S k) t.
Proof.
  induction 1 as [c P H|k c P Q H [a IH] HQ].
  - exists (fun _ => c). intros t. rewrite H. unfold poly. cbn. ring.
  - exists (fun m => match m with O => c | S m => a m end). intros t. rewrite HQ, IH. unfold poly. rewrite (Csum_to_shift _ (S k)).
    cbn [pow]. rewrite (Cmult_comm (RtoC t)), Csum_to_mult_r. f_equal; [ring|]. apply Csum_to_ext. intros m _. rewrite RtoC_mult. ring.
Qed.

(** ** weighted sums *)
Definition bounded (m : R) (P : R -> C) : Prop := forall t, -1 <= t <= 1 -> Cmod (P t) <= m.
Inductive pball (s : R) : R -> (R -> C) -> Prop :=
| pb_atom k m P : pdeg k P -> bounded m P -> 0 <= m -> pball s (m * s ^ k) P
| pb_add M M' P Q : pball s M P -> pball s M' Q -> pball s (M + M') (fun t => P t + Q t)%C
| pb_ext M M' P Q : pball s M P -> M <= M' -> (forall t, Q t = P t) -> pball s M' Q.

Section Ball.
Context (s : R) (Hs : 1 < s).

Lemma pball_pos M P : pball s M P -> 0 <= M.
Proof.
  induction 1; try lra. apply Rmult_le_pos; [assumption|]. apply pow_le. lra.
Qed.
Lemma pball_bounded M P : pball s M P -> bounded M P.
Proof.
  induction 1 as [k m P H B Hm|M M' P Q H1 IH1 H2 IH2|M M' P Q H IH HM E]; intros t Ht.
  - specialize (B t Ht). assert (1 <= s ^ k) by (apply pow_R1_Rle; lra). nra.
  - eapply Rle_trans; [apply Cmod_triangle|]. specialize (IH1 t Ht). specialize (IH2 t Ht). lra.
  - rewrite E. specialize (IH t Ht). lra.
Qed.
Lemma pball_mul M P : pball s M P -> forall M' Q, pball s M' Q -> pball s (M * M') (fun t => P t * Q t)%C.
Proof.
  induction 1 as [k m P H B Hm|M1 M2 P1 P2 H1 IH1 H2 IH2|M M1 P P' H IH HM E]; intros M' Q HQ.
  - induction HQ as [k' m' Q H' B' Hm'|M1 M2 Q1 Q2 H1 IH1 H2 IH2|M M1 Q Q' HQ IH HM E].
    + apply (pb_ext s (m * m' * s ^ (k + k')) _ (fun t => P t * Q t)%C); [|right; rewrite pow_add; ring|reflexivity].
      apply pb_atom; [now apply pdeg_mul| |nra]. intros t Ht. rewrite Cmod_mult. apply Rmult_le_compat; auto using Cmod_ge_0.
    + eapply pb_ext; [exact (pb_add s _ _ _ _ IH1 IH2)|right; ring|intros t; cbn; ring].
    + eapply pb_ext; [exact IH| |intros t; cbn; now rewrite E]. apply Rmult_le_compat_l; [apply Rmult_le_pos; [exact Hm|apply pow_le; lra]|exact HM].
  - eapply pb_ext; [exact (pb_add s _ _ _ _ (IH1 _ _ HQ) (IH2 _ _ HQ))|right; ring|intros t; cbn; ring].
  - eapply pb_ext; [exact (IH _ _ HQ)| |intros t; cbn; now rewrite E]. apply Rmult_le_compat_r; [eapply pball_pos; exact HQ|exact HM].
Qed.
Lemma pball_const c : pball s (Cmod c) (fun _ => c).
Proof.
  eapply pb_ext; [apply (pb_atom s 0 (Cmod c) (fun _ => c)); [apply (pd_const c); reflexivity|intros t _; lra|apply Cmod_ge_0]|right; cbn; ring|reflexivity].
Qed.
Lemma pball_trunc M P k : pball s M P -> exists Q, pdeg k Q /\ bounded (M / s ^ S k) (fun t => P t - Q t)%C.
Proof.
  assert (PS : forall j, 0 < s ^ j) by (intros; apply pow_lt; lra).
  induction 1 as [j m P H B Hm|M M' P1 P2 H1 IH1 H2 IH2|M M' P P' H IH HM E].
  - destruct (le_lt_dec j k) as [L|L].
    + exists P. split; [now apply (pdeg_le j)|]. intros t _. replace (P t - P t)%C with (RtoC 0) by ring. rewrite Cmod_0.
      apply Rmult_le_pos; [apply Rmult_le_pos; [exact Hm|apply Rlt_le, PS]|apply Rlt_le, Rinv_0_lt_compat, PS].
    + exists (fun _ => RtoC 0). split; [apply (pdeg_le 0); [lia|apply (pd_const (RtoC 0)); reflexivity]|].
      intros t Ht. replace (P t - 0)%C with (P t) by ring. eapply Rle_trans; [apply B, Ht|].
      apply Rmult_le_reg_r with (s ^ S k); [apply PS|]. unfold Rdiv. rewrite Rmult_assoc, Rinv_l, Rmult_1_r by (apply Rgt_not_eq, PS).
      apply Rmult_le_compat_l; [exact Hm|]. apply Rle_pow; [lra|lia].
  - destruct IH1 as (Q1 & D1 & B1). destruct IH2 as (Q2 & D2 & B2). exists (fun t => Q1 t + Q2 t)%C.
    split; [now apply pdeg_add|]. intros t Ht. replace (P1 t + P2 t - (Q1 t + Q2 t))%C with ((P1 t - Q1 t) + (P2 t - Q2 t))%C by ring.
    eapply Rle_trans; [apply Cmod_triangle|]. specialize (B1 t Ht). specialize (B2 t Ht). cbv beta in B1, B2. unfold Rdiv in *. rewrite Rmult_plus_distr_r. lra.
  - destruct IH as (Q & D & B). exists Q. split; [exact D|]. intros t Ht. rewrite E. eapply Rle_trans; [apply B, Ht|].
    apply Rmult_le_compat_r; [apply Rlt_le, Rinv_0_lt_compat, PS|exact HM].
Qed.

(** ** limits *)
Definition geo (M : R) (F : R -> C) : Prop :=
  forall eps, 0 < eps -> exists P, pball s M P /\ bounded eps (fun t => F t - P t)%C.

Lemma pball_geo M P : pball s M P -> geo M P.
Proof. intros H eps He. exists P. split; [exact H|]. intros t _. replace (P t - P t)%C with (RtoC 0) by ring. rewrite Cmod_0. lra. Qed.
Lemma geo_ext M M' F G : M <= M' -> (forall t, -1 <= t <= 1 -> G t = F t) -> geo M F -> geo M' G.
Proof.
  intros HM E H eps He. destruct (H eps He) as (P & HP & B). exists P. split; [eapply pb_ext; [exact HP|exact HM|reflexivity]|].
  intros t Ht. rewrite E by exact Ht. now apply B.
Qed.
Lemma geo_lim M F : (forall eps, 0 < eps -> exists G, geo M G /\ bounded eps (fun t => F t - G t)%C) -> geo M F.
Proof.
  intros H eps He. destruct (H (eps / 2) ltac:(lra)) as (G & HG & B). destruct (HG (eps / 2) ltac:(lra)) as (P & HP & B').
  exists P. split; [exact HP|]. intros t Ht. replace (F t - P t)%C with ((F t - G t) + (G t - P t))%C by ring.
  eapply Rle_trans; [apply Cmod_triangle|]. specialize (B t Ht). specialize (B' t Ht). cbv beta in B, B'. lra.
Qed.
Lemma geo_pos M F : geo M F -> 0 <= M.
Proof. intros H. destruct (H 1 ltac:(lra)) as (P & HP & _). eapply pball_pos; exact HP. Qed.
Lemma geo_bounded M F : geo M F -> bounded M F.
Proof.
  intros H t Ht. apply le_epsilon. intros eps He. destruct (H eps He) as (P & HP & B). specialize (B t Ht). cbv beta in B.
  pose proof (pball_bounded _ _ HP t Ht). replace (F t) with (P t + (F t - P t))%C by ring.
  eapply Rle_trans; [apply Cmod_triangle|]. lra.
Qed.
Lemma geo_const c : geo (Cmod c) (fun _ => c).
Proof. apply pball_geo, pball_const. Qed.
Lemma geo_add M M' F G : geo M F -> geo M' G -> geo (M + M') (fun t => F t + G t)%C.
Proof.
  intros HF HG eps He. destruct (HF (eps / 2) ltac:(lra)) as (P & HP & BP). destruct (HG (eps / 2) ltac:(lra)) as (Q & HQ & BQ).
  exists (fun t => P t + Q t)%C. split; [now apply pb_add|]. intros t Ht. replace (F t + G t - (P t + Q t))%C with ((F t - P t) + (G t - Q t))%C by ring.
  eapply Rle_trans; [apply Cmod_triangle|]. specialize (BP t Ht). specialize (BQ t Ht). cbv beta in BP, BQ. lra.
Qed.
Lemma geo_mul M M' F G : geo M F -> geo M' G -> geo (M * M') (fun t => F t * G t)%C.
Proof.
  intros HF HG eps He. pose proof (geo_pos _ _ HF) as M0. pose proof (geo_pos _ _ HG) as M0'.
  set (e := Rmin 1 (eps / (M + M' + 2))). assert (E0 : 0 < e) by (apply Rmin_pos; [lra|apply Rdiv_lt_0_compat; lra]).
  assert (E1 : e <= 1) by apply Rmin_l. assert (E2 : e * (M + M' + 2) <= eps).
  { apply Rle_trans with (eps / (M + M' + 2) * (M + M' + 2)); [apply Rmult_le_compat_r; [lra|apply Rmin_r]|right; field; lra]. }
  destruct (HF e E0) as (P & HP & BP). destruct (HG e E0) as (Q & HQ & BQ).
  exists (fun t => P t * Q t)%C. split; [now apply pball_mul|]. intros t Ht. specialize (BP t Ht). specialize (BQ t Ht). cbv beta in BP, BQ.
  pose proof (geo_bounded _ _ HG t Ht) as BG. pose proof (pball_bounded _ _ HP t Ht) as BPP.
  replace (F t * G t - P t * Q t)%C with ((F t - P t) * G t + P t * (G t - Q t))%C by ring.
  eapply Rle_trans; [apply Cmod_triangle|]. rewrite !Cmod_mult.
  apply Rle_trans with (e * M' + M * e); [|nra]. apply Rplus_le_compat; apply Rmult_le_compat; auto using Cmod_ge_0.
Qed.
Lemma geo_scal c M F : geo M F -> geo (Cmod c * M) (fun t => c * F t)%C.
Proof. intros H. exact (geo_mul _ _ _ _ (geo_const c) H). Qed.
Lemma geo_id : geo s (fun t => RtoC t).
Proof.
  apply pball_geo. eapply pb_ext; [apply (pb_atom s 1 1 (fun t => RtoC t))|right; cbn; ring|reflexivity].
  - apply (pd_step 0 (RtoC 0) (fun _ => RtoC 1)); [apply (pd_const (RtoC 1)); reflexivity|]. intros t. ring.
  - intros t Ht. rewrite Cmod_R. apply Rabs_le. lra.
  - lra.
Qed.
Fixpoint gsum (F : R -> C) (J : nat) (t : R) : C :=
  match J with O => RtoC 1 | S J => (1 + F t * gsum F J t)%C end.
Lemma gsum_closed F J t : ((1 - F t) * gsum F J t)%C = (1 - Cpown (F t) (S J))%C.
Proof.
  induction J as [|J IH]; cbn [gsum]; [cbn [Cpown]; ring|]. transitivity ((1 - F t) + F t * ((1 - F t) * gsum F J t))%C; [ring|]. rewrite IH. cbn [Cpown]. ring.
Qed.
Lemma geo_gsum rho F J : geo rho F -> rho < 1 -> geo (/ (1 - rho)) (gsum F J).
Proof.
  intros H Hr. pose proof (geo_pos _ _ H) as R0. assert (I1 : 0 < / (1 - rho)) by (apply Rinv_0_lt_compat; lra).
  induction J as [|J IH].
  - apply (geo_ext (Cmod (RtoC 1)) _ (fun _ => RtoC 1)); [|reflexivity|apply geo_const]. rewrite Cmod_1. rewrite <- Rinv_1 at 1. apply Rinv_le_contravar; lra.
  - apply (geo_ext (Cmod (RtoC 1) + rho * / (1 - rho)) _ (fun t => RtoC 1 + F t * gsum F J t)%C); [|reflexivity|].
    + rewrite Cmod_1. right. field. lra.
    + apply geo_add; [apply geo_const|]. now apply geo_mul.
Qed.
Lemma geo_inv rho F : geo rho F -> rho < 1 -> geo (/ (1 - rho)) (fun t => / (1 - F t))%C.
Proof.
  intros H Hr. pose proof (geo_pos _ _ H) as R0. apply geo_lim. intros eps He.
  destruct (pow_lt_1_zero rho ltac:(rewrite Rabs_pos_eq; lra) (eps * (1 - rho))) as [J HJ]; [apply Rmult_lt_0_compat; lra|].
  exists (gsum F J). split; [now apply geo_gsum|]. intros t Ht. pose proof (geo_bounded _ _ H t Ht) as B.
  destruct (Cmod_1_minus (F t) rho B Hr) as [N1 B1].
  replace (/ (1 - F t) - gsum F J t)%C with (Cpown (F t) (S J) / (1 - F t))%C.
  - rewrite Cmod_div by exact N1. rewrite Cmod_pown. specialize (HJ (S J) ltac:(lia)).
    rewrite Rabs_pos_eq in HJ by (apply pow_le; lra).
    apply Rmult_le_reg_r with (Cmod (1 - F t)%C); [lra|]. unfold Rdiv. rewrite Rmult_assoc, Rinv_l, Rmult_1_r by lra.
    assert (Cmod (F t) ^ S J <= rho ^ S J) by (apply pow_incr; split; [apply Cmod_ge_0|exact B]).
    apply Rle_trans with (eps * (1 - rho)); [lra|]. apply Rmult_le_compat_l; lra.
  - transitivity ((1 - (1 - Cpown (F t) (S J))) / (1 - F t))%C; [field; exact N1|]. rewrite <- gsum_closed. field. exact N1.
Qed.
Lemma geo_trunc M F k eps : geo M F -> 0 < eps -> exists Q, pdeg k Q /\ bounded (M / s ^ S k + eps) (fun t => F t - Q t)%C.
Proof.
  intros H He. destruct (H eps He) as (P & HP & B). destruct (pball_trunc M P k HP) as (Q & HQ & B'). exists Q. split; [exact HQ|].
  intros t Ht. replace (F t - Q t)%C with ((P t - Q t) + (F t - P t))%C by ring. eapply Rle_trans; [apply Cmod_triangle|].
  specialize (B t Ht). specialize (B' t Ht). cbv beta in B, B'. lra.
Qed.
End Ball.
