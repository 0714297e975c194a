(** * Limits of complex-valued functions along a scale

    [tends P h l]: for every tolerance there is a threshold M beyond which
    ([P M t]) h is within the tolerance of l. *)
From Coq Require Import Reals Lra.
From Coquelicot Require Import Rcomplements Complex.
From Verif Require Import Num NumLemmas.
Open Scope R_scope.

#[local] Arguments Cmod x%C_scope.

Definition tends {T} (P : R -> T -> Prop) (h : T -> C) (l : C) : Prop :=
  forall eps, 0 < eps -> exists M, forall t, P M t -> Cmod (h t - l)%C < eps.
Definition mono {T} (P : R -> T -> Prop) : Prop := forall M M' t, M' <= M -> P M t -> P M' t.

Section Lim.
Context {T : Type} (P : R -> T -> Prop) (HP : mono P).

Lemma tends_both (h k : T -> C) l m : tends P h l -> tends P k m ->
  forall eps, 0 < eps -> exists M, forall t, P M t -> Cmod (h t - l)%C < eps /\ Cmod (k t - m)%C < eps.
Proof.
  intros Hh Hk eps He. destruct (Hh eps He) as [M1 H1]. destruct (Hk eps He) as [M2 H2].
  exists (Rmax M1 M2). intros t Ht. split.
  - apply H1. eapply HP; [apply Rmax_l|exact Ht].
  - apply H2. eapply HP; [apply Rmax_r|exact Ht].
Qed.

Lemma tends_const c : tends P (fun _ => c) c.
Proof. intros eps He. exists 0. intros t _. replace (c - c)%C with (RtoC 0) by ring. rewrite Cmod_0. exact He. Qed.

Lemma tends_ext_ev (h k : T -> C) l M0 : (forall t, P M0 t -> h t = k t) -> tends P h l -> tends P k l.
Proof.
  intros E Hh eps He. destruct (Hh eps He) as [M HM]. exists (Rmax M0 M). intros t Ht.
  rewrite <- E by (eapply HP; [apply Rmax_l|exact Ht]). apply HM. eapply HP; [apply Rmax_r|exact Ht].
Qed.

Lemma tends_plus h k l m : tends P h l -> tends P k m -> tends P (fun t => h t + k t)%C (l + m)%C.
Proof.
  intros Hh Hk eps He. destruct (tends_both h k l m Hh Hk (eps / 2) ltac:(lra)) as [M HM].
  exists M. intros t Ht. destruct (HM t Ht) as [A B].
  replace (h t + k t - (l + m))%C with ((h t - l) + (k t - m))%C by ring.
  eapply Rle_lt_trans; [apply Cmod_triangle|]. lra.
Qed.

Lemma tends_mult h k l m : tends P h l -> tends P k m -> tends P (fun t => h t * k t)%C (l * m)%C.
Proof.
  intros Hh Hk eps He. pose proof (Cmod_ge_0 l) as Hl. pose proof (Cmod_ge_0 m) as Hm.
  set (d := Rmin 1 (eps / (Cmod l + Cmod m + 2))).
  assert (Hd : 0 < d) by (apply Rmin_glb_lt; [lra|apply Rdiv_lt_0_compat; lra]).
  destruct (tends_both h k l m Hh Hk d Hd) as [M HM]. exists M. intros t Ht. destruct (HM t Ht) as [A B].
  replace (h t * k t - l * m)%C with ((h t - l) * (k t - m) + l * (k t - m) + (h t - l) * m)%C by ring.
  pose proof (Cmod_ge_0 (h t - l)%C) as A0. pose proof (Cmod_ge_0 (k t - m)%C) as B0.
  assert (T1 : Cmod ((h t - l) * (k t - m) + l * (k t - m) + (h t - l) * m)%C
     <= Cmod (h t - l) * Cmod (k t - m) + Cmod l * Cmod (k t - m) + Cmod (h t - l) * Cmod m).
  { eapply Rle_trans; [apply Cmod_triangle|]. rewrite <- !Cmod_mult. apply Rplus_le_compat_r.
    rewrite !Cmod_mult. rewrite <- !Cmod_mult. apply Cmod_triangle. }
  assert (D1 : d <= 1) by apply Rmin_l.
  assert (D2 : d * (Cmod l + Cmod m + 2) <= eps).
  { apply Rle_trans with (eps / (Cmod l + Cmod m + 2) * (Cmod l + Cmod m + 2)).
    - apply Rmult_le_compat_r; [lra|apply Rmin_r].
    - right. field. lra. }
  assert (A1 : Cmod (h t - l) * Cmod (k t - m) <= d * 1) by (apply Rmult_le_compat; lra).
  assert (A2 : Cmod l * Cmod (k t - m) <= Cmod l * d) by (apply Rmult_le_compat_l; lra).
  assert (A3 : Cmod (h t - l) * Cmod m <= d * Cmod m) by (apply Rmult_le_compat_r; lra).
  nra.
Qed.

Lemma tends_scal c h l : tends P h l -> tends P (fun t => c * h t)%C (c * l)%C.
Proof. intros H. apply tends_mult; [apply tends_const|exact H]. Qed.

Lemma tends_minus h k l m : tends P h l -> tends P k m -> tends P (fun t => h t - k t)%C (l - m)%C.
Proof.
  intros Hh Hk. pose proof (tends_plus h (fun t => (-1) * k t)%C l ((-1) * m)%C Hh (tends_scal (-1)%C k m Hk)) as H.
  intros eps He. destruct (H eps He) as [M HM]. exists M. intros t Ht. specialize (HM t Ht).
  replace (h t - k t - (l - m))%C with (h t + (-1) * k t - (l + (-1) * m))%C by ring. exact HM.
Qed.

Lemma tends_away h l : tends P h l -> l <> RtoC 0 ->
  exists M, forall t, P M t -> Cmod l / 2 < Cmod (h t).
Proof.
  intros H Hl. assert (Hp : 0 < Cmod l) by (now apply Cmod_gt_0).
  destruct (H (Cmod l / 2) ltac:(lra)) as [M HM]. exists M. intros t Ht. specialize (HM t Ht).
  assert (Cmod l <= Cmod (h t) + Cmod (h t - l)).
  { replace l with (h t + - (h t - l))%C at 1 by ring. eapply Rle_trans; [apply Cmod_triangle|]. rewrite Cmod_opp. lra. }
  lra.
Qed.

Lemma tends_inv h l : tends P h l -> l <> RtoC 0 -> tends P (fun t => / h t)%C (/ l)%C.
Proof.
  intros H Hl eps He. assert (Hp : 0 < Cmod l) by (now apply Cmod_gt_0).
  destruct (tends_away h l H Hl) as [M1 H1].
  assert (He' : 0 < eps * (Cmod l ^ 2 / 2)) by (apply Rmult_lt_0_compat; [exact He|]; nra).
  destruct (H _ He') as [M2 H2]. exists (Rmax M1 M2). intros t Ht.
  specialize (H1 t (HP _ _ _ (Rmax_l _ _) Ht)). specialize (H2 t (HP _ _ _ (Rmax_r _ _) Ht)).
  assert (Hn : h t <> RtoC 0) by (apply Cmod_gt_0; lra).
  assert (Hln : (l * h t <> 0)%C) by (now apply Cmult_neq_0).
  replace (/ h t - / l)%C with (- (h t - l) / (l * h t))%C by (field; auto).
  rewrite Cmod_div, Cmod_opp, Cmod_mult by exact Hln.
  apply Rlt_div_l; [apply Rmult_lt_0_compat; lra|].
  eapply Rlt_le_trans; [exact H2|]. apply Rmult_le_compat_l; [lra|]. nra.
Qed.

Lemma tends_div h k l m : tends P h l -> tends P k m -> m <> RtoC 0 -> tends P (fun t => h t / k t)%C (l / m)%C.
Proof. intros Hh Hk Hm. unfold Cdiv. apply tends_mult; [exact Hh|now apply tends_inv]. Qed.

(** reciprocal of something that grows without bound *)
Lemma tends_inv_0 h : (forall B, exists M, forall t, P M t -> B < Cmod (h t)) -> tends P (fun t => / h t)%C (RtoC 0).
Proof.
  intros H eps He. destruct (H (/ eps)) as [M HM]. exists M. intros t Ht. specialize (HM t Ht).
  assert (Hi : 0 < / eps) by (now apply Rinv_0_lt_compat).
  assert (Hn : h t <> RtoC 0) by (apply Cmod_gt_0; lra).
  replace (/ h t - 0)%C with (/ h t)%C by ring. rewrite Cmod_inv by exact Hn.
  rewrite <- (Rinv_involutive eps) by lra. apply Rinv_lt_contravar; [|exact HM]. apply Rmult_lt_0_compat; lra.
Qed.
End Lim.

(** along real arguments, and along the modulus of complex arguments *)
Definition at_inf (M t : R) : Prop := M < t.
Definition at_infC (M : R) (t : C) : Prop := M < Cmod t.
Lemma mono_inf : mono at_inf.
Proof. intros M M' t H Ht. unfold at_inf in *. lra. Qed.
Lemma mono_infC : mono at_infC.
Proof. intros M M' t H Ht. unfold at_infC in *. lra. Qed.
