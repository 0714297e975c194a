(** * Proofs: superlattices of arbitrary materials and uniaxial films (C96) *)
From Coq Require Import String Reals Lra Lia ZArith List Bool.
From Coquelicot Require Import Coquelicot.
From Coq Require Import List.
From Verif Require Import Num NumLemmas ModelBase ModelSample ModelTip StackLemmas Spec SpecWave WaveLemmas ProofsStackQS SpecUniaxial ProofsUniaxial.
Import ListNotations.
Open Scope R_scope.

Arguments slab_of (a b z)%C_scope. Arguments small (p k)%R_scope (a b)%C_scope M.

(** ** The code's matrices in terms of potential and displacement *)
Definition layer (q : R) (l : C * R) : cmat := slab_of (fst l * RtoC (q * snd l))%C (RtoC (q * snd l) / fst l)%C (RtoC (q * snd l)).
Fixpoint prod (q : R) (c : list (C * R)) : cmat := match c with [] => pI | l :: r => pmul (layer q l) (prod q r) end.
Lemma prod_app q c d : prod q (c ++ d) = pmul (prod q c) (prod q d).
Proof. induction c as [|l c IH]; simpl; [now rewrite pmul_I_l|]. rewrite IH, pmul_assoc. reflexivity. Qed.
Lemma prod_repeat q c n : prod q (concat (repeat c n)) = mpow (prod q c) n.
Proof. induction n as [|n IH]; [reflexivity|]. cbn [repeat concat mpow]. rewrite prod_app, IH. reflexivity. Qed.
Lemma Cmult_cancel_2 (x y : C) : (2 * x = 2 * y)%C -> x = y.
Proof. intros H. replace x with (2 * x / 2)%C by (field; auto). rewrite H. field. auto. Qed.
Lemma Mqs_column q en (Hen : en <> RtoC 0) : forall inner e0,
  Forall (fun l => fst l <> RtoC 0 /\ Rabs (q * snd l) <= MAX_EXP_ARG) inner ->
  let x := mv (prod q inner) (RtoC 1, / en)%C in
  (2 * c00 (Mqs q e0 inner en) = fst x + e0 * snd x)%C /\ (2 * c10 (Mqs q e0 inner en) = fst x - e0 * snd x)%C.
Proof.
  unfold Mqs. induction inner as [|[e t] rest IH]; intros e0 H.
  - cbn [prod stackM]. rewrite mv_I. cbn [fst snd Tqs pT c00 c10]. unfold Tqs, pT; cbn [c00 c10]. split; field; auto.
  - inversion H as [|? ? [H1 H2] H3]; subst. cbn [fst snd] in *. specialize (IH e H3). cbn zeta in IH |- *. destruct IH as [I1 I2].
    cbn [prod stackM]. rewrite mv_mul. set (x := mv (prod q rest) (RtoC 1, / en)%C) in *. set (M := stackM Tqs (Pqs q) e rest en) in *.
    unfold mv, layer, slab_of, Tqs, Pqs, pT, pP, pmul; cbn [fst snd c00 c01 c10 c11]. rewrite clipR_id by exact H2. set (tau := q * t).
    assert (E1 : (fst (e, t) * RtoC tau * Cshc (RtoC tau) = e * RtoC (sinh tau))%C) by (cbn [fst]; rewrite <- Csh_R, <- Cshc_mul; ring).
    assert (E2 : (RtoC tau / fst (e, t) * Cshc (RtoC tau) = RtoC (sinh tau) / e)%C) by (cbn [fst]; rewrite <- Csh_R, <- Cshc_mul; field; exact H1).
    cbn [fst snd] in E1, E2. rewrite E1, E2, Cch_R.
    replace (RtoC (cosh tau)) with ((RtoC (exp tau) + RtoC (exp (- tau))) / 2)%C by (unfold cosh; rewrite RtoC_div, RtoC_plus by lra; reflexivity).
    replace (RtoC (sinh tau)) with ((RtoC (exp tau) - RtoC (exp (- tau))) / 2)%C by (unfold sinh; rewrite RtoC_div, RtoC_minus by lra; reflexivity).
    set (p := RtoC (exp tau)). set (m := RtoC (exp (- tau))).
    assert (F1 : c00 M = ((fst x + e * snd x) / 2)%C) by (rewrite <- I1; field; auto).
    assert (F2 : c10 M = ((fst x - e * snd x) / 2)%C) by (rewrite <- I2; field; auto).
    rewrite F1, F2. split; field; auto.
Qed.

(** ** Semigroup *)
Lemma Cshc_def z : z <> RtoC 0 -> Cshc z = (Csh z / z)%C.
Proof. intros H. unfold Cshc. destruct (Ceq_dec z 0); [contradiction|reflexivity]. Qed.
Lemma Cshc_zero : Cshc 0 = RtoC 1.
Proof. unfold Cshc. destruct (Ceq_dec 0 0) as [|N]; [reflexivity|destruct N; reflexivity]. Qed.
Lemma slab_add a b z s t : (z * z = a * b)%C -> 0 <= s -> 0 <= t ->
  pmul (slab_of (a * RtoC s) (b * RtoC s) (z * RtoC s)) (slab_of (a * RtoC t) (b * RtoC t) (z * RtoC t))
  = slab_of (a * RtoC (s + t)) (b * RtoC (s + t)) (z * RtoC (s + t)).
Proof.
  intros Hz Hs Ht. destruct (Ceq_dec z 0) as [E|N].
  - subst z. assert (E : (a * b = 0)%C) by (rewrite <- Hz; ring). unfold slab_of, pmul; cbn [c00 c01 c10 c11].
    rewrite !Cmult_0_l, Cshc_zero, Cch_0, RtoC_plus. apply cmat_eq; cbn [c00 c01 c10 c11]; try ring.
    + transitivity (1 + (a * b) * (RtoC s * RtoC t))%C; [ring|]. rewrite E. ring.
    + transitivity (1 + (a * b) * (RtoC s * RtoC t))%C; [ring|]. rewrite E. ring.
  - assert (K : forall u, (RtoC u * Cshc (z * RtoC u) = Csh (z * RtoC u) / z)%C).
    { intros u. rewrite <- Cshc_mul. field. exact N. }
    assert (A : forall u (a : C), (a * RtoC u * Cshc (z * RtoC u) = a * (Csh (z * RtoC u) / z))%C) by (intros; rewrite <- K; ring).
    unfold slab_of, pmul; cbn [c00 c01 c10 c11]. rewrite !A. replace (z * RtoC (s + t))%C with (z * RtoC s + z * RtoC t)%C by (rewrite RtoC_plus; ring).
    rewrite Cch_plus, Csh_plus. set (cs := Cch (z * RtoC s)%C). set (ct := Cch (z * RtoC t)%C). set (ss := Csh (z * RtoC s)%C). set (st := Csh (z * RtoC t)%C).
    assert (AB : forall u v : C, (a * (u / z) * (b * (v / z)) = u * v)%C).
    { intros u v. transitivity ((a * b) * (u * v) / (z * z))%C; [field; exact N|]. rewrite <- Hz. field. exact N. }
    assert (BA : forall u v : C, (b * (u / z) * (a * (v / z)) = u * v)%C).
    { intros u v. transitivity ((a * b) * (u * v) / (z * z))%C; [field; exact N|]. rewrite <- Hz. field. exact N. }
    apply cmat_eq; cbn [c00 c01 c10 c11]; rewrite ?AB, ?BA; try ring; field; exact N.
Qed.
Lemma slab_0 a b z : slab_of (a * RtoC 0) (b * RtoC 0) (z * RtoC 0) = pI.
Proof. unfold slab_of. rewrite !Cmult_0_r, Cch_0. apply cmat_eq; cbn [c00 c01 c10 c11 pI]; ring. Qed.
Lemma slab_pow a b z h n : (z * z = a * b)%C -> 0 <= h ->
  mpow (slab_of (a * RtoC h) (b * RtoC h) (z * RtoC h)) n = slab_of (a * RtoC (INR n * h)) (b * RtoC (INR n * h)) (z * RtoC (INR n * h)).
Proof.
  intros Hz Hh. induction n as [|n IH]; [cbn [mpow]; change (INR 0) with 0; rewrite Rmult_0_l, slab_0; reflexivity|].
  cbn [mpow]. rewrite IH, slab_add by first [assumption | apply Rmult_le_pos; [apply pos_INR | assumption]].
  rewrite S_INR. replace (h + INR n * h) with ((INR n + 1) * h) by ring. reflexivity.
Qed.

(** ** Superlattices *)
Definition Csum (l : list C) : C := fold_right Cplus 0 l.
Definition a_of (q : R) (c : list (C * R)) : C := (RtoC q * fold_right Cplus 0 (map (fun l => fst l * RtoC (snd l)) c))%C.
Definition b_of (q : R) (c : list (C * R)) : C := (RtoC q * fold_right Cplus 0 (map (fun l => RtoC (snd l) / fst l) c))%C.
Lemma prod_small q e0 c : 0 <= q -> e0 <> RtoC 0 -> Forall (fun l => fst l <> RtoC 0 /\ 0 <= snd l) c ->
  small (Cmod e0) (strength q e0 c) (a_of q c) (b_of q c) (prod q c).
Proof.
  intros Hq H0 H. assert (Hp : 0 < Cmod e0) by (apply Cmod_gt_0; exact H0).
  induction c as [|[e t] c IH].
  - cbn [prod]. unfold strength, a_of, b_of; cbn [map fold_right]. rewrite Rmult_0_r, Cmult_0_r. apply small_I. exact Hp.
  - inversion H as [|? ? [H1 H2] H3]; subst. cbn [fst snd] in *. specialize (IH H3).
    assert (He : 0 < Cmod e) by (apply Cmod_gt_0; exact H1).
    assert (Ht : 0 <= q * t) by (apply Rmult_le_pos; assumption).
    set (m := Rmax (Cmod e / Cmod e0) (Cmod e0 / Cmod e)).
    assert (Hm1 : Cmod e / Cmod e0 <= m) by apply Rmax_l. assert (Hm2 : Cmod e0 / Cmod e <= m) by apply Rmax_r.
    assert (Hm : 0 <= m) by (eapply Rle_trans; [|exact Hm1]; apply Rdiv_le_0_compat; lra).
    assert (L : small (Cmod e0) (q * t * m) (e * RtoC (q * t))%C (RtoC (q * t) / e)%C (layer q (e, t))).
    { apply slab_small; cbn [fst snd].
      - exact Hp.
      - field. exact H1.
      - apply Rmult_le_pos; assumption.
      - rewrite Cmod_mult, Cmod_R, Rabs_pos_eq by exact Ht.
        apply Rmult_le_compat_r with (r := Cmod e0) in Hm1; [|lra]. replace (Cmod e / Cmod e0 * Cmod e0) with (Cmod e) in Hm1 by (field; lra). nra.
      - rewrite Cmod_div, Cmod_R, Rabs_pos_eq by (assumption || exact Ht).
        replace (Cmod e0 * (q * t / Cmod e)) with (q * t * (Cmod e0 / Cmod e)) by (field; lra). apply Rmult_le_compat_l; assumption. }
    pose proof (small_mul _ Hp _ _ _ _ _ _ _ _ L IH) as S0. cbn [prod].
    replace (strength q e0 ((e, t) :: c)) with (q * t * m + strength q e0 c) by (unfold strength; cbn [map fold_right fst snd]; fold m; ring).
    replace (a_of q ((e, t) :: c)) with (e * RtoC (q * t) + a_of q c)%C by (unfold a_of; cbn [map fold_right fst snd]; rewrite RtoC_mult; ring).
    replace (b_of q ((e, t) :: c)) with (RtoC (q * t) / e + b_of q c)%C by (unfold b_of; cbn [map fold_right fst snd]; rewrite RtoC_mult; field; exact H1).
    exact S0.
Qed.
Definition scaled (h : R) (c : list (C * R)) : list (C * R) := map (fun l => (fst l, snd l * h)) c.
Lemma scaled_sums q e0 c h : Forall (fun l => fst l <> RtoC 0) c ->
  strength q e0 (scaled h c) = strength q e0 c * h /\ a_of q (scaled h c) = (a_of q c * RtoC h)%C /\ b_of q (scaled h c) = (b_of q c * RtoC h)%C.
Proof.
  induction 1 as [|[e t] c H H' (I1 & I2 & I3)].
  - unfold strength, a_of, b_of, scaled; cbn [map fold_right]. repeat split; ring.
  - cbn [fst] in H. unfold strength, a_of, b_of, scaled in *; cbn [map fold_right fst snd]. repeat split.
    + transitivity (q * (t * h * Rmax (Cmod e / Cmod e0) (Cmod e0 / Cmod e)) + (q * fold_right Rplus 0 (map (fun l => snd l * Rmax (Cmod (fst l) / Cmod e0) (Cmod e0 / Cmod (fst l))) c) * h)); [|ring]. rewrite <- I1. ring.
    + rewrite Cmult_plus_distr_l, I2, RtoC_mult. ring.
    + rewrite Cmult_plus_distr_l, I3, RtoC_mult. field. exact H.
Qed.
Lemma superlattice_scaled N c : superlattice N c = concat (repeat (scaled (/ INR N) c) N).
Proof. reflexivity. Qed.

(** the matrix of the film *)
Definition film (q : R) (c : list (C * R)) : cmat := slab_of (a_of q c) (b_of q c) (Csqrt (a_of q c * b_of q c)).
Lemma superlattice_close q e0 en c N : (0 < N)%nat -> 0 <= q -> e0 <> RtoC 0 -> en <> RtoC 0 -> Forall (fun l => fst l <> RtoC 0 /\ 0 <= snd l) c ->
  nrm (Cmod e0) (vsub (mv (prod q (superlattice N c)) (RtoC 1, / en)%C) (mv (film q c) (RtoC 1, / en)%C))
  <= strength q e0 c ^ 2 * exp (strength q e0 c) / INR N * (1 + Cmod e0 / Cmod en).
Proof.
  intros HN Hq H0 Hn Hc. assert (Hp : 0 < Cmod e0) by (apply Cmod_gt_0; exact H0).
  assert (PN : 0 < INR N) by (apply lt_0_INR; exact HN). set (h := / INR N). assert (Hh : 0 < h) by (apply Rinv_0_lt_compat; exact PN).
  assert (Hc1 : Forall (fun l => fst l <> RtoC 0) c) by (eapply Forall_impl; [|exact Hc]; cbn beta; intros l [A _]; exact A).
  assert (Hc2 : Forall (fun l => fst l <> RtoC 0 /\ 0 <= snd l) (scaled h c)).
  { unfold scaled. rewrite Forall_map. eapply Forall_impl; [|exact Hc]. intros l [A B]; cbn [fst snd]. split; [exact A|apply Rmult_le_pos; lra]. }
  destruct (scaled_sums q e0 c h Hc1) as (S1 & S2 & S3).
  pose proof (prod_small q e0 (scaled h c) Hq H0 Hc2) as SX. rewrite S1, S2, S3 in SX.
  pose proof (prod_small q e0 c Hq H0 Hc) as (Hk & Ha & Hb & _).
  set (k := strength q e0 c) in *. set (a := a_of q c) in *. set (b := b_of q c) in *. set (z := Csqrt (a * b)).
  assert (Hz : (z * z = a * b)%C) by apply Csqrt_sqr.
  assert (SY : small (Cmod e0) (k * h) (a * RtoC h) (b * RtoC h) (slab_of (a * RtoC h) (b * RtoC h) (z * RtoC h))).
  { apply slab_small; [exact Hp| | | |].
    - transitivity ((z * z) * (RtoC h * RtoC h))%C; [ring|]. rewrite Hz. ring.
    - apply Rmult_le_pos; lra.
    - rewrite Cmod_mult, Cmod_R, Rabs_pos_eq by lra. nra.
    - rewrite Cmod_mult, Cmod_R, Rabs_pos_eq by lra. nra. }
  destruct (power_close (Cmod e0) Hp _ _ _ _ _ SX SY N (RtoC 1, / en)%C) as [_ P].
  rewrite superlattice_scaled, prod_repeat. fold h. rewrite slab_pow in P by (assumption || lra).
  replace (INR N * h) with 1 in P by (unfold h; field; lra). rewrite !Cmult_1_r in P. unfold film. fold a b z. fold h.
  eapply Rle_trans; [exact P|]. clear P SX SY.
  replace (nrm (Cmod e0) (RtoC 1, (/ en)%C)) with (1 + Cmod e0 / Cmod en).
  2:{ unfold nrm; cbn [fst snd]. rewrite Cmod_1, Cmod_inv by exact Hn. reflexivity. }
  apply Rmult_le_compat_r; [assert (0 < Cmod en) by (apply Cmod_gt_0; exact Hn); assert (0 < Cmod e0 / Cmod en) by (apply Rdiv_lt_0_compat; lra); lra|].
  replace (INR N * (k * h)) with k by (unfold h; field; lra).
  pose proof (rem_quad (k * h) ltac:(apply Rmult_le_pos; lra)) as Q.
  assert (E1 : exp (k * h) * exp (- (k * h)) = 1) by (rewrite <- exp_plus; replace (k * h + - (k * h)) with 0 by ring; apply exp_0).
  pose proof (exp_pos k) as P1. pose proof (exp_pos (- (k * h))) as P2.
  apply Rle_trans with (INR N * ((k * h) ^ 2 * exp (k * h)) * exp k * exp (- (k * h))).
  - apply Rmult_le_compat_r; [lra|]. apply Rmult_le_compat_r; [lra|]. apply Rmult_le_compat_l; [lra|exact Q].
  - right. transitivity (INR N * h * (k ^ 2 * exp k * h) * (exp (k * h) * exp (- (k * h)))); [ring|]. rewrite E1.
    unfold h. field. lra.
Qed.
