(** * Proofs: fields of a uniaxial film, and superlattices that look like it (C96) *)
From Coq Require Import String Reals Lra Lia ZArith List Bool.
From Coquelicot Require Import Coquelicot.
From Coq Require Import List.
From Verif Require Import Num NumLemmas ModelBase ModelSample ModelTip StackLemmas Spec SpecWave WaveLemmas ProofsStackQS SpecUniaxial ProofsUniaxial ProofsUniaxial2.
Import ListNotations.
Open Scope R_scope.

Arguments slab_of (a b z)%C_scope. Arguments Cch z%C_scope. Arguments Csh z%C_scope. Arguments Cshc z%C_scope.

(** ** Fields inside the film *)
Definition Sz (z : C) (x : R) : C := (RtoC x * Cshc (z * RtoC x))%C.
Lemma Sz_z z x : (z * Sz z x = Csh (z * RtoC x))%C.
Proof. unfold Sz. rewrite <- Cshc_mul. ring. Qed.
Lemma fd_id x : field_derive (fun y => RtoC y) x 1%C.
Proof. split; [change (is_derive (fun y : R => y) x 1); apply (is_derive_id (K := R_AbsRing))|change (is_derive (fun y : R => 0) x 0); apply (is_derive_const (K := R_AbsRing) (V := R_NormedModule))]. Qed.
Lemma fd_S z x : field_derive (Sz z) x (Cch (z * RtoC x)).
Proof.
  destruct (Ceq_dec z 0) as [->|N].
  - apply (fd_ext (fun y => RtoC y) _ x 1%C); [|rewrite Cmult_0_l, Cch_0; reflexivity|apply fd_id].
    intros y. unfold Sz. rewrite Cmult_0_l, Cshc_zero. ring.
  - apply (fd_ext (fun y => / z * Csh (z * RtoC y))%C _ x (/ z * (z * Cch (z * RtoC x)))%C); [|field; exact N|apply fd_scal, fd_sh].
    intros y. rewrite <- Sz_z. field. exact N.
Qed.
Lemma fd_rev f T x d : field_derive f (T - x) d -> field_derive (fun y => f (T - y)) x (- d)%C.
Proof.
  intros [H1 H2]. assert (G : is_derive (fun y : R => T - y) x (- (1))) by (auto_derive; [trivial|ring]).
  split.
  - replace (Re (- d)%C) with (scal (- (1)) (Re d)) by (unfold scal; simpl; unfold mult; simpl; unfold Re; ring).
    exact (is_derive_comp (fun y => Re (f y)) (fun y => T - y) x _ _ H1 G).
  - replace (Im (- d)%C) with (scal (- (1)) (Im d)) by (unfold scal; simpl; unfold mult; simpl; unfold Im; ring).
    exact (is_derive_comp (fun y => Im (f y)) (fun y => T - y) x _ _ H2 G).
Qed.
Lemma fc_ch z x : fcont (fun y => Cch (z * RtoC y)%C) x.
Proof. exact (fc_derive _ _ _ (fd_ch z x)). Qed.
Lemma fc_S z x : fcont (Sz z) x.
Proof. exact (fc_derive _ _ _ (fd_S z x)). Qed.
Lemma fc_scal c f x : fcont f x -> fcont (fun y => c * f y)%C x.
Proof. intros H. apply (fc_mult (fun _ => c)); [apply fc_const|exact H]. Qed.

Section Film.
Variables (q T : R) (et iez z : C).
Hypothesis Hq : 0 < q.
Hypothesis HT : 0 < T.
Hypothesis Hz : (z * z = (RtoC q * et) * (RtoC q * iez))%C.
Lemma qC : RtoC q <> RtoC 0.
Proof using Hq. apply RtoC_neq_0. lra. Qed.
Lemma z_sh x : (z * Csh (z * RtoC x) = (RtoC q * et) * (RtoC q * iez) * Sz z x)%C.
Proof using Hz. rewrite <- Hz, <- Sz_z. ring. Qed.

Lemma film_transfer V D : field_continuous V -> field_continuous D ->
  (forall x, 0 < x < T -> field_derive V x (iez * D x)%C /\ field_derive D x (et * RtoC (q ^ 2) * V x)%C) ->
  (- D 0 / RtoC q, V 0)%C = mv (slab_of (RtoC q * et * RtoC T)%C (RtoC q * iez * RtoC T)%C (z * RtoC T)%C) (- D T / RtoC q, V T)%C.
Proof using Hq HT Hz.
  intros CV CD L. pose proof qC as QC.
  assert (E1 : (Cch (z * RtoC T) * (- / RtoC q * D T) + (RtoC q * et) * (Sz z T * V T) = Cch (z * RtoC 0) * (- / RtoC q * D 0) + (RtoC q * et) * (Sz z 0 * V 0))%C).
  { apply (fd_zero_const (fun x => Cch (z * RtoC x) * (- / RtoC q * D x) + (RtoC q * et) * (Sz z x * V x))%C 0 T HT).
    - intros x Hx. destruct (L x Hx) as [LV LD].
      refine (fd_ext _ _ _ _ _ (fun _ => eq_refl) _ (fd_plus _ _ _ _ _ (fd_mult _ _ _ _ _ (fd_ch z x) (fd_scal (- / RtoC q)%C _ _ _ LD)) (fd_scal (RtoC q * et)%C _ _ _ (fd_mult _ _ _ _ _ (fd_S z x) LV)))).
      rewrite z_sh. replace (RtoC (q ^ 2)) with (RtoC q * RtoC q)%C by (rewrite <- RtoC_mult; f_equal; ring). field. exact QC.
    - intros x _. apply fc_plus.
      + apply fc_mult; [apply fc_ch|apply fc_scal, CD].
      + apply fc_scal, fc_mult; [apply fc_S|apply CV]. }
  assert (E2 : ((RtoC q * iez) * (Sz z T * (- / RtoC q * D T)) + Cch (z * RtoC T) * V T = (RtoC q * iez) * (Sz z 0 * (- / RtoC q * D 0)) + Cch (z * RtoC 0) * V 0)%C).
  { apply (fd_zero_const (fun x => (RtoC q * iez) * (Sz z x * (- / RtoC q * D x)) + Cch (z * RtoC x) * V x)%C 0 T HT).
    - intros x Hx. destruct (L x Hx) as [LV LD].
      refine (fd_ext _ _ _ _ _ (fun _ => eq_refl) _ (fd_plus _ _ _ _ _ (fd_scal (RtoC q * iez)%C _ _ _ (fd_mult _ _ _ _ _ (fd_S z x) (fd_scal (- / RtoC q)%C _ _ _ LD))) (fd_mult _ _ _ _ _ (fd_ch z x) LV))).
      rewrite z_sh. replace (RtoC (q ^ 2)) with (RtoC q * RtoC q)%C by (rewrite <- RtoC_mult; f_equal; ring). field. exact QC.
    - intros x _. apply fc_plus.
      + apply fc_scal, fc_mult; [apply fc_S|apply fc_scal, CD].
      + apply fc_mult; [apply fc_ch|apply CV]. }
  assert (S0 : Sz z 0 = RtoC 0) by (unfold Sz; ring). rewrite S0, (Cmult_0_r z), Cch_0 in E1, E2.
  unfold mv, slab_of; cbn [fst snd c00 c01 c10 c11]. f_equal.
  - match type of E1 with _ = ?r => transitivity r end; [field; exact QC|]. rewrite <- E1. unfold Sz. field. exact QC.
  - match type of E2 with _ = ?r => transitivity r end; [ring|]. rewrite <- E2. unfold Sz. field. exact QC.
Qed.

Variables e0 en : C.
Hypothesis H0 : e0 <> RtoC 0.
Hypothesis Hn : en <> RtoC 0.
Let F := slab_of (RtoC q * et * RtoC T)%C (RtoC q * iez * RtoC T)%C (z * RtoC T)%C.
Lemma fd_rexp k x : field_derive (fun y => RtoC (exp (k * y))) x (RtoC k * RtoC (exp (k * x)))%C.
Proof using.
  refine (fd_ext _ _ _ _ _ _ _ (fd_exp (RtoC k) x)).
  - intros y. rewrite <- RtoC_mult, Cexp_R. reflexivity.
  - rewrite <- RtoC_mult, Cexp_R. reflexivity.
Qed.
Lemma fd_rexp_sub k s x : field_derive (fun y => RtoC (exp (k * (y - s)))) x (RtoC k * RtoC (exp (k * (x - s))))%C.
Proof using.
  assert (E : forall y, RtoC (exp (k * (y - s))) = (RtoC (exp (- (k * s))) * RtoC (exp (k * y)))%C).
  { intros y. rewrite <- RtoC_mult, <- exp_plus. do 2 f_equal. ring. }
  refine (fd_ext _ _ _ _ _ _ _ (fd_scal (RtoC (exp (- (k * s)))) _ _ _ (fd_rexp k x))).
  - intros y. rewrite E. reflexivity.
  - rewrite E. ring.
Qed.
Definition vtop (a b : C) (x : R) : C := (a * RtoC (exp (- q * x)) - b * RtoC (exp (q * x)))%C.
Definition dtop (a b : C) (x : R) : C := (- (RtoC q * e0) * (a * RtoC (exp (- q * x)) + b * RtoC (exp (q * x))))%C.
Definition vbot (t : C) (x : R) : C := (t * RtoC (exp (- q * (x - T))))%C.
Definition dbot (t : C) (x : R) : C := (- (RtoC q * en) * (t * RtoC (exp (- q * (x - T)))))%C.
Lemma vtop_d a b x : field_derive (vtop a b) x (dtop a b x / e0)%C.
Proof using H0.
  refine (fd_ext _ _ _ _ _ _ _ (fd_plus _ _ _ _ _ (fd_scal a _ _ _ (fd_rexp (- q) x)) (fd_scal (- b)%C _ _ _ (fd_rexp q x)))).
  - intros y. unfold vtop. ring.
  - unfold dtop. rewrite RtoC_opp. field. exact H0.
Qed.
Lemma dtop_d a b x : field_derive (dtop a b) x (e0 * RtoC (q ^ 2) * vtop a b x)%C.
Proof using.
  refine (fd_ext _ _ _ _ _ _ _ (fd_scal (- (RtoC q * e0))%C _ _ _ (fd_plus _ _ _ _ _ (fd_scal a _ _ _ (fd_rexp (- q) x)) (fd_scal b _ _ _ (fd_rexp q x))))).
  - intros y. reflexivity.
  - unfold vtop. rewrite RtoC_opp. replace (RtoC (q ^ 2)) with (RtoC q * RtoC q)%C by (rewrite <- RtoC_mult; f_equal; ring). ring.
Qed.
Lemma vbot_d t x : field_derive (vbot t) x (dbot t x / en)%C.
Proof using Hn.
  refine (fd_ext _ _ _ _ _ _ _ (fd_scal t _ _ _ (fd_rexp_sub (- q) T x))).
  - intros y. reflexivity.
  - unfold dbot. rewrite RtoC_opp. field. exact Hn.
Qed.
Lemma dbot_d t x : field_derive (dbot t) x (en * RtoC (q ^ 2) * vbot t x)%C.
Proof using.
  refine (fd_ext _ _ _ _ _ _ _ (fd_scal (- (RtoC q * en))%C _ _ _ (fd_scal t _ _ _ (fd_rexp_sub (- q) T x)))).
  - intros y. reflexivity.
  - unfold vbot. rewrite RtoC_opp. replace (RtoC (q ^ 2)) with (RtoC q * RtoC q)%C by (rewrite <- RtoC_mult; f_equal; ring). ring.
Qed.
Lemma near_lt x b : x < b -> locally x (fun y => y < b).
Proof using. intros H. exists (mkposreal (b - x) ltac:(lra)). intros y Hy. unfold ball in Hy; simpl in Hy. unfold AbsRing_ball, abs, minus, plus, opp in Hy; simpl in Hy. apply Rabs_def2 in Hy. lra. Qed.
Lemma near_gt x b : b < x -> locally x (fun y => b < y).
Proof using. intros H. exists (mkposreal (x - b) ltac:(lra)). intros y Hy. unfold ball in Hy; simpl in Hy. unfold AbsRing_ball, abs, minus, plus, opp in Hy; simpl in Hy. apply Rabs_def2 in Hy. lra. Qed.
Lemma exp_q0 : exp (q * 0) = 1 /\ exp (- q * 0) = 1.
Proof using. rewrite !Rmult_0_r. rewrite exp_0. auto. Qed.

Lemma film_needs a b t V D : film_fields q T et iez e0 en a b t V D ->
  (e0 * (a + b))%C = (t * en * fst (mv F (RtoC 1, / en)%C))%C /\ (a - b)%C = (t * en * snd (mv F (RtoC 1, / en)%C))%C.
Proof using Hq HT Hz H0 Hn.
  intros (CV & CD & L1 & L2 & L3 & VT & VB). pose proof qC as QC.
  pose proof (film_transfer V D CV CD L2) as TR. fold F in TR.
  assert (D0 : D 0 = dtop a b 0).
  { apply (fc_agree_left D (dtop a b)); [apply CD|exact (fc_derive _ _ _ (dtop_d a b 0))|]. intros x Hx.
    destruct (L1 x Hx) as [LV _].
    assert (LV' : field_derive V x (dtop a b x / e0)%C).
    { apply (fd_ext_loc (vtop a b)); [|apply vtop_d]. eapply filter_imp; [|exact (near_lt x 0 Hx)]. intros y Hy. symmetry. apply VT. simpl in Hy. lra. }
    pose proof (fd_unique _ _ _ _ LV LV') as E. replace (D x) with (D x / e0 * e0)%C by (field; exact H0). rewrite E. field. exact H0. }
  assert (DT : D T = dbot t T).
  { apply (fc_agree_right D (dbot t)); [apply CD|exact (fc_derive _ _ _ (dbot_d t T))|]. intros x Hx.
    destruct (L3 x Hx) as [LV _].
    assert (LV' : field_derive V x (dbot t x / en)%C).
    { apply (fd_ext_loc (vbot t)); [|apply vbot_d]. eapply filter_imp; [|exact (near_gt x T Hx)]. intros y Hy. symmetry. apply VB. simpl in Hy. lra. }
    pose proof (fd_unique _ _ _ _ LV LV') as E. replace (D x) with (D x / en * en)%C by (field; exact Hn). rewrite E. field. exact Hn. }
  rewrite D0, DT, (VT 0), (VB T) in TR by lra. unfold dtop, dbot in TR. destruct exp_q0 as [E1 E2].
  rewrite E1, E2 in TR. replace (- q * (T - T)) with 0 in TR by ring. rewrite exp_0 in TR.
  pose proof (f_equal fst TR) as T1. pose proof (f_equal snd TR) as T2. unfold mv in T1, T2; cbn [fst snd] in T1, T2. unfold mv; cbn [fst snd]. split.
  - transitivity (- (- (RtoC q * e0) * (a * 1 + b * 1)) / RtoC q)%C; [field; exact QC|]. transitivity (c00 F * (- (- (RtoC q * en) * (t * 1)) / RtoC q) + c01 F * (t * 1))%C; [|field; split; assumption].
    exact T1.
  - transitivity (a * 1 - b * 1)%C; [ring|]. transitivity (c10 F * (- (- (RtoC q * en) * (t * 1)) / RtoC q) + c11 F * (t * 1))%C; [|field; split; assumption].
    exact T2.
Qed.

Definition vmid (t : C) (x : R) : C := (t * (en * (RtoC q * iez) * Sz z (T - x) + Cch (z * RtoC (T - x))))%C.
Definition dmid (t : C) (x : R) : C := (- (RtoC q * t) * (en * Cch (z * RtoC (T - x)) + (RtoC q * et) * Sz z (T - x)))%C.
Lemma vmid_d t x : field_derive (vmid t) x (iez * dmid t x)%C.
Proof using Hz.
  refine (fd_ext _ _ _ _ _ _ _ (fd_scal t _ _ _ (fd_plus _ _ _ _ _ (fd_scal (en * (RtoC q * iez))%C _ _ _ (fd_rev _ T x _ (fd_S z (T - x)))) (fd_rev _ T x _ (fd_ch z (T - x)))))).
  - intros y. reflexivity.
  - rewrite z_sh. unfold dmid. ring.
Qed.
Lemma dmid_d t x : field_derive (dmid t) x (et * RtoC (q ^ 2) * vmid t x)%C.
Proof using Hz.
  refine (fd_ext _ _ _ _ _ _ _ (fd_scal (- (RtoC q * t))%C _ _ _ (fd_plus _ _ _ _ _ (fd_scal en _ _ _ (fd_rev _ T x _ (fd_ch z (T - x)))) (fd_scal (RtoC q * et)%C _ _ _ (fd_rev _ T x _ (fd_S z (T - x))))))).
  - intros y. reflexivity.
  - rewrite z_sh. unfold vmid. replace (RtoC (q ^ 2)) with (RtoC q * RtoC q)%C by (rewrite <- RtoC_mult; f_equal; ring). ring.
Qed.
Lemma film_gives a b t :
  (e0 * (a + b))%C = (t * en * fst (mv F (RtoC 1, / en)%C))%C -> (a - b)%C = (t * en * snd (mv F (RtoC 1, / en)%C))%C ->
  exists V D, film_fields q T et iez e0 en a b t V D.
Proof using Hq HT Hz H0 Hn.
  intros A1 A2. unfold mv, F, slab_of in A1, A2; cbn [fst snd c00 c01 c10 c11] in A1, A2. pose proof qC as QC. destruct exp_q0 as [E1 E2].
  assert (V0 : vtop a b 0 = vmid t 0).
  { unfold vtop, vmid, Sz. rewrite E1, E2, Rminus_0_r. transitivity (a - b)%C; [ring|]. rewrite A2. field. exact Hn. }
  assert (D0 : dtop a b 0 = dmid t 0).
  { unfold dtop, dmid, Sz. rewrite E1, E2, Rminus_0_r. transitivity (- RtoC q * (e0 * (a + b)))%C; [ring|]. rewrite A1. field. exact Hn. }
  assert (VT : vmid t T = vbot t T).
  { unfold vbot, vmid, Sz. rewrite !Rminus_eq_0, !Rmult_0_r, exp_0, !Cmult_0_r, Cch_0. ring. }
  assert (DT : dmid t T = dbot t T).
  { unfold dbot, dmid, Sz. rewrite !Rminus_eq_0, !Rmult_0_r, exp_0, !Cmult_0_r, Cch_0. ring. }
  exists (fun x => if Rle_dec x 0 then vtop a b x else if Rle_dec x T then vmid t x else vbot t x).
  exists (fun x => if Rle_dec x 0 then dtop a b x else if Rle_dec x T then dmid t x else dbot t x).
  assert (P : forall x, field_derive (vtop a b) x (dtop a b x / e0)%C) by apply vtop_d.
  split; [|split; [|split; [|split; [|split; [|split]]]]].
  - intros x. apply (fc_glue (vtop a b) (fun x => if Rle_dec x T then vmid t x else vbot t x) 0 x).
    + exact (fc_derive _ _ _ (vtop_d a b x)).
    + apply (fc_glue (vmid t) (vbot t) T x); [exact (fc_derive _ _ _ (vmid_d t x))|exact (fc_derive _ _ _ (vbot_d t x))|exact VT].
    + rewrite V0. destruct (Rle_dec 0 T); [reflexivity|lra].
  - intros x. apply (fc_glue (dtop a b) (fun x => if Rle_dec x T then dmid t x else dbot t x) 0 x).
    + exact (fc_derive _ _ _ (dtop_d a b x)).
    + apply (fc_glue (dmid t) (dbot t) T x); [exact (fc_derive _ _ _ (dmid_d t x))|exact (fc_derive _ _ _ (dbot_d t x))|exact DT].
    + rewrite D0. destruct (Rle_dec 0 T); [reflexivity|lra].
  - intros x Hx. split.
    + apply (fd_ext_loc (vtop a b)); [|destruct (Rle_dec x 0); [apply vtop_d|lra]].
      eapply filter_imp; [|exact (near_lt x 0 Hx)]. intros y Hy. simpl in Hy. destruct (Rle_dec y 0); [reflexivity|lra].
    + apply (fd_ext_loc (dtop a b)); [|destruct (Rle_dec x 0); [apply dtop_d|lra]].
      eapply filter_imp; [|exact (near_lt x 0 Hx)]. intros y Hy. simpl in Hy. destruct (Rle_dec y 0); [reflexivity|lra].
  - intros x Hx. split.
    + apply (fd_ext_loc (vmid t)); [|destruct (Rle_dec x 0); [lra|]; destruct (Rle_dec x T); [apply vmid_d|lra]].
      eapply filter_imp; [|exact (filter_and _ _ (near_gt x 0 (proj1 Hx)) (near_lt x T (proj2 Hx)))]. intros y [Hy Hy']. simpl in Hy, Hy'.
      destruct (Rle_dec y 0); [lra|]. destruct (Rle_dec y T); [reflexivity|lra].
    + apply (fd_ext_loc (dmid t)); [|destruct (Rle_dec x 0); [lra|]; destruct (Rle_dec x T); [apply dmid_d|lra]].
      eapply filter_imp; [|exact (filter_and _ _ (near_gt x 0 (proj1 Hx)) (near_lt x T (proj2 Hx)))]. intros y [Hy Hy']. simpl in Hy, Hy'.
      destruct (Rle_dec y 0); [lra|]. destruct (Rle_dec y T); [reflexivity|lra].
  - intros x Hx. split.
    + apply (fd_ext_loc (vbot t)); [|destruct (Rle_dec x 0); [lra|]; destruct (Rle_dec x T); [lra|apply vbot_d]].
      eapply filter_imp; [|exact (near_gt x T Hx)]. intros y Hy. simpl in Hy. destruct (Rle_dec y 0); [lra|]. destruct (Rle_dec y T); [lra|reflexivity].
    + apply (fd_ext_loc (dbot t)); [|destruct (Rle_dec x 0); [lra|]; destruct (Rle_dec x T); [lra|apply dbot_d]].
      eapply filter_imp; [|exact (near_gt x T Hx)]. intros y Hy. simpl in Hy. destruct (Rle_dec y 0); [lra|]. destruct (Rle_dec y T); [lra|reflexivity].
  - intros x Hx. destruct (Rle_dec x 0); [reflexivity|lra].
  - intros x Hx. destruct (Rle_dec x 0); [lra|]. destruct (Rle_dec x T) as [L|L]; [|reflexivity].
    replace x with T by lra. exact VT.
Qed.
End Film.

(** ** The film of the averages *)
Lemma film_is q c : thickness c <> 0 ->
  exists z, (z * z = (RtoC q * eps_along c) * (RtoC q * inv_eps_across c))%C /\
  film q c = slab_of (RtoC q * eps_along c * RtoC (thickness c))%C (RtoC q * inv_eps_across c * RtoC (thickness c))%C (z * RtoC (thickness c))%C.
Proof.
  intros HT. assert (TC : RtoC (thickness c) <> RtoC 0) by (apply RtoC_neq_0; exact HT).
  exists (Csqrt (a_of q c * b_of q c) / RtoC (thickness c))%C. split.
  - transitivity (Csqrt (a_of q c * b_of q c) * Csqrt (a_of q c * b_of q c) / (RtoC (thickness c) * RtoC (thickness c)))%C; [field; exact TC|].
    rewrite Csqrt_sqr. unfold a_of, b_of, eps_along, inv_eps_across. field. exact TC.
  - unfold film. f_equal; unfold a_of, b_of, eps_along, inv_eps_across; field; exact TC.
Qed.
Lemma slab_det a b z : (z * z = a * b)%C -> det (slab_of a b z) = RtoC 1.
Proof.
  intros Hz. unfold det, slab_of; cbn [c00 c01 c10 c11].
  transitivity (Cch z * Cch z - (z * Cshc z) * (z * Cshc z))%C; [transitivity (Cch z * Cch z - (a * b) * (Cshc z * Cshc z))%C; [ring|rewrite <- Hz; ring]|].
  rewrite Cshc_mul. unfold Cch, Csh. pose proof (Cexp_opp z) as E. transitivity (Cexp z * Cexp (- z))%C; [field; auto|exact E].
Qed.
Lemma film_vec q c en : mv (film q c) (RtoC 1, / en)%C <> (RtoC 0, RtoC 0).
Proof.
  intros H. assert (Dt : det (film q c) = RtoC 1) by (apply slab_det, Csqrt_sqr).
  pose proof (f_equal fst H) as H1. pose proof (f_equal snd H) as H2. unfold mv in H1, H2; cbn [fst snd] in H1, H2.
  apply (C1_neq_0). rewrite <- Dt. unfold det.
  transitivity (c11 (film q c) * (c00 (film q c) * 1 + c01 (film q c) * / en) - c01 (film q c) * (c10 (film q c) * 1 + c11 (film q c) * / en))%C; [ring|].
  rewrite H1, H2. ring.
Qed.
