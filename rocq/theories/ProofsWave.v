(** * Proofs: the coefficients of the code solve the boundary-value problem *)
From Coq Require Import String Reals Lra Lia ZArith List Bool.
From Coquelicot Require Import Rcomplements Complex.
From Verif Require Import Num NumLemmas LimLemmas ModelBase ModelSample ModelTip StackLemmas Spec
  ProofsStackQS ProofsStackQS2 ProofsStackFF ProofsStackFF2 SpecWave WaveLemmas WaveLemmas2.
Import ListNotations.
Open Scope R_scope.

Lemma below_In es : forall ts top z e, below es ts top z e -> In e es.
Proof.
  induction es as [|e1 es IH]; intros ts top z e H; [destruct ts; contradiction|].
  destruct ts as [|t ts]; cbn in H.
  - destruct es; [|contradiction]. destruct H as [_ ->]. left. reflexivity.
  - destruct es as [|e2 es].
    + destruct H as [[_ ->]|H]; [left; reflexivity|]. destruct ts; contradiction.
    + destruct H as [[_ ->]|H]; [left; reflexivity|]. right. eapply IH. exact H.
Qed.
Lemma material_In es ts z e : material es ts z e -> In e es.
Proof.
  destruct es as [|e0 es]; [contradiction|]. intros [[_ ->]|H]; [left; reflexivity|].
  right. eapply below_In. exact H.
Qed.
Lemma scattering_ext (l1 l2 : C -> (R -> C) -> (R -> C) -> R -> Prop) es ts k0 kn r t F G :
  (forall e z, In e es -> l1 e F G z <-> l2 e F G z) ->
  scattering l1 es ts k0 kn r t F G <-> scattering l2 es ts k0 kn r t F G.
Proof.
  intros H. unfold scattering, field_in. split; intros ((H1 & H2 & H3) & H4); (split; [|exact H4]);
    (split; [exact H1|split; [exact H2|]]); intros z e Hm; apply (H e z (material_In _ _ _ _ Hm)); auto.
Qed.
Lemma field_derive_eq f z d d' : d = d' -> field_derive f z d <-> field_derive f z d'.
Proof. intros ->. tauto. Qed.

Definition Wff (p : bool) (e : C) : C := if p then (/ e)%C else RtoC 1.
Definition maxwell (p : bool) := if p then maxwell_p else maxwell_s.
Lemma maxwell_law p nu q e F G z : (p = true -> e <> RtoC 0) ->
  law (Wff p) (kz nu q) e F G z <-> maxwell p nu q e F G z.
Proof.
  intros He. unfold law, wlaw. pose proof (kz_is_kz nu q e) as Hk. unfold is_kz in Hk. rewrite Hk.
  destruct p; cbn [Wff maxwell].
  - specialize (He eq_refl). unfold maxwell_p. 
    rewrite (field_derive_eq F z (G z / / e)%C (e * G z)%C) by (field; split; [exact He|apply RtoC_neq_0; lra]).
    rewrite (field_derive_eq G z _ ((RtoC (q ^ 2) / e - RtoC (nu ^ 2)) * F z)%C); [tauto|]. field. exact He.
  - unfold maxwell_s.
    rewrite (field_derive_eq F z (G z / RtoC 1)%C (G z)) by (field; apply RtoC_neq_0; lra).
    rewrite (field_derive_eq G z _ ((RtoC (q ^ 2) - e * RtoC (nu ^ 2)) * F z)%C); [tauto|]. ring.
Qed.

Lemma ex_minus k t : ex k (- t) = Cexp ((0, -1)%R * (k * RtoC t))%C.
Proof. unfold ex. f_equal. rewrite RtoC_opp. apply injective_projections; simpl; ring. Qed.
Lemma ex_plain k t : ex k t = Cexp ((0, 1)%R * (k * RtoC t))%C.
Proof. unfold ex. f_equal. apply injective_projections; simpl; ring. Qed.

Definition fgood (p : bool) (nu q : R) (e : C) : Prop := kz nu q e <> RtoC 0 /\ (p = true -> e <> RtoC 0).
Lemma Mw_Mff p nu q inner : forall a b, fgood p nu q a -> Forall (fun et => fgood p nu q (fst et)) inner ->
  (p = true -> b <> RtoC 0) ->
  Mw (Wff p) (kz nu q) a inner b = Mff p nu q a inner b.
Proof.
  assert (HT : forall a b, fgood p nu q a -> (p = true -> b <> RtoC 0) ->
               Tw (Wff p) (kz nu q) a b = Tff p nu q a b).
  { intros a b [Ka Ha] Hb. unfold Tw, Tff, ffactor, Wff. destruct p; f_equal.
    - specialize (Ha eq_refl). specialize (Hb eq_refl). field. auto.
    - field. exact Ka. }
  unfold Mw, Mff. induction inner as [|[e t] rest IH]; intros a b Ha Hin Hb; cbn [stackM].
  - apply HT; assumption.
  - inversion Hin as [|? ? He Hin']; subst. cbn in He.
    rewrite HT by (assumption || apply He). rewrite IH by assumption.
    unfold Pw, Pff. rewrite ex_minus, ex_plain. reflexivity.
Qed.

Lemma okstack_fgood p nu q inner : forall a b, fgood p nu q a -> Forall (fun et => fgood p nu q (fst et)) inner ->
  (p = true -> b <> RtoC 0) -> okstack (okff p nu q) a inner b.
Proof.
  induction inner as [|[e t] rest IH]; intros a b Ha Hin Hb; cbn.
  - split; [apply Ha|exact Hb].
  - inversion Hin as [|? ? He Hin']; subst. cbn in He. split; [split; [apply Ha|apply He]|auto].
Qed.

(** the two quotients computed by the code, and the linear system *)
Lemma quotients (a b r t : C) :
  (Some b / Some a)%cv = Some r /\ (rc 1 / Some a)%cv = Some t <-> (a * t = RtoC 1 /\ b * t = r)%C.
Proof.
  unfold rc. split.
  - intros [H1 H2]. apply cdiv_Some in H1. destruct H1 as (x & y & E1 & E2 & Ha & H1).
    apply cdiv_Some in H2. destruct H2 as (x' & y' & E3 & E4 & _ & H2).
    injection E1 as <-. injection E2 as <-. injection E3 as <-. injection E4 as <-.
    subst r t. split; field; exact Ha.
  - intros [H1 H2]. assert (Ha : a <> RtoC 0).
    { intros ->. rewrite Cmult_0_l in H1. apply (f_equal fst) in H1. simpl in H1. lra. }
    rewrite !cdiv_ok by exact Ha. rewrite <- H2. split; f_equal.
    + replace b with (b * (a * t))%C at 1 by (rewrite H1; ring). field. exact Ha.
    + rewrite <- H1. field. exact Ha.
Qed.

(** C54. The far-field reflection and transmission coefficients are exactly the
    amplitudes of THE solution of Maxwell's equations in the stack: for every r
    and t, the two calls return r and t if and only if there is a field, with
    continuous tangential components and obeying Maxwell's equations in every
    material, that consists of an incident wave of amplitude 1 and a reflected
    wave of amplitude r above the stack and of a single outgoing (or decaying)
    wave of amplitude t below it. *)
Lemma C54_maxwell_proof :
  forall (p : bool) (e0 : C) (mid : list C) (en : C) (ts : list R) nu0 (nu q : R) (k0 kn r t : C),
  length mid = length ts -> Forall (fun t => 0 < t) ts ->
  Forall (fun e => (e * RtoC (nu ^ 2) - RtoC (q ^ 2) <> 0)%C) (e0 :: mid) ->
  (p = true -> Forall (fun e => e <> RtoC 0) (e0 :: mid ++ [en])) ->
  is_kz nu q e0 k0 -> principal k0 -> is_kz nu q en kn -> principal kn ->
  refl_coef (stack (e0 :: mid ++ [en]) ts nu0) (Some q) None (Some nu) (pol p) = Ok (Some r) /\
  trans_coef (stack (e0 :: mid ++ [en]) ts nu0) (Some q) None (Some nu) (pol p) = Ok (Some t)
  <->
  exists F G, scattering (if p then maxwell_p nu q else maxwell_s nu q) (e0 :: mid ++ [en]) ts k0 kn r t F G.
Proof.
  intros p e0 mid en ts nu0 nu q k0 kn r t Hl Ht Hk Hn K0 P0 Kn Pn.
  apply is_kz_principal in K0; [|exact P0]. apply is_kz_principal in Kn; [|exact Pn]. subst k0 kn.
  destruct (stack_decomp (e0 :: mid ++ [en]) ts) as (a & inner & b & E & ->).
  { simpl. rewrite app_length. simpl. lia. }
  rewrite E in *.
  assert (E' := E). unfold eps_of in E'. injection E' as -> E'. apply app_inj_tail in E'. destruct E' as [-> ->].
  assert (Ha : fgood p nu q a).
  { split; [apply kz_neq_0; now inversion Hk|]. intros X. specialize (Hn X). now inversion Hn. }
  assert (Hin : Forall (fun et => fgood p nu q (fst et)) inner).
  { apply Forall_forall. intros et Het. split.
    - apply kz_neq_0. rewrite Forall_forall in Hk. apply Hk. right. apply in_map. exact Het.
    - intros X. specialize (Hn X). rewrite Forall_forall in Hn. apply Hn. right. apply in_or_app. left.
      apply in_map. exact Het. }
  assert (Hb : p = true -> b <> RtoC 0).
  { intros X. specialize (Hn X). rewrite Forall_forall in Hn. apply Hn. right. apply in_or_app. right. left. reflexivity. }
  assert (Hall : p = true -> forall e, In e (eps_of a inner b) -> e <> RtoC 0).
  { intros X. specialize (Hn X). rewrite Forall_forall in Hn. exact Hn. }
  assert (Ht' : Forall (fun et : C * R => 0 < snd et) inner).
  { apply Forall_forall. intros et Het. rewrite Forall_forall in Ht. apply Ht. apply in_map. exact Het. }
  assert (HW : forall e, (p = true -> e <> RtoC 0) -> Wff p e <> RtoC 0).
  { intros e He. unfold Wff. destruct p; [apply Cinv_neq_0; auto|apply RtoC_neq_0; lra]. }
  assert (Hga : good (Wff p) (kz nu q) a) by (split; [apply HW|]; apply Ha).
  assert (Hgi : Forall (fun et : C * R => good (Wff p) (kz nu q) (fst et)) inner).
  { eapply Forall_impl; [|exact Hin]. intros et [X Y]. split; auto. }
  rewrite stack_struct, pol_pol_str.
  rewrite (refl_coef_struct _ _ _ _ _ _ _ _ nu q), (trans_coef_struct _ _ _ _ _ _ _ _ nu q);
    try reflexivity; try (apply okstack_fgood; assumption).
  rewrite <- (Mw_Mff p nu q inner a b Ha Hin Hb).
  transitivity (msolution (Wff p) (kz nu q) a inner b r t).
  { unfold msolution. rewrite <- quotients. split.
    - intros [H1 H2]. injection H1 as H1. injection H2 as H2. auto.
    - intros [-> ->]. auto. }
  assert (EX : forall F G, scattering (if p then maxwell_p nu q else maxwell_s nu q) (eps_of a inner b) (map snd inner)
                 (kz nu q a) (kz nu q b) r t F G
               <-> scattering (law (Wff p) (kz nu q)) (eps_of a inner b) (map snd inner) (kz nu q a) (kz nu q b) r t F G).
  { intros F G. apply scattering_ext. intros e z He. symmetry.
    pose proof (maxwell_law p nu q e F G z (fun X => Hall X e He)) as X. destruct p; exact X. }
  split.
  - intros HM. destruct (scattering_complete (Wff p) (kz nu q) a inner b r t) as (F & G & H); auto.
    exists F, G. apply EX. exact H.
  - intros (F & G & H). apply (scattering_sound (Wff p) (kz nu q) a inner b r t F G); auto.
    apply EX. exact H.
Qed.

(** ** Electrostatics *)
Definition neg_off (A : cmat) : cmat := mkC (c00 A) (- c01 A)%C (- c10 A)%C (c11 A).
Definition scale (s : C) (A : cmat) : cmat := mkC (s * c00 A)%C (s * c01 A)%C (s * c10 A)%C (s * c11 A)%C.
Lemma Mw_Mqs q inner : q <> 0 -> Forall (fun et : C * R => Rabs (q * snd et) <= MAX_EXP_ARG) inner ->
  forall a b, a <> RtoC 0 -> Forall (fun et : C * R => fst et <> RtoC 0) inner -> b <> RtoC 0 ->
  Mw (fun e => e) (fun _ => (Ci * RtoC q)%C) a inner b = scale (b / a)%C (neg_off (Mqs q a inner b)).
Proof.
  intros Hq Hc. assert (Hqc : RtoC q <> RtoC 0) by (apply RtoC_neq_0; exact Hq).
  assert (HT : forall a b, a <> RtoC 0 -> b <> RtoC 0 ->
    Tw (fun e => e) (fun _ => (Ci * RtoC q)%C) a b = scale (b / a)%C (neg_off (Tqs a b))).
  { intros a b Ha Hb. unfold Tw, Tqs, scale, neg_off, pT. cbn [c00 c01 c10 c11].
    apply cmat_eq; cbn [c00 c01 c10 c11]; field; repeat split; auto using Ci_neq_0, C2_neq_0. }
  unfold Mw, Mqs. induction inner as [|[e t] rest IH]; intros a b Ha Hin Hb; cbn [stackM].
  - apply HT; assumption.
  - inversion Hin as [|? ? He Hin']; subst. inversion Hc as [|? ? Hc1 Hc2]; subst. cbn [fst snd] in *.
    rewrite HT, IH by assumption.
    assert (HX : clipR (q * t) = q * t).
    { unfold clipR. apply Rabs_le_between in Hc1. rewrite Rmax_left by lra. apply Rmin_left. lra. }
    assert (EP : Pw (fun _ => (Ci * RtoC q)%C) e t = Pqs q e t).
    { unfold Pw, Pqs. rewrite HX. f_equal.
      - unfold ex. rewrite <- Cexp_R. f_equal. apply injective_projections; simpl; ring.
      - unfold ex. rewrite <- Cexp_R. f_equal. apply injective_projections; simpl; ring. }
    rewrite EP. set (M := stackM Tqs (Pqs q) e rest b). unfold Pqs.
    apply cmat_eq; unfold scale, neg_off, pmul, pP; cbn [c00 c01 c10 c11]; field; auto.
Qed.

(** C55. The quasistatic coefficients are exactly those of the electrostatic
    boundary-value problem.  A potential e^{-q z} applied from above is
    reflected with amplitude MINUS beta; the transmitted potential is the
    returned transmission coefficient times e_env / e_substrate. *)
Lemma C55_electrostatic_proof :
  forall (e0 : C) (mid : list C) (en : C) (ts : list R) nu (q : R) (beta t : C),
  length mid = length ts -> Forall (fun t => 0 < t) ts -> 0 < q ->
  Forall (fun t => q * t <= MAX_EXP_ARG) ts ->
  Forall (fun e => e <> RtoC 0) (e0 :: mid ++ [en]) ->
  refl_coef_qs (stack (e0 :: mid ++ [en]) ts nu) (rr q) = Ok (Some beta) /\
  trans_coef_qs (stack (e0 :: mid ++ [en]) ts nu) (rr q) = Ok (Some t)
  <->
  exists V D, field_in (electrostatic q) (e0 :: mid ++ [en]) ts V D /\
    (forall z, z <= 0 -> V z = (RtoC (exp (- q * z)) - beta * RtoC (exp (q * z)))%C) /\
    (forall z, total_depth ts <= z -> V z = (e0 / en * t * RtoC (exp (- q * (z - total_depth ts))))%C).
Proof.
  intros e0 mid en ts nu q beta t Hl Ht Hq Hclip Hn.
  destruct (stack_decomp (e0 :: mid ++ [en]) ts) as (a & inner & b & E & ->).
  { simpl. rewrite app_length. simpl. lia. }
  rewrite E in *.
  assert (E' := E). unfold eps_of in E'. injection E' as -> E'. apply app_inj_tail in E'. destruct E' as [-> ->].
  rewrite Forall_forall in Hn.
  assert (Ha : a <> RtoC 0) by (apply Hn; left; reflexivity).
  assert (Hb : b <> RtoC 0) by (apply Hn; right; apply in_or_app; right; left; reflexivity).
  assert (Hin : Forall (fun et : C * R => fst et <> RtoC 0) inner).
  { apply Forall_forall. intros et Het. apply Hn. right. apply in_or_app. left. apply in_map. exact Het. }
  assert (Ht' : Forall (fun et : C * R => 0 < snd et) inner).
  { apply Forall_forall. intros et Het. rewrite Forall_forall in Ht. apply Ht. apply in_map. exact Het. }
  assert (Hc : Forall (fun et : C * R => Rabs (q * snd et) <= MAX_EXP_ARG) inner).
  { apply Forall_forall. intros et Het. rewrite Forall_forall in Hclip, Ht'. 
    rewrite Rabs_pos_eq; [apply Hclip; apply in_map; exact Het|].
    apply Rmult_le_pos; [lra|]. apply Rlt_le, Ht', Het. }
  set (W := fun e : C => e). set (K := fun _ : C => (Ci * RtoC q)%C).
  assert (HK : forall e, K e <> RtoC 0).
  { intros e. apply Cmult_neq_0; [exact Ci_neq_0|]. apply RtoC_neq_0. lra. }
  assert (Hga : good W K a) by (split; auto).
  assert (Hgi : Forall (fun et : C * R => good W K (fst et)) inner).
  { eapply Forall_impl; [|exact Hin]. intros et X. split; auto. }
  rewrite stack_struct.
  assert (Hnz : Forall (fun e => e <> RtoC 0) (map fst inner ++ [b])).
  { apply Forall_forall. intros e He. apply Hn. right. exact He. }
  rewrite refl_coef_qs_struct, trans_coef_qs_struct by exact Hnz.
  pose proof (Mw_Mqs q inner (Rgt_not_eq _ _ Hq) Hc a b Ha Hin Hb) as EM. fold W K in EM.
  set (M := Mqs q a inner b) in *.
  transitivity (msolution W K a inner b (- beta)%C (a / b * t)%C).
  { unfold msolution. rewrite EM. cbn [scale neg_off c00 c10].
    transitivity ((Some (c10 M) / Some (c00 M))%cv = Some beta /\ (rc 1 / Some (c00 M))%cv = Some t).
    { split; [intros [H1 H2]; injection H1 as H1; injection H2 as H2; auto|intros [-> ->]; auto]. }
    rewrite quotients.
    replace (b / a * c00 M * (a / b * t))%C with (c00 M * t)%C by (field; auto).
    replace (b / a * - c10 M * (a / b * t))%C with (- (c10 M * t))%C by (field; auto).
    split; intros [H1 H2]; (split; [exact H1|]).
    - rewrite H2. reflexivity.
    - replace (c10 M * t)%C with (- - (c10 M * t))%C by ring. rewrite H2. ring. }
  assert (EX : forall F G, scattering (law W K) (eps_of a inner b) (map snd inner) (K a) (K b) (- beta)%C (a / b * t)%C F G
    <-> (field_in (electrostatic q) (eps_of a inner b) (map snd inner) F G /\
    (forall z, z <= 0 -> F z = (RtoC (exp (- q * z)) - beta * RtoC (exp (q * z)))%C) /\
    (forall z, total_depth (map snd inner) <= z ->
       F z = (a / b * t * RtoC (exp (- q * (z - total_depth (map snd inner)))))%C))).
  { intros F G.
    assert (X : forall e z, In e (eps_of a inner b) -> law W K e F G z <-> electrostatic q e F G z).
    { intros e z He. unfold law, wlaw, electrostatic, W, K.
      rewrite (field_derive_eq G z (- (e * (Ci * RtoC q * (Ci * RtoC q))) * F z)%C (e * RtoC (q ^ 2) * F z)%C); [tauto|].
      replace (Ci * RtoC q * (Ci * RtoC q))%C with ((Ci * Ci) * (RtoC q * RtoC q))%C by ring.
      rewrite Ci_sqr, <- RtoC_mult. replace (q ^ 2) with (q * q) by ring. ring. }
    rewrite (scattering_ext _ _ _ _ _ _ _ _ F G X). unfold scattering.
    assert (E1 : forall z, Cexp ((0, 1)%R * K a * RtoC z)%C = RtoC (exp (- q * z))).
    { intros z. unfold K. rewrite <- Cexp_R. f_equal. apply injective_projections; simpl; ring. }
    assert (E2 : forall z, Cexp ((0, -1)%R * K a * RtoC z)%C = RtoC (exp (q * z))).
    { intros z. unfold K. rewrite <- Cexp_R. f_equal. apply injective_projections; simpl; ring. }
    change (K b) with (K a).
    assert (T1 : (forall z, z <= 0 -> F z = (Cexp ((0, 1)%R * K a * RtoC z) + - beta * Cexp ((0, -1)%R * K a * RtoC z))%C)
      <-> (forall z, z <= 0 -> F z = (RtoC (exp (- q * z)) - beta * RtoC (exp (q * z)))%C)).
    { split; intros H z Hz; rewrite (H z Hz); rewrite E1, E2; ring. }
    assert (T2 : (forall z, total_depth (map snd inner) <= z ->
         F z = (a / b * t * Cexp ((0, 1)%R * K a * RtoC (z - total_depth (map snd inner))))%C)
      <-> (forall z, total_depth (map snd inner) <= z ->
         F z = (a / b * t * RtoC (exp (- q * (z - total_depth (map snd inner)))))%C)).
    { split; intros H z Hz; rewrite (H z Hz); rewrite E1; reflexivity. }
    rewrite T1, T2. tauto. }
  split.
  - intros HM. destruct (scattering_complete W K a inner b (- beta)%C (a / b * t)%C) as (F & G & H); auto.
    exists F, G. apply EX. exact H.
  - intros (F & G & H). apply (scattering_sound W K a inner b (- beta)%C (a / b * t)%C F G); auto.
    apply EX. exact H.
Qed.
