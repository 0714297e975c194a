(** * Calculus of complex fields and the transfer of their amplitudes *)
From Coq Require Import String Reals Lra Lia ZArith List Bool.
From Coquelicot Require Import Coquelicot.
From Coq Require Import List.
From Verif Require Import Num NumLemmas LimLemmas ModelBase ModelSample ModelTip StackLemmas Spec SpecWave.
Import ListNotations.
Open Scope R_scope.

Definition Ci : C := (0, 1)%R.
Lemma Ci_neq_0 : Ci <> RtoC 0.
Proof. intros H. apply (f_equal snd) in H. simpl in H. lra. Qed.
Lemma Ci_sqr : (Ci * Ci = - (1))%C.
Proof. apply injective_projections; simpl; ring. Qed.

(** ** Derivatives *)
Lemma fd_ext f g z d d' : (forall x, f x = g x) -> d = d' -> field_derive f z d -> field_derive g z d'.
Proof.
  intros E -> [H1 H2]. split; [eapply is_derive_ext; [|exact H1]|eapply is_derive_ext; [|exact H2]]; intros x; cbn; rewrite E; reflexivity.
Qed.
Lemma fd_ext_loc f g z d : locally z (fun x => f x = g x) -> field_derive f z d -> field_derive g z d.
Proof.
  intros E [H1 H2]. split; [eapply is_derive_ext_loc; [|exact H1]|eapply is_derive_ext_loc; [|exact H2]];
    apply (filter_imp _ _ (fun x (H : f x = g x) => f_equal _ H) E).
Qed.
Lemma fd_const c z : field_derive (fun _ => c) z (RtoC 0).
Proof. split; apply (is_derive_const (V := R_NormedModule)). Qed.
Lemma fd_plus f g z df dg : field_derive f z df -> field_derive g z dg ->
  field_derive (fun x => f x + g x)%C z (df + dg)%C.
Proof.
  intros [F1 F2] [G1 G2]. split.
  - apply (is_derive_plus (V := R_NormedModule) (fun x => Re (f x)) (fun x => Re (g x))); assumption.
  - apply (is_derive_plus (V := R_NormedModule) (fun x => Im (f x)) (fun x => Im (g x))); assumption.
Qed.
Lemma fd_mult f g z df dg : field_derive f z df -> field_derive g z dg ->
  field_derive (fun x => f x * g x)%C z (df * g z + f z * dg)%C.
Proof.
  intros [F1 F2] [G1 G2].
  assert (M : forall a b da db, is_derive a z da -> is_derive b z db ->
              is_derive (fun x => a x * b x) z (da * b z + a z * db)).
  { intros a b da db Ha Hb. apply (is_derive_mult a b z da db Ha Hb). intros; apply Rmult_comm. }
  split.
  - replace (Re (df * g z + f z * dg)%C) with
      ((Re df * Re (g z) + Re (f z) * Re dg) - (Im df * Im (g z) + Im (f z) * Im dg))
      by (unfold Re, Im; simpl; ring).
    apply (is_derive_minus (V := R_NormedModule) (fun x => Re (f x) * Re (g x)) (fun x => Im (f x) * Im (g x)));
      apply M; assumption.
  - replace (Im (df * g z + f z * dg)%C) with
      ((Re df * Im (g z) + Re (f z) * Im dg) + (Im df * Re (g z) + Im (f z) * Re dg))
      by (unfold Re, Im; simpl; ring).
    apply (is_derive_plus (V := R_NormedModule) (fun x => Re (f x) * Im (g x)) (fun x => Im (f x) * Re (g x)));
      apply M; assumption.
Qed.
Lemma fd_scal c f z df : field_derive f z df -> field_derive (fun x => c * f x)%C z (c * df)%C.
Proof.
  intros H. eapply fd_ext; [reflexivity| |apply (fd_mult (fun _ => c) f z (RtoC 0) df (fd_const c z) H)].
  ring.
Qed.
Lemma fd_exp c z : field_derive (fun x => Cexp (c * RtoC x))%C z (c * Cexp (c * RtoC z))%C.
Proof.
  destruct c as [a b]. unfold Cexp, field_derive, Re, Im. simpl.
  split.
  - apply (is_derive_ext (fun x => exp (a * x) * cos (b * x))).
    + intros t. f_equal; f_equal; ring.
    + auto_derive; [auto|]. replace (a * z - b * 0) with (a * z) by ring.
      replace (a * 0 + b * z) with (b * z) by ring. ring.
  - apply (is_derive_ext (fun x => exp (a * x) * sin (b * x))).
    + intros t. f_equal; f_equal; ring.
    + auto_derive; [auto|]. replace (a * z - b * 0) with (a * z) by ring.
      replace (a * 0 + b * z) with (b * z) by ring. ring.
Qed.
Lemma fd_unique f z d d' : field_derive f z d -> field_derive f z d' -> d = d'.
Proof.
  intros [H1 H2] [K1 K2]. apply injective_projections.
  - apply is_derive_unique in H1. apply is_derive_unique in K1. unfold Re in *. congruence.
  - apply is_derive_unique in H2. apply is_derive_unique in K2. unfold Im in *. congruence.
Qed.

(** ** Continuity *)
Definition fcont (f : R -> C) (z : R) : Prop :=
  continuity_pt (fun x => Re (f x)) z /\ continuity_pt (fun x => Im (f x)) z.
Lemma fc_ext f g z : (forall x, f x = g x) -> fcont f z -> fcont g z.
Proof.
  intros E [H1 H2]. split; [eapply continuity_pt_ext; [|exact H1]|eapply continuity_pt_ext; [|exact H2]]; intros x; cbn; rewrite E; reflexivity.
Qed.
Lemma fc_const c z : fcont (fun _ => c) z.
Proof. split; apply continuity_pt_const; intros x y; reflexivity. Qed.
Lemma fc_plus f g z : fcont f z -> fcont g z -> fcont (fun x => f x + g x)%C z.
Proof.
  intros [F1 F2] [G1 G2]. split.
  - apply (continuity_pt_plus (fun x => Re (f x)) (fun x => Re (g x))); assumption.
  - apply (continuity_pt_plus (fun x => Im (f x)) (fun x => Im (g x))); assumption.
Qed.
Lemma fc_mult f g z : fcont f z -> fcont g z -> fcont (fun x => f x * g x)%C z.
Proof.
  intros [F1 F2] [G1 G2]. split.
  - apply (continuity_pt_minus (fun x => Re (f x) * Re (g x)) (fun x => Im (f x) * Im (g x)));
      apply (continuity_pt_mult (fun x => _ (f x)) (fun x => _ (g x))); assumption.
  - apply (continuity_pt_plus (fun x => Re (f x) * Im (g x)) (fun x => Im (f x) * Re (g x)));
      apply (continuity_pt_mult (fun x => _ (f x)) (fun x => _ (g x))); assumption.
Qed.
Lemma fc_derive f z d : field_derive f z d -> fcont f z.
Proof.
  intros [H1 H2]. split; apply derivable_continuous_pt; eexists; apply is_derive_Reals; eassumption.
Qed.
Lemma fc_exp c z : fcont (fun x => Cexp (c * RtoC x))%C z.
Proof. exact (fc_derive _ _ _ (fd_exp c z)). Qed.

(** a continuous field that vanishes on one side of a point vanishes there *)
Lemma cont_zero_left (f : R -> R) z : continuity_pt f z -> (forall x, x < z -> f x = 0) -> f z = 0.
Proof.
  intros Hc H. destruct (Req_dec (f z) 0) as [E|E]; [exact E|exfalso].
  assert (He : 0 < Rabs (f z)) by (apply Rabs_pos_lt; exact E).
  destruct (Hc (Rabs (f z)) He) as (d & Hd & K).
  specialize (K (z - d / 2)). unfold dist, R_met, R_dist in K. simpl in K.
  rewrite (H (z - d / 2)) in K by lra.
  assert (Rabs (0 - f z) < Rabs (f z)).
  { apply K. split; [split; [exact I|lra]|]. replace (z - d / 2 - z) with (- (d / 2)) by ring.
    rewrite Rabs_Ropp, Rabs_pos_eq; lra. }
  rewrite Rminus_0_l, Rabs_Ropp in H0. lra.
Qed.
Lemma cont_zero_right (f : R -> R) z : continuity_pt f z -> (forall x, z < x -> f x = 0) -> f z = 0.
Proof.
  intros Hc H. destruct (Req_dec (f z) 0) as [E|E]; [exact E|exfalso].
  assert (He : 0 < Rabs (f z)) by (apply Rabs_pos_lt; exact E).
  destruct (Hc (Rabs (f z)) He) as (d & Hd & K).
  specialize (K (z + d / 2)). unfold dist, R_met, R_dist in K. simpl in K.
  rewrite (H (z + d / 2)) in K by lra.
  assert (Rabs (0 - f z) < Rabs (f z)).
  { apply K. split; [split; [exact I|lra]|]. replace (z + d / 2 - z) with (d / 2) by ring.
    rewrite Rabs_pos_eq; lra. }
  rewrite Rminus_0_l, Rabs_Ropp in H0. lra.
Qed.
Lemma fc_zero_left f z : fcont f z -> (forall x, x < z -> f x = RtoC 0) -> f z = RtoC 0.
Proof.
  intros [H1 H2] H. apply injective_projections; simpl.
  - apply (cont_zero_left (fun x => Re (f x))); [exact H1|]. intros x Hx. rewrite H by exact Hx. reflexivity.
  - apply (cont_zero_left (fun x => Im (f x))); [exact H2|]. intros x Hx. rewrite H by exact Hx. reflexivity.
Qed.
Lemma fc_zero_right f z : fcont f z -> (forall x, z < x -> f x = RtoC 0) -> f z = RtoC 0.
Proof.
  intros [H1 H2] H. apply injective_projections; simpl.
  - apply (cont_zero_right (fun x => Re (f x))); [exact H1|]. intros x Hx. rewrite H by exact Hx. reflexivity.
  - apply (cont_zero_right (fun x => Im (f x))); [exact H2|]. intros x Hx. rewrite H by exact Hx. reflexivity.
Qed.
Lemma fc_agree_left f g z : fcont f z -> fcont g z -> (forall x, x < z -> f x = g x) -> f z = g z.
Proof.
  intros Hf Hg H.
  assert (K : (f z + (- (1)) * g z)%C = RtoC 0).
  { apply (fc_zero_left (fun x => f x + (- (1)) * g x)%C).
    - apply fc_plus; [exact Hf|]. apply (fc_mult (fun _ => - (1))%C g); [apply fc_const|exact Hg].
    - intros x Hx. cbn. rewrite (H x Hx). ring. }
  replace (f z) with ((f z + (- (1)) * g z) + g z)%C by ring. rewrite K. ring.
Qed.
Lemma fc_agree_right f g z : fcont f z -> fcont g z -> (forall x, z < x -> f x = g x) -> f z = g z.
Proof.
  intros Hf Hg H.
  assert (K : (f z + (- (1)) * g z)%C = RtoC 0).
  { apply (fc_zero_right (fun x => f x + (- (1)) * g x)%C).
    - apply fc_plus; [exact Hf|]. apply (fc_mult (fun _ => - (1))%C g); [apply fc_const|exact Hg].
    - intros x Hx. cbn. rewrite (H x Hx). ring. }
  replace (f z) with ((f z + (- (1)) * g z) + g z)%C by ring. rewrite K. ring.
Qed.

(** derivative zero in between: same value at both ends *)
Lemma fd_zero_const f a b : a < b ->
  (forall z, a < z < b -> field_derive f z (RtoC 0)) -> (forall z, a <= z <= b -> fcont f z) -> f b = f a.
Proof.
  intros Hab Hd Hc.
  assert (K : forall g : R -> R, (forall z, a < z < b -> is_derive g z 0) ->
                (forall z, a <= z <= b -> continuity_pt g z) -> g b = g a).
  { intros g H1 H2. destruct (MVT_gen g a b (fun _ => 0)) as (c & _ & E).
    - rewrite Rmin_left, Rmax_right by lra. exact H1.
    - rewrite Rmin_left, Rmax_right by lra. exact H2.
    - lra. }
  apply injective_projections.
  - apply (K (fun x => Re (f x))); intros z Hz; [apply (Hd z Hz)|apply (Hc z Hz)].
  - apply (K (fun x => Im (f x))); intros z Hz; [apply (Hd z Hz)|apply (Hc z Hz)].
Qed.

(** continuity of a field glued from two pieces *)
Lemma cont_glue (f g : R -> R) b z : continuity_pt f z -> continuity_pt g z -> f b = g b ->
  continuity_pt (fun x => if Rle_dec x b then f x else g x) z.
Proof.
  intros Hf Hg E.
  destruct (Rtotal_order z b) as [H|[->|H]].
  - apply (continuity_pt_ext_loc f); [|exact Hf].
    exists (mkposreal (b - z) ltac:(lra)). intros y Hy. 
    unfold ball in Hy. simpl in Hy. unfold AbsRing_ball, abs, minus, plus, opp in Hy. simpl in Hy.
    apply Rabs_def2 in Hy. destruct (Rle_dec y b); [reflexivity|lra].
  - intros eps He. destruct (Hf eps He) as (d1 & Hd1 & K1). destruct (Hg eps He) as (d2 & Hd2 & K2).
    exists (Rmin d1 d2). split; [apply Rmin_pos; assumption|].
    intros x [Hx1 Hx2]. simpl in *. unfold R_dist in *.
    destruct (Rle_dec b b); [|lra].
    destruct (Rle_dec x b).
    + apply K1. split; [exact Hx1|]. eapply Rlt_le_trans; [exact Hx2|apply Rmin_l].
    + rewrite E. apply K2. split; [exact Hx1|]. eapply Rlt_le_trans; [exact Hx2|apply Rmin_r].
  - apply (continuity_pt_ext_loc g); [|exact Hg].
    exists (mkposreal (z - b) ltac:(lra)). intros y Hy.
    unfold ball in Hy. simpl in Hy. unfold AbsRing_ball, abs, minus, plus, opp in Hy. simpl in Hy.
    apply Rabs_def2 in Hy. destruct (Rle_dec y b); [lra|reflexivity].
Qed.
Lemma fc_glue f g b z : fcont f z -> fcont g z -> f b = g b ->
  fcont (fun x => if Rle_dec x b then f x else g x) z.
Proof.
  intros [F1 F2] [G1 G2] E. split.
  - apply (continuity_pt_ext (fun x => if Rle_dec x b then Re (f x) else Re (g x))).
    + intros x. destruct (Rle_dec x b); reflexivity.
    + apply cont_glue; auto. rewrite E. reflexivity.
  - apply (continuity_pt_ext (fun x => if Rle_dec x b then Im (f x) else Im (g x))).
    + intros x. destruct (Rle_dec x b); reflexivity.
    + apply cont_glue; auto. rewrite E. reflexivity.
Qed.
