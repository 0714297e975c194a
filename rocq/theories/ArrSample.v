(** * The array model of the sample methods is elementwise *)
From Coq Require Import String Reals Lra Lia ZArith List Bool.
From Coquelicot Require Import Rcomplements Complex.
From Verif Require Import Num NumLemmas ModelBase ModelSample NArr SpecArr NArrLemmas ModelObj ModelArr.
Import ListNotations.
Open Scope R_scope.

Definition vecm (ss : list (list nat)) (g : list nat -> mat) (r : res (arr CV)) : Prop :=
  match bshapes ss with
  | None => exists m, r = Raise (ValueError m)
  | Some sh => exists a, r = Ok a /\ shp a = (2 :: 2 :: sh)%nat /\
      forall i, at_ a (0 :: 0 :: bidx sh i)%nat = m00 (g i) /\ at_ a (1 :: 0 :: bidx sh i)%nat = m01 (g i)
             /\ at_ a (0 :: 1 :: bidx sh i)%nat = m10 (g i) /\ at_ a (1 :: 1 :: bidx sh i)%nat = m11 (g i)
  end.

Lemma vecm_incl : forall ss ts g r, incl ss ts -> incl ts ss -> vecm ss g r -> vecm ts g r.
Proof. intros ss ts g r I I' V. unfold vecm in *. rewrite <- (bshapes_incl ss ts I I'). exact V. Qed.
Lemma vecm_ext : forall ss g h r, (forall i, g i = h i) -> vecm ss g r -> vecm ss h r.
Proof.
  intros ss g h r E V. unfold vecm in *. destruct (bshapes ss); [|exact V].
  destruct V as (a & V1 & V2 & V3). exists a. split; [exact V1|]. split; [exact V2|].
  intro i. rewrite <- E. apply V3.
Qed.

Lemma bshapes_app_none_l : forall ss ts, bshapes ss = None -> bshapes (ss ++ ts) = None.
Proof.
  intros ss ts E. destruct (bshapes (ss ++ ts)) as [U|] eqn:EU; [|reflexivity].
  exfalso. apply (bshapes_none _ E). apply bshapes_joint, joint_compatible in EU.
  intros s t Hs Ht. apply EU; apply in_or_app; left; assumption.
Qed.
Lemma bshapes_app_none_r : forall ss ts, bshapes ts = None -> bshapes (ss ++ ts) = None.
Proof.
  intros ss ts E. destruct (bshapes (ss ++ ts)) as [U|] eqn:EU; [|reflexivity].
  exfalso. apply (bshapes_none _ E). apply bshapes_joint, joint_compatible in EU.
  intros s t Hs Ht. apply EU; apply in_or_app; right; assumption.
Qed.
Lemma bshapes_app_bshape : forall ss ts S T, bshapes ss = Some S -> bshapes ts = Some T ->
  bshapes (ss ++ ts) = bshape S T.
Proof.
  intros ss ts Sh T ES ET. apply bshapes_joint in ES, ET.
  destruct (bshape Sh T) as [U|] eqn:B.
  - apply bshapes_spec. apply (joint_app _ _ _ _ _ ES ET). exact B.
  - destruct (bshapes (ss ++ ts)) as [U|] eqn:E; [|reflexivity].
    apply bshapes_joint in E. apply (joint_app _ _ _ _ _ ES ET) in E. congruence.
Qed.

Lemma bshape_mat : forall s, bshape [2; 2]%nat (1 :: 1 :: s)%nat = Some (2 :: 2 :: s)%nat.
Proof. intro s. reflexivity. Qed.

Lemma vecm_trans : forall ss g r, vec ss g r ->
  vecm ss (fun i => trans_matrix (g i)) (let! x := r in trans_matrix_a x).
Proof.
  intros ss g r V. unfold vec, vecm in *. destruct (bshapes ss) as [sh|].
  - destruct V as (a & -> & V2 & V3). cbn [rbind]. unfold trans_matrix_a, amap2.
    cbn [shp newaxis2]. rewrite V2. change (shp sign_matrix) with [2; 2]%nat. rewrite bshape_mat.
    cbn [rbind]. eexists. split; [reflexivity|]. split; [reflexivity|].
    intro i. specialize (V3 i). rewrite entry_bidx, V2 in V3.
    cbn [amap at_ newaxis2 sign_matrix bidx hd tl Nat.eqb].
    replace (bidx sh (bidx sh i)) with (bidx sh i)
      by (symmetry; apply bidx_fits; split; [lia|intro; right; reflexivity]).
    rewrite V3. repeat split; reflexivity.
  - destruct V as [m ->]. exists m. reflexivity.
Qed.

Lemma bidx_idem : forall s i, bidx s (bidx s i) = bidx s i.
Proof. intros. apply bidx_fits. split; [lia|intro; right; reflexivity]. Qed.

Lemma vecm_prop_qs : forall ss g r, vec ss g r ->
  vecm ss (fun i => prop_matrix (cexp (ofR (rr 1 * g i)%rv)) (cexp (ofR (rr (-1) * g i)%rv)))
    (let! x := r in prop_matrix_qs_a x).
Proof.
  intros ss g r V. unfold vec, vecm in *. destruct (bshapes ss) as [sh|].
  - destruct V as (a & -> & V2 & V3). cbn [rbind]. unfold prop_matrix_qs_a, amap2.
    cbn [shp newaxis2 pair_array]. rewrite V2.
    change (bshape [2]%nat (1 :: 1 :: sh)%nat) with (Some (2 :: 1 :: sh)%nat).
    cbn [rbind amap shp eye2].
    replace (bshape (2 :: 1 :: sh)%nat [2; 2]%nat) with (Some (2 :: 2 :: sh)%nat)
      by (cbn; destruct sh; reflexivity).
    eexists. split; [reflexivity|]. split; [reflexivity|].
    intro i. specialize (V3 i). rewrite entry_bidx, V2 in V3.
    cbn [amap at_ newaxis2 bidx hd tl Nat.eqb].
    rewrite !bidx_idem. rewrite V3. repeat split; reflexivity.
  - destruct V as [m ->]. exists m. reflexivity.
Qed.

Lemma vecm_prop : forall ss g r, vec ss g r ->
  vecm ss (fun i => prop_matrix (cexp (Some (0, -1)%R * g i)%cv) (cexp (Some (0, 1)%R * g i)%cv))
    (let! x := r in prop_matrix_a x).
Proof.
  intros ss g r V. unfold vec, vecm in *. destruct (bshapes ss) as [sh|].
  - destruct V as (a & -> & V2 & V3). cbn [rbind]. unfold prop_matrix_a, amap2.
    cbn [shp newaxis2 pair_array]. rewrite V2.
    change (bshape [2]%nat (1 :: 1 :: sh)%nat) with (Some (2 :: 1 :: sh)%nat).
    cbn [rbind amap shp eye2].
    replace (bshape (2 :: 1 :: sh)%nat [2; 2]%nat) with (Some (2 :: 2 :: sh)%nat)
      by (cbn; destruct sh; reflexivity).
    eexists. split; [reflexivity|]. split; [reflexivity|].
    intro i. specialize (V3 i). rewrite entry_bidx, V2 in V3.
    cbn [amap at_ newaxis2 bidx hd tl Nat.eqb].
    rewrite !bidx_idem. rewrite V3. repeat split; reflexivity.
  - destruct V as [m ->]. exists m. reflexivity.
Qed.

Lemma cadd_0_r : forall x, (x + rc 0)%cv = x.
Proof. intros [x|]; [|reflexivity]. unfold rc. cbn. f_equal. apply Cplus_0_r. Qed.

Lemma vecm_matmul : forall ss ts g h r1 r2, vecm ss g r1 -> vecm ts h r2 ->
  vecm (ss ++ ts) (fun i => mmul (g i) (h i)) (let! a := r1 in let! b := r2 in matmul a b).
Proof.
  intros ss ts g h r1 r2 V W. unfold vecm in *.
  destruct (bshapes ss) as [sh|] eqn:ES.
  2: { destruct V as [m ->]. rewrite (bshapes_app_none_l _ _ ES). exists m. reflexivity. }
  destruct V as (a & -> & V2 & V3). cbn [rbind].
  destruct (bshapes ts) as [th|] eqn:ET.
  2: { destruct W as [m ->]. rewrite (bshapes_app_none_r _ _ ET). exists m. reflexivity. }
  destruct W as (b & -> & W2 & W3). cbn [rbind].
  rewrite (bshapes_app_bshape _ _ _ _ ES ET).
  unfold matmul. rewrite V2, W2. cbn [Nat.eqb].
  destruct (bshape sh th) as [u|] eqn:B; [|eexists; reflexivity].
  eexists. split; [reflexivity|]. split; [reflexivity|].
  intro i. destruct (fits_bshape _ _ _ B) as [F G].
  cbn [at_ seq map csum fold_right]. rewrite !(bidx_fits _ _ _ F), !(bidx_fits _ _ _ G), !cadd_0_r.
  destruct (V3 i) as (-> & -> & -> & ->). destruct (W3 i) as (-> & -> & -> & ->).
  repeat split; reflexivity.
Qed.

Lemma mat_entry_vec : forall ss g M, vecm ss g (Ok M) ->
  vec ss (fun i => m10 (g i)) (Ok (mat_entry 1 0 M)) /\ vec ss (fun i => m00 (g i)) (Ok (mat_entry 0 0 M)).
Proof.
  intros ss g M V. unfold vec, vecm in *. destruct (bshapes ss) as [sh|].
  - destruct V as (a & [= <-] & V2 & V3). split.
    + eexists. split; [reflexivity|]. unfold mat_entry. rewrite V2. split; [reflexivity|].
      intro i. rewrite entry_bidx. cbn [shp at_ tl]. apply V3.
    + eexists. split; [reflexivity|]. unfold mat_entry. rewrite V2. split; [reflexivity|].
      intro i. rewrite entry_bidx. cbn [shp at_ tl]. apply V3.
  - destruct V as [m V]. discriminate.
Qed.

Lemma vec_raise : forall A ss (g : list nat -> A) e, vec ss g (Raise e) ->
  bshapes ss = None /\ exists m, e = ValueError m.
Proof.
  intros A ss g e V. unfold vec in V. destruct (bshapes ss).
  - destruct V as (a & V & _). discriminate.
  - split; [reflexivity|]. destruct V as [m [= ->]]. exists m; reflexivity.
Qed.
Lemma vecm_raise : forall ss g e, vecm ss g (Raise e) -> bshapes ss = None /\ exists m, e = ValueError m.
Proof.
  intros ss g e V. unfold vecm in V. destruct (bshapes ss).
  - destruct V as (a & V & _). discriminate.
  - split; [reflexivity|]. destruct V as [m [= ->]]. exists m; reflexivity.
Qed.
Lemma vec_none : forall A ss (g : list nat -> A) m, bshapes ss = None -> vec ss g (Raise (ValueError m)).
Proof. intros A ss g m E. unfold vec. rewrite E. exists m; reflexivity. Qed.

Lemma vecm_refl : forall ss g r, vecm ss g r ->
  vec ss (fun i => (m10 (g i) / m00 (g i))%cv) (let! M := r in refl_of_matrix M).
Proof.
  intros ss g [M|e] V; cbn [rbind].
  - destruct (mat_entry_vec _ _ _ V) as [V1 V2]. unfold refl_of_matrix.
    eapply vec_incl; [| |exact (vec_amap2' _ _ _ cdiv _ _ _ _ _ _ V1 V2)].
    + apply incl_app; apply incl_refl.
    + apply incl_appl, incl_refl.
  - destruct (vecm_raise _ _ _ V) as [N [m ->]]. apply vec_none, N.
Qed.
Lemma vecm_transm : forall ss g r, vecm ss g r ->
  vec ss (fun i => (rc 1 / m00 (g i))%cv) (let! M := r in trans_of_matrix M).
Proof.
  intros ss g [M|e] V; cbn [rbind].
  - destruct (mat_entry_vec _ _ _ V) as [V1 V2]. unfold trans_of_matrix.
    exact (vec_amap _ _ (fun x => (rc 1 / x)%cv) _ _ _ V2).
  - destruct (vecm_raise _ _ _ V) as [N [m ->]]. apply vec_none, N.
Qed.

Lemma vecm_scale : forall ss ts g r (q : arr RV), vecm ss g r -> bshapes ts = Some (shp q) ->
  vecm (ss ++ ts) (fun i => {| m00 := m00 (g i) * rc 1; m01 := m01 (g i) * rc 1;
                                m10 := m10 (g i) * rc 1; m11 := m11 (g i) * rc 1 |}%cv)
    (let! M := r in amap2 cmul M (newaxis2 (amap (fun _ => rc 1) q))).
Proof.
  intros ss ts g r q V ET. unfold vecm in *.
  destruct (bshapes ss) as [sh|] eqn:ES.
  2: { destruct V as [m ->]. rewrite (bshapes_app_none_l _ _ ES). exists m. reflexivity. }
  destruct V as (a & -> & V2 & V3). cbn [rbind].
  rewrite (bshapes_app_bshape _ _ _ _ ES ET).
  unfold amap2. rewrite V2. cbn [newaxis2 amap shp bshape bdim Nat.eqb].
  destruct (bshape sh (shp q)) as [u|] eqn:B; [|eexists; reflexivity].
  eexists. split; [reflexivity|]. split; [reflexivity|].
  intro i. destruct (fits_bshape _ _ _ B) as [F G].
  cbn [at_ bidx hd tl Nat.eqb]. rewrite !(bidx_fits _ _ _ F).
  destruct (V3 i) as (-> & -> & -> & ->). repeat split; reflexivity.
Qed.

(** ** Lists of arrays *)
(** all results of a [mapM] of elementwise computations over the same shapes *)
Lemma mapM_vec : forall A B (f : B -> res (arr A)) ss (G : B -> list nat -> A) l S,
  bshapes ss = Some S -> (forall b, In b l -> vec ss (G b) (f b)) ->
  exists rs, mapM f l = Ok rs /\ Forall2 (fun b r => f b = Ok r /\ vec ss (G b) (Ok r)) l rs.
Proof.
  intros A B f ss G l Sh E. induction l as [|b l IH]; intro H.
  - exists []. split; [reflexivity|constructor].
  - pose proof (H b (or_introl eq_refl)) as V.
    destruct (f b) as [r|e] eqn:Eb; [|destruct (vec_raise _ _ _ _ V); congruence].
    destruct IH as (rs & E1 & F); [intros; apply H; right; assumption|].
    exists (r :: rs). cbn. rewrite Eb, E1. split; [reflexivity|]. constructor; auto.
Qed.
Lemma mapM_vecm : forall B (f : B -> res (arr CV)) ss (G : B -> list nat -> mat) l S,
  bshapes ss = Some S -> (forall b, In b l -> vecm ss (G b) (f b)) ->
  exists rs, mapM f l = Ok rs /\ Forall2 (fun b r => vecm ss (G b) (Ok r)) l rs.
Proof.
  intros B f ss G l Sh E. induction l as [|b l IH]; intro H.
  - exists []. split; [reflexivity|constructor].
  - pose proof (H b (or_introl eq_refl)) as V.
    destruct (f b) as [r|e] eqn:Eb; [|destruct (vecm_raise _ _ _ V); congruence].
    destruct IH as (rs & E1 & F); [intros; apply H; right; assumption|].
    exists (r :: rs). cbn. rewrite Eb, E1. split; [reflexivity|]. constructor; auto.
Qed.
Lemma mapM_raise_head : forall A B (f : A -> res B) a l e, f a = Raise e -> mapM f (a :: l) = Raise e.
Proof. intros A B f a l e E. cbn. rewrite E. reflexivity. Qed.

(** a chain of matrix products *)
Lemma chain_vec : forall Ts Ps gT gP ss ts M g,
  Forall2 (fun g r => vecm ss g (Ok r)) gT Ts ->
  Forall2 (fun g r => vecm ts g (Ok r)) gP Ps ->
  vecm ss g (Ok M) ->
  combine Ts Ps <> [] ->
  vecm (ss ++ ts) (fun i => chain (g i) (combine (map (fun h => h i) gT) (map (fun h => h i) gP)))
       (chain_a M (combine Ts Ps)).
Proof.
  assert (W : forall Ts Ps gT gP ss ts us M g,
    Forall2 (fun g r => vecm ss g (Ok r)) gT Ts ->
    Forall2 (fun g r => vecm ts g (Ok r)) gP Ps ->
    vecm us g (Ok M) -> incl us (ss ++ ts) ->
    combine Ts Ps <> [] ->
    vecm (ss ++ ts) (fun i => chain (g i) (combine (map (fun h => h i) gT) (map (fun h => h i) gP)))
       (chain_a M (combine Ts Ps))).
  { induction Ts as [|T Ts IH]; intros Ps gT gP ss ts us M g FT FP V I N; [contradiction N; reflexivity|].
    destruct Ps as [|P Ps]; [contradiction N; reflexivity|].
    inversion FT as [|hT ? gT' ? VT FT']; subst. inversion FP as [|hP ? gP' ? VP FP']; subst.
    cbn [combine chain_a map].
    pose proof (vecm_matmul _ _ _ _ _ _ (vecm_matmul _ _ _ _ _ _ V VP) VT) as VV.
    cbn [rbind] in VV.
    assert (I1 : incl ((us ++ ts) ++ ss) (ss ++ ts)).
    { apply incl_app; [apply incl_app; [exact I|apply incl_appr, incl_refl]|apply incl_appl, incl_refl]. }
    assert (I2 : incl (ss ++ ts) ((us ++ ts) ++ ss)).
    { apply incl_app; [apply incl_appr, incl_refl|apply incl_appl, incl_appr, incl_refl]. }
    apply (vecm_incl _ _ _ _ I1 I2) in VV.
    destruct (matmul M P) as [MP|e] eqn:E1; cbn [rbind] in VV |- *.
    2: { destruct (vecm_raise _ _ _ VV) as [B [m ->]]. unfold vecm. rewrite B. exists m; reflexivity. }
    destruct (matmul MP T) as [MPT|e] eqn:E2; cbn [rbind].
    2: { destruct (vecm_raise _ _ _ VV) as [B [m ->]]. unfold vecm. rewrite B. exists m; reflexivity. }
    destruct (combine Ts Ps) as [|tp tps] eqn:EC.
    - cbn [chain_a]. eapply vecm_ext; [|exact VV]. intro i. cbn [chain fold_left combine fst snd].
      assert (combine (map (fun h => h i) gT') (map (fun h => h i) gP') = []) as ->.
      { destruct Ts as [|T' Ts]; [inversion FT'; subst; reflexivity|].
        destruct Ps as [|P' Ps]; [|discriminate].
        inversion FP'; subst. inversion FT'; subst. reflexivity. }
      reflexivity.
    - rewrite <- EC. eapply vecm_ext; [|apply (IH Ps gT' gP' ss ts (ss ++ ts) MPT _ FT' FP' VV)].
      + intro i. reflexivity.
      + apply incl_refl.
      + rewrite EC; discriminate. }
  intros. eapply W; eauto. apply incl_appl, incl_refl.
Qed.
