(** * What a failed assignment leaves behind (C03) *)
From Coq Require Import String Reals Lra Lia ZArith List Bool.
From Coquelicot Require Import Rcomplements Complex.
From Verif Require Import Num NumLemmas ModelBase ModelSample NArr SpecArr NArrLemmas ModelObj ModelArr
  SpecObj ArrSample ProofsArr ProofsArr2 ProofsObj.
Import ListNotations.
Open Scope R_scope.

Lemma history_assigned : forall D eps beta t env nu o o1,
  init D eps beta t env nu = Ok o -> any_history o o1 -> assigned o1.
Proof.
  intros D eps beta t env nu o o1 Hi Hh. induction Hh as [|b o1 Hh IH].
  - apply consistent_assigned, (init_consistent _ _ _ _ _ _ _ Hi).
  - destruct (run b o1) as [o' r] eqn:E. apply (run_cases b o1 IH _ _ E).
Qed.

Lemma check_raise : forall o e, check_layers_valid o = Raise e -> e = ValueError msg_layers /\ ~ consistent o.
Proof.
  intros o e H. unfold check_layers_valid in H. destruct (o_t o) as [t|] eqn:Et; [|discriminate].
  destruct (o_eps o) as [ep|] eqn:Ee; [|discriminate].
  destruct (Nat.eqb_spec (length (lay ep)) (length (lay t) + 2)); [discriminate|].
  injection H as <-. split; [reflexivity|]. intros (e' & t' & H1 & H2 & H3 & _).
  rewrite Ee in H1. rewrite Et in H2. injection H1 as <-. injection H2 as <-. contradiction.
Qed.

Lemma set_eps_raise : forall v o o' e, set_eps v o = (o', Raise e) ->
  (o' = o /\ ~ compatible (map shp v) /\ e = ValueError msg_broadcast) \/
  (e = ValueError msg_layers /\ ~ consistent o' /\ compatible (map shp v) /\
   o_t o' = o_t o /\ o_env o' = o_env o /\ o_nu o' = o_nu o /\
   forall i, eps_stack (sample_at o' i) = map (fun a => entry a i) v).
Proof.
  intros v o o' e H. unfold set_eps in H. destruct (broadcast_arrays v) as [L|x] eqn:Eb.
  - right. injection H as <- H. destruct (check_raise _ _ H) as [H1 H2].
    destruct (broadcast_ok _ _ _ Eb) as (J & _ & _ & Hent).
    repeat split; auto. eapply joint_compatible, J.
  - left. injection H as <- <-. destruct (broadcast_raise _ _ _ Eb) as [N ->]. auto.
Qed.

(** C03: after any history, an assignment to [t_stack] or [eps_stack] that
    raises either could not broadcast its value and left the object as it was,
    or has stored the value and left an inconsistent object; an assignment to
    [beta_stack] that raises left the object as it was or stored permittivities
    that make it inconsistent. *)
Lemma C03_failed_assignment_proof : forall D eps beta t env nu o o1 a o2 e,
  init D eps beta t env nu = Ok o -> any_history o o1 -> run a o1 = (o2, Raise e) ->
  match a with
  | SetT v =>
      (~ compatible (map shp (given v)) /\ e = ValueError msg_broadcast /\ o2 = o1) \/
      (compatible (map shp (given v)) /\ e = ValueError msg_layers /\ ~ consistent o2 /\
       o_eps o2 = o_eps o1 /\ o_nu o2 = o_nu o1 /\
       forall i, t_stack (sample_at o2 i) = map (fun x => entry x i) (given v))
  | SetEps v =>
      (~ compatible (map shp v) /\ e = ValueError msg_broadcast /\ o2 = o1) \/
      (compatible (map shp v) /\ e = ValueError msg_layers /\ ~ consistent o2 /\
       o_t o2 = o_t o1 /\ o_nu o2 = o_nu o1 /\
       forall i, eps_stack (sample_at o2 i) = map (fun x => entry x i) v)
  | SetBeta v =>
      o2 = o1 \/
      (compatible (map shp v) /\ e = ValueError msg_layers /\ ~ consistent o2 /\
       o_t o2 = o_t o1 /\ o_nu o2 = o_nu o1 /\
       forall i, length (eps_stack (sample_at o2 i)) = (length v + 1)%nat)
  | SetNu _ => False
  end.
Proof.
  intros D eps beta t env nu o o1 a o2 e Hi Hh H. destruct a as [v|v|v|v]; cbn [run] in H.
  - rewrite set_t_eq in H. destruct (t_value v) as [tl|x] eqn:Ev.
    + right. injection H as <- H. destruct (check_raise _ _ H) as [H1 H2].
      destruct (t_value_ok _ _ Ev) as (J & _ & _ & Hent). repeat split; auto. eapply joint_compatible, J.
    + left. injection H as <- <-. destruct (t_value_raise _ _ Ev) as [N ->]. auto.
  - destruct (set_eps_raise _ _ _ _ H) as [(A & B & C0)|(A & B & C0 & F & G & K & M)]; [left|right]; auto 10.
  - destruct (broadcast_arrays v) as [bl|x] eqn:Eb.
    2: { left. unfold set_beta in H. rewrite Eb in H. injection H as <- _. reflexivity. }
    destruct (broadcast_ok _ _ _ Eb) as (J & Lb & _).
    destruct (get_eps_env o1) as [ev|x] eqn:Ev.
    2: { left. unfold set_beta in H. rewrite Eb, Ev in H. injection H as <- _. reflexivity. }
    destruct (fits_dec (shp ev) (lsh bl ++ [S (length (lay bl))])) as [F|F].
    + rewrite (set_beta_fits _ _ _ _ Eb Ev F) in H.
      destruct (set_eps_raise _ _ _ _ H) as [(A & _)|(A & B & _ & C0 & E & G & K)]; [left; exact A|].
      right. repeat split; auto; [eapply joint_compatible, J|].
      intro i. rewrite K, map_length, slices_length, env_layers_length. lia.
    + left. destruct (set_beta_misfit _ _ _ _ Eb Ev F) as [m E]. congruence.
  - discriminate.
Qed.

(** C03: consistency comes back with the next assignment to one of the stacks
    whose length matches the other one. *)
Lemma C03_restored_proof : forall D eps beta t env nu o o1,
  init D eps beta t env nu = Ok o -> any_history o o1 ->
  (forall v, compatible (map shp v) -> (forall i, length v = length (t_stack (sample_at o1 i)) + 2)%nat ->
     exists o2, run (SetEps v) o1 = (o2, Ok tt) /\ consistent o2) /\
  (forall v, compatible (map shp (given v)) ->
     (forall i, length (given v) + 2 = length (eps_stack (sample_at o1 i)))%nat ->
     exists o2, run (SetT v) o1 = (o2, Ok tt) /\ consistent o2).
Proof.
  intros D eps beta t env nu o o1 Hi Hh.
  destruct (history_assigned _ _ _ _ _ _ _ _ Hi Hh) as (e0 & t0 & Ee & Et & Lt). split.
  - intros v Cm Lv. destruct (broadcast_total _ _ Cm) as [L EL].
    destruct (broadcast_ok _ _ _ EL) as (_ & LL & _).
    specialize (Lv []). unfold sample_at in Lv. cbn [t_stack] in Lv. rewrite Et, map_length, slices_length in Lv.
    exists (mkObj (o_t o1) (Some L) (o_env o1) (o_nu o1)). cbn [run]. rewrite (set_eps_ok_eq _ _ _ EL).
    assert (Ck : check_layers_valid (mkObj (o_t o1) (Some L) (o_env o1) (o_nu o1)) = Ok tt).
    { rewrite Et, check_ok, (proj2 (Nat.eqb_eq _ _)) by lia. reflexivity. }
    rewrite Ck. split; [reflexivity|]. apply checked_consistent; [|exact Ck].
    exists L, t0. auto.
  - intros v Cm Lv. destruct (t_value_total _ Cm) as [L EL].
    destruct (t_value_ok _ _ EL) as (_ & LL & Hn & _).
    specialize (Lv []). unfold sample_at in Lv. cbn [eps_stack] in Lv. rewrite Ee, map_length, slices_length in Lv.
    exists (mkObj (Some L) (o_eps o1) (o_env o1) (o_nu o1)). cbn [run]. rewrite set_t_eq, EL. cbn zeta.
    assert (Ck : check_layers_valid (mkObj (Some L) (o_eps o1) (o_env o1) (o_nu o1)) = Ok tt).
    { rewrite Ee, check_ok, (proj2 (Nat.eqb_eq _ _)) by lia. reflexivity. }
    rewrite Ck. split; [reflexivity|]. apply checked_consistent; [|exact Ck].
    exists e0, L. auto.
Qed.

(** ** Truncation *)
Lemma mapM_firstn : forall A B (f : A -> res B) l r n, mapM f l = Ok r -> mapM f (firstn n l) = Ok (firstn n r).
Proof.
  intros A B f. induction l as [|x l IH]; intros r n E.
  - cbn in E. injection E as <-. rewrite !firstn_nil. reflexivity.
  - cbn in E. destruct (f x) as [y|] eqn:Ey; [|discriminate]. cbn in E.
    destruct (mapM f l) as [ys|] eqn:Eys; [|discriminate]. injection E as <-.
    destruct n as [|n]; [reflexivity|]. cbn. rewrite Ey. cbn. rewrite (IH ys n eq_refl). reflexivity.
Qed.
Lemma mapM_all_ok : forall A B (f : A -> res B) l, (forall x, In x l -> exists y, f x = Ok y) ->
  exists r, mapM f l = Ok r.
Proof.
  intros A B f. induction l as [|x l IH]; intro H; [eexists; reflexivity|].
  destruct (H x (or_introl eq_refl)) as [y Ey]. destruct IH as [r Er]; [intros z Hz; apply H; right; exact Hz|].
  exists (y :: r). cbn. rewrite Ey. cbn. rewrite Er. reflexivity.
Qed.
Lemma mapM_cons_ok : forall A B (f : A -> res B) x l r, mapM f (x :: l) = Ok r ->
  exists y ys, f x = Ok y /\ r = y :: ys.
Proof.
  intros A B f x l r E. cbn in E. destruct (f x) as [y|]; [|discriminate]. cbn in E.
  destruct (mapM f l) as [ys|]; [|discriminate]. injection E as <-. eauto.
Qed.
Lemma mapM_all_raise : forall A B (f : A -> res B) e l, (forall x, In x l -> f x = Raise e) -> l <> [] ->
  mapM f l = Raise e.
Proof.
  intros A B f e [|x l] H N; [contradiction N; reflexivity|]. cbn. rewrite (H x (or_introl eq_refl)). reflexivity.
Qed.
Lemma mapM_length : forall A B (f : A -> res B) l r, mapM f l = Ok r -> length r = length l.
Proof.
  intros A B f. induction l as [|x l IH]; intros r E; cbn in E; [injection E as <-; reflexivity|].
  destruct (f x); [|discriminate]. cbn in E. destruct (mapM f l); [|discriminate]. injection E as <-.
  cbn. f_equal. apply IH; reflexivity.
Qed.

Lemma removelast_firstn_pairs : forall A (l : list A) n, (n + 1 <= length l)%nat ->
  combine (removelast (firstn (n + 1) l)) (tl (firstn (n + 1) l)) = firstn n (combine (removelast l) (tl l)).
Proof.
  intros A l n. revert l. induction n as [|n IH]; intros [|x l] H; cbn in H; try lia.
  - destruct l; reflexivity.
  - destruct l as [|y l]; [cbn in H; lia|]. cbn in H.
    specialize (IH (y :: l)). cbn [length] in IH. 
    change (S n + 1)%nat with (S (n + 1)). rewrite firstn_cons.
    rewrite Nat.add_comm in IH |- *. cbn [Nat.add] in IH |- *.
    rewrite firstn_cons in IH |- *. cbn [tl]. 
    change (removelast (x :: y :: l)) with (x :: removelast (y :: l)).
    change (removelast (x :: y :: firstn n l)) with (x :: removelast (y :: firstn n l)).
    cbn [combine firstn]. f_equal. cbn [tl] in IH. rewrite <- IH by lia.
    destruct n; [destruct l; reflexivity|]. destruct l as [|z l]; reflexivity.
Qed.

Lemma bshape_same : forall s, bshape s s = Some s.
Proof. intro s. apply bshape_full. split; [lia|auto]. Qed.
Lemma bshape_nil_l : forall s, bshape [] s = Some s.
Proof. intro s. destruct s; reflexivity. Qed.
Lemma bshape_nil_r : forall s, bshape s [] = Some s.
Proof. intro s. destruct s; reflexivity. Qed.
Lemma prop_qs_total : forall p, exists m, prop_matrix_qs_a p = Ok m.
Proof.
  intros [s f]. unfold prop_matrix_qs_a, amap2, newaxis2, pair_array, eye2, amap. cbn [shp at_].
  cbn [bshape bdim Nat.eqb rbind shp]. rewrite ?bshape_nil_l, ?bshape_nil_r.
  cbn [bshape bdim Nat.eqb rbind shp]. rewrite ?bshape_nil_r. eexists; reflexivity.
Qed.
Lemma trans_a_total : forall x, exists m, trans_matrix_a x = Ok m.
Proof.
  intros [s f]. unfold trans_matrix_a, amap2, newaxis2, sign_matrix, amap. cbn [shp at_].
  cbn [bshape bdim Nat.eqb rbind shp]. rewrite ?bshape_nil_l, ?bshape_nil_r.
  cbn [bshape bdim Nat.eqb rbind shp]. rewrite ?bshape_nil_r. eexists; reflexivity.
Qed.

Definition qs_prop (q : arr RV) (x : arr R) : res (arr CV) :=
  let! p := amap2 rmul q (amap rr x) in prop_matrix_qs_a (amap clip p).
Definition qs_trans (p : arr CV * arr CV) : res (arr CV) :=
  let! f := amap2 cdiv (fst p) (snd p) in trans_matrix_a f.

Lemma slices_shp : forall A (L : layers A) x, In x (slices L) -> shp x = lsh L.
Proof. intros A L x H. unfold slices in H. apply in_map_iff in H. destruct H as (f & <- & _). reflexivity. Qed.
Lemma qs_props_cases : forall q t,
  (exists r, mapM (qs_prop q) (slices t) = Ok r) \/
  (forall x, In x (slices t) -> qs_prop q x = Raise (ValueError msg_broadcast)).
Proof.
  intros q t. destruct (bshape (shp q) (lsh t)) as [s|] eqn:E.
  - left. apply mapM_all_ok. intros x Hx. unfold qs_prop, amap2. cbn [amap shp].
    rewrite (slices_shp _ _ _ Hx), E. cbn [rbind]. apply prop_qs_total.
  - right. intros x Hx. unfold qs_prop, amap2. cbn [amap shp]. rewrite (slices_shp _ _ _ Hx), E. reflexivity.
Qed.
Lemma in_pairs : forall A (l : list A) p, In p (combine (removelast l) (tl l)) -> In (fst p) l /\ In (snd p) l.
Proof.
  intros A l [a b] H. split.
  - apply in_combine_l in H. cbn. revert H. induction l as [|x l IH]; [intros []|].
    destruct l as [|y l]; [intros []|]. intros [<-|H]; [left; reflexivity|right; apply IH, H].
  - apply in_combine_r in H. destruct l; [destruct H|right; exact H].
Qed.
Lemma qs_trans_total : forall (e : layers CV), 
  exists r, mapM qs_trans (combine (removelast (slices e)) (tl (slices e))) = Ok r.
Proof.
  intros e. apply mapM_all_ok. intros p Hp. apply in_pairs in Hp. destruct Hp as [H1 H2].
  unfold qs_trans, amap2. rewrite (slices_shp _ _ _ H1), (slices_shp _ _ _ H2), bshape_same. cbn [rbind].
  apply trans_a_total.
Qed.

Lemma transfer_qs_eq : forall o e t q, o_eps o = Some e -> o_t o = Some t ->
  transfer_matrix_qs_a o q =
  let! Ts := mapM qs_trans (combine (removelast (slices e)) (tl (slices e))) in
  match Ts with
  | [] => Raise IndexError
  | T0 :: Ts' =>
      if Nat.ltb 2 (length (lay e)) then
        let! props := mapM (qs_prop q) (slices t) in chain_a T0 (combine Ts' props)
      else amap2 cmul T0 (newaxis2 (amap (fun _ => rc 1) q))
  end.
Proof. intros o e t q He Ht. unfold transfer_matrix_qs_a. rewrite He, Ht. reflexivity. Qed.

Lemma tl_len : forall A (l : list A), length (tl l) = (length l - 1)%nat.
Proof. intros A [|x l]; cbn; lia. Qed.
Lemma removelast_len : forall A (l : list A), length (removelast l) = (length l - 1)%nat.
Proof.
  intros A. induction l as [|x l IH]; [reflexivity|]. destruct l as [|y l]; [reflexivity|].
  change (length (removelast (x :: y :: l))) with (S (length (removelast (y :: l)))). rewrite IH. cbn. lia.
Qed.
Lemma slices_first : forall A n (L : layers A), slices (first_layers n L) = firstn n (slices L).
Proof.
  intros A n L. unfold slices, first_layers. cbn [lsh lay]. destruct n; [reflexivity|]. symmetry. apply firstn_map.
Qed.

Lemma combine_firstn_min : forall A B (l : list A) (m : list B) k, k = Nat.min (length l) (length m) ->
  combine (firstn k l) (firstn k m) = combine l m.
Proof.
  intros A B. induction l as [|x l IH]; intros m k E; [cbn in E; subst; reflexivity|].
  destruct m as [|y m]; [cbn in E; subst; reflexivity|]. cbn in E. subst k. cbn [firstn combine]. f_equal.
  apply IH. reflexivity.
Qed.

Lemma truncated_transfer : forall o e t q, o_eps o = Some e -> o_t o = Some t ->
  (2 <= length (lay e))%nat -> ((2 < length (lay e))%nat -> lay t <> []) ->
  let k := Nat.min (length (lay e) - 2) (length (lay t)) in
  transfer_matrix_qs_a o q =
  transfer_matrix_qs_a (mkObj (Some (first_layers k t)) (Some (first_layers (k + 2) e)) (o_env o) (o_nu o)) q.
Proof.
  intros o e t q He Ht L2 Ln k.
  rewrite (transfer_qs_eq o e t q He Ht).
  rewrite (transfer_qs_eq (mkObj (Some (first_layers k t)) (Some (first_layers (k + 2) e)) (o_env o) (o_nu o))
             (first_layers (k + 2) e) (first_layers k t) q eq_refl eq_refl).
  rewrite !slices_first.
  assert (Lk : (k <= length (lay e) - 2)%nat) by apply Nat.le_min_l.
  assert (Lkt : (k <= length (lay t))%nat) by apply Nat.le_min_r.
  replace (k + 2)%nat with ((k + 1) + 1)%nat by lia.
  rewrite removelast_firstn_pairs by (rewrite slices_length; lia).
  destruct (qs_trans_total e) as [Ts ETs]. rewrite ETs, (mapM_firstn _ _ _ _ _ (k + 1)%nat ETs).
  pose proof (mapM_length _ _ _ _ _ ETs) as LTs.
  rewrite combine_length, removelast_len, slices_length, tl_len, slices_length in LTs.
  cbn [rbind]. destruct Ts as [|T0 Ts]; [cbn in LTs; lia|]. cbn [length] in LTs.
  rewrite (Nat.add_1_r k). cbn [firstn].
  assert (LE : length (lay (first_layers (S k + 1) e)) = (k + 2)%nat).
  { unfold first_layers. cbn [lay]. rewrite firstn_length. lia. }
  rewrite LE. destruct (Nat.ltb_spec 2 (length (lay e))) as [H|H].
  - specialize (Ln H). assert (1 <= k)%nat.
    { unfold k. destruct (lay t); [contradiction Ln; reflexivity|]. cbn [length]. lia. }
    rewrite (proj2 (Nat.ltb_lt 2 (k + 2))) by lia.
    destruct (qs_props_cases q t) as [[r Er]|Er].
    + rewrite Er, (mapM_firstn _ _ _ _ _ k Er). cbn [rbind]. f_equal. symmetry. apply combine_firstn_min.
      rewrite (mapM_length _ _ _ _ _ Er), slices_length. unfold k. f_equal. lia.
    + rewrite (mapM_all_raise _ _ _ _ _ Er).
      2: { destruct (lay t) eqn:Et; [contradiction Ln; reflexivity|]. unfold slices. rewrite Et. discriminate. }
      rewrite (mapM_all_raise _ _ (qs_prop q) (ValueError msg_broadcast)); [reflexivity| |].
      * intros x Hx. apply Er. rewrite <- (firstn_skipn k (slices t)). apply in_or_app. left; exact Hx.
      * intro N. apply (f_equal (@length _)) in N. rewrite firstn_length, slices_length in N. cbn in N. lia.
  - assert (k = 0)%nat by lia. rewrite H0. reflexivity.
Qed.

(** C03: on an inconsistent object the quasistatic coefficients are those of
    the stack cut off after as many inner layers as both stacks have. *)
Lemma C03_truncated_stack_proof : forall o e t q, o_eps o = Some e -> o_t o = Some t ->
  (2 <= length (lay e))%nat -> ((2 < length (lay e))%nat -> lay t <> []) ->
  let k := Nat.min (length (lay e) - 2) (length (lay t)) in
  let o' := mkObj (Some (first_layers k t)) (Some (first_layers (k + 2) e)) (o_env o) (o_nu o) in
  consistent o' /\
  refl_coef_qs_a o q = refl_coef_qs_a o' q /\ trans_coef_qs_a o q = trans_coef_qs_a o' q.
Proof.
  intros o e t q He Ht L2 Ln k o'. split.
  - exists (first_layers (k + 2) e), (first_layers k t). repeat split.
    + unfold first_layers. cbn [lay]. rewrite !firstn_length.
      assert (k <= length (lay e) - 2)%nat by apply Nat.le_min_l.
      assert (k <= length (lay t))%nat by apply Nat.le_min_r. lia.
    + assert (Lk : (k <= length (lay t))%nat) by apply Nat.le_min_r.
      clear - Lk. clearbody k. unfold first_layers. cbn [lay lsh]. destruct k as [|k']; [reflexivity|].
      intro N. apply (f_equal (@length _)) in N. rewrite firstn_length in N. cbn [length] in N. lia.
  - unfold refl_coef_qs_a, trans_coef_qs_a.
    rewrite (truncated_transfer o e t q He Ht L2 Ln). split; reflexivity.
Qed.

(** C03: with three or more permittivities and no thickness the momentum does
    not enter at all, not even its shape. *)
Lemma C03_momentum_ignored_proof : forall o e t q q', o_eps o = Some e -> o_t o = Some t ->
  (2 < length (lay e))%nat -> lay t = [] ->
  refl_coef_qs_a o q = refl_coef_qs_a o q' /\ exists r, refl_coef_qs_a o q = Ok r /\ shp r = lsh e.
Proof.
  intros o e t q q' He Ht L2 Ln. unfold refl_coef_qs_a. rewrite !(transfer_qs_eq o e t _ He Ht).
  assert (St : slices t = []) by (unfold slices; rewrite Ln; reflexivity). rewrite St.
  rewrite (proj2 (Nat.ltb_lt _ _) L2). split; [reflexivity|].
  assert (exists e0 e1 es, slices e = mkArr (lsh e) e0 :: mkArr (lsh e) e1 :: es) as (e0 & e1 & es & Es).
  { unfold slices. destruct (lay e) as [|e0 [|e1 es]]; [cbn in L2; lia..|]. do 3 eexists. reflexivity. }
  destruct (qs_trans_total e) as [Ts ETs]. rewrite ETs. cbn [rbind mapM].
  rewrite Es in ETs. destruct es as [|e2 es]; [exfalso; apply (f_equal (@length _)) in Es; rewrite slices_length in Es; cbn in Es; lia|].
  match type of ETs with mapM _ (combine (removelast (?a :: ?b :: ?c)) _) = _ =>
    change (combine (removelast (a :: b :: c)) (tl (a :: b :: c)))
      with ((a, b) :: combine (removelast (b :: c)) c) in ETs end.
  destruct (mapM_cons_ok _ _ _ _ _ _ ETs) as (T0 & Ts' & E0 & ->).
  unfold qs_trans, amap2 in E0. cbn [fst snd shp] in E0. rewrite bshape_same in E0. cbn [rbind] in E0.
  assert (ST : shp T0 = (2 :: 2 :: lsh e)%nat).
  { unfold trans_matrix_a, amap2, newaxis2, sign_matrix in E0. cbn [shp at_ bshape bdim Nat.eqb] in E0.
    cbn [rbind] in E0. injection E0 as <-. reflexivity. }
  replace (combine Ts' ([] : list (arr CV))) with (@nil (arr CV * arr CV)) by (destruct Ts'; reflexivity).
  cbn [chain_a rbind]. unfold refl_of_matrix, amap2, mat_entry. cbn [shp]. rewrite ST. cbn [tl].
  rewrite bshape_same. eexists. split; [reflexivity|reflexivity].
Qed.

(** C03, concrete case: giving a film two thicknesses raises, and stores them;
    taking its thickness away raises, and leaves a film that behaves as if the
    film filled the lower half space. *)
Lemma C03_example_proof :
  exists o o1 o2, init defaults0 (Some [scalar (rc 1); scalar (rc 2); scalar (rc 3)]) None
               (Some [scalar 1]) None None = Ok o /\
    run (SetT (Some [scalar 4; scalar 5])) o = (o1, Raise (ValueError msg_layers)) /\
    t_stack (sample_at o1 []) = [4; 5] /\
    run (SetT None) o = (o2, Raise (ValueError msg_layers)) /\
    (forall q, exists r, refl_coef_qs_a o2 q = Ok r /\ entry r [] = rc (1 / 3)).
Proof.
  do 3 eexists. split; [reflexivity|]. split; [reflexivity|]. split; [reflexivity|].
  split; [reflexivity|]. intro q. eexists. split; [reflexivity|].
  change (((rc 1 + rc (-1) * (rc 1 / rc 2)) / rc 2) / ((rc 1 + rc 1 * (rc 1 / rc 2)) / rc 2) = rc (1 / 3))%cv.
  unfold rc. rewrite cdiv_ok by (apply RtoC_neq_0; lra).
  cbn [cmul cadd olift2]. rewrite <- !RtoC_div, <- !RtoC_mult, <- !RtoC_plus by lra.
  rewrite !cdiv_ok by (apply RtoC_neq_0; lra). rewrite <- !RtoC_div by lra.
  rewrite !cdiv_ok by (apply RtoC_neq_0; lra). rewrite <- !RtoC_div by lra. do 2 f_equal. lra.
Qed.
