(** * Proofs: comparison of lossless stacks (C85) *)
From Coq Require Import String Reals Lra Lia ZArith List Bool Sorted.
From Coquelicot Require Import Coquelicot.
From Coq Require Import List.
From Verif Require Import Num NumLemmas ModelBase ModelSample ModelTip StackLemmas Spec
  ProofsStackQS ProofsStackQS2 ProofsSym ProofsPassive SpecQuad ProofsQuad QuadConv ProofsQuad2 ProofsNlag ProofsImage SpecWave WaveLemmas ProofsFilm.
Import ListNotations.
Open Scope R_scope.

(** ** The permittivity of the half space with the same response

    [hyp q t] is tanh (q t), with the clip of the code; [xe] replaces a layer and
    what is below it by a half space. *)
Definition hyp (q t : R) : R := (1 - exp (- 2 * clipR (q * t))) / (1 + exp (- 2 * clipR (q * t))).
Definition seen (b x T : R) : R := b * (x + b * T) / (b + x * T).
Fixpoint xe (q b : R) (es ts : list R) : R :=
  match es, ts with
  | e :: es', t :: ts' => seen b (xe q e es' ts') (hyp q t)
  | _, _ => b
  end.

Lemma hyp_range q t : 0 <= q -> 0 <= t -> 0 <= hyp q t < 1.
Proof.
  intros Hq Ht. destruct (factor_range q t Hq Ht) as [F1 F2]. unfold hyp. split.
  - apply Rdiv_le_0_compat; lra.
  - apply Rlt_div_l; lra.
Qed.
Lemma hyp_pos q t : 0 < q -> 0 < t -> 0 < hyp q t.
Proof.
  intros Hq Ht. destruct (factor_range q t ltac:(lra) ltac:(lra)) as [F1 _]. unfold hyp. apply Rdiv_lt_0_compat; [|lra].
  assert (0 < clipR (q * t)).
  { unfold clipR. pose proof MAX_pos. apply Rmin_glb_lt; [|assumption]. apply Rlt_le_trans with (q * t); [now apply Rmult_lt_0_compat|apply Rmax_l]. }
  assert (exp (- 2 * clipR (q * t)) < exp 0) by (apply exp_increasing; lra). rewrite exp_0 in *. lra.
Qed.
Lemma hyp_mono q t t' : 0 <= q -> 0 <= t -> t <= t' -> hyp q t <= hyp q t'.
Proof.
  intros Hq Ht Htt. destruct (factor_range q t Hq Ht) as [F1 F2]. destruct (factor_range q t' Hq ltac:(lra)) as [G1 G2].
  assert (H : exp (- 2 * clipR (q * t')) <= exp (- 2 * clipR (q * t))).
  { rewrite !(Rmult_comm q). apply factor_mono; [exact Hq|exact Htt]. }
  unfold hyp. set (a := exp (- 2 * clipR (q * t))) in *. set (b := exp (- 2 * clipR (q * t'))) in *.
  apply Rle_div_l; [lra|]. replace ((1 - b) / (1 + b) * (1 + a)) with ((1 - b) * (1 + a) / (1 + b)) by (field; lra).
  apply Rle_div_r; [lra|]. nra.
Qed.
Lemma seen_den b x T : 0 < b -> 0 < x -> 0 <= T -> 0 < b + x * T.
Proof. intros. assert (0 <= x * T) by (apply Rmult_le_pos; lra). lra. Qed.
Lemma seen_pos b x T : 0 < b -> 0 < x -> 0 <= T -> 0 < seen b x T.
Proof.
  intros. unfold seen. apply Rdiv_lt_0_compat; [|now apply seen_den]. apply Rmult_lt_0_compat; [assumption|].
  assert (0 <= b * T) by (apply Rmult_le_pos; lra). lra.
Qed.
(** differences *)
Lemma seen_diff_x b x x' T : 0 < b -> 0 < x -> 0 < x' -> 0 <= T ->
  seen b x' T - seen b x T = b * b * (1 - T * T) * (x' - x) / ((b + x * T) * (b + x' * T)).
Proof.
  intros. unfold seen. assert (0 < b + x * T) by now apply seen_den. assert (0 < b + x' * T) by now apply seen_den. field. lra.
Qed.
Lemma seen_diff_b b b' x T : 0 < b -> 0 < b' -> 0 < x -> 0 <= T ->
  seen b' x T - seen b x T = T * (x * x + b * b' + x * T * (b + b')) * (b' - b) / ((b + x * T) * (b' + x * T)).
Proof.
  intros. unfold seen. assert (0 < b + x * T) by now apply seen_den. assert (0 < b' + x * T) by now apply seen_den. field. lra.
Qed.
Lemma seen_diff_T b x T T' : 0 < b -> 0 < x -> 0 <= T -> 0 <= T' ->
  seen b x T' - seen b x T = b * (b * b - x * x) * (T' - T) / ((b + x * T) * (b + x * T')).
Proof.
  intros. unfold seen. assert (0 < b + x * T) by now apply seen_den. assert (0 < b + x * T') by now apply seen_den. field. lra.
Qed.
Lemma div_nonneg a d : 0 <= a -> 0 < d -> 0 <= a / d.
Proof. intros. now apply Rdiv_le_0_compat. Qed.
Lemma seen_incr_x b x x' T : 0 < b -> 0 < x -> x <= x' -> 0 <= T < 1 -> seen b x T <= seen b x' T.
Proof.
  intros Hb Hx Hxx HT. assert (0 < b + x * T) by (apply seen_den; lra). assert (0 < b + x' * T) by (apply seen_den; lra).
  enough (0 <= seen b x' T - seen b x T) by lra. rewrite seen_diff_x by lra. apply div_nonneg; [|now apply Rmult_lt_0_compat].
  assert (0 < b * b) by nra. assert (0 <= 1 - T * T) by nra. repeat apply Rmult_le_pos; lra.
Qed.
Lemma seen_sincr_x b x x' T : 0 < b -> 0 < x -> x < x' -> 0 <= T < 1 -> seen b x T < seen b x' T.
Proof.
  intros Hb Hx Hxx HT. assert (0 < b + x * T) by (apply seen_den; lra). assert (0 < b + x' * T) by (apply seen_den; lra).
  enough (0 < seen b x' T - seen b x T) by lra. rewrite seen_diff_x by lra. apply Rdiv_lt_0_compat; [|now apply Rmult_lt_0_compat].
  assert (0 < b * b) by nra. assert (0 < 1 - T * T) by nra. apply Rmult_lt_0_compat; [|lra]. now apply Rmult_lt_0_compat.
Qed.
Lemma seen_incr_b b b' x T : 0 < b -> b <= b' -> 0 < x -> 0 <= T -> seen b x T <= seen b' x T.
Proof.
  intros Hb Hbb Hx HT. assert (0 < b + x * T) by (apply seen_den; lra). assert (0 < b' + x * T) by (apply seen_den; lra).
  enough (0 <= seen b' x T - seen b x T) by lra. rewrite seen_diff_b by lra. apply div_nonneg; [|now apply Rmult_lt_0_compat].
  assert (0 < x * x) by nra. assert (0 < b * b') by nra. assert (0 <= x * T) by (apply Rmult_le_pos; lra). assert (0 <= x * T * (b + b')) by (apply Rmult_le_pos; lra).
  repeat apply Rmult_le_pos; lra.
Qed.
Lemma seen_sincr_b b b' x T : 0 < b -> b < b' -> 0 < x -> 0 < T -> seen b x T < seen b' x T.
Proof.
  intros Hb Hbb Hx HT. assert (0 < b + x * T) by (apply seen_den; lra). assert (0 < b' + x * T) by (apply seen_den; lra).
  enough (0 < seen b' x T - seen b x T) by lra. rewrite seen_diff_b by lra. apply Rdiv_lt_0_compat; [|now apply Rmult_lt_0_compat].
  assert (0 < x * x) by nra. assert (0 < b * b') by nra. assert (0 <= x * T) by (apply Rmult_le_pos; lra). assert (0 <= x * T * (b + b')) by (apply Rmult_le_pos; lra).
  repeat apply Rmult_lt_0_compat; lra.
Qed.
Lemma seen_same b T : 0 < b -> 0 <= T -> seen b b T = b.
Proof. intros. unfold seen. assert (0 < b + b * T) by now apply seen_den. field. lra. Qed.

(** ** The stack *)
Lemma xe_pos q : 0 <= q -> forall es ts b, 0 < b -> Forall (fun e => 0 < e) es -> Forall (fun t => 0 <= t) ts -> 0 < xe q b es ts.
Proof.
  intros Hq. induction es as [|e es IH]; intros [|t ts] b Hb He Ht; cbn [xe]; try exact Hb.
  inversion He; inversion Ht; subst. apply seen_pos; [exact Hb|now apply IH|]. now apply hyp_range.
Qed.
Lemma gr_xe q : 0 <= q -> forall es ts a b, length es = length ts -> 0 < a -> 0 < b -> Forall (fun e => 0 < e) es -> Forall (fun t => 0 <= t) ts ->
  gr q a b es ts = (xe q b es ts - a) / (xe q b es ts + a) /\
  parratt qs_iface (cround q) (map RtoC (a :: b :: es)) ts (RtoC (gr q a b es ts)).
Proof.
  intros Hq. induction es as [|e es IH]; intros ts a b Hl Ha Hb He Ht.
  - destruct ts; [|discriminate]. split; [reflexivity|]. cbn [map gr]. constructor. unfold qs_iface. split; [apply RtoC_neq_0; lra|].
    rewrite <- RtoC_plus, <- RtoC_minus. split; [apply RtoC_neq_0; lra|]. rewrite <- RtoC_div by lra. reflexivity.
  - destruct ts as [|t ts]; [discriminate|]. injection Hl as Hl. inversion He as [|? ? He1 He2]; subst. inversion Ht as [|? ? Ht1 Ht2]; subst.
    destruct (IH ts b e Hl Hb He1 He2 Ht2) as [I1 I2]. pose proof (xe_pos q Hq es ts e He1 He2 Ht2) as Px.
    destruct (factor_range q t Hq Ht1) as [F1 F2]. set (x := xe q e es ts) in *. set (X := exp (- 2 * clipR (q * t))) in *.
    assert (D : 1 + (b - a) / (b + a) * (gr q b e es ts * X) = ((b + a) * (x + b) + (b - a) * (x - b) * X) / ((b + a) * (x + b))).
    { rewrite I1. field. lra. }
    assert (Dp : 0 < (b + a) * (x + b) + (b - a) * (x - b) * X).
    { assert (0 < (b + a) * (x + b)) by (apply Rmult_lt_0_compat; lra).
      assert (K : - ((b + a) * (x + b)) < (b - a) * (x - b)) by nra.
      destruct (Rle_dec 0 ((b - a) * (x - b))).
      - assert (0 <= (b - a) * (x - b) * X) by (apply Rmult_le_pos; lra). lra.
      - assert ((b - a) * (x - b) <= (b - a) * (x - b) * X) by nra. lra. }
    assert (Dn : 0 < 1 + (b - a) / (b + a) * (gr q b e es ts * X)).
    { rewrite D. apply Rdiv_lt_0_compat; [exact Dp|]. apply Rmult_lt_0_compat; lra. }
    split.
    + cbn [gr xe]. fold X x. rewrite D, I1. unfold seen, hyp. fold X.
      assert (0 < b * (1 + X) + x * (1 - X)) by (assert (0 < b * (1 + X)) by (apply Rmult_lt_0_compat; lra); assert (0 <= x * (1 - X)) by (apply Rmult_le_pos; lra); lra).
      assert (0 < b * (x * (1 + X) + b * (1 - X)) + a * (b * (1 + X) + x * (1 - X))).
      { assert (0 < x * (1 + X)) by (apply Rmult_lt_0_compat; lra). assert (0 <= b * (1 - X)) by (apply Rmult_le_pos; lra).
        assert (0 < b * (x * (1 + X) + b * (1 - X))) by (apply Rmult_lt_0_compat; lra).
        assert (0 < a * (b * (1 + X) + x * (1 - X))) by (now apply Rmult_lt_0_compat). lra. }
      field. repeat split; try lra.
    + assert (Ei : RtoC (gr q a b (e :: es) (t :: ts))
          = ((RtoC ((b - a) / (b + a)) + RtoC (gr q b e es ts) * cround q (RtoC b) t)
             / (1 + RtoC ((b - a) / (b + a)) * (RtoC (gr q b e es ts) * cround q (RtoC b) t)))%C).
      { rewrite gr_comp. unfold comp, cround. rewrite <- !RtoC_mult, <- !RtoC_plus. apply RtoC_div. fold X. lra. }
      rewrite Ei. cbn [map]. apply parratt_layer.
      * unfold qs_iface. split; [apply RtoC_neq_0; lra|]. rewrite <- RtoC_plus, <- RtoC_minus.
        split; [apply RtoC_neq_0; lra|]. rewrite <- RtoC_div by lra. reflexivity.
      * exact I2.
      * unfold cround. fold X. rewrite <- !RtoC_mult, <- RtoC_plus. apply RtoC_neq_0. lra.
Qed.
(** the coefficient of a lossless stack *)
Definition rstack (q a b : R) (es ts : list R) : R := (xe q b es ts - a) / (xe q b es ts + a).
Lemma refl_lossless a b es ts nu q : length es = length ts -> Forall (fun e => 0 < e) (a :: b :: es) -> Forall (fun t => 0 <= t) ts -> 0 <= q ->
  refl_coef_qs (stack (map RtoC (a :: b :: es)) ts nu) (rr q) = Ok (Some (RtoC (rstack q a b es ts))).
Proof.
  intros Hl Hp Ht Hq. inversion Hp as [|? ? Ha Hp']; subst. inversion Hp' as [|? ? Hb He]; subst.
  destruct (gr_xe q Hq es ts a b Hl Ha Hb He Ht) as [E P]. unfold rstack. rewrite <- E. now apply refl_clipped.
Qed.
Lemma contrast_range a x : 0 < a -> 0 < x -> -1 < (x - a) / (x + a) < 1.
Proof. intros. split; [apply Rlt_div_r; lra|apply Rlt_div_l; lra]. Qed.
Lemma contrast_mono a a' x x' : 0 < a' -> a' <= a -> 0 < x -> x <= x' -> (x - a) / (x + a) <= (x' - a') / (x' + a').
Proof.
  intros. apply Rle_div_l; [lra|]. replace ((x' - a') / (x' + a') * (x + a)) with ((x' - a') * (x + a) / (x' + a')) by (field; lra).
  apply Rle_div_r; [lra|]. assert (x * a' <= x' * a) by (apply Rmult_le_compat; lra). nra.
Qed.
Lemma contrast_smono a a' x x' : 0 < a' -> a' <= a -> 0 < x -> x <= x' -> a' < a \/ x < x' -> (x - a) / (x + a) < (x' - a') / (x' + a').
Proof.
  intros ? ? ? ? Hs. apply Rlt_div_l; [lra|]. replace ((x' - a') / (x' + a') * (x + a)) with ((x' - a') * (x + a) / (x' + a')) by (field; lra).
  apply Rlt_div_r; [lra|]. assert (x * a' < x' * a) by (destruct Hs; nra). nra.
Qed.
Lemma xe_mono q : 0 <= q -> forall es es' ts b b', 0 < b -> Forall (fun e => 0 < e) es -> Forall (fun t => 0 <= t) ts -> length es = length ts ->
  Forall2 Rle (b :: es) (b' :: es') -> xe q b es ts <= xe q b' es' ts.
Proof.
  intros Hq. induction es as [|e es IH]; intros es' ts b b' Hb He Ht Hl H2; inversion H2 as [|? ? ? ? Hbb H2']; subst.
  - inversion H2'; subst. destruct ts; [|discriminate]. exact Hbb.
  - inversion H2' as [|? e' ? es2 Hee H3]; subst. destruct ts as [|t ts]; [discriminate|]. injection Hl as Hl.
    inversion He as [|? ? He1 He2]; subst. inversion Ht as [|? ? Ht1 Ht2]; subst. cbn [xe].
    pose proof (hyp_range q t Hq Ht1). specialize (IH es2 ts e e' He1 He2 Ht2 Hl H2'). pose proof (xe_pos q Hq es ts e He1 He2 Ht2).
    eapply Rle_trans; [apply (seen_incr_x b _ _ _ Hb H0 IH); lra|]. apply seen_incr_b; lra.
Qed.
Lemma xe_smono q : 0 < q -> forall es es' ts b b', 0 < b -> Forall (fun e => 0 < e) es -> Forall (fun t => 0 < t) ts -> length es = length ts ->
  Forall2 Rle (b :: es) (b' :: es') -> b :: es <> b' :: es' -> xe q b es ts < xe q b' es' ts.
Proof.
  intros Hq. assert (Hq' : 0 <= q) by lra.
  assert (Wk : forall ts, Forall (fun t => 0 < t) ts -> Forall (fun t => 0 <= t) ts) by (intros ts; apply Forall_impl; intros; lra).
  induction es as [|e es IH]; intros es' ts b b' Hb He Ht Hl H2 Hn; inversion H2 as [|? ? ? ? Hbb H2']; subst.
  - inversion H2'; subst. destruct ts; [|discriminate]. cbn [xe]. assert (b <> b') by congruence. lra.
  - inversion H2' as [|? e' ? es2 Hee H3]; subst. destruct ts as [|t ts]; [discriminate|]. injection Hl as Hl.
    inversion He as [|? ? He1 He2]; subst. inversion Ht as [|? ? Ht1 Ht2]; subst. cbn [xe].
    pose proof (hyp_range q t Hq' ltac:(lra)). pose proof (hyp_pos q t Hq Ht1). pose proof (xe_pos q Hq' es ts e He1 He2 (Wk _ Ht2)).
    pose proof (xe_mono q Hq' es es2 ts e e' He1 He2 (Wk _ Ht2) Hl H2') as M.
    destruct (Req_dec b b') as [->|Nb].
    + assert (N' : e :: es <> e' :: es2) by congruence. specialize (IH es2 ts e e' He1 He2 Ht2 Hl H2' N').
      apply seen_sincr_x; lra.
    + eapply Rle_lt_trans; [apply (seen_incr_x b _ _ _ Hb H1 M); lra|]. apply seen_sincr_b; lra.
Qed.
Lemma xe_uniform q m : 0 <= q -> 0 < m -> forall ts, Forall (fun t => 0 <= t) ts -> xe q m (repeat m (length ts)) ts = m.
Proof.
  intros Hq Hm. induction ts as [|t ts IH]; intros Ht; [reflexivity|]. inversion Ht as [|? ? Ht1 Ht2]; subst. cbn [length repeat xe].
  rewrite IH by exact Ht2. apply seen_same; [exact Hm|]. now apply hyp_range.
Qed.
Lemma Forall2_repeat_l m l : Forall (fun e => m <= e) l -> Forall2 Rle (repeat m (length l)) l.
Proof. induction 1; cbn [length repeat]; constructor; assumption. Qed.
Lemma Forall2_repeat_r m l : Forall (fun e => e <= m) l -> Forall2 Rle l (repeat m (length l)).
Proof. induction 1; cbn [length repeat]; constructor; assumption. Qed.
Lemma xe_between q m M : 0 <= q -> 0 < m -> forall es ts b, length es = length ts -> Forall (fun t => 0 <= t) ts ->
  Forall (fun e => m <= e <= M) (b :: es) -> m <= xe q b es ts <= M.
Proof.
  intros Hq Hm es ts b Hl Ht HB. inversion HB as [|? ? Hb He]; subst. split.
  - rewrite <- (xe_uniform q m Hq Hm ts Ht) at 1. rewrite <- Hl. apply xe_mono; auto.
    + apply Forall_forall. intros x Hx. apply repeat_spec in Hx. subst. exact Hm.
    + rewrite repeat_length. exact Hl.
    + change (m :: repeat m (length es)) with (repeat m (length (b :: es))). apply Forall2_repeat_l. eapply Forall_impl; [|exact HB]. intros; simpl in *; lra.
  - rewrite <- (xe_uniform q M Hq ltac:(lra) ts Ht). rewrite <- Hl. apply xe_mono; auto; try lra.
    + eapply Forall_impl; [|exact He]. intros; simpl in *; lra.
    + change (M :: repeat M (length es)) with (repeat M (length (b :: es))). apply Forall2_repeat_r. eapply Forall_impl; [|exact HB]. intros; simpl in *; lra.
Qed.

Lemma pos_le l l' : Forall2 Rle l l' -> Forall (fun e : R => 0 < e) l -> Forall (fun e : R => 0 < e) l'.
Proof. induction 1; intros H1; constructor; inversion H1; subst; [lra|auto]. Qed.
Lemma F2_len {A B} (P : A -> B -> Prop) l l' : Forall2 P l l' -> length l = length l'.
Proof. induction 1; simpl; auto. Qed.

(** C85. Lossless stacks of the same thicknesses: the coefficient is real and
    less than 1 in magnitude at every momentum, and it does not decrease if any
    of the permittivities below the environment is raised or that of the
    environment is lowered. *)
Lemma C85_order_proof :
  forall (e0 e0' e1 e1' : R) (es es' ts : list R) nu nu' (q : R),
  length es = length ts -> Forall (fun t => 0 <= t) ts -> 0 <= q ->
  0 < e0' -> e0' <= e0 -> Forall (fun e => 0 < e) (e1 :: es) -> Forall2 Rle (e1 :: es) (e1' :: es') ->
  exists r r' : R,
    refl_coef_qs (stack (map RtoC (e0 :: e1 :: es)) ts nu) (rr q) = Ok (Some (RtoC r)) /\
    refl_coef_qs (stack (map RtoC (e0' :: e1' :: es')) ts nu') (rr q) = Ok (Some (RtoC r')) /\
    -1 < r <= r' /\ r' < 1.
Proof.
  intros e0 e0' e1 e1' es es' ts nu nu' q Hl Ht Hq H0 H0' Hp H2. pose proof (pos_le _ _ H2 Hp) as Hp'. pose proof (F2_len _ _ _ H2) as L2.
  cbn [length] in L2. inversion Hp as [|? ? Hb He]; subst. inversion Hp' as [|? ? Hb' He']; subst.
  pose proof (xe_pos q Hq es ts e1 Hb He Ht). pose proof (xe_pos q Hq es' ts e1' Hb' He' Ht).
  exists (rstack q e0 e1 es ts), (rstack q e0' e1' es' ts). repeat split.
  - apply refl_lossless; auto. constructor; [lra|assumption].
  - apply refl_lossless; auto. lia.
  - apply contrast_range; lra.
  - apply contrast_mono; try lra. now apply xe_mono.
  - apply contrast_range; lra.
Qed.

(** C85. At positive momentum and with no layer of zero thickness every layer
    counts: raising any of the permittivities raises the coefficient strictly. *)
Lemma C85_strict_proof :
  forall (e0 e0' e1 e1' : R) (es es' ts : list R) nu nu' (q : R),
  length es = length ts -> Forall (fun t => 0 < t) ts -> 0 < q ->
  0 < e0' -> e0' <= e0 -> Forall (fun e => 0 < e) (e1 :: es) -> Forall2 Rle (e1 :: es) (e1' :: es') ->
  e0 :: e1 :: es <> e0' :: e1' :: es' ->
  exists r r' : R,
    refl_coef_qs (stack (map RtoC (e0 :: e1 :: es)) ts nu) (rr q) = Ok (Some (RtoC r)) /\
    refl_coef_qs (stack (map RtoC (e0' :: e1' :: es')) ts nu') (rr q) = Ok (Some (RtoC r')) /\
    r < r'.
Proof.
  intros e0 e0' e1 e1' es es' ts nu nu' q Hl Ht Hq H0 H0' Hp H2 Hn. pose proof (pos_le _ _ H2 Hp) as Hp'. pose proof (F2_len _ _ _ H2) as L2.
  assert (Ht' : Forall (fun t => 0 <= t) ts) by (eapply Forall_impl; [|exact Ht]; intros; simpl in *; lra).
  cbn [length] in L2. inversion Hp as [|? ? Hb He]; subst. inversion Hp' as [|? ? Hb' He']; subst.
  pose proof (xe_pos q ltac:(lra) es ts e1 Hb He Ht'). pose proof (xe_pos q ltac:(lra) es' ts e1' Hb' He' Ht').
  exists (rstack q e0 e1 es ts), (rstack q e0' e1' es' ts). repeat split.
  - apply refl_lossless; auto; try lra. constructor; [lra|assumption].
  - apply refl_lossless; auto; try lra. lia.
  - apply contrast_smono; try lra.
    + apply xe_mono; auto; lra.
    + destruct (Req_dec e0 e0') as [->|]; [right|left; lra]. apply xe_smono; auto. congruence.
Qed.

(** C85. If every permittivity below the environment lies between [m] and [M],
    the stack responds at every momentum like a half space of some permittivity
    between [m] and [M]; in particular its coefficient lies between those of the
    two half spaces. *)
Lemma C85_between_proof :
  forall (e0 e1 m M : R) (es ts : list R) nu (q : R),
  length es = length ts -> Forall (fun t => 0 <= t) ts -> 0 <= q -> 0 < e0 -> 0 < m ->
  Forall (fun e => m <= e <= M) (e1 :: es) ->
  exists x : R, m <= x <= M /\
    refl_coef_qs (stack (map RtoC (e0 :: e1 :: es)) ts nu) (rr q) = Ok (Some (RtoC ((x - e0) / (x + e0)))) /\
    (m - e0) / (m + e0) <= (x - e0) / (x + e0) <= (M - e0) / (M + e0).
Proof.
  intros e0 e1 m M es ts nu q Hl Ht Hq H0 Hm HB. exists (xe q e1 es ts). pose proof (xe_between q m M Hq Hm es ts e1 Hl Ht HB) as X.
  split; [exact X|]. split; [|split; apply contrast_mono; lra]. apply refl_lossless; auto.
  constructor; [exact H0|]. eapply Forall_impl; [|exact HB]. intros; simpl in *; lra.
Qed.

(** thickness of one layer *)
Definition xl (q : R) (l ts : list R) : R := match l with b :: es => xe q b es ts | [] => 0 end.
Definition incr (s : R) (f : R -> R) : Prop := forall t t', 0 <= t -> t <= t' -> s * f t <= s * f t'.
Lemma xl_pos q l ts : 0 <= q -> l <> [] -> Forall (fun e => 0 < e) l -> Forall (fun t => 0 <= t) ts -> 0 < xl q l ts.
Proof. intros Hq Hn Hl Ht. destruct l as [|b es]; [congruence|]. inversion Hl; subst. now apply xe_pos. Qed.
Lemma xl_top q e lb t tsb : lb <> [] -> xl q (e :: lb) (t :: tsb) = seen e (xl q lb tsb) (hyp q t).
Proof. destruct lb; [congruence|reflexivity]. Qed.
Lemma xl_thick q s e lb tsb : 0 <= q -> s = 1 \/ s = -1 -> 0 < e -> lb <> [] -> Forall (fun e => 0 < e) lb -> Forall (fun t => 0 <= t) tsb ->
  s * xl q lb tsb <= s * e ->
  forall la tsa, length la = length tsa -> Forall (fun e => 0 < e) la -> Forall (fun t => 0 <= t) tsa ->
  incr s (fun t => xl q (la ++ e :: lb) (tsa ++ t :: tsb)).
Proof.
  intros Hq Hs He Hn Hlb Hts Hsx. pose proof (xl_pos q lb tsb Hq Hn Hlb Hts) as Px.
  induction la as [|a la IH]; intros [|ta tsa] Hl Ha Ht; try discriminate; intros t t' H0 H1; cbn [app].
  - rewrite !xl_top by exact Hn. set (x := xl q lb tsb) in *.
    pose proof (hyp_range q t Hq H0). pose proof (hyp_range q t' Hq ltac:(lra)). pose proof (hyp_mono q t t' Hq H0 H1).
    assert (D : 0 < (e + x * hyp q t) * (e + x * hyp q t')) by (apply Rmult_lt_0_compat; apply seen_den; lra).
    enough (0 <= s * (seen e x (hyp q t') - seen e x (hyp q t))) by (rewrite Rmult_minus_distr_l in H4; lra).
    rewrite seen_diff_T by lra. unfold Rdiv. rewrite <- Rmult_assoc. apply div_nonneg; [|exact D].
    replace (s * (e * (e * e - x * x) * (hyp q t' - hyp q t))) with (e * (s * e - s * x) * (e + x) * (hyp q t' - hyp q t)) by ring.
    repeat apply Rmult_le_pos; lra.
  - injection Hl as Hl. inversion Ha as [|? ? Ha1 Ha2]; subst. inversion Ht as [|? ? Ht1 Ht2]; subst.
    assert (Nn : la ++ e :: lb <> []) by (destruct la; discriminate). rewrite !xl_top by exact Nn.
    specialize (IH tsa Hl Ha2 Ht2 t t' H0 H1). cbn beta in IH.
    assert (P : forall u, 0 <= u -> 0 < xl q (la ++ e :: lb) (tsa ++ u :: tsb)).
    { intros u Hu. apply xl_pos; [exact Hq|exact Nn| |].
      - apply Forall_app. split; [exact Ha2|]. constructor; assumption.
      - apply Forall_app. split; [exact Ht2|]. constructor; assumption. }
    pose proof (P t H0). pose proof (P t' ltac:(lra)). pose proof (hyp_range q ta Hq Ht1).
    destruct Hs as [-> | ->]; rewrite ?Rmult_1_l in *.
    + apply seen_incr_x; lra.
    + enough (seen a (xl q (la ++ e :: lb) (tsa ++ t' :: tsb)) (hyp q ta) <= seen a (xl q (la ++ e :: lb) (tsa ++ t :: tsb)) (hyp q ta)) by lra.
      apply seen_incr_x; lra.
Qed.
Lemma xl_between q m M l ts : 0 <= q -> 0 < m -> l <> [] -> length l = S (length ts) -> Forall (fun t => 0 <= t) ts ->
  Forall (fun e => m <= e <= M) l -> m <= xl q l ts <= M.
Proof. intros Hq Hm Hn Hl Ht HB. destruct l as [|b es]; [congruence|]. injection Hl as Hl. now apply xe_between. Qed.
Lemma refl_xl a l ts nu q : length l = S (length ts) -> Forall (fun e => 0 < e) (a :: l) -> Forall (fun t => 0 <= t) ts -> 0 <= q ->
  refl_coef_qs (stack (map RtoC (a :: l)) ts nu) (rr q) = Ok (Some (RtoC ((xl q l ts - a) / (xl q l ts + a)))).
Proof.
  intros Hl Hp Ht Hq. destruct l as [|b es]; [discriminate|]. injection Hl as Hl. now apply refl_lossless.
Qed.
Lemma list_max_pos (l : list R) : l <> [] -> exists M, Forall (fun e => e <= M) l /\ In M l.
Proof.
  induction l as [|x l IH]; [congruence|]. intros _. destruct l as [|y l]; [exists x; split; [repeat constructor; lra|now left]|].
  destruct IH as (M & H1 & H2); [discriminate|]. destruct (Rle_dec x M).
  - exists M. split; [constructor; assumption|now right].
  - exists x. split; [|now left]. constructor; [lra|]. eapply Forall_impl; [|exact H1]. intros; simpl in *; lra.
Qed.

(** C85. Thickness: with everything else fixed the coefficient is a monotone
    function of the thickness of any one layer: increasing if no permittivity
    further down exceeds that of the layer, decreasing if none is below it. *)
Lemma C85_thickness_proof :
  forall (e0 e : R) (above below ts_above ts_below : list R) nu (q : R),
  length above = length ts_above -> length below = S (length ts_below) ->
  Forall (fun x => 0 < x) (e0 :: above ++ e :: below) -> Forall (fun t => 0 <= t) (ts_above ++ ts_below) -> 0 <= q ->
  exists r : R -> R,
    (forall t, 0 <= t -> refl_coef_qs (stack (map RtoC (e0 :: above ++ e :: below)) (ts_above ++ t :: ts_below) nu) (rr q) = Ok (Some (RtoC (r t)))) /\
    ((forall t t', 0 <= t -> t <= t' -> r t <= r t') \/ (forall t t', 0 <= t -> t <= t' -> r t' <= r t)) /\
    (Forall (fun x => x <= e) below -> forall t t', 0 <= t -> t <= t' -> r t <= r t') /\
    (Forall (fun x => e <= x) below -> forall t t', 0 <= t -> t <= t' -> r t' <= r t).
Proof.
  intros e0 e la lb tsa tsb nu q La Lb Hp Ht Hq. inversion Hp as [|? ? H0 Hp']; subst. apply Forall_app in Hp'. destruct Hp' as [Pa Pe].
  inversion Pe as [|? ? He Pb]; subst. apply Forall_app in Ht. destruct Ht as [Ta Tb].
  assert (Nb : lb <> []) by (destruct lb; [discriminate|discriminate]).
  set (X := fun t => xl q (la ++ e :: lb) (tsa ++ t :: tsb)).
  assert (PX : forall t, 0 <= t -> 0 < X t).
  { intros t Hu. apply xl_pos; [exact Hq|destruct la; discriminate| |].
    - apply Forall_app. split; [exact Pa|exact Pe].
    - apply Forall_app. split; [exact Ta|]. constructor; assumption. }
  assert (UP : xl q lb tsb <= e -> forall t t', 0 <= t -> t <= t' -> (X t - e0) / (X t + e0) <= (X t' - e0) / (X t' + e0)).
  { intros K t t' K1 K2. pose proof (xl_thick q 1 e lb tsb Hq (or_introl eq_refl) He Nb Pb Tb ltac:(lra) la tsa La Pa Ta t t' K1 K2) as Y.
    cbn beta in Y. fold (X t) (X t') in Y. pose proof (PX t K1). apply contrast_mono; lra. }
  assert (DN : e <= xl q lb tsb -> forall t t', 0 <= t -> t <= t' -> (X t' - e0) / (X t' + e0) <= (X t - e0) / (X t + e0)).
  { intros K t t' K1 K2. pose proof (xl_thick q (-1) e lb tsb Hq (or_intror eq_refl) He Nb Pb Tb ltac:(lra) la tsa La Pa Ta t t' K1 K2) as Y.
    cbn beta in Y. fold (X t) (X t') in Y. pose proof (PX t' ltac:(lra)). apply contrast_mono; lra. }
  exists (fun t => (X t - e0) / (X t + e0)). split; [|split; [|split]].
  - intros t H1. apply refl_xl; [|exact Hp| |exact Hq].
    + rewrite !app_length. cbn [length]. lia.
    + apply Forall_app. split; [exact Ta|]. constructor; assumption.
  - destruct (Rle_dec (xl q lb tsb) e) as [K|K]; [left; now apply UP|right; apply DN; lra].
  - intros K. apply UP. destruct (list_max_pos (map Ropp lb)) as (M & M1 & M2); [destruct lb; [congruence|discriminate]|].
    apply in_map_iff in M2. destruct M2 as (m & <- & Hin). rewrite Forall_forall in Pb. apply (xl_between q m e lb tsb Hq (Pb m Hin) Nb Lb Tb).
    rewrite Forall_forall in K, M1 |- *. intros x Hx. split; [|now apply K]. specialize (M1 (- x) (in_map Ropp _ _ Hx)). lra.
  - intros K. apply DN. destruct (list_max_pos lb Nb) as (M & M1 & M2).
    apply (xl_between q e M lb tsb Hq He Nb Lb Tb). rewrite Forall_forall in K, M1 |- *. intros x Hx. split; auto.
Qed.

(** ** The average over momenta *)
Lemma average_lossless lg D n_lag e0 l ts nu z : let n := given_or (d_n_lag D) n_lag in
  n <> O -> laguerre_rule (lg n) -> length l = S (length ts) -> Forall (fun e => 0 < e) (e0 :: l) -> Forall (fun t => 0 <= t) ts -> 0 < z ->
  refl_coef_qs_above_surf lg D (stack (map RtoC (e0 :: l)) ts nu) (rr z) n_lag
  = Ok (Some (RtoC (Rsum (map (fun xw => snd xw * fst xw * ((xl (fst xw / (2 * z)) l ts - e0) / (xl (fst xw / (2 * z)) l ts + e0))) (lg n))))).
Proof.
  intros n Hn (Hpos & Hw & Hwx) Hl Hp Ht Hz. assert (En : n = dflt (d_n_lag D) n_lag) by reflexivity.
  rewrite (above_ok lg D _ z n_lag (fun q => RtoC ((xl q l ts - e0) / (xl q l ts + e0)))).
  - rewrite <- En, <- Csum_RtoC. do 3 f_equal. apply map_ext. intros xw. symmetry. apply RtoC_mult.
  - rewrite <- En. exact Hn.
  - lra.
  - rewrite <- En. intros xw Hin. apply refl_xl; auto. rewrite Forall_forall in Hpos. destruct (Hpos xw Hin). apply Rlt_le, Rdiv_lt_0_compat; lra.
  - eexists. apply refl_xl; auto. lra.
Qed.
Definition rave (lg : laggauss_t) (n : nat) (e0 : R) (l ts : list R) (z : R) : R :=
  Rsum (map (fun xw => snd xw * fst xw * ((xl (fst xw / (2 * z)) l ts - e0) / (xl (fst xw / (2 * z)) l ts + e0))) (lg n)).
Lemma rule_Q (lg : laggauss_t) n z : laguerre_rule (lg n) -> 0 < z -> forall xw, In xw (lg n) -> 0 < fst xw / (2 * z) /\ 0 < snd xw * fst xw.
Proof.
  intros (Hpos & _) Hz xw Hin. rewrite Forall_forall in Hpos. destruct (Hpos xw Hin). split; [apply Rdiv_lt_0_compat; lra|apply Rmult_lt_0_compat; lra].
Qed.
Lemma rave_le lg n e0 e0' l l' ts ts' z :  laguerre_rule (lg n) -> 0 < z ->
  (forall q, 0 < q -> (xl q l ts - e0) / (xl q l ts + e0) <= (xl q l' ts' - e0') / (xl q l' ts' + e0')) -> rave lg n e0 l ts z <= rave lg n e0' l' ts' z.
Proof.
  intros HR Hz H. unfold rave. apply Rsum_le. intros xw Hin. destruct (rule_Q lg n z HR Hz xw Hin) as [Q1 Q2].
  apply Rmult_le_compat_l; [lra|]. now apply H.
Qed.
Lemma rave_const (lg : laggauss_t) n c (f : R * R -> R) : laguerre_rule (lg n) -> (forall xw, f xw = c) -> Rsum (map (fun xw => snd xw * fst xw * f xw) (lg n)) = c.
Proof.
  intros (_ & _ & Hwx) Hf. transitivity (c * Rsum (map (fun xw => snd xw * fst xw) (lg n))); [|rewrite Hwx; ring].
  rewrite <- Rsum_scal. f_equal. apply map_ext. intros xw. rewrite Hf. ring.
Qed.
Lemma rave_between lg n e0 l ts z m M : laguerre_rule (lg n) -> 0 < z -> 0 < e0 -> 0 < m -> length l = S (length ts) -> Forall (fun t => 0 <= t) ts ->
  Forall (fun e => m <= e <= M) l -> (m - e0) / (m + e0) <= rave lg n e0 l ts z <= (M - e0) / (M + e0).
Proof.
  intros HR Hz H0 Hm Hl Ht HB. assert (Nl : l <> []) by (destruct l; discriminate).
  assert (X : forall q, 0 < q -> m <= xl q l ts <= M) by (intros q Hq; apply xl_between; auto; lra).
  rewrite <- (rave_const lg n ((m - e0) / (m + e0)) (fun _ => (m - e0) / (m + e0)) HR (fun _ => eq_refl)) at 1.
  rewrite <- (rave_const lg n ((M - e0) / (M + e0)) (fun _ => (M - e0) / (M + e0)) HR (fun _ => eq_refl)).
  unfold rave. split; apply Rsum_le; intros xw Hin; destruct (rule_Q lg n z HR Hz xw Hin) as [Q1 Q2]; specialize (X _ Q1); apply Rmult_le_compat_l; try lra;
    apply contrast_mono; lra.
Qed.

(** C85. The same for the averages of refl_coef_qs_above_surf, with any number of nodes. *)
Lemma C85_average_proof :
  forall (laggauss : laggauss_t) (D : Defaults) (n_lag : option nat) (e0 e0' e1 e1' : R) (es es' ts : list R) nu nu' (z : R),
  let n := given_or (d_n_lag D) n_lag in
  n <> O -> laguerre_rule (laggauss n) ->
  length es = length ts -> Forall (fun t => 0 <= t) ts -> 0 < z ->
  0 < e0' -> e0' <= e0 -> Forall (fun e => 0 < e) (e1 :: es) -> Forall2 Rle (e1 :: es) (e1' :: es') ->
  exists r r' : R,
    refl_coef_qs_above_surf laggauss D (stack (map RtoC (e0 :: e1 :: es)) ts nu) (rr z) n_lag = Ok (Some (RtoC r)) /\
    refl_coef_qs_above_surf laggauss D (stack (map RtoC (e0' :: e1' :: es')) ts nu') (rr z) n_lag = Ok (Some (RtoC r')) /\
    r <= r' /\
    (forall m M, 0 < m -> Forall (fun e => m <= e <= M) (e1 :: es) -> (m - e0) / (m + e0) <= r <= (M - e0) / (M + e0)).
Proof.
  intros lg D nl e0 e0' e1 e1' es es' ts nu nu' z n Hn HR Hl Ht Hz H0 H0' Hp H2. pose proof (pos_le _ _ H2 Hp) as Hp'. pose proof (F2_len _ _ _ H2) as L2.
  cbn [length] in L2. inversion Hp as [|? ? Hb He]; subst. inversion Hp' as [|? ? Hb' He']; subst.
  exists (rave lg n e0 (e1 :: es) ts z), (rave lg n e0' (e1' :: es') ts z). repeat split.
  - apply average_lossless; auto; [cbn [length]; lia|]. constructor; [lra|assumption].
  - apply average_lossless; auto. cbn [length]; lia.
  - apply rave_le; auto. intros q Hq. assert (Hq' : 0 <= q) by lra. pose proof (xe_pos q Hq' es ts e1 Hb He Ht). pose proof (xe_pos q Hq' es' ts e1' Hb' He' Ht).
    cbn [xl]. apply contrast_mono; try lra. now apply xe_mono.
  - apply (rave_between lg n e0 (e1 :: es) ts z m M); auto; try lra. cbn [length]; lia.
  - apply (rave_between lg n e0 (e1 :: es) ts z m M); auto; try lra. cbn [length]; lia.
Qed.

(** C85. Example: a layer of 9 (buried between 4 and a substrate of 2) replaced by
    one of 10. *)
Lemma C85_example_proof :
  exists r r' : R,
    refl_coef_qs (stack [RtoC 1; RtoC 4; RtoC 9; RtoC 2] [1; 3] None) (rr (1 / 2)) = Ok (Some (RtoC r)) /\
    refl_coef_qs (stack [RtoC 1; RtoC 4; RtoC 10; RtoC 2] [1; 3] None) (rr (1 / 2)) = Ok (Some (RtoC r')) /\
    1 / 3 <= r < r' /\ r' <= 9 / 11.
Proof.
  destruct (C85_strict_proof 1 1 4 4 [9; 2] [10; 2] [1; 3] None None (1 / 2)) as (r & r' & E1 & E2 & H).
  all: try lra; try reflexivity; try (repeat constructor; lra).
  - intros K. injection K. lra.
  - exists r, r'. split; [exact E1|]. split; [exact E2|].
    destruct (C85_between_proof 1 4 2 10 [9; 2] [1; 3] None (1 / 2)) as (x & _ & F1 & X1); try lra; try reflexivity; try (repeat constructor; lra).
    destruct (C85_between_proof 1 4 2 10 [10; 2] [1; 3] None (1 / 2)) as (x' & _ & F2 & X2); try lra; try reflexivity; try (repeat constructor; lra).
    cbn [map] in E1, E2, F1, F2. rewrite F1 in E1. rewrite F2 in E2. injection E1 as <-. injection E2 as <-.
    assert ((2 - 1) / (2 + 1) = 1 / 3) by field. assert ((10 - 1) / (10 + 1) = 9 / 11) by field. lra.
Qed.
