(** * Proofs: thin and thick films (C91) *)
From Coq Require Import String Reals Lra Lia ZArith List Bool.
From Coquelicot Require Import Coquelicot.
From Coq Require Import List.
From Verif Require Import Num NumLemmas ModelBase ModelSample ModelTip StackLemmas Spec SpecQuad SpecThin
  ProofsStackQS ProofsStackQS2 ProofsSym ProofsPassive Laguerre Laguerre2 ProofsFilm ProofsEx.
Import ListNotations.
Open Scope R_scope.

Definition film (b c : C) (E : R) : C := ((b + c * RtoC E) / (1 + b * (c * RtoC E)))%C.

Lemma den_bound (b c : C) (E k : R) : Cmod b * Cmod c <= k -> 0 <= E <= 1 -> 1 - k <= Cmod (1 + b * (c * RtoC E))%C.
Proof.
  intros Hk [H0 H1]. pose proof (Cmod_triangle (1 + b * (c * RtoC E))%C (- (b * (c * RtoC E)))%C) as T.
  replace (1 + b * (c * RtoC E) + - (b * (c * RtoC E)))%C with (RtoC 1) in T by ring.
  rewrite Cmod_1, Cmod_opp, !Cmod_mult, Cmod_R, (Rabs_pos_eq E) in T by exact H0.
  assert (Cmod b * (Cmod c * E) <= k * 1).
  { rewrite <- Rmult_assoc. apply Rmult_le_compat; try lra. apply Rmult_le_pos; apply Cmod_ge_0. }
  lra.
Qed.
Lemma den_neq (b c : C) (E k : R) : Cmod b * Cmod c <= k -> k < 1 -> 0 <= E <= 1 -> (1 + b * (c * RtoC E) <> 0)%C.
Proof. intros Hk H1 HE Z. pose proof (den_bound b c E k Hk HE) as K. rewrite Z, Cmod_0 in K. lra. Qed.

Lemma film_one (e0 e1 e2 : C) : (e1 + e0 <> 0)%C -> (e2 + e1 <> 0)%C -> (e2 + e0 <> 0)%C -> (e1 <> 0)%C ->
  film (image_factor e0 e1) (image_factor e1 e2) 1 = image_factor e0 e2.
Proof.
  intros H1 H2 H3 H4. unfold film, image_factor. 
  assert (X : (1 + (e1 - e0) / (e1 + e0) * ((e2 - e1) / (e2 + e1) * 1) = 2 * e1 * (e2 + e0) / ((e1 + e0) * (e2 + e1)))%C)
    by (field; split; assumption).
  rewrite X. field. repeat split; try assumption. apply C2_neq_0.
Qed.

(** the film against the substrate ... *)
Lemma film_thin (b c : C) E k : Cmod b * Cmod c <= k -> k < 1 -> 0 <= E <= 1 ->
  (film b c E - film b c 1)%C = (- (film_contrast b c * RtoC (1 - E) / ((1 + b * (c * RtoC E)) * (1 + b * (c * RtoC 1)))))%C.
Proof.
  intros Hk H1 HE. pose proof (den_neq b c E k Hk H1 HE). pose proof (den_neq b c 1 k Hk H1 ltac:(lra)).
  unfold film, film_contrast. rewrite RtoC_minus. field. split; [|assumption].
  intro Z. apply H0. rewrite <- Z. ring.
Qed.
(** ... and against the film material alone *)
Lemma film_thick (b c : C) E k : Cmod b * Cmod c <= k -> k < 1 -> 0 <= E <= 1 ->
  (film b c E - b)%C = (film_contrast b c * RtoC E / (1 + b * (c * RtoC E)))%C.
Proof.
  intros Hk H1 HE. pose proof (den_neq b c E k Hk H1 HE). unfold film, film_contrast. field. assumption.
Qed.
Lemma Cmod_quot_le (a d : C) m : 0 < m -> m <= Cmod d -> Cmod (a / d)%C <= Cmod a / m.
Proof.
  intros Hm Hd. assert (d <> RtoC 0) by (intros ->; rewrite Cmod_0 in Hd; lra). rewrite Cmod_div by assumption.
  unfold Rdiv. apply Rmult_le_compat_l; [apply Cmod_ge_0|]. apply Rinv_le_contravar; assumption.
Qed.
Lemma prod_ge m x y : 0 < m -> m <= x -> m <= y -> m ^ 2 <= x * y.
Proof. intros. simpl. rewrite Rmult_1_r. apply Rmult_le_compat; lra. Qed.

Lemma film_thin_le (b c : C) E k y : Cmod b * Cmod c <= k -> k < 1 -> 0 <= E <= 1 -> 1 - E <= y ->
  Cmod (film b c E - film b c 1)%C <= Cmod (film_contrast b c) / (1 - k) ^ 2 * y.
Proof.
  intros Hk H1 HE Hy. rewrite (film_thin b c E k Hk H1 HE), Cmod_opp.
  pose proof (den_bound b c E k Hk HE) as D1. pose proof (den_bound b c 1 k Hk ltac:(lra)) as D2.
  eapply Rle_trans; [apply (Cmod_quot_le _ _ ((1 - k) ^ 2))|].
  - apply pow_lt. lra.
  - rewrite Cmod_mult. apply prod_ge; lra.
  - rewrite Cmod_mult, Cmod_R, Rabs_pos_eq by lra.
    replace (Cmod (film_contrast b c) / (1 - k) ^ 2 * y) with (Cmod (film_contrast b c) * y / (1 - k) ^ 2) by (field; lra).
    unfold Rdiv. apply Rmult_le_compat_r; [left; apply Rinv_0_lt_compat, pow_lt; lra|].
    apply Rmult_le_compat_l; [apply Cmod_ge_0|exact Hy].
Qed.
Lemma film_second_le (b c : C) E k y : Cmod b * Cmod c <= k -> k < 1 -> 0 <= E <= 1 -> 0 <= y -> y - y ^ 2 / 2 <= 1 - E <= y ->
  Cmod (film b c E - (film b c 1 - film_contrast b c * RtoC y / ((1 + b * c) * (1 + b * c))))%C <= Cmod (film_contrast b c) / (1 - k) ^ 3 * y ^ 2.
Proof.
  intros Hk H1 HE Y0 Hy. pose proof (den_neq b c E k Hk H1 HE) as NE. pose proof (den_neq b c 1 k Hk H1 ltac:(lra)) as N1.
  pose proof (film_thin b c E k Hk H1 HE) as F.
  pose proof (den_bound b c E k Hk HE) as D1. pose proof (den_bound b c 1 k Hk ltac:(lra)) as D2.
  replace (b * (c * RtoC 1))%C with (b * c)%C in * by ring.
  set (dE := (1 + b * (c * RtoC E))%C) in *. set (d1 := (1 + b * c)%C) in *. set (K := film_contrast b c) in *.
  replace (film b c E - (film b c 1 - K * RtoC y / (d1 * d1)))%C with ((film b c E - film b c 1) + K * RtoC y / (d1 * d1))%C by ring.
  rewrite F.
  assert (Q : (- (K * RtoC (1 - E) / (dE * d1)) + K * RtoC y / (d1 * d1))%C
     = (K * (RtoC (y - (1 - E))%R / (d1 * d1) - b * c * RtoC ((1 - E) ^ 2) / (dE * (d1 * d1))))%C).
  { transitivity (K * ((RtoC y * dE - RtoC (1 - E) * d1) / (dE * (d1 * d1))))%C; [field; split; assumption|].
    transitivity (K * ((dE * RtoC (y - (1 - E))%R - b * c * RtoC ((1 - E) ^ 2)) / (dE * (d1 * d1))))%C; [|field; split; assumption].
    f_equal. f_equal. unfold dE, d1. replace ((1 - E) ^ 2) with ((1 - E) * (1 - E)) by ring. rewrite RtoC_mult, !RtoC_minus. ring. }
  rewrite Q, Cmod_mult. unfold Rdiv. rewrite Rmult_assoc. apply Rmult_le_compat_l; [apply Cmod_ge_0|].
  eapply Rle_trans; [unfold Cminus; apply Cmod_triangle|]. rewrite Cmod_opp.
  assert (Pk : 0 < 1 - k) by lra. assert (P2 : 0 < (1 - k) ^ 2) by now apply pow_lt. assert (P3 : 0 < (1 - k) ^ 3) by now apply pow_lt.
  assert (K0 : 0 <= k). { eapply Rle_trans; [|exact Hk]. apply Rmult_le_pos; apply Cmod_ge_0. }
  assert (B1 : Cmod (RtoC (y - (1 - E))%R / (d1 * d1))%C <= y ^ 2 / 2 / (1 - k) ^ 2).
  { eapply Rle_trans; [apply (Cmod_quot_le _ _ ((1 - k) ^ 2) P2)|].
    - rewrite Cmod_mult. apply prod_ge; lra.
    - rewrite Cmod_R, Rabs_pos_eq by lra. unfold Rdiv at 1 3. apply Rmult_le_compat_r; [left; now apply Rinv_0_lt_compat|lra]. }
  assert (B2 : Cmod (b * c * RtoC ((1 - E) ^ 2) / (dE * (d1 * d1)))%C <= k * y ^ 2 / (1 - k) ^ 3).
  { eapply Rle_trans; [apply (Cmod_quot_le _ _ ((1 - k) ^ 3) P3)|].
    - rewrite !Cmod_mult. replace ((1 - k) ^ 3) with ((1 - k) * (1 - k) ^ 2) by ring.
      apply Rmult_le_compat; [lra|lra|lra|]. apply prod_ge; lra.
    - rewrite !Cmod_mult, Cmod_R, Rabs_pos_eq by apply pow2_ge_0. unfold Rdiv. apply Rmult_le_compat_r; [left; now apply Rinv_0_lt_compat|].
      apply Rmult_le_compat; [apply Rmult_le_pos; apply Cmod_ge_0|apply pow2_ge_0|exact Hk|]. apply pow_incr. lra. }
  eapply Rle_trans; [apply Rplus_le_compat; [exact B1|exact B2]|].
  replace (y ^ 2 / 2 / (1 - k) ^ 2) with (y ^ 2 * (1 - k) / 2 * / (1 - k) ^ 3) by (field; lra).
  replace (k * y ^ 2 / (1 - k) ^ 3) with (k * y ^ 2 * / (1 - k) ^ 3) by (field; lra).
  rewrite <- Rmult_plus_distr_r, Rmult_comm. apply Rmult_le_compat_l; [left; now apply Rinv_0_lt_compat|].
  pose proof (pow2_ge_0 y). assert (k * y ^ 2 <= 1 * y ^ 2) by (apply Rmult_le_compat_r; lra). nra.
Qed.
Lemma film_thick_le (b c : C) E k y : Cmod b * Cmod c <= k -> k < 1 -> 0 <= E <= 1 -> E <= y ->
  Cmod (film b c E - b)%C <= Cmod (film_contrast b c) / (1 - k) * y.
Proof.
  intros Hk H1 HE Hy. rewrite (film_thick b c E k Hk H1 HE). pose proof (den_bound b c E k Hk HE) as D1.
  eapply Rle_trans; [apply (Cmod_quot_le _ _ (1 - k)); lra|]. rewrite Cmod_mult, Cmod_R, Rabs_pos_eq by lra.
  replace (Cmod (film_contrast b c) / (1 - k) * y) with (Cmod (film_contrast b c) * y / (1 - k)) by (field; lra).
  unfold Rdiv. apply Rmult_le_compat_r; [left; apply Rinv_0_lt_compat; lra|].
  apply Rmult_le_compat_l; [apply Cmod_ge_0|exact Hy].
Qed.

(** the round trip factor *)
Lemma max_exp_ge_1 : 1 <= MAX_EXP_ARG.
Proof. pose proof MAX_16. lra. Qed.
Lemma exp_upper y : 0 <= y -> 1 - y <= exp (- y) <= 1 - y + y ^ 2 / 2.
Proof.
  intros Hy. split; [pose proof (exp_ineq1_le (- y)); lra|].
  destruct (Req_dec y 0) as [->|N]; [rewrite Ropp_0, exp_0; simpl; lra|].
  set (g := fun x => 1 - x + x ^ 2 / 2 - exp (- x)).
  assert (D : forall x, is_derive g x (-1 + x + exp (- x))).
  { intro x. unfold g. auto_derive; [trivial|]. simpl. field. }
  destruct (MVT_cor4 g (fun x => -1 + x + exp (- x)) 0 y (fun c _ => D c) y) as (x & Ex & Hx).
  { rewrite Rminus_0_r, Rabs_pos_eq; lra. }
  assert (0 <= -1 + x + exp (- x)) by (pose proof (exp_ineq1_le (- x)); lra).
  assert (G0 : g 0 = 0) by (unfold g; rewrite Ropp_0, exp_0; simpl; lra).
  assert (0 <= (-1 + x + exp (- x)) * (y - 0)) by (apply Rmult_le_pos; lra).
  unfold g in Ex at 1. rewrite G0 in Ex. lra.
Qed.

Definition trip (x t z : R) : R := exp (- 2 * clipR (x / (2 * z) * t)).
Lemma trip_range x t z : 0 < x -> 0 <= t -> 0 < z -> 0 <= trip x t z <= 1.
Proof.
  intros Hx Ht Hz. unfold trip. pose proof (factor_range (x / (2 * z)) t) as F.
  assert (0 <= x / (2 * z)) by (left; apply Rdiv_lt_0_compat; lra). specialize (F H Ht). lra.
Qed.
Lemma clip_pos u : 0 <= u -> clipR u = Rmin u MAX_EXP_ARG.
Proof. intro H. unfold clipR. pose proof max_exp_ge_1. rewrite (Rmax_left u) by lra. reflexivity. Qed.
Lemma trip_thin x t z : 0 < x -> 0 <= t -> 0 < z ->
  let y := x * (t / z) in 0 <= y /\ y - y ^ 2 / 2 <= 1 - trip x t z <= y.
Proof.
  intros Hx Ht Hz y. assert (Y : 0 <= y).
  { unfold y. apply Rmult_le_pos; [lra|]. apply Rmult_le_pos; [lra|]. left. now apply Rinv_0_lt_compat. }
  split; [exact Y|]. pose proof max_exp_ge_1 as HM. unfold trip.
  replace (x / (2 * z) * t) with (y / 2) by (unfold y; field; lra). rewrite clip_pos by lra.
  unfold Rmin. destruct (Rle_dec (y / 2) MAX_EXP_ARG) as [L|L].
  - replace (-2 * (y / 2)) with (- y) by field. pose proof (exp_upper y Y). lra.
  - pose proof (exp_ineq1_le (-2 * MAX_EXP_ARG)). pose proof (exp_pos (-2 * MAX_EXP_ARG)).
    assert (exp (-2 * MAX_EXP_ARG) <= exp 0) by (left; apply exp_increasing; lra). rewrite exp_0 in H1.
    split; [|nra]. assert (2 <= y) by lra. nra.
Qed.
Lemma trip_thick x t z : 0 < x -> 0 < t -> 0 < z ->
  trip x t z <= exp (- (x * (t / z))) + exp (- 2 * MAX_EXP_ARG).
Proof.
  intros Hx Ht Hz. set (y := x * (t / z)). assert (Y : 0 <= y).
  { unfold y. apply Rmult_le_pos; [lra|]. left. apply Rdiv_lt_0_compat; lra. }
  unfold trip. replace (x / (2 * z) * t) with (y / 2) by (unfold y; field; lra). rewrite clip_pos by lra.
  pose proof (exp_pos (- y)). pose proof (exp_pos (-2 * MAX_EXP_ARG)).
  unfold Rmin. destruct (Rle_dec (y / 2) MAX_EXP_ARG) as [L|L].
  - replace (-2 * (y / 2)) with (- y) by field. lra.
  - lra.
Qed.

(** the film in the model *)
Lemma film_refl (e0 e1 e2 : C) t nu q k : let b := image_factor e0 e1 in let c := image_factor e1 e2 in
  (e1 + e0 <> 0)%C -> (e2 + e1 <> 0)%C -> e1 <> RtoC 0 -> e2 <> RtoC 0 ->
  Cmod b * Cmod c <= k -> k < 1 -> 0 <= q -> 0 <= t ->
  refl_coef_qs (stack [e0; e1; e2] [t] nu) (rr q) = Ok (Some (film b c (exp (- 2 * clipR (q * t))))).
Proof.
  intros b c H1 H2 N1 N2 Hk H Hq Ht. apply refl_clipped.
  pose proof (factor_range q t Hq Ht) as F.
  unfold film. change (RtoC (exp (-2 * clipR (q * t)))) with (cround q e1 t).
  apply parratt_layer.
  - unfold qs_iface. auto.
  - apply parratt_bottom. unfold qs_iface. auto.
  - apply (den_neq b c _ k Hk H). lra.
Qed.
Lemma bulk_iface (e0 e1 : C) nu q : e1 <> RtoC 0 -> (e1 + e0 <> 0)%C ->
  refl_coef_qs (stack [e0; e1] [] nu) (rr q) = Ok (Some (image_factor e0 e1)).
Proof. intros H1 H2. apply bulk_qs; [exact H1|]. now rewrite Cplus_comm. Qed.

Lemma Csum_dev {A} (w : A -> R) (f : A -> C) (s : C) (g : A -> R) (l : list A) :
  (forall x, In x l -> 0 <= w x) -> (forall x, In x l -> Cmod (f x - s)%C <= g x) -> Rsum (map w l) = 1 ->
  Cmod (Csum (map (fun x => RtoC (w x) * f x)%C l) - s)%C <= Rsum (map (fun x => w x * g x) l).
Proof.
  intros Hw Hg E.
  replace (Csum (map (fun x => RtoC (w x) * f x)%C l) - s)%C with (Csum (map (fun x => RtoC (w x) * (f x - s))%C l)).
  - clear E. induction l as [|a l IH]; unfold Rsum, Csum; cbn [map fold_right]; [rewrite Cmod_0; lra|].
    eapply Rle_trans; [apply Cmod_triangle|]. apply Rplus_le_compat.
    + rewrite Cmod_mult, Cmod_R, Rabs_pos_eq by (apply Hw; now left). apply Rmult_le_compat_l; [apply Hw; now left|apply Hg; now left].
    + apply IH; intros x Hx; [apply Hw|apply Hg]; now right.
  - transitivity (Csum (map (fun x => RtoC (w x) * f x)%C l) - RtoC (Rsum (map w l)) * s)%C; [|rewrite E; ring].
    clear Hw Hg E. induction l as [|a l IH]; unfold Rsum, Csum in *; cbn [map fold_right]; [ring|]. rewrite IH, RtoC_plus. ring.
Qed.
Lemma Csum_dev1 {A} (w : A -> R) (f h : A -> C) (g : A -> R) (l : list A) (S : C) :
  (forall x, In x l -> 0 <= w x) -> (forall x, In x l -> Cmod (f x - h x)%C <= g x) -> Csum (map (fun x => RtoC (w x) * h x)%C l) = S ->
  Cmod (Csum (map (fun x => RtoC (w x) * f x)%C l) - S)%C <= Rsum (map (fun x => w x * g x) l).
Proof.
  intros Hw Hg <-.
  replace (Csum (map (fun x => RtoC (w x) * f x)%C l) - Csum (map (fun x => RtoC (w x) * h x)%C l))%C
    with (Csum (map (fun x => RtoC (w x) * (f x - h x))%C l)).
  - induction l as [|a l IH]; unfold Rsum, Csum; cbn [map fold_right]; [rewrite Cmod_0; lra|].
    eapply Rle_trans; [apply Cmod_triangle|]. apply Rplus_le_compat.
    + rewrite Cmod_mult, Cmod_R, Rabs_pos_eq by (apply Hw; now left). apply Rmult_le_compat_l; [apply Hw; now left|apply Hg; now left].
    + apply IH; intros x Hx; [apply Hw|apply Hg]; now right.
  - clear Hw Hg. induction l as [|a l IH]; unfold Rsum, Csum in *; cbn [map fold_right]; [ring|]. rewrite IH. ring.
Qed.

(** the nodes of the documented rule are at least 1 / J *)
Lemma lag_near_0 n x : 0 <= x -> INR n * x < 1 -> forall k, (k <= n)%nat ->
  1 - INR k * x <= lag k x <= 1 /\ ((k < n)%nat -> - (INR k + 1) * x <= (INR k + 1) * (lag (S k) x - lag k x) <= 0).
Proof.
  intros Hx Hn. induction k as [|k IH]; intros Hk.
  - assert (L0 : lag 0 x = 1) by (unfold lag; simpl; field). assert (L1 : lag 1 x = 1 - x) by (unfold lag; simpl; field).
    rewrite L0, L1. simpl INR. split; [lra|]. intros _. lra.
  - destruct (IH ltac:(lia)) as [[A1 A2] B]. specialize (B ltac:(lia)).
    assert (P : 0 < INR k + 1) by (pose proof (pos_INR k); lra).
    assert (Q1 : lag (S k) x <= lag k x) by nra. assert (Q2 : lag k x - x <= lag (S k) x) by nra.
    assert (Kn : INR (S k) * x <= INR n * x) by (apply Rmult_le_compat_r; [exact Hx|apply le_INR; exact Hk]).
    rewrite S_INR in *. split; [lra|]. intros Hlt.
    pose proof (lag_rec k x) as E. rewrite !S_INR in E.
    assert (E' : (INR k + 1 + 1) * (lag (S (S k)) x - lag (S k) x) = (INR k + 1) * (lag (S k) x - lag k x) - x * lag (S k) x) by lra.
    rewrite E'. assert (0 <= lag (S k) x <= 1) by lra. nra.
Qed.
Lemma node_lower J rule : documented_rule J rule -> forall xw, In xw rule -> 0 < fst xw -> 1 / INR J <= fst xw.
Proof.
  intros (Hl & _ & Hr) xw Hin Hp. rewrite Forall_forall in Hr. destruct (Hr xw Hin) as [Z _].
  assert (HJ : (0 < J)%nat) by (destruct J; [destruct rule; [destruct Hin|discriminate]|lia]).
  assert (PJ : 0 < INR J) by (apply lt_0_INR; exact HJ).
  destruct (Rle_lt_dec (1 / INR J) (fst xw)) as [L|L]; [exact L|exfalso].
  assert (X : INR J * fst xw < 1).
  { apply (Rmult_lt_compat_l (INR J)) in L; [|exact PJ]. replace (INR J * (1 / INR J)) with 1 in L by (field; lra). exact L. }
  destruct (lag_near_0 J (fst xw) ltac:(lra) X J ltac:(lia)) as [[A _] _]. rewrite <- lag_laguerre, Z in A. lra.
Qed.
