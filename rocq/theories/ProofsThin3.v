(** * Proofs: thin and thick films (C91), the series of image charges *)
From Coq Require Import String Reals Lra Lia ZArith List Bool.
From Coquelicot Require Import Coquelicot.
From Coq Require Import List.
From Verif Require Import Num NumLemmas ModelBase ModelSample ModelTip StackLemmas Spec SpecQuad SpecThin
  ProofsStackQS ProofsStackQS2 ProofsSym ProofsPassive Laguerre Laguerre2 QuadConv ProofsQuad ProofsQuad2 ProofsNlag ProofsFilm ProofsThin ProofsThin2.
Import ListNotations.
Open Scope R_scope.

Lemma exp_npow x n : exp x ^ n = exp (INR n * x).
Proof. induction n; [simpl; now rewrite Rmult_0_l, exp_0|]. rewrite S_INR. cbn [pow]. rewrite IHn, <- exp_plus. f_equal. ring. Qed.

(** the exponential moments *)
Lemma ib_exp1 s b : 0 <= s ->
  ib (fun x => x ^ 1 * exp (- (s * x))) b = 1 / (1 + s) ^ 2 - (b / (1 + s) + 1 / (1 + s) ^ 2) * exp (- ((1 + s) * b)).
Proof.
  intro Hs. unfold ib. apply is_RInt_unique.
  apply (is_RInt_ext (fun x => x * exp (- ((1 + s) * x)))).
  { intros x _. rewrite pow_1, Rmult_assoc, <- exp_plus. do 2 f_equal. ring. }
  set (F := fun x => - (x / (1 + s) + 1 / (1 + s) ^ 2) * exp (- ((1 + s) * x))).
  replace (1 / (1 + s) ^ 2 - (b / (1 + s) + 1 / (1 + s) ^ 2) * exp (- ((1 + s) * b))) with (minus (F b) (F 0)).
  - apply (is_RInt_derive F (fun x => x * exp (- ((1 + s) * x)))).
    + intros x _. unfold F. auto_derive; [trivial|]. field. lra.
    + intros x _. apply (cont_mult (fun x => x)); [apply cont_id|apply cont_exp_scal].
  - unfold F, minus, plus, opp. simpl. rewrite Rmult_0_r, Ropp_0, exp_0. field. lra.
Qed.
Lemma limI_exp1 s : 0 <= s -> limI (fun x => x ^ 1 * exp (- (s * x))) (1 / (1 + s) ^ 2).
Proof.
  intros Hs eps He. destruct (pow_exp_small 1 (eps / 2) ltac:(lra)) as (B & HB & H).
  destruct (pow_exp_small 0 (eps / 2) ltac:(lra)) as (B0 & HB0 & H0).
  exists (Rmax B B0). intros b Hb Hb0. pose proof (Rmax_l B B0). pose proof (Rmax_r B B0).
  rewrite ib_exp1 by exact Hs. specialize (H b ltac:(lra)). specialize (H0 b ltac:(lra)). simpl in H, H0.
  assert (P : 1 <= (1 + s) ^ 2) by (simpl; nra).
  assert (Q1 : 0 <= b / (1 + s) <= b).
  { split; [apply Rmult_le_pos; [lra|left; apply Rinv_0_lt_compat; lra]|].
    apply (Rmult_le_reg_r (1 + s)); [lra|]. unfold Rdiv. rewrite Rmult_assoc, Rinv_l by lra. nra. }
  assert (Q2 : 0 <= 1 / (1 + s) ^ 2 <= 1).
  { split; [left; apply Rdiv_lt_0_compat; lra|]. apply (Rmult_le_reg_r ((1 + s) ^ 2)); [lra|].
    unfold Rdiv. rewrite Rmult_assoc, Rinv_l by lra. lra. }
  assert (E1 : exp (- ((1 + s) * b)) <= exp (- b)).
  { assert (X : - ((1 + s) * b) <= - b) by nra. destruct X as [X| ->]; [left; now apply exp_increasing|lra]. }
  pose proof (exp_pos (- ((1 + s) * b))) as E0.
  replace (1 / (1 + s) ^ 2 - (b / (1 + s) + 1 / (1 + s) ^ 2) * exp (- ((1 + s) * b)) - 1 / (1 + s) ^ 2)
    with (- ((b / (1 + s) + 1 / (1 + s) ^ 2) * exp (- ((1 + s) * b)))) by ring.
  rewrite Rabs_Ropp, Rabs_pos_eq by (apply Rmult_le_pos; lra).
  apply Rle_lt_trans with ((b + 1) * exp (- b)); [|lra]. apply Rmult_le_compat; lra.
Qed.
Lemma limI_unique f l l' : limI f l -> limI f l' -> l = l'.
Proof.
  intros H H'. destruct (Req_dec l l') as [E|N]; [exact E|exfalso].
  assert (P : 0 < Rabs (l - l') / 2) by (assert (0 < Rabs (l - l')) by (apply Rabs_pos_lt; lra); lra).
  destruct (H _ P) as [B HB]. destruct (H' _ P) as [B' HB'].
  set (b := Rmax 0 (Rmax B B')). pose proof (Rmax_l 0 (Rmax B B')). pose proof (Rmax_r 0 (Rmax B B')).
  pose proof (Rmax_l B B'). pose proof (Rmax_r B B').
  specialize (HB b ltac:(unfold b; lra) ltac:(unfold b; lra)). specialize (HB' b ltac:(unfold b; lra) ltac:(unfold b; lra)).
  pose proof (Rabs_triang (l - ib f b) (ib f b - l')) as T. replace (l - ib f b + (ib f b - l')) with (l - l') in T by ring.
  rewrite (Rabs_minus_sym l (ib f b)) in T. lra.
Qed.
Lemma moment_lim (lg : laggauss_t) s : (forall J, (0 < J)%nat -> documented_rule J (lg J)) -> 0 <= s ->
  is_lim_seq (fun n => Rsum (map (fun xw => snd xw * fst xw * exp (- (s * fst xw))) (lg (S n)))) (1 / (1 + s) ^ 2).
Proof.
  intros HR Hs. destruct (archimed (4 * s)) as [A _].
  assert (Az : (0 <= up (4 * s))%Z) by (apply le_IZR; lra).
  destruct (cv_exp lg (rules_exact lg HR) (Z.to_nat (up (4 * s))) s 1) as [l (_ & H1 & H2)].
  { rewrite INR_IZR_INZ, Z2Nat.id by exact Az. lra. }
  rewrite (limI_unique _ _ _ H1 (limI_exp1 s Hs)) in H2.
  apply is_lim_seq_spec. intro eps. destruct (H2 eps (cond_pos eps)) as [N HN]. exists N. intros n Hn.
  specialize (HN (S n) ltac:(lia) ltac:(lia)). unfold qsum in HN. unfold Rsum.
  replace (map (fun xw => snd xw * fst xw * exp (- (s * fst xw))) (lg (S n)))
    with (map (fun xw => snd xw * (fst xw ^ 1 * exp (- (s * fst xw)))) (lg (S n))); [exact HN|].
  apply map_ext. intros; ring.
Qed.

(** the geometric series of the film *)
Lemma geom_C (x : C) M : ((1 + x) * Csum_to (fun m => Cpown (- x) m) M = 1 - Cpown (- x) M)%C.
Proof. induction M; cbn [Csum_to Cpown]; [ring|]. rewrite Cmult_plus_distr_l, IHM. ring. Qed.
Lemma Cpown_real (x : C) (E : R) m : Cpown (x * RtoC E)%C m = (Cpown x m * RtoC (E ^ m))%C.
Proof. induction m; cbn [Cpown pow]; [ring|]. rewrite IHm, RtoC_mult. ring. Qed.
Definition images (b c : C) (E : nat -> R) (M : nat) : C := Csum_to (fun m => Cpown (- (b * c)) m * RtoC (E m))%C M.
Lemma film_series (b c : C) E k M : Cmod b * Cmod c <= k -> k < 1 -> 0 <= E <= 1 ->
  Cmod (film b c E - (b + film_contrast b c * images b c (fun m => E ^ S m) M))%C <= Cmod (film_contrast b c) * (k ^ M / (1 - k)) * E.
Proof.
  intros Hk H1 HE. pose proof (den_neq b c E k Hk H1 HE) as N. pose proof (den_bound b c E k Hk HE) as Db.
  set (x := (b * (c * RtoC E))%C) in *.
  assert (I : images b c (fun m => E ^ S m) M = (RtoC E * Csum_to (fun m => Cpown (- x) m) M)%C).
  { unfold images. replace (- x)%C with (- (b * c) * RtoC E)%C by (unfold x; ring). clear. induction M; cbn [Csum_to]; [ring|].
    rewrite IHM, Cpown_real. cbn [pow]. rewrite RtoC_mult. ring. }
  assert (F : (film b c E - (b + film_contrast b c * images b c (fun m => E ^ S m) M))%C = (film_contrast b c * RtoC E * Cpown (- x) M / (1 + x))%C).
  { pose proof (film_thick b c E k Hk H1 HE) as T. fold x in T. rewrite I.
    replace (film b c E - (b + film_contrast b c * (RtoC E * Csum_to (fun m => Cpown (- x) m) M)))%C
      with ((film b c E - b) - film_contrast b c * RtoC E * Csum_to (fun m => Cpown (- x) m) M)%C by ring.
    rewrite T. pose proof (geom_C x M) as G.
    assert (Cpown (- x) M = 1 - (1 + x) * Csum_to (fun m => Cpown (- x) m) M)%C by (rewrite G; ring).
    rewrite H. field. exact N. }
  rewrite F. eapply Rle_trans; [apply (Cmod_quot_le _ _ (1 - k)); lra|].
  rewrite !Cmod_mult, Cmod_R, Rabs_pos_eq by lra.
  assert (X : Cmod (Cpown (- x)%C M) <= k ^ M).
  { assert (Xk : Cmod (- x)%C <= k).
    { rewrite Cmod_opp. unfold x. rewrite !Cmod_mult, Cmod_R, Rabs_pos_eq by lra. rewrite <- Rmult_assoc.
      assert (0 <= Cmod b * Cmod c) by (apply Rmult_le_pos; apply Cmod_ge_0). nra. }
    clear - Xk. induction M; cbn [Cpown pow]; [rewrite Cmod_1; lra|]. rewrite Cmod_mult.
    apply Rmult_le_compat; try apply Cmod_ge_0; assumption. }
  replace (Cmod (film_contrast b c) * (k ^ M / (1 - k)) * E) with (Cmod (film_contrast b c) * E * k ^ M / (1 - k)) by (field; lra).
  unfold Rdiv. apply Rmult_le_compat_r; [left; apply Rinv_0_lt_compat; lra|].
  apply Rmult_le_compat_l; [|exact X]. apply Rmult_le_pos; [apply Cmod_ge_0|lra].
Qed.
(** two round trip factors *)
Lemma film_lip (b c : C) E E' k y : Cmod b * Cmod c <= k -> k < 1 -> 0 <= E <= 1 -> 0 <= E' <= 1 -> Rabs (E - E') <= y ->
  Cmod (film b c E - film b c E')%C <= Cmod (film_contrast b c) / (1 - k) ^ 2 * y.
Proof.
  intros Hk H1 HE HE' Hy. pose proof (den_neq b c E k Hk H1 HE) as NE. pose proof (den_neq b c E' k Hk H1 HE') as N1.
  replace (film b c E - film b c E')%C with (film_contrast b c * RtoC (E - E') / ((1 + b * (c * RtoC E)) * (1 + b * (c * RtoC E'))))%C
    by (unfold film, film_contrast; rewrite RtoC_minus; field; split; assumption).
  pose proof (den_bound b c E k Hk HE) as D1. pose proof (den_bound b c E' k Hk HE') as D2.
  eapply Rle_trans; [apply (Cmod_quot_le _ _ ((1 - k) ^ 2))|].
  - apply pow_lt. lra.
  - rewrite Cmod_mult. apply prod_ge; lra.
  - rewrite Cmod_mult, Cmod_R.
    replace (Cmod (film_contrast b c) / (1 - k) ^ 2 * y) with (Cmod (film_contrast b c) * y / (1 - k) ^ 2) by (field; lra).
    unfold Rdiv. apply Rmult_le_compat_r; [left; apply Rinv_0_lt_compat, pow_lt; lra|].
    apply Rmult_le_compat_l; [apply Cmod_ge_0|exact Hy].
Qed.
Lemma trip_clip x t z : 0 < x -> 0 <= t -> 0 < z -> Rabs (trip x t z - exp (- (x * (t / z)))) <= exp (- 2 * MAX_EXP_ARG).
Proof.
  intros Hx Ht Hz. set (y := x * (t / z)). assert (Y : 0 <= y).
  { unfold y. apply Rmult_le_pos; [lra|]. apply Rmult_le_pos; [lra|]. left. now apply Rinv_0_lt_compat. }
  unfold trip. replace (x / (2 * z) * t) with (y / 2) by (unfold y; field; lra). rewrite clip_pos by lra.
  pose proof (exp_pos (- y)). pose proof (exp_pos (-2 * MAX_EXP_ARG)).
  unfold Rmin. destruct (Rle_dec (y / 2) MAX_EXP_ARG) as [L|L].
  - replace (-2 * (y / 2)) with (- y) by field. rewrite Rminus_diag_eq by reflexivity. rewrite Rabs_R0. lra.
  - assert (exp (- y) < exp (-2 * MAX_EXP_ARG)) by (apply exp_increasing; lra). rewrite Rabs_pos_eq; lra.
Qed.
Lemma images_ext b c E E' M : (forall m, E m = E' m) -> images b c E M = images b c E' M.
Proof. intro H. unfold images. induction M; cbn [Csum_to]; [reflexivity|]. now rewrite IHM, H. Qed.
Lemma images_sum {A} b c (w : A -> R) (E : A -> nat -> R) (l : list A) M :
  Csum (map (fun x => RtoC (w x) * images b c (E x) M)%C l) = images b c (fun m => Rsum (map (fun x => w x * E x m) l)) M.
Proof.
  unfold images. induction M; cbn [Csum_to].
  - transitivity (Csum (map (fun _ : A => RtoC 0) l)); [apply Csum_ext_in; intros; ring|apply Csum_zero].
  - rewrite <- IHM.
    transitivity (Csum (map (fun x => RtoC (w x) * Csum_to (fun m => Cpown (- (b * c)) m * RtoC (E x m)) M + RtoC (w x * E x M) * Cpown (- (b * c)) M)%C l)).
    + apply Csum_ext_in. intros x _. rewrite RtoC_mult. ring.
    + rewrite Csum_plus, Csum_const. ring.
Qed.

(** C91. The documented average of a film is the sum over its image charges: the
    values returned converge, as the number of nodes grows, to a limit which differs
    from the first [M] images [(-bc)^m K / (1 + (m+1) t/z)^2] by at most
    [|K| k^M / (1-k)] times [1 / (1 + t/z)^2], up to what the momentum clip changes.
    In particular ([M = 0]) the substrate is felt through a thick film as
    [(z / (z+t))^2], and not exponentially as with a fixed number of nodes. *)
Lemma C91_image_series_proof :
  forall (laggauss : laggauss_t) (D : Defaults) (e0 e1 e2 : C) (t z k : R) nu,
  let b := image_factor e0 e1 in let c := image_factor e1 e2 in let K := film_contrast b c in
  (forall J, (0 < J)%nat -> documented_rule J (laggauss J)) ->
  (e1 + e0 <> 0)%C -> (e2 + e1 <> 0)%C -> e1 <> RtoC 0 -> e2 <> RtoC 0 ->
  Cmod b * Cmod c <= k -> k < 1 -> 0 < z -> 0 <= t ->
  exists (r : nat -> C) (l : C),
    (forall n, refl_coef_qs_above_surf laggauss D (stack [e0; e1; e2] [t] nu) (rr z) (Some (S n)) = Ok (Some (r n))) /\
    Cseq_lim r l /\
    forall M, Cmod (l - (b + K * Csum_to (fun m => Cpown (- (b * c)) m * RtoC (1 / (1 + INR (S m) * (t / z)) ^ 2)%R) M))%C
              <= Cmod K * (k ^ M / (1 - k) * (1 / (1 + t / z) ^ 2) + exp (- 2 * MAX_EXP_ARG) / (1 - k) ^ 2).
Proof.
  intros lg D e0 e1 e2 t z k nu b c K HR H1 H2 N1 N2 Hk Hk1 Hz Ht.
  set (a := t / z). assert (A0 : 0 <= a) by (unfold a; apply Rmult_le_pos; [lra|left; now apply Rinv_0_lt_compat]).
  assert (Hv : forall q, 0 <= q -> refl_coef_qs (stack (e0 :: [e1] ++ [e2]) [t] nu) (rr q) = Ok (Some (film b c (exp (- 2 * clipR (q * t)))))).
  { intros q Hq. apply (film_refl e0 e1 e2 t nu q k); assumption. }
  destruct (C59_average_converges_proof lg D e0 [e1] e2 [t] nu z (fun q => film b c (exp (- 2 * clipR (q * t)))) HR eq_refl
    (@Forall_cons C (fun e => e <> RtoC 0) e1 [] N1 (Forall_nil _)) N2 Hz Hv) as (NN & W & r & _ & _ & _ & Er & Lr).
  exists r, (NN / RtoC W)%C. split; [exact Er|]. split; [exact Lr|]. set (l := (NN / RtoC W)%C) in *.
  intro M. set (fl := exp (- 2 * MAX_EXP_ARG)).
  set (R1 := fun n => Rsum (map (fun xw => snd xw * fst xw * exp (- (a * fst xw))) (lg (S n)))).
  set (P := fun n => (b + K * images b c (fun m => Rsum (map (fun xw => snd xw * fst xw * exp (- (INR (S m) * a * fst xw))) (lg (S n))))%R M)%C).
  assert (B : forall n, Cmod (r n - P n)%C <= Cmod K * (k ^ M / (1 - k) * R1 n + fl / (1 - k) ^ 2)).
  { intro n. destruct (documented_exact (S n) (lg (S n)) ltac:(lia) (HR (S n) ltac:(lia))) as [Pp E]. rewrite Forall_forall in Pp.
    assert (M1 : Rsum (map (fun xw => snd xw * fst xw) (lg (S n))) = 1).
    { pose proof (E 1%nat ltac:(lia)) as E0. unfold qsum in E0. unfold Rsum. simpl in E0. rewrite <- E0. f_equal. apply map_ext. intros; ring. }
    assert (V : r n = Csum (map (fun xw => RtoC (snd xw * fst xw) * film b c (trip (fst xw) t z))%C (lg (S n)))).
    { pose proof (Er n) as En. cbn [app] in En. rewrite (film_average lg D e0 e1 e2 t nu z (Some (S n)) k) in En;
        [|exact Pp|discriminate|assumption|assumption|assumption|assumption|assumption|assumption|assumption|assumption].
      injection En as En. symmetry. exact En. }
    rewrite V.
    eapply Rle_trans.
    - apply (Csum_dev1 (fun xw => snd xw * fst xw) (fun xw => film b c (trip (fst xw) t z))
        (fun xw => b + K * images b c (fun m => exp (- (a * fst xw)) ^ S m)%R M)%C
        (fun xw => Cmod K * (k ^ M / (1 - k)) * exp (- (a * fst xw)) + Cmod K / (1 - k) ^ 2 * fl)).
      + intros xw Hin. destruct (Pp xw Hin). apply Rmult_le_pos; lra.
      + intros xw Hin. destruct (Pp xw Hin) as [X1 X2].
        assert (EE : 0 <= exp (- (a * fst xw)) <= 1).
        { pose proof (exp_pos (- (a * fst xw))). split; [lra|]. rewrite <- exp_0.
          assert (Q : - (a * fst xw) <= 0) by nra. destruct Q as [Q| ->]; [left; now apply exp_increasing|lra]. }
        pose proof (trip_range (fst xw) t z X1 Ht Hz) as TR. pose proof (trip_clip (fst xw) t z X1 Ht Hz) as TC.
        replace (fst xw * (t / z)) with (a * fst xw) in TC by (unfold a; ring).
        pose proof (film_lip b c _ _ k fl Hk Hk1 TR EE TC) as F1. pose proof (film_series b c _ k M Hk Hk1 EE) as F2.
        fold K in F1, F2.
        replace (film b c (trip (fst xw) t z) - (b + K * images b c (fun m => exp (- (a * fst xw)) ^ S m)%R M))%C
          with ((film b c (trip (fst xw) t z) - film b c (exp (- (a * fst xw)))%R) + (film b c (exp (- (a * fst xw)))%R - (b + K * images b c (fun m => exp (- (a * fst xw)) ^ S m)%R M)))%C by ring.
        eapply Rle_trans; [apply Cmod_triangle|]. lra.
      + unfold P.
        transitivity (Csum (map (fun xw => RtoC (snd xw * fst xw) * b)%C (lg (S n)))
          + K * Csum (map (fun xw => RtoC (snd xw * fst xw) * images b c (fun m => exp (- (a * fst xw)) ^ S m)%R M)%C (lg (S n))))%C.
        * rewrite <- Csum_scal, <- Csum_plus. apply Csum_ext_in. intros; ring.
        * rewrite Csum_const, M1, images_sum. f_equal; [ring|]. f_equal. apply images_ext. intro m. f_equal. apply map_ext. intro xw.
          f_equal. rewrite exp_npow. f_equal. ring.
    - right. rewrite (Rmult_plus_distr_l (Cmod K)). unfold R1.
      transitivity (Cmod K * (k ^ M / (1 - k)) * Rsum (map (fun xw => snd xw * fst xw * exp (- (a * fst xw))) (lg (S n))) + Cmod K / (1 - k) ^ 2 * fl * Rsum (map (fun xw => snd xw * fst xw) (lg (S n)))).
      + generalize (lg (S n)). intro rl. unfold Rsum. induction rl as [|q rl IH]; cbn [map fold_right]; [ring|]. rewrite IH. ring.
      + rewrite M1. field. lra. }
  assert (LP : Cseq_lim P (b + K * Csum_to (fun m => Cpown (- (b * c)) m * RtoC (1 / (1 + INR (S m) * a) ^ 2)%R) M)%C).
  { unfold P. apply Cl_plus; [apply Cl_const|]. apply Cl_mult; [apply Cl_const|]. unfold images.
    clear B. induction M as [|M IH]; cbn [Csum_to]; [apply Cl_const|]. apply Cl_plus; [exact IH|].
    apply Cl_mult; [apply Cl_const|]. apply Cl_R. apply moment_lim; [exact HR|].
    apply Rmult_le_pos; [apply pos_INR|exact A0]. }
  pose proof (Cl_mod _ _ (Cl_minus _ _ _ _ Lr LP)) as LL.
  assert (LR : is_lim_seq R1 (1 / (1 + a) ^ 2)) by (apply moment_lim; assumption).
  assert (LU : is_lim_seq (fun n => Cmod K * (k ^ M / (1 - k) * R1 n + fl / (1 - k) ^ 2)) (Cmod K * (k ^ M / (1 - k) * (1 / (1 + a) ^ 2) + fl / (1 - k) ^ 2))).
  { apply (is_lim_seq_scal_l (fun n => k ^ M / (1 - k) * R1 n + fl / (1 - k) ^ 2) (Cmod K) (k ^ M / (1 - k) * (1 / (1 + a) ^ 2) + fl / (1 - k) ^ 2)).
    apply (is_lim_seq_plus' (fun n => k ^ M / (1 - k) * R1 n)); [|apply is_lim_seq_const].
    apply (is_lim_seq_scal_l R1 (k ^ M / (1 - k)) (1 / (1 + a) ^ 2)). exact LR. }
  exact (is_lim_seq_le _ _ _ _ B LL LU).
Qed.
