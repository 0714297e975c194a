(** * Proofs: Fresnel's formulas in angles, Brewster's angle, surface polaritons *)
From Coq Require Import String Reals Lra Lia ZArith List Bool.
From Coquelicot Require Import Rcomplements Complex.
From Verif Require Import Num NumLemmas ModelBase ModelSample ModelTip StackLemmas Spec
  ProofsStackQS ProofsStackQS2 ProofsStackFF ProofsStackFF2 ProofsBulkFF SpecFresnel WaveLemmas.
Import ListNotations.
Open Scope R_scope.

Lemma bulk_real_refl (p : bool) (e0 e1 nu q k0 k1 : R) nu0 :
  0 < e0 -> 0 < e1 -> 0 < k0 -> 0 < k1 ->
  k0 ^ 2 = e0 * nu ^ 2 - q ^ 2 -> k1 ^ 2 = e1 * nu ^ 2 - q ^ 2 ->
  refl_coef (stack [RtoC e0; RtoC e1] [] nu0) (Some q) None (Some nu) (pol p)
  = Ok (Some (RtoC (if p then (e1 * k0 - e0 * k1) / (e1 * k0 + e0 * k1) else (k0 - k1) / (k0 + k1)))).
Proof.
  intros He0 He1 Hk0 Hk1 E0 E1.
  set (f := if p then (k1 * e0) / (k0 * e1) else k1 / k0).
  assert (M1 : 0 < k0 * e1) by now apply Rmult_lt_0_compat.
  assert (M2 : 0 < k1 * e0) by now apply Rmult_lt_0_compat.
  assert (Hf : 0 < f) by (unfold f; destruct p; apply Rdiv_lt_0_compat; lra).
  assert (Ef : (if p then (RtoC e0 * RtoC k1 / (RtoC e1 * RtoC k0))%C else (RtoC k1 / RtoC k0)%C) = RtoC f).
  { unfold f. destruct p.
    - rewrite <- !RtoC_mult, <- RtoC_div by lra. f_equal. field. lra.
    - rewrite <- RtoC_div by lra. reflexivity. }
  destruct (bulk_refl_ok p (RtoC e0) (RtoC e1) nu0 nu q (RtoC k0) (RtoC k1)) as [R _]; try (now apply is_kz_R); try (now apply principal_R).
  - apply RtoC_neq_0. lra.
  - intros _. apply RtoC_neq_0. lra.
  - rewrite Ef, <- RtoC_plus. apply RtoC_neq_0. lra.
  - cbv zeta in R. rewrite R, Ef. rewrite <- RtoC_plus, <- RtoC_minus, <- RtoC_div by lra. do 3 f_equal.
    unfold f. destruct p; field; repeat split; lra.
Qed.

Lemma theta_bulk (p : bool) e0 e1 (nu0 nu : option R) th :
  positive_if_given nu0 -> positive_if_given nu ->
  refl_coef (stack [e0; e1] [] nu0) None (Some th) nu (pol p)
  = refl_coef (stack [e0; e1] [] None) (Some (sin (Rabs th))) None (Some 1) (pol p).
Proof.
  intros H0 H1. unfold stack. cbn [map].
  destruct (C19_wavenumber_irrelevant_proof (Some e0) (Some e1) nu0 None nu (Some 1) (Some th) (pol p)) as [E _]; auto.
  { intros v X. discriminate. } { intros v X. injection X as <-. lra. }
  unfold CV in *. rewrite E. unfold refl_coef. rewrite C22_angle_to_momentum_proof, Rmult_1_l. reflexivity.
Qed.

(** C71. refl_coef called with an angle is Fresnel's textbook formula, with the angles
    inside the two media fixed by n0 sin th0 = n1 sin th1 = sin|theta_in|: theta_in is
    the angle outside, in vacuum. *)
Lemma C71_fresnel_angles_proof :
  forall (n0 n1 th0 th1 theta_in : R) (nu0 nu : option R),
  positive_if_given nu0 -> positive_if_given nu -> 0 < n0 -> 0 < n1 -> 0 < cos th0 -> 0 < cos th1 ->
  n0 * sin th0 = sin (Rabs theta_in) -> n1 * sin th1 = sin (Rabs theta_in) ->
  refl_coef (stack [RtoC (n0 ^ 2); RtoC (n1 ^ 2)] [] nu0) None (Some theta_in) nu "s" = Ok (Some (RtoC (fresnel_s n0 n1 th0 th1))) /\
  refl_coef (stack [RtoC (n0 ^ 2); RtoC (n1 ^ 2)] [] nu0) None (Some theta_in) nu "p" = Ok (Some (RtoC (fresnel_p n0 n1 th0 th1))).
Proof.
  intros n0 n1 th0 th1 th nu0 nu H0 H1 Hn0 Hn1 C0 C1 S0 S1.
  assert (K : forall n t, n * sin t = sin (Rabs th) -> (n * cos t) ^ 2 = n ^ 2 * 1 ^ 2 - sin (Rabs th) ^ 2).
  { intros n t E. rewrite <- E. pose proof (sin2_cos2 t) as X. unfold Rsqr in X.
    transitivity (n ^ 2 * (1 - sin t * sin t)); [|ring]. rewrite <- X. ring. }
  pose proof (K n0 th0 S0) as K0. pose proof (K n1 th1 S1) as K1.
  assert (P0 : 0 < n0 * cos th0) by now apply Rmult_lt_0_compat.
  assert (P1 : 0 < n1 * cos th1) by now apply Rmult_lt_0_compat.
  assert (Q0 : 0 < n0 ^ 2) by now apply pow_lt. assert (Q1 : 0 < n1 ^ 2) by now apply pow_lt.
  split.
  - change "s"%string with (pol false). rewrite theta_bulk by assumption. rewrite (bulk_real_refl false _ _ _ _ _ _ None Q0 Q1 P0 P1 K0 K1).
    reflexivity.
  - change "p"%string with (pol true). rewrite theta_bulk by assumption. rewrite (bulk_real_refl true _ _ _ _ _ _ None Q0 Q1 P0 P1 K0 K1).
    unfold fresnel_p. do 3 f_equal.
    assert (0 < n1 * cos th0) by now apply Rmult_lt_0_compat. assert (0 < n0 * cos th1) by now apply Rmult_lt_0_compat.
    field. split; [lra|]. 
    replace (n1 ^ 2 * (n0 * cos th0) + n0 ^ 2 * (n1 * cos th1)) with (n0 * n1 * (n1 * cos th0 + n0 * cos th1)) by ring.
    apply Rmult_integral_contrapositive_currified; [|lra]. apply Rmult_integral_contrapositive_currified; lra.
Qed.

(** C71. The guide's two formulas are exchanged: read with the angle of refraction, its
    r_p is what the code returns for s and its r_s what it returns for p, and the two
    differ for every pair of different media. *)
Lemma C71_guide_formulas_swapped_refuted_proof :
  forall (n0 n1 th0 th1 theta_in : R) (nu0 nu : option R),
  positive_if_given nu0 -> positive_if_given nu -> 0 < n0 -> 0 < n1 -> 0 < cos th0 -> 0 < cos th1 ->
  n0 * sin th0 = sin (Rabs theta_in) -> n1 * sin th1 = sin (Rabs theta_in) -> n0 <> n1 ->
  let code := refl_coef (stack [RtoC (n0 ^ 2); RtoC (n1 ^ 2)] [] nu0) None (Some theta_in) nu in
  code "s"%string = Ok (Some (RtoC (guide_r_p n0 n1 th0 th1))) /\ code "p"%string <> Ok (Some (RtoC (guide_r_p n0 n1 th0 th1))) /\
  code "p"%string = Ok (Some (RtoC (guide_r_s n0 n1 th0 th1))) /\ code "s"%string <> Ok (Some (RtoC (guide_r_s n0 n1 th0 th1))).
Proof.
  intros n0 n1 th0 th1 th nu0 nu H0 H1 Hn0 Hn1 C0 C1 S0 S1 Hn code. unfold code.
  destruct (C71_fresnel_angles_proof n0 n1 th0 th1 th nu0 nu H0 H1 Hn0 Hn1 C0 C1 S0 S1) as [-> ->].
  assert (A : 0 < n0 * cos th0) by now apply Rmult_lt_0_compat. assert (B : 0 < n1 * cos th1) by now apply Rmult_lt_0_compat.
  assert (A' : 0 < n1 * cos th0) by now apply Rmult_lt_0_compat. assert (B' : 0 < n0 * cos th1) by now apply Rmult_lt_0_compat.
  assert (D : fresnel_p n0 n1 th0 th1 <> fresnel_s n0 n1 th0 th1).
  { unfold fresnel_p, fresnel_s. intros E.
    assert (E' : (n1 * cos th0 - n0 * cos th1) * (n0 * cos th0 + n1 * cos th1) = (n0 * cos th0 - n1 * cos th1) * (n1 * cos th0 + n0 * cos th1)).
    { transitivity ((n1 * cos th0 - n0 * cos th1) / (n1 * cos th0 + n0 * cos th1) * ((n1 * cos th0 + n0 * cos th1) * (n0 * cos th0 + n1 * cos th1))); [field; lra|].
      rewrite E. field. lra. }
    assert (Z : (n1 - n0) * ((n1 + n0) * (cos th0 * cos th1)) = 0) by nra.
    apply Rmult_integral in Z. destruct Z as [Z|Z]; [apply Hn; lra|].
    assert (0 < (n1 + n0) * (cos th0 * cos th1)) by (apply Rmult_lt_0_compat; [lra|now apply Rmult_lt_0_compat]). lra. }
  split; [reflexivity|]. split; [|split; [reflexivity|]]; intros E; injection E as E; [|symmetry in E]; exact (D E).
Qed.

(** C71. Which way every real interface is crossed without reflection: never for s
    unless the media are equal; for p exactly at Brewster's momentum. *)
Lemma C71_brewster_proof :
  forall (e0 e1 nu q : R) nu0,
  0 < e0 -> 0 < e1 -> q ^ 2 < e0 * nu ^ 2 -> q ^ 2 < e1 * nu ^ 2 ->
  (refl_coef (stack [RtoC e0; RtoC e1] [] nu0) (Some q) None (Some nu) "p" = Ok (Some (RtoC 0)) <-> e0 = e1 \/ q ^ 2 * (e0 + e1) = nu ^ 2 * (e0 * e1)) /\
  (refl_coef (stack [RtoC e0; RtoC e1] [] nu0) (Some q) None (Some nu) "s" = Ok (Some (RtoC 0)) <-> e0 = e1).
Proof.
  intros e0 e1 nu q nu0 He0 He1 H0 H1.
  set (k0 := sqrt (e0 * nu ^ 2 - q ^ 2)). set (k1 := sqrt (e1 * nu ^ 2 - q ^ 2)).
  assert (P0 : 0 < k0) by (apply sqrt_lt_R0; lra). assert (P1 : 0 < k1) by (apply sqrt_lt_R0; lra).
  assert (K0 : k0 ^ 2 = e0 * nu ^ 2 - q ^ 2) by (apply pow2_sqrt; lra).
  assert (K1 : k1 ^ 2 = e1 * nu ^ 2 - q ^ 2) by (apply pow2_sqrt; lra).
  assert (Hnu : 0 < nu ^ 2) by (assert (0 <= q ^ 2) by apply pow2_ge_0; destruct (Rle_lt_dec (nu ^ 2) 0); [assert (e0 * nu ^ 2 <= e0 * 0) by (apply Rmult_le_compat_l; lra); lra|lra]).
  assert (A : 0 < e1 * k0) by now apply Rmult_lt_0_compat. assert (B : 0 < e0 * k1) by now apply Rmult_lt_0_compat.
  assert (DZ : forall x y, 0 < y -> (Ok (Some (RtoC (x / y))) = Ok (Some (RtoC 0)) <-> x = 0)).
  { intros x y Hy. split; [intros E; injection E as E|intros ->; do 3 f_equal; field; lra].
    apply (Rmult_eq_reg_r (/ y)); [unfold Rdiv in E; lra|]. apply Rinv_neq_0_compat. lra. }
  assert (SQ : forall x y, 0 < x -> 0 < y -> (x = y <-> x ^ 2 = y ^ 2)).
  { intros x y Hx Hy. split; [intros ->; reflexivity|intros E]. assert (Z : (x - y) * (x + y) = 0) by (simpl in E; nra).
    apply Rmult_integral in Z. lra. }
  change "s"%string with (pol false). change "p"%string with (pol true).
  rewrite (bulk_real_refl true e0 e1 nu q k0 k1), (bulk_real_refl false e0 e1 nu q k0 k1) by assumption.
  rewrite !DZ by lra. split.
  - transitivity ((e1 * k0) ^ 2 = (e0 * k1) ^ 2); [rewrite <- SQ by assumption; split; intros; lra|].
    rewrite !Rpow_mult_distr, K0, K1.
    assert (F : e1 ^ 2 * (e0 * nu ^ 2 - q ^ 2) - e0 ^ 2 * (e1 * nu ^ 2 - q ^ 2) = (e1 - e0) * (nu ^ 2 * (e0 * e1) - q ^ 2 * (e0 + e1))) by ring.
    split.
    + intros E. assert (Z : (e1 - e0) * (nu ^ 2 * (e0 * e1) - q ^ 2 * (e0 + e1)) = 0) by lra.
      apply Rmult_integral in Z. destruct Z; [left|right]; lra.
    + intros [E|E]; [subst e1; ring|]. rewrite <- E in F. replace (q ^ 2 * (e0 + e1) - q ^ 2 * (e0 + e1)) with 0 in F by ring. lra.
  - transitivity (k0 ^ 2 = k1 ^ 2); [rewrite <- SQ by assumption; split; intros; lra|]. rewrite K0, K1.
    split; [intros E|intros ->; reflexivity]. apply (Rmult_eq_reg_r (nu ^ 2)); lra.
Qed.

(** C71. In terms of the angle: in vacuum p-polarised light is not reflected at
    tan theta = n (Brewster's angle) and at no other angle. *)
Lemma C71_brewster_angle_proof :
  forall (n theta : R) (nu0 nu : option R),
  positive_if_given nu0 -> positive_if_given nu -> 1 < n -> 0 <= theta < PI / 2 ->
  (refl_coef (stack [RtoC 1; RtoC (n ^ 2)] [] nu0) None (Some theta) nu "p" = Ok (Some (RtoC 0)) <-> tan theta = n) /\
  refl_coef (stack [RtoC 1; RtoC (n ^ 2)] [] nu0) None (Some theta) nu "s" <> Ok (Some (RtoC 0)).
Proof.
  intros n th nu0 nu H0 H1 Hn Hth.
  assert (S0 : 0 <= sin th) by (apply sin_ge_0; pose proof PI_RGT_0; lra).
  assert (Cp : 0 < cos th) by (apply cos_gt_0; lra).
  pose proof (sin2_cos2 th) as SC. unfold Rsqr in SC.
  change "s"%string with (pol false). change "p"%string with (pol true). rewrite !theta_bulk by assumption.
  rewrite Rabs_pos_eq by lra.
  assert (N2 : 1 < n ^ 2) by nra.
  destruct (C71_brewster_proof 1 (n ^ 2) 1 (sin th) None) as [EP ES]; try lra; try nra.
  split.
  - cbn [pol] in *. rewrite EP. unfold tan. split.
    + intros [E|E]; [lra|].
      assert (X : sin th ^ 2 = (n * cos th) ^ 2).
      { replace ((n * cos th) ^ 2) with (n ^ 2 * (1 - sin th * sin th)) by (rewrite <- SC; ring). lra. }
      assert (Y : sin th = n * cos th).
      { assert (Z : (sin th - n * cos th) * (sin th + n * cos th) = 0) by (simpl in X; nra).
        assert (0 < n * cos th) by (apply Rmult_lt_0_compat; lra).
        apply Rmult_integral in Z. lra. }
      rewrite Y. field. lra.
    + intros E. right. assert (Y : sin th = n * cos th) by (rewrite <- E; field; lra).
      replace (sin th ^ 2 * (1 + n ^ 2)) with (sin th ^ 2 + n ^ 2 * (sin th * sin th)) by ring.
      replace (sin th * sin th) with (1 - cos th * cos th) by lra. rewrite Y. ring.
  - cbn [pol] in *. rewrite ES. lra.
Qed.

(** C71. With a dense environment theta_in cannot reach Brewster's angle: whenever
    1/e0 + 1/e1 < 1 no angle at all makes the p reflection vanish. *)
Lemma C71_dense_environment_no_brewster_proof :
  forall (e0 e1 theta : R) (nu0 nu : option R),
  positive_if_given nu0 -> positive_if_given nu -> 1 < e0 -> 1 < e1 -> e0 <> e1 -> e0 + e1 < e0 * e1 ->
  refl_coef (stack [RtoC e0; RtoC e1] [] nu0) None (Some theta) nu "p" <> Ok (Some (RtoC 0)).
Proof.
  intros e0 e1 th nu0 nu H0 H1 He0 He1 Hne Hd.
  change "p"%string with (pol true). rewrite theta_bulk by assumption.
  assert (S : sin (Rabs th) ^ 2 <= 1).
  { pose proof (SIN_bound (Rabs th)). nra. }
  destruct (C71_brewster_proof e0 e1 1 (sin (Rabs th)) None) as [EP _]; try lra.
  cbn [pol]. rewrite EP. intros [E|E]; [contradiction|].
  assert (sin (Rabs th) ^ 2 * (e0 + e1) <= 1 * (e0 + e1)) by (apply Rmult_le_compat_r; lra). lra.
Qed.

(** evanescent waves on both sides *)
Lemma bulk_evanescent (p : bool) (e0 e1 nu q k0 k1 : R) nu0 :
  e0 <> 0 -> e1 <> 0 -> 0 < k0 -> 0 < k1 ->
  k0 ^ 2 = q ^ 2 - e0 * nu ^ 2 -> k1 ^ 2 = q ^ 2 - e1 * nu ^ 2 ->
  let den := if p then e1 * k0 + e0 * k1 else k0 + k1 in
  (den = 0 -> refl_coef (stack [RtoC e0; RtoC e1] [] nu0) (Some q) None (Some nu) (pol p) = Ok None) /\
  (den <> 0 -> refl_coef (stack [RtoC e0; RtoC e1] [] nu0) (Some q) None (Some nu) (pol p)
    = Ok (Some (RtoC ((if p then e1 * k0 - e0 * k1 else k0 - k1) / den)))).
Proof.
  intros He0 He1 Hk0 Hk1 K0 K1 den.
  assert (P : forall k, 0 < k -> principal (0, k)) by (intros k Hk; right; simpl; split; [reflexivity|lra]).
  pose proof (is_kz_principal _ _ _ _ (is_kz_I nu q e0 k0 K0) (P k0 Hk0)) as Z0.
  pose proof (is_kz_principal _ _ _ _ (is_kz_I nu q e1 k1 K1) (P k1 Hk1)) as Z1.
  set (f := if p then (k1 * e0) / (k0 * e1) else k1 / k0).
  assert (NI : forall k, 0 < k -> (0, k) <> RtoC 0) by (intros k Hk E; apply (f_equal snd) in E; simpl in E; lra).
  assert (I : forall k, (0, k) = (Ci * RtoC k)%C) by (intros k; unfold Ci, RtoC; apply injective_projections; simpl; ring).
  assert (EF : bulk_factor p nu q (Some (RtoC e0)) (Some (RtoC e1)) = Some (RtoC f)).
  { unfold bulk_factor. rewrite !nu_z_of_Some, <- Z0, <- Z1. unfold f. destruct p.
    - unfold cmul. cbn [olift2]. rewrite cdiv_ok by (apply Cmult_neq_0; [apply RtoC_neq_0; lra|now apply NI]). f_equal.
      rewrite !I, RtoC_div, !RtoC_mult by (apply Rmult_integral_contrapositive_currified; lra).
      field. repeat split; [apply RtoC_neq_0; lra|apply RtoC_neq_0; lra|exact Ci_neq_0].
    - rewrite cdiv_ok by now apply NI. f_equal. rewrite !I, RtoC_div by lra. field. split; [apply RtoC_neq_0; lra|exact Ci_neq_0]. }
  assert (ED : 1 + f = den / (if p then k0 * e1 else k0)).
  { unfold f, den. destruct p; field; lra. }
  assert (E : transfer_matrix (stack [RtoC e0; RtoC e1] [] nu0) (Some q) None (Some nu) (pol p) = Ok (trans_matrix (Some (RtoC f)))).
  { unfold stack. cbn [map]. rewrite bulk_transfer. cbn [resolve_nu resolve_q rbind].
    replace (if String.eqb (pol p) "p" then _ else _) with (Ok p) by (destruct p; reflexivity).
    cbn [rbind]. rewrite EF. reflexivity. }
  assert (N : (if p then k0 * e1 else k0) <> 0) by (destruct p; [apply Rmult_integral_contrapositive_currified; lra|lra]).
  unfold refl_coef. rewrite E. cbn [rbind]. split; intros D.
  - rewrite trans_matrix_Some. cbn [lift m10 m00 pT c10 c00].
    assert (X : (1 + RtoC f = 0)%C) by (rewrite <- RtoC_plus, ED, D; f_equal; field; exact N).
    rewrite X. replace (0 / 2)%C with (RtoC 0) by (field; exact C2_neq_0). rewrite cdiv_zero. reflexivity.
  - assert (Y : 1 + f <> 0).
    { rewrite ED. apply Rmult_integral_contrapositive_currified; [exact D|now apply Rinv_neq_0_compat]. }
    rewrite trans_matrix_refl_ok by (rewrite <- RtoC_plus; now apply RtoC_neq_0).
    rewrite <- RtoC_plus, <- RtoC_minus, <- RtoC_div by exact Y. do 3 f_equal.
    rewrite ED. replace (1 - f) with ((if p then e1 * k0 - e0 * k1 else k0 - k1) / (if p then k0 * e1 else k0)) by (unfold f; destruct p; field; lra).
    field. split; [exact D|exact N].
Qed.

(** C71. Beyond both light lines the p reflection of a lossless interface is undefined
    exactly at the surface polariton: permittivities of opposite sign with
    q^2 (e0 + e1) = nu^2 e0 e1. For s it is always finite. *)
Lemma C71_surface_polariton_proof :
  forall (e0 e1 nu q : R) nu0,
  e0 <> 0 -> e1 <> 0 -> e0 * nu ^ 2 < q ^ 2 -> e1 * nu ^ 2 < q ^ 2 ->
  (refl_coef (stack [RtoC e0; RtoC e1] [] nu0) (Some q) None (Some nu) "p" = Ok None <->
     e0 * e1 < 0 /\ q ^ 2 * (e0 + e1) = nu ^ 2 * (e0 * e1)) /\
  exists r : R, refl_coef (stack [RtoC e0; RtoC e1] [] nu0) (Some q) None (Some nu) "s" = Ok (Some (RtoC r)) /\ -1 < r < 1.
Proof.
  intros e0 e1 nu q nu0 He0 He1 H0 H1.
  set (k0 := sqrt (q ^ 2 - e0 * nu ^ 2)). set (k1 := sqrt (q ^ 2 - e1 * nu ^ 2)).
  assert (P0 : 0 < k0) by (apply sqrt_lt_R0; lra). assert (P1 : 0 < k1) by (apply sqrt_lt_R0; lra).
  assert (K0 : k0 ^ 2 = q ^ 2 - e0 * nu ^ 2) by (apply pow2_sqrt; lra).
  assert (K1 : k1 ^ 2 = q ^ 2 - e1 * nu ^ 2) by (apply pow2_sqrt; lra).
  change "s"%string with (pol false). change "p"%string with (pol true).
  destruct (bulk_evanescent true e0 e1 nu q k0 k1 nu0 He0 He1 P0 P1 K0 K1) as [A1 A2].
  destruct (bulk_evanescent false e0 e1 nu q k0 k1 nu0 He0 He1 P0 P1 K0 K1) as [_ B2]. cbv zeta in *.
  assert (F : (e1 * k0 + e0 * k1) * (e1 * k0 - e0 * k1) = (e1 - e0) * (q ^ 2 * (e0 + e1) - nu ^ 2 * (e0 * e1))).
  { transitivity (e1 ^ 2 * k0 ^ 2 - e0 ^ 2 * k1 ^ 2); [ring|]. rewrite K0, K1. ring. }
  assert (SG : forall x y a b : R, 0 < a -> 0 < b -> 0 < x * y -> x * a + y * b <> 0).
  { intros x y a b Ha Hb Hxy E. assert (x * a * x = - (x * y * b)) by (replace (x * a) with (- (y * b)) by lra; ring).
    assert (0 < x * y * b) by now apply Rmult_lt_0_compat. assert (0 <= x * a * x) by (replace (x * a * x) with (a * (x * x)) by ring; apply Rmult_le_pos; [lra|apply Rle_0_sqr]). lra. }
  split.
  - split.
    + intros E. destruct (Req_dec (e1 * k0 + e0 * k1) 0) as [D|D]; [|rewrite (A2 D) in E; discriminate].
      assert (Neg : e0 * e1 < 0).
      { destruct (Rtotal_order (e0 * e1) 0) as [L|[L|L]]; [exact L| |].
        - apply Rmult_integral in L. lra.
        - exfalso. apply (SG e1 e0 k0 k1); auto. lra. }
      split; [exact Neg|].
      rewrite D, Rmult_0_l in F. symmetry in F. apply Rmult_integral in F. destruct F as [F|F]; [|lra].
      exfalso. assert (X : e1 = e0) by lra. subst e1. pose proof (Rle_0_sqr e0). unfold Rsqr in *. lra.
    + intros [Neg E]. apply A1. rewrite E in F. replace (nu ^ 2 * (e0 * e1) - nu ^ 2 * (e0 * e1)) with 0 in F by ring.
      rewrite Rmult_0_r in F. apply Rmult_integral in F. destruct F as [F|F]; [exact F|].
      exfalso. apply (SG e1 (- e0) k0 k1); auto; [nra|lra].
  - rewrite B2 by lra. eexists. split; [reflexivity|].
    assert (D : 0 < k0 + k1) by lra. split; apply (Rmult_lt_reg_r (k0 + k1)); auto; unfold Rdiv; rewrite Rmult_assoc, Rinv_l by lra; lra.
Qed.

(** C71. The worked number of the guide: for Si (eps = 11.7) at 60 degrees the guide
    prints the far-field factor 1.173379279716862 for c_r = 0.9. The code's r_p gives
    more than 1.56 for that c_r; the printed number belongs to c_r = 0.3. *)
Lemma C71_guide_number_refuted_proof :
  exists r : R, refl_coef (stack [RtoC 1; RtoC (117 / 10)] [] None) None (Some (PI / 3)) None "p" = Ok (Some (RtoC r)) /\
  1.56 < far_field_factor 0.9 r < 1.57 /\ Rabs (far_field_factor 0.3 r - 1.173379279716862) < / 10 ^ 12.
Proof.
  assert (N : positive_if_given None) by (intros v X; discriminate).
  set (k := sqrt (10.95)).
  assert (K : k ^ 2 = 10.95) by (apply pow2_sqrt; lra).
  assert (P : 0 < k) by (apply sqrt_lt_R0; lra).
  change "p"%string with (pol true). rewrite theta_bulk by exact N.
  rewrite Rabs_pos_eq by (pose proof PI_RGT_0; lra). rewrite sin_PI3.
  assert (S3 : sqrt 3 * sqrt 3 = 3) by (apply sqrt_sqrt; lra).
  rewrite (bulk_real_refl true 1 (117 / 10) 1 (sqrt 3 / 2) (1 / 2) k) by nra.
  eexists. split; [reflexivity|]. cbv iota.
  assert (B : 3.30907842155485 < k < 3.30907842155486).
  { split; apply Rnot_le_lt; intros Q; nra. }
  set (r := (117 / 10 * (1 / 2) - 1 * k) / (117 / 10 * (1 / 2) + 1 * k)).
  assert (R : 0.277421096479 < r < 0.2774210964791).
  { assert (D : r * (117 / 10 * (1 / 2) + 1 * k) = 117 / 10 * (1 / 2) - 1 * k) by (unfold r; field; lra).
    split; apply Rnot_le_lt; intros Q.
    - assert (r * (117 / 10 * (1 / 2) + 1 * k) <= 0.277421096479 * (117 / 10 * (1 / 2) + 1 * k)) by (apply Rmult_le_compat_r; lra). lra.
    - assert (0.2774210964791 * (117 / 10 * (1 / 2) + 1 * k) <= r * (117 / 10 * (1 / 2) + 1 * k)) by (apply Rmult_le_compat_r; lra). lra. }
  unfold far_field_factor. split; [nra|].
  assert (M : (1 + 0.3 * 0.277421096479) ^ 2 < (1 + 0.3 * r) ^ 2 < (1 + 0.3 * 0.2774210964791) ^ 2) by (split; nra).
  apply Rabs_def1; lra.
Qed.

(** C71. Brewster's angle of n^2 = 3 is 60 degrees; none exists between 4 and 9; a
    metal of permittivity -2 has its surface polariton at q = sqrt 2 nu. *)
Lemma C71_example_proof :
  refl_coef (stack [RtoC 1; RtoC (sqrt 3 ^ 2)] [] None) None (Some (PI / 3)) None "p" = Ok (Some (RtoC 0)) /\
  (forall theta, refl_coef (stack [RtoC 4; RtoC 9] [] None) None (Some theta) None "p" <> Ok (Some (RtoC 0))) /\
  refl_coef (stack [RtoC 1; RtoC (-2)] [] None) (Some (sqrt 2)) None (Some 1) "p" = Ok None /\
  refl_coef (stack [RtoC (1 ^ 2); RtoC (2 ^ 2)] [] None) None (Some 0) None "s" = Ok (Some (RtoC (fresnel_s 1 2 0 0))).
Proof.
  assert (N : positive_if_given None) by (intros v X; discriminate).
  split; [|split; [|split]].
  - apply (C71_brewster_angle_proof (sqrt 3) (PI / 3) None None N N).
    + rewrite <- sqrt_1 at 1. apply sqrt_lt_1; lra.
    + pose proof PI_RGT_0. lra.
    + exact tan_PI3.
  - intros th. apply C71_dense_environment_no_brewster_proof; auto; lra.
  - assert (S2 : sqrt 2 ^ 2 = 2) by (apply pow2_sqrt; lra).
    apply (C71_surface_polariton_proof 1 (-2) 1 (sqrt 2) None); lra.
  - apply (C71_fresnel_angles_proof 1 2 0 0 0 None None N N); try lra; rewrite ?cos_0, ?Rabs_R0, ?sin_0; lra.
Qed.
