(** * Proofs: far-field response of bulk samples and films; conventions *)
From Coq Require Import String Reals Lra Lia ZArith List Bool.
From Coquelicot Require Import Rcomplements Complex.
From Verif Require Import Num NumLemmas ModelBase ModelSample ModelTip StackLemmas Spec
  ProofsStackQS ProofsStackQS2 ProofsStackFF ProofsStackFF2.
Import ListNotations.
Open Scope R_scope.

(** ** Square root scaling *)
Lemma Csqrt_scale (r : R) (z : C) : 0 < r -> Csqrt (RtoC (r ^ 2) * z)%C = (RtoC r * Csqrt z)%C.
Proof.
  intros Hr. apply principal_unique.
  - apply Csqrt_principal.
  - pose proof (Csqrt_principal z) as H. unfold principal in *.
    destruct (Csqrt z) as [a b]. unfold Re, Im in *. simpl in *.
    destruct H as [H|[H1 H2]]; [left|right]; [nra|split; [rewrite H1; ring|nra]].
  - rewrite Csqrt_sqr. pose proof (Csqrt_sqr z) as H.
    replace (RtoC r * Csqrt z * (RtoC r * Csqrt z))%C with (RtoC r * RtoC r * (Csqrt z * Csqrt z))%C by ring.
    rewrite H, <- RtoC_mult. f_equal. f_equal. ring.
Qed.

Lemma kz_scale r nu q e : 0 < r -> kz (r * nu) (r * q) e = (RtoC r * kz nu q e)%C.
Proof.
  intros H. unfold kz. rewrite <- Csqrt_scale by exact H. f_equal.
  rewrite !Rpow_mult_distr, !RtoC_mult. ring.
Qed.

Lemma nu_z_scale r nu q (e : CV) : 0 < r -> nu_z_of (r * nu) (r * q) e = (rc r * nu_z_of nu q e)%cv.
Proof.
  intros H. destruct e as [e|]; [|reflexivity].
  rewrite !nu_z_of_Some, kz_scale by exact H. reflexivity.
Qed.

(** scaling both wavevectors does not change an interface *)
Lemma cdiv_scale (r : R) (a b : CV) : r <> 0 -> ((rc r * a) / (rc r * b))%cv = (a / b)%cv.
Proof.
  intros H. destruct a as [a|], b as [b|]; try reflexivity.
  unfold rc, cmul. cbn [olift2].
  destruct (Ceq_dec b 0) as [E|E].
  - rewrite E. replace (RtoC r * 0)%C with (RtoC 0) by ring. rewrite !cdiv_zero. reflexivity.
  - rewrite !cdiv_ok by auto. f_equal. field. auto.
Qed.
Lemma cmul_swap (a b c : CV) : (a * (b * c))%cv = (b * (a * c))%cv.
Proof. destruct a, b, c; try reflexivity. unfold cmul. cbn [olift2]. f_equal. ring. Qed.

(** ** The bulk transfer matrix in general *)
Definition bulk_factor (p : bool) (nu q : R) (e0 e1 : CV) : CV :=
  if p then (e0 * nu_z_of nu q e1 / (e1 * nu_z_of nu q e0))%cv
  else (nu_z_of nu q e1 / nu_z_of nu q e0)%cv.

Lemma bulk_transfer e0 e1 nu0 qo th nuo pl :
  transfer_matrix (mkSample [e0; e1] [] nu0) qo th nuo pl =
  (let! nu := resolve_nu (mkSample [e0; e1] [] nu0) nuo in
   let! q := resolve_q nu qo th in
   let! p := (if String.eqb pl "p" then Ok true
                 else if String.eqb pl "s" then Ok false
                 else Raise (ValueError msg_pol)) in
   Ok (trans_matrix (bulk_factor p nu q e0 e1))).
Proof.
  unfold transfer_matrix. destruct (resolve_nu _ _) as [nu|]; [|reflexivity]. cbn [rbind].
  destruct (resolve_q _ _ _) as [q|]; [|reflexivity]. cbn [rbind n_layers eps_stack length Nat.eqb].
  destruct (String.eqb pl "p"); [reflexivity|].
  destruct (String.eqb pl "s"); reflexivity.
Qed.

Lemma bulk_factor_scale r p nu q e0 e1 : 0 < r ->
  bulk_factor p (r * nu) (r * q) e0 e1 = bulk_factor p nu q e0 e1.
Proof.
  intros H. unfold bulk_factor. rewrite !nu_z_scale by exact H. destruct p.
  - rewrite !(cmul_swap _ (rc r)). apply cdiv_scale. lra.
  - apply cdiv_scale. lra.
Qed.

(** a wavenumber that is absent or positive *)
Definition positive_if_given (o : option R) : Prop := forall v, o = Some v -> 0 < v.

(** C19. For a bulk sample called with an angle, or with neither angle nor
    momentum, the wavenumber is irrelevant: whether it is given at the call,
    stored, both or absent, as long as it is positive. *)
Lemma C19_wavenumber_irrelevant_proof :
  forall (e0 e1 : CV) (nu0 nu0' nu nu' : option R) (theta_in : option R) (polarization : string),
  positive_if_given nu0 -> positive_if_given nu0' -> positive_if_given nu -> positive_if_given nu' ->
  refl_coef (mkSample [e0; e1] [] nu0) None theta_in nu polarization
  = refl_coef (mkSample [e0; e1] [] nu0') None theta_in nu' polarization /\
  trans_coef (mkSample [e0; e1] [] nu0) None theta_in nu polarization
  = trans_coef (mkSample [e0; e1] [] nu0') None theta_in nu' polarization.
Proof.
  assert (HM : forall (e0 e1 : CV) (nu0 nu : option R) th pl,
    positive_if_given nu0 -> positive_if_given nu ->
    transfer_matrix (mkSample [e0; e1] [] nu0) None th nu pl
    = transfer_matrix (mkSample [e0; e1] [] None) None th None pl).
  { intros e0 e1 nu0 nu th pl H0 H1. rewrite !bulk_transfer.
    assert (Hv : exists v, 0 < v /\ resolve_nu (mkSample [e0; e1] [] nu0) nu = Ok v).
    { unfold resolve_nu. destruct nu as [v|]; [exists v; auto|]. cbn.
      destruct nu0 as [v|]; [exists v; auto|]. exists 1. split; [lra|reflexivity]. }
    destruct Hv as (v & Hv & ->). cbn [rbind resolve_nu nu_vac multilayer n_layers eps_stack length Nat.ltb Nat.leb].
    destruct th as [t|]; cbn [resolve_q rbind].
    - destruct (if String.eqb pl "p" then _ else _) as [p|]; [|reflexivity]. cbn [rbind].
      pose proof (bulk_factor_scale v p 1 (sin (Rabs t)) e0 e1 Hv) as E. rewrite Rmult_1_r in E.
      rewrite E, Rmult_1_l. reflexivity.
    - destruct (if String.eqb pl "p" then _ else _) as [p|]; [|reflexivity]. cbn [rbind].
      pose proof (bulk_factor_scale v p 1 0 e0 e1 Hv) as E. rewrite Rmult_1_r, Rmult_0_r in E.
      rewrite E. reflexivity. }
  intros e0 e1 nu0 nu0' nu nu' th pl H1 H2 H3 H4. unfold refl_coef, trans_coef.
  rewrite (HM e0 e1 nu0 nu), (HM e0 e1 nu0' nu') by assumption. auto.
Qed.

(** C19. With an explicit momentum and no wavenumber anywhere, a bulk sample
    silently computes with wavenumber 1. *)
Lemma C19_missing_wavenumber_is_one_proof :
  forall (e0 e1 : CV) (q theta_in : option R) (polarization : string),
  transfer_matrix (mkSample [e0; e1] [] None) q theta_in None polarization
  = transfer_matrix (mkSample [e0; e1] [] None) q theta_in (Some 1) polarization.
Proof. reflexivity. Qed.

Lemma trans_matrix_refl x r :
  (m10 (trans_matrix x) / m00 (trans_matrix x))%cv = Some r ->
  exists f, x = Some f /\ (1 + f <> 0)%C /\ r = ((1 - f) / (1 + f))%C.
Proof.
  destruct x as [f|]; [|discriminate]. rewrite trans_matrix_Some. cbn [lift m10 m00 pT c10 c00].
  intros H. apply cdiv_Some in H. destruct H as (a & b & Ea & Eb & Hb & ->).
  injection Ea as <-. injection Eb as <-.
  assert (H1 : (1 + f <> 0)%C).
  { intros E. apply Hb. rewrite E. field. auto. }
  exists f. repeat split; auto. field. auto.
Qed.
Lemma trans_matrix_refl_ok f : (1 + f <> 0)%C ->
  (m10 (trans_matrix (Some f)) / m00 (trans_matrix (Some f)))%cv = Some ((1 - f) / (1 + f))%C.
Proof.
  intros H. rewrite trans_matrix_Some. cbn [lift m10 m00 pT c10 c00].
  rewrite cdiv_ok by (apply Cdiv_neq_0; auto). f_equal. field. auto.
Qed.
Lemma trans_matrix_trans_ok f : (1 + f <> 0)%C ->
  (rc 1 / m00 (trans_matrix (Some f)))%cv = Some (2 / (1 + f))%C.
Proof.
  intros H. rewrite trans_matrix_Some. cbn [lift m10 m00 pT c10 c00]. unfold rc.
  rewrite cdiv_ok by (apply Cdiv_neq_0; auto). f_equal. field. auto.
Qed.

(** the square of the interface factor, free of square roots *)
Lemma bulk_factor_sq p nu q e0 e1 f : bulk_factor p nu q (Some e0) (Some e1) = Some f ->
  let K0 := (e0 * RtoC (nu ^ 2) - RtoC (q ^ 2))%C in
  let K1 := (e1 * RtoC (nu ^ 2) - RtoC (q ^ 2))%C in
  K0 <> RtoC 0 /\ (p = true -> e1 <> RtoC 0) /\
  (if p then (f * f * (e1 * e1 * K0) = e0 * e0 * K1)%C else (f * f * K0 = K1)%C).
Proof.
  intros H K0 K1. unfold K0, K1. unfold bulk_factor in H. rewrite !nu_z_of_Some in H.
  pose proof (kz_is_kz nu q e0) as H0. pose proof (kz_is_kz nu q e1) as H1. unfold is_kz in *.
   rewrite <- H0, <- H1. clear H0 H1 K0 K1.
  set (k0 := kz nu q e0) in *. set (k1 := kz nu q e1) in *.
  destruct p; apply cdiv_Some in H; destruct H as (a & b & Ea & Eb & Hb & ->);
    injection Ea as <-; injection Eb as <-.
  - assert (k0 <> RtoC 0) by (eapply Cmult_neq_0_r; exact Hb).
    assert (e1 <> RtoC 0) by (eapply Cmult_neq_0_l; exact Hb).
    repeat split; auto. field. auto.
  - repeat split; [auto|discriminate|field; auto].
Qed.

(** C19. With an explicit nonzero momentum the wavenumber does matter: two
    different wavenumbers always give different (finite) coefficients. *)
Lemma C19_wavenumber_matters_for_explicit_q_proof :
  forall (p : bool) (e0 e1 : C) nu0 (nu nu' q : R) (r r' : C),
  e0 <> e1 -> e0 <> RtoC 0 -> q <> 0 -> nu ^ 2 <> nu' ^ 2 ->
  refl_coef (stack [e0; e1] [] nu0) (Some q) None (Some nu) (pol p) = Ok (Some r) ->
  refl_coef (stack [e0; e1] [] nu0) (Some q) None (Some nu') (pol p) = Ok (Some r') ->
  r <> r'.
Proof.
  intros p e0 e1 nu0 nu nu' q r r' He H0 Hq Hn R1 R2 Er. subst r'.
  assert (Inv : forall v, refl_coef (stack [e0; e1] [] nu0) (Some q) None (Some v) (pol p) = Ok (Some r) ->
     exists f, bulk_factor p v q (Some e0) (Some e1) = Some f /\ (1 + f <> 0)%C /\ r = ((1 - f) / (1 + f))%C).
  { intros v H. unfold refl_coef, stack in H. cbn [map] in H. rewrite bulk_transfer in H.
    destruct p; cbn in H; injection H as H; apply trans_matrix_refl in H;
      destruct H as (f & E & H1 & H2); exists f; auto. }
  destruct (Inv nu R1) as (f & F1 & G1 & E1). destruct (Inv nu' R2) as (g & F2 & G2 & E2).
  assert (Efg : f = g).
  { assert (E : ((1 - f) * (1 + g) = (1 - g) * (1 + f))%C).
    { replace (1 - f)%C with (r * (1 + f))%C by (rewrite E1; field; auto).
      replace (1 - g)%C with (r * (1 + g))%C by (rewrite E2; field; auto). ring. }
    assert (E' : (2 * (g - f) = 0)%C).
    { replace (2 * (g - f))%C with ((1 - f) * (1 + g) - (1 - g) * (1 + f))%C by ring. rewrite E. ring. }
    apply Cmult_integral in E'. destruct E' as [E'|E']; [exfalso; now apply C2_neq_0|].
    apply Csub_eq0 in E'. auto. }
  subst g. apply bulk_factor_sq in F1. apply bulk_factor_sq in F2. cbv zeta in F1, F2.
  destruct F1 as (A1 & A2 & A3). destruct F2 as (B1 & B2 & B3).
  set (K0 := (e0 * RtoC (nu ^ 2) - RtoC (q ^ 2))%C) in *.
  set (K1 := (e1 * RtoC (nu ^ 2) - RtoC (q ^ 2))%C) in *.
  set (L0 := (e0 * RtoC (nu' ^ 2) - RtoC (q ^ 2))%C) in *.
  set (L1 := (e1 * RtoC (nu' ^ 2) - RtoC (q ^ 2))%C) in *.
  assert (E : (K1 * L0 = L1 * K0)%C).
  { destruct p.
    - specialize (A2 eq_refl).
      assert (Z : (e0 * e0 * (K1 * L0 - L1 * K0) = 0)%C).
      { replace (e0 * e0 * (K1 * L0 - L1 * K0))%C with ((e0 * e0 * K1) * L0 - (e0 * e0 * L1) * K0)%C by ring.
        rewrite <- A3, <- B3. ring. }
      apply Cmult_integral in Z. destruct Z as [Z|Z].
      + exfalso. revert Z. apply Cmult_neq_0; auto.
      + now apply Csub_eq0.
    - rewrite <- A3, <- B3. ring. }
  assert (Z : (RtoC (q ^ 2) * ((e0 - e1) * (RtoC (nu ^ 2) - RtoC (nu' ^ 2))) = 0)%C).
  { replace (RtoC (q ^ 2) * ((e0 - e1) * (RtoC (nu ^ 2) - RtoC (nu' ^ 2))))%C with (K1 * L0 - L1 * K0)%C
      by (unfold K0, K1, L0, L1; ring). rewrite E. ring. }
  apply Cmult_integral in Z. destruct Z as [Z|Z].
  { apply RtoC_inj in Z. apply pow_nonzero with (n := 2%nat) in Hq. contradiction. }
  apply Cmult_integral in Z. destruct Z as [Z|Z].
  { apply He. now apply Csub_eq0. }
  apply Csub_eq0 in Z. apply RtoC_inj in Z. contradiction.
Qed.

(** ** C20 *)
(** C20. t = 1 + r for every bulk sample, every argument combination
    (including which exception is raised) and both polarizations. *)
Lemma C20_trans_is_one_plus_refl_proof :
  forall (e0 e1 : CV) (nu0 q theta_in nu : option R) (polarization : string),
  trans_coef (mkSample [e0; e1] [] nu0) q theta_in nu polarization
  = (let! r := refl_coef (mkSample [e0; e1] [] nu0) q theta_in nu polarization in
     Ok (rc 1 + r)%cv).
Proof.
  intros. unfold trans_coef, refl_coef. rewrite bulk_transfer.
  destruct (resolve_nu _ _) as [v|]; [|reflexivity]. cbn [rbind].
  destruct (resolve_q _ _ _) as [u|]; [|reflexivity]. cbn [rbind].
  destruct (if String.eqb polarization "p" then _ else _) as [p|]; [|reflexivity]. cbn [rbind].
  f_equal. destruct (bulk_factor p v u e0 e1) as [f|]; [|reflexivity].
  destruct (Ceq_dec (1 + f) 0) as [E|E].
  - rewrite trans_matrix_Some. cbn [lift m10 m00 pT c10 c00].
    replace ((1 + f) / 2)%C with (RtoC 0) by (rewrite E; field; auto).
    rewrite !cdiv_zero. reflexivity.
  - rewrite trans_matrix_refl_ok, trans_matrix_trans_ok by exact E.
    unfold rc, cadd. cbn [olift2]. f_equal. field. exact E.
Qed.

(** C20. The sign of the angle is irrelevant, for every sample. *)
Lemma C20_angle_sign_irrelevant_proof :
  forall (s : sample) (theta : R) (nu : option R) (polarization : string),
  transfer_matrix s None (Some (- theta)) nu polarization
  = transfer_matrix s None (Some theta) nu polarization.
Proof.
  intros. unfold transfer_matrix. destruct (resolve_nu s nu); [|reflexivity]. cbn [rbind resolve_q].
  rewrite Rabs_Ropp. reflexivity.
Qed.

(** generic evaluation of a bulk sample *)
Lemma bulk_refl_ok p e0 e1 nu0 nu q k0 k1 :
  is_kz nu q e0 k0 -> principal k0 -> is_kz nu q e1 k1 -> principal k1 ->
  k0 <> RtoC 0 -> (p = true -> e1 <> RtoC 0) ->
  let f := if p then (e0 * k1 / (e1 * k0))%C else (k1 / k0)%C in
  (1 + f <> 0)%C ->
  refl_coef (stack [e0; e1] [] nu0) (Some q) None (Some nu) (pol p) = Ok (Some ((1 - f) / (1 + f))%C) /\
  trans_coef (stack [e0; e1] [] nu0) (Some q) None (Some nu) (pol p) = Ok (Some (2 / (1 + f))%C).
Proof.
  intros K0 P0 K1 P1 Hk He f Hf.
  apply is_kz_principal in K0; [|exact P0]. apply is_kz_principal in K1; [|exact P1]. subst k0 k1.
  assert (E : transfer_matrix (stack [e0; e1] [] nu0) (Some q) None (Some nu) (pol p)
              = Ok (trans_matrix (Some f))).
  { unfold stack. cbn [map]. rewrite bulk_transfer. cbn [resolve_nu resolve_q rbind].
    replace (if String.eqb (pol p) "p" then _ else _) with (Ok p) by (destruct p; reflexivity).
    cbn [rbind]. f_equal. f_equal. unfold bulk_factor. rewrite !nu_z_of_Some. unfold f. destruct p.
    - unfold cmul. cbn [olift2]. rewrite cdiv_ok by auto. reflexivity.
    - rewrite cdiv_ok by auto. reflexivity. }
  unfold refl_coef, trans_coef. rewrite E. cbn [rbind].
  rewrite trans_matrix_refl_ok, trans_matrix_trans_ok by exact Hf. auto.
Qed.

(** C20. Normal incidence, with n0, n1 the (principal) refractive indices. *)
Lemma C20_normal_incidence_proof :
  forall (n0 n1 : C) nu0 (nu : R),
  principal n0 -> principal n1 -> n0 <> RtoC 0 -> (n0 + n1 <> 0)%C -> 0 < nu ->
  refl_coef (stack [n0 * n0; n1 * n1]%C [] nu0) None None (Some nu) "s"
  = Ok (Some ((n0 - n1) / (n0 + n1))%C) /\
  (n1 <> RtoC 0 ->
   refl_coef (stack [n0 * n0; n1 * n1]%C [] nu0) None None (Some nu) "p"
   = Ok (Some (- ((n0 - n1) / (n0 + n1)))%C)).
Proof.
  intros n0 n1 nu0 nu P0 P1 H0 Hs Hnu.
  assert (K : forall n : C, principal n -> is_kz nu 0 (n * n)%C (RtoC nu * n)%C /\ principal (RtoC nu * n)%C).
  { intros n Hn. split.
    - unfold is_kz. simpl. rewrite !RtoC_mult. ring.
    - unfold principal in *. destruct n as [a b]. unfold Re, Im in *. simpl in *.
      destruct Hn as [Hn|[Hn1 Hn2]]; [left|right]; [nra|split; [rewrite Hn1; ring|nra]]. }
  destruct (K n0 P0) as [A0 B0]. destruct (K n1 P1) as [A1 B1].
  assert (Hn : RtoC nu <> RtoC 0) by (apply RtoC_neq_0; lra).
  assert (E : forall pl, refl_coef (stack [n0 * n0; n1 * n1]%C [] nu0) None None (Some nu) pl
    = refl_coef (stack [n0 * n0; n1 * n1]%C [] nu0) (Some 0) None (Some nu) pl) by reflexivity.
  split.
  - rewrite E.
    assert (F : (1 + (RtoC nu * n1) / (RtoC nu * n0))%C = ((n0 + n1) / n0)%C) by (field; auto).
    destruct (bulk_refl_ok false (n0 * n0)%C (n1 * n1)%C nu0 nu 0 _ _ A0 B0 A1 B1) as [R _].
    + auto.
    + discriminate.
    + rewrite F. apply Cdiv_neq_0; auto.
    + cbv zeta in R. change (pol false) with "s"%string in R. rewrite R. do 2 f_equal.
      field. repeat split; auto.
  - intros H1. rewrite E.
    assert (F : (1 + (n0 * n0) * (RtoC nu * n1) / ((n1 * n1) * (RtoC nu * n0)))%C = ((n0 + n1) / n1)%C)
      by (field; auto).
    destruct (bulk_refl_ok true (n0 * n0)%C (n1 * n1)%C nu0 nu 0 _ _ A0 B0 A1 B1) as [R _].
    + auto.
    + auto.
    + rewrite F. apply Cdiv_neq_0; auto.
    + cbv zeta in R. change (pol true) with "p"%string in R. rewrite R. do 2 f_equal.
      field. repeat split; auto.
Qed.

Lemma principal_R (k : R) : 0 < k -> principal (RtoC k).
Proof. intros H. left. exact H. Qed.
Lemma is_kz_R nu q (e k : R) : k ^ 2 = e * nu ^ 2 - q ^ 2 -> is_kz nu q (RtoC e) (RtoC k).
Proof. intros H. unfold is_kz. rewrite <- !RtoC_mult, <- RtoC_minus. f_equal. lra. Qed.
Lemma is_kz_I nu q (e k : R) : k ^ 2 = q ^ 2 - e * nu ^ 2 -> is_kz nu q (RtoC e) (0, k).
Proof. intros H. unfold is_kz. apply C_eq; unfold Re, Im; simpl; simpl in H; nra. Qed.

(** C20. Energy conservation at a lossless interface below the critical
    angle: k0, k1 > 0 are the two normal wavevectors, r^2 is the reflected
    and t^2 (k1/k0) (s) or t^2 (k1 eps0)/(k0 eps1) (p) the transmitted
    energy. *)
Lemma C20_energy_conservation_proof :
  forall (p : bool) (e0 e1 nu q k0 k1 : R) nu0,
  0 < e0 -> 0 < e1 -> 0 < k0 -> 0 < k1 ->
  k0 ^ 2 = e0 * nu ^ 2 - q ^ 2 -> k1 ^ 2 = e1 * nu ^ 2 - q ^ 2 ->
  exists r t : R,
    refl_coef (stack [RtoC e0; RtoC e1] [] nu0) (Some q) None (Some nu) (pol p) = Ok (Some (RtoC r)) /\
    trans_coef (stack [RtoC e0; RtoC e1] [] nu0) (Some q) None (Some nu) (pol p) = Ok (Some (RtoC t)) /\
    r ^ 2 + t ^ 2 * (if p then (k1 * e0) / (k0 * e1) else k1 / k0) = 1.
Proof.
  intros p e0 e1 nu q k0 k1 nu0 He0 He1 Hk0 Hk1 E0 E1.
  set (f := if p then (k1 * e0) / (k0 * e1) else k1 / k0).
  assert (Hf : 0 < f).
  { unfold f. destruct p; [apply Rdiv_lt_0_compat; nra|apply Rdiv_lt_0_compat; lra]. }
  assert (Ef : (if p then (RtoC e0 * RtoC k1 / (RtoC e1 * RtoC k0))%C else (RtoC k1 / RtoC k0)%C) = RtoC f).
  { unfold f. destruct p.
    - rewrite <- !RtoC_mult, <- RtoC_div by nra. f_equal. field. lra.
    - rewrite <- RtoC_div by lra. reflexivity. }
  assert (H1f : (1 + RtoC f)%C = RtoC (1 + f)) by (now rewrite RtoC_plus).
  exists ((1 - f) / (1 + f)), (2 / (1 + f)).
  destruct (bulk_refl_ok p (RtoC e0) (RtoC e1) nu0 nu q (RtoC k0) (RtoC k1)) as [R T].
  - apply is_kz_R. exact E0.
  - apply principal_R. exact Hk0.
  - apply is_kz_R. exact E1.
  - apply principal_R. exact Hk1.
  - apply RtoC_neq_0. lra.
  - intros _. apply RtoC_neq_0. lra.
  - rewrite Ef, H1f. apply RtoC_neq_0. lra.
  - cbv zeta in R, T. rewrite Ef in R, T. rewrite R, T. repeat split.
    + do 2 f_equal. rewrite RtoC_div, RtoC_plus, RtoC_minus by lra. reflexivity.
    + do 2 f_equal. rewrite RtoC_div, RtoC_plus by lra. reflexivity.
    + field. lra.
Qed.

Lemma Cmod_eq_1 (a b : R) : a ^ 2 + b ^ 2 = 1 -> Cmod (a, b) = 1.
Proof. intros H. unfold Cmod. simpl fst. simpl snd. rewrite H. apply sqrt_1. Qed.

(** C20. Total reflection: real permittivities, propagating in the
    environment, evanescent in the substrate (k1 is its decay constant; this
    includes perfect metals, e1 < 0). *)
Lemma C20_total_reflection_proof :
  forall (p : bool) (e0 e1 nu q k0 k1 : R) nu0,
  0 < k0 -> 0 < k1 -> e1 <> 0 ->
  k0 ^ 2 = e0 * nu ^ 2 - q ^ 2 -> k1 ^ 2 = q ^ 2 - e1 * nu ^ 2 ->
  exists r : C,
    refl_coef (stack [RtoC e0; RtoC e1] [] nu0) (Some q) None (Some nu) (pol p) = Ok (Some r) /\
    Cmod r = 1.
Proof.
  intros p e0 e1 nu q k0 k1 nu0 Hk0 Hk1 He1 E0 E1.
  set (g := if p then (k1 * e0) / (k0 * e1) else k1 / k0).
  assert (Ef : (if p then (RtoC e0 * (0, k1)%R / (RtoC e1 * RtoC k0))%C else ((0, k1)%R / RtoC k0)%C) = (0, g)%R).
  { assert (Z : ((0, k1)%R : C) = (RtoC k1 * (0, 1)%R)%C) by (apply C_eq; unfold Re, Im; simpl; ring).
    assert (Z' : ((0, g)%R : C) = (RtoC g * (0, 1)%R)%C) by (apply C_eq; unfold Re, Im; simpl; ring).
    rewrite Z, Z'. unfold g. destruct p.
    - rewrite RtoC_div, !RtoC_mult by (apply Rmult_integral_contrapositive; lra). field.
      split; apply RtoC_neq_0; lra.
    - rewrite RtoC_div by lra. field. apply RtoC_neq_0; lra. }
  assert (H1f : (1 + (0, g)%R)%C = (1, g)%R) by (apply C_eq; unfold Re, Im; simpl; ring).
  exists ((1 - g ^ 2) / (1 + g ^ 2), - (2 * g) / (1 + g ^ 2))%R.
  assert (Hg : 0 < 1 + g ^ 2) by nra.
  destruct (bulk_refl_ok p (RtoC e0) (RtoC e1) nu0 nu q (RtoC k0) (0, k1)%R) as [R _].
  - apply is_kz_R. exact E0.
  - apply principal_R. exact Hk0.
  - apply is_kz_I. exact E1.
  - right. unfold Re, Im. simpl. lra.
  - apply RtoC_neq_0. lra.
  - intros _. apply RtoC_neq_0. lra.
  - rewrite Ef, H1f. apply C_neq_0. lra.
  - cbv zeta in R. rewrite Ef in R. rewrite R. split.
    + do 2 f_equal. apply Cdiv_eq.
      * rewrite H1f. apply C_neq_0. lra.
      * rewrite H1f. apply C_eq; unfold Re, Im; simpl; field; simpl in Hg; lra.
    + apply Cmod_eq_1. field. lra.
Qed.

(** C20. Non-vacuity: air/glass (eps 1 | 4), s, q = 0 -- r = -1/3, t = 2/3,
    r^2 + 2 t^2 = 1; and glass/air beyond the critical angle. *)
Lemma C20_example_proof :
  refl_coef (stack [RtoC 1; RtoC 4] [] None) None None None "s" = Ok (Some (RtoC (-1/3))) /\
  (exists r, refl_coef (stack [RtoC 4; RtoC 1] [] None) (Some (3/2)) None (Some 1) "p" = Ok (Some r)
             /\ Cmod r = 1).
Proof.
  split.
  - destruct (C20_normal_incidence_proof (RtoC 1) (RtoC 2) None 1) as [H _].
    + apply principal_R. lra.
    + apply principal_R. lra.
    + auto.
    + rewrite <- RtoC_plus. apply RtoC_neq_0. lra.
    + lra.
    + rewrite <- !RtoC_mult, <- RtoC_plus, <- RtoC_minus, <- RtoC_div in H by lra.
      replace (1 * 1) with 1 in H by lra. replace (2 * 2) with 4 in H by lra.
      replace ((1 - 2) / (1 + 2)) with (-1 / 3) in H by lra. exact H.
  - apply (C20_total_reflection_proof true 4 1 1 (3/2) (sqrt (7/4)) (sqrt (5/4))).
    + apply sqrt_lt_R0. lra.
    + apply sqrt_lt_R0. lra.
    + lra.
    + rewrite pow2_sqrt by lra. lra.
    + rewrite pow2_sqrt by lra. lra.
Qed.

(** ** C22 *)
(** C22. The angle selects the momentum nu sin|theta|, with no refractive
    index of the environment. *)
Lemma C22_angle_to_momentum_proof :
  forall (s : sample) (theta nu : R) (polarization : string),
  transfer_matrix s None (Some theta) (Some nu) polarization
  = transfer_matrix s (Some (nu * sin (Rabs theta))) None (Some nu) polarization.
Proof. reflexivity. Qed.

(** C22. Grazing incidence does not reflect everything when the environment
    is denser than vacuum: |r| < 1 strictly for every pair of real
    permittivities above 1. *)
Lemma C22_grazing_incidence_not_total_proof :
  forall (p : bool) (e0 e1 nu : R) nu0, 1 < e0 -> 1 < e1 -> 0 < nu ->
  exists r : R,
    refl_coef (stack [RtoC e0; RtoC e1] [] nu0) None (Some (PI / 2)) (Some nu) (pol p)
    = Ok (Some (RtoC r)) /\ Rabs r < 1.
Proof.
  intros p e0 e1 nu nu0 H0 H1 Hn.
  assert (Hk : forall e, 1 < e -> 0 < sqrt ((e - 1) * nu ^ 2) /\ sqrt ((e - 1) * nu ^ 2) ^ 2 = e * nu ^ 2 - nu ^ 2).
  { intros e He. assert (0 < (e - 1) * nu ^ 2) by (apply Rmult_lt_0_compat; [lra|apply pow_lt; lra]).
    split; [apply sqrt_lt_R0; auto|]. rewrite pow2_sqrt by lra. ring. }
  destruct (Hk e0 H0) as [A0 B0]. destruct (Hk e1 H1) as [A1 B1].
  set (k0 := sqrt ((e0 - 1) * nu ^ 2)) in *. set (k1 := sqrt ((e1 - 1) * nu ^ 2)) in *.
  destruct (C20_energy_conservation_proof p e0 e1 nu nu k0 k1 nu0) as (r & t & R & T & E); try lra.
  exists r. unfold refl_coef in *. rewrite C22_angle_to_momentum_proof.
  rewrite Rabs_pos_eq, sin_PI2, Rmult_1_r by (pose proof PI_RGT_0; lra). split; [exact R|].
  assert (Hx : 0 < if p then k1 * e0 / (k0 * e1) else k1 / k0).
  { destruct p; apply Rdiv_lt_0_compat; nra. }
  assert (Ht : t <> 0).
  { intros ->.
    assert (T' : trans_coef (stack [RtoC e0; RtoC e1] [] nu0) (Some nu) None (Some nu) (pol p)
                 = Ok (Some (RtoC 0))) by exact T.
    unfold trans_coef in T'. destruct (transfer_matrix _ _ _ _ _) as [M|]; [|discriminate].
    cbn [rbind] in T'. injection T' as T'. apply cdiv_Some in T'.
    destruct T' as (a & b & Ea & Eb & Hb & Z). injection Ea as <-.
    apply C1_neq_0. replace (RtoC 1) with (1 / b * b)%C by (field; auto). rewrite <- Z. ring. }
  assert (Ht2 : 0 < t ^ 2) by (pose proof (pow2_ge_0 t); pose proof (pow_nonzero t 2 Ht); lra).
  apply Rabs_lt_between. split; nra.
Qed.

(** C22. A layer whose phase k t is a multiple of pi (no factor 2 pi) is
    invisible in reflection, anywhere in any stack. *)
Lemma C22_pi_phase_layer_invisible_proof :
  forall (p : bool) (l1 l2 : list C) (t1 t2 : list R) (e : C) nu0 (nu q k t : R) (m : Z),
  length l1 = (length t1 + 1)%nat -> length l2 = (length t2 + 1)%nat ->
  Forall (fun e => (e * RtoC (nu ^ 2) - RtoC (q ^ 2) <> 0)%C) (l1 ++ e :: l2) ->
  (p = true -> nonzero_below (l1 ++ e :: l2)) ->
  is_kz nu q e (RtoC k) -> k * t = IZR m * PI ->
  refl_coef (stack (l1 ++ e :: l2) (t1 ++ t :: t2) nu0) (Some q) None (Some nu) (pol p)
  = refl_coef (stack (l1 ++ l2) (t1 ++ t2) nu0) (Some q) None (Some nu) (pol p).
Proof.
  intros p l1 l2 t1 t2 e nu0 nu q k t m H1 H2 Hk Hn Kk Hm.
  pose proof (C11_zero_thickness_layer_invisible_proof p l1 l2 t1 t2 e nu0 nu q H1 H2 Hk Hn) as Z.
  unfold refl_coef. rewrite <- Z. clear Z.
  assert (HR : ff_regular p nu q (l1 ++ e :: l2)) by (split; assumption). clear Hk Hn.
  destruct (split_decomp l1 l2 t1 t2 H1 H2) as (a & i1 & i2 & b & -> & -> & -> & ->).
  pose proof (eps_of_app a i1 [(e, 0)] i2 b) as E1. cbn in E1.
  pose proof (eps_of_app a i1 [(e, t)] i2 b) as E2. cbn in E2.
  cbn [app] in *.
  assert (HRt : ff_regular p nu q (eps_of a (i1 ++ (e, t) :: i2) b)) by (rewrite <- E2; exact HR).
  assert (HR0 : ff_regular p nu q (eps_of a (i1 ++ (e, 0) :: i2) b)) by (rewrite <- E1; exact HR).
  pose proof (transfer_matrix_explicit p a (i1 ++ (e, t) :: i2) b nu0 nu q HRt) as Xt.
  pose proof (transfer_matrix_explicit p a (i1 ++ (e, 0) :: i2) b nu0 nu q HR0) as X0.
  rewrite <- E2, map_app in Xt. rewrite <- E1, map_app in X0. cbn [map snd] in Xt, X0.
  rewrite Xt, X0. clear Xt X0. cbn [rbind lift m10 m00].
  assert (HP : exists c : C, c <> RtoC 0 /\ Pff nu q e t = smul c pI).
  { assert (Hs : exists j : Z, (kz nu q e * RtoC t)%C = RtoC (IZR j * PI)).
    { apply is_kz_sign in Kk. destruct Kk as [Kk|Kk].
      - exists m. rewrite <- Kk, <- RtoC_mult, Hm. reflexivity.
      - exists (- m)%Z. replace (kz nu q e) with (- RtoC k)%C by (rewrite Kk; ring).
        rewrite <- RtoC_opp, <- RtoC_mult. f_equal. rewrite opp_IZR.
        replace (- k * t) with (- (k * t)) by ring. rewrite Hm. ring. }
    destruct Hs as [j Hs]. exists (RtoC (cos (IZR j * PI))).
    assert (Hsin : sin (IZR j * PI) = 0) by (apply sin_eq_0_1; exists j; reflexivity).
    split.
    - apply RtoC_neq_0. intros Hc. pose proof (sin2_cos2 (IZR j * PI)) as Q.
      rewrite Hsin, Hc in Q. unfold Rsqr in Q. lra.
    - unfold Pff. rewrite Hs. apply cmat_eq; simpl; try ring.
      + apply C_eq; unfold Cexp, Re, Im; simpl.
        * replace (0 * (IZR j * PI) - -1 * 0) with 0 by ring.
          replace (0 * 0 + -1 * (IZR j * PI)) with (- (IZR j * PI)) by ring.
          rewrite exp_0, cos_neg. ring.
        * replace (0 * (IZR j * PI) - -1 * 0) with 0 by ring.
          replace (0 * 0 + -1 * (IZR j * PI)) with (- (IZR j * PI)) by ring.
          rewrite exp_0, sin_neg, Hsin. ring.
      + apply C_eq; unfold Cexp, Re, Im; simpl.
        * replace (0 * (IZR j * PI) - 1 * 0) with 0 by ring.
          replace (0 * 0 + 1 * (IZR j * PI)) with (IZR j * PI) by ring.
          rewrite exp_0. ring.
        * replace (0 * (IZR j * PI) - 1 * 0) with 0 by ring.
          replace (0 * 0 + 1 * (IZR j * PI)) with (IZR j * PI) by ring.
          rewrite exp_0, Hsin. ring. }
  destruct HP as (c & Hc & HP).
  assert (E : Mff p nu q a (i1 ++ (e, t) :: i2) b = smul c (Mff p nu q a (i1 ++ (e, 0) :: i2) b)).
  { unfold Mff. clear -HP. revert a. induction i1 as [|[x tx] i1 IH]; intros a.
    - cbn [app stackM]. rewrite HP, Pff_0. apply cmat_eq; simpl; ring.
    - cbn [app stackM]. rewrite IH. apply cmat_eq; simpl; ring. }
  rewrite E. cbn [smul c10 c00]. set (M := Mff p nu q a (i1 ++ (e, 0) :: i2) b).
  f_equal. destruct (Ceq_dec (c00 M) 0) as [Z|Z].
  - rewrite Z. replace (c * 0)%C with (RtoC 0) by ring. rewrite !cdiv_zero. reflexivity.
  - rewrite !cdiv_ok by auto. f_equal. field. auto.
Qed.

(** C22. A half-wave film (optical thickness n nu t = 1/2 in wavelengths) is
    NOT invisible, for every real index n other than that of the
    surroundings. *)
Lemma C22_half_wave_film_not_invisible_proof :
  forall (p : bool) (n nu t : R) nu0, 0 < n -> n <> 1 -> 0 < nu -> n * nu * t = 1 / 2 ->
  exists r : C,
    refl_coef (stack [RtoC 1; RtoC (n ^ 2); RtoC 1] [t] nu0) None None (Some nu) (pol p) = Ok (Some r) /\
    r <> RtoC 0.
Proof.
  intros p n nu t nu0 Hn Hn1 Hnu Ht.
  assert (E : refl_coef (stack [RtoC 1; RtoC (n ^ 2); RtoC 1] [t] nu0) None None (Some nu) (pol p)
    = refl_coef (stack [RtoC 1; RtoC (n ^ 2); RtoC 1] [t] nu0) (Some 0) None (Some nu) (pol p)) by reflexivity.
  rewrite E. clear E.
  assert (K1 : kz nu 0 (RtoC 1) = RtoC nu).
  { symmetry. apply is_kz_principal; [apply is_kz_R; ring|apply principal_R; lra]. }
  assert (Kn : kz nu 0 (RtoC (n ^ 2)) = RtoC (n * nu)).
  { symmetry. apply is_kz_principal; [apply is_kz_R; ring|apply principal_R; nra]. }
  assert (HR : ff_regular p nu 0 (eps_of (RtoC 1) [(RtoC (n ^ 2), t)] (RtoC 1))).
  { split.
    - assert (Q : forall x : R, 0 < x -> (RtoC x * RtoC (nu ^ 2) - RtoC (0 ^ 2))%C <> RtoC 0).
      { intros x Hx. rewrite <- RtoC_mult, <- RtoC_minus. apply RtoC_neq_0.
        assert (0 < nu ^ 2) by (apply pow_lt; lra). simpl in *. nra. }
      unfold eps_of; cbn [map app fst]. repeat constructor; apply Q; nra.
    - intros _. unfold eps_of, nonzero_below. cbn [map app fst tl].
      repeat constructor; apply RtoC_neq_0; nra. }
  pose proof (transfer_matrix_explicit p (RtoC 1) [(RtoC (n ^ 2), t)] (RtoC 1) nu0 nu 0 HR) as EM.
  unfold eps_of in EM. cbn [map app fst snd] in EM.
  unfold refl_coef. rewrite EM. cbn [rbind lift m10 m00].
  set (x := if p then / n else n).
  assert (Hx : 0 < x /\ x * x <> 1).
  { unfold x. destruct p.
    - split; [now apply Rinv_0_lt_compat|]. intros Q.
      assert (n * n = 1) by (replace 1 with (/ n * / n * (n * n)) by (field; lra); rewrite Q; ring).
      apply Hn1. nra.
    - split; [auto|]. intros Q. apply Hn1. nra. }
  assert (F1 : ffactor p nu 0 (RtoC 1) (RtoC (n ^ 2)) = RtoC x).
  { unfold ffactor, x. rewrite K1, Kn. destruct p.
    - rewrite <- !RtoC_mult, <- RtoC_div by (apply Rmult_integral_contrapositive; split; [apply pow_nonzero|]; lra).
      f_equal. field. lra.
    - rewrite <- RtoC_div by lra. f_equal. field. lra. }
  assert (F2 : ffactor p nu 0 (RtoC (n ^ 2)) (RtoC 1) = RtoC (/ x)).
  { unfold ffactor, x. rewrite K1, Kn. destruct p.
    - rewrite <- !RtoC_mult, <- RtoC_div by (nra). f_equal. field. lra.
    - rewrite <- RtoC_div by nra. f_equal. field. lra. }
  assert (HM : Mff p nu 0 (RtoC 1) [(RtoC (n ^ 2), t)] (RtoC 1)
     = pmul (pT (RtoC x)) (pmul (pP (Cexp (0, - (1/2))%R) (Cexp (0, 1/2)%R)) (pT (RtoC (/ x))))).
  { unfold Mff. cbn [stackM]. unfold Tff. rewrite F1, F2. f_equal. f_equal. unfold Pff. rewrite Kn.
    rewrite <- RtoC_mult, Ht.
    f_equal; f_equal; apply C_eq; unfold Re, Im; simpl; lra. }
  rewrite HM. clear HM EM HR K1 Kn F1 F2.
  set (c := cos (1/2)). set (sn := sin (1/2)).
  assert (Hpi : 1 / 2 < PI / 2) by (pose proof PI2_1; lra).
  assert (Hc : 0 < c) by (apply cos_gt_0; lra).
  assert (Hsn : 0 < sn) by (apply sin_gt_0; lra).
  assert (Ea : Cexp (0, - (1/2))%R = (c, - sn)%R).
  { unfold Cexp, Re, Im. cbn [fst snd]. rewrite exp_0, cos_neg, sin_neg. unfold c, sn. f_equal; ring. }
  assert (Eb : Cexp (0, 1/2)%R = (c, sn)%R).
  { unfold Cexp, Re, Im. cbn [fst snd]. rewrite exp_0. unfold c, sn. f_equal; ring. }
  rewrite Ea, Eb. clear Ea Eb. destruct Hx as [Hx Hxx].
  assert (H00 : c00 (pmul (pT (RtoC x)) (pmul (pP (c, - sn)%R (c, sn)%R) (pT (RtoC (/ x)))))
     = (c, - sn * (x + / x) / 2)%R).
  { apply C_eq; unfold Re, Im; simpl; field; lra. }
  assert (H10 : c10 (pmul (pT (RtoC x)) (pmul (pP (c, - sn)%R (c, sn)%R) (pT (RtoC (/ x)))))
     = (0, sn * (x - / x) / 2)%R).
  { apply C_eq; unfold Re, Im; simpl; field; lra. }
  rewrite H00, H10. eexists. split.
  - rewrite cdiv_ok by (apply C_neq_0; left; lra). reflexivity.
  - apply Cdiv_neq_0; apply C_neq_0; [right|left; lra].
    intros Q. apply Hxx. assert (Q' : x - / x = 0) by nra.
    replace (x * x) with (x * (x - / x) + 1) by (field; lra). rewrite Q'. ring.
Qed.
