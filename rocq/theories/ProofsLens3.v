(** * A lens too thick for its object (C101, continued) *)
From Coq Require Import String Reals Lra Lia ZArith List Bool.
From Coquelicot Require Import Coquelicot.
From Coq Require Import List.
From Verif Require Import Num NumLemmas ModelBase ModelSample ModelTip StackLemmas Spec SpecQuad SpecLens Laguerre2 ProofsStackQS ProofsStackQS2 ProofsSym ProofsPassive ProofsEx ProofsQuad2 ProofsLens ProofsLens2.
Import ListNotations.
Open Scope R_scope.

Lemma qsum_plus f g r : qsum (fun x => f x + g x) r = qsum f r + qsum g r.
Proof. unfold qsum. induction r as [|[x w] r IH]; cbn [map fold_right fst snd]; [ring|]. rewrite IH. ring. Qed.
Lemma qsum_scal c f r : qsum (fun x => f x * c) r = qsum f r * c.
Proof. unfold qsum. induction r as [|[x w] r IH]; cbn [map fold_right fst snd]; [ring|]. rewrite IH. ring. Qed.
Lemma qsum_ext f g r : (forall x, f x = g x) -> qsum f r = qsum g r.
Proof. intros H. unfold qsum. f_equal. apply map_ext. intros. now rewrite H. Qed.
Lemma qsum_mono f g r : Forall (fun xw => 0 < fst xw /\ 0 < snd xw) r -> (forall x, 0 < x -> f x <= g x) -> qsum f r <= qsum g r.
Proof.
  intros P H. unfold qsum. induction P as [|[x w] r [Hx Hw] _ IH]; cbn [map fold_right fst snd] in *; [lra|].
  apply Rplus_le_compat; [|exact IH]. apply Rmult_le_compat_l; [lra|now apply H].
Qed.
Lemma qsum_taylor J rule : (0 < J)%nat -> documented_rule J rule -> forall m, (S m < 2 * J)%nat ->
  qsum (fun x => x * sum_f_R0 (fun k => x ^ k / INR (fact k)) m) rule = INR (S m) * INR (S (S m)) / 2.
Proof.
  intros HJ HR. destruct (documented_exact J rule HJ HR) as [_ EX].
  assert (T : forall k, (S k < 2 * J)%nat -> qsum (fun x => x * (x ^ k / INR (fact k))) rule = INR (S k)).
  { intros k Hk. rewrite (qsum_ext _ (fun x => x ^ S k * / INR (fact k))) by (intros x; cbn [pow]; unfold Rdiv; ring).
    rewrite qsum_scal, EX by exact Hk. rewrite fact_simpl, mult_INR. field. apply INR_fact_neq_0. }
  induction m as [|m IH]; intros Hm.
  - cbn [sum_f_R0]. rewrite (T 0%nat Hm). cbn [INR]. lra.
  - cbn [sum_f_R0]. rewrite (qsum_ext _ (fun x => x * sum_f_R0 (fun k => x ^ k / INR (fact k)) m + x * (x ^ S m / INR (fact (S m))))) by (intros x; ring).
    rewrite qsum_plus, IH, T by lia. rewrite !S_INR. field.
Qed.
Lemma exp_mon x y : x <= y -> exp x <= exp y.
Proof. intros [H|E]; [left; now apply exp_increasing|subst; lra]. Qed.
Lemma lens_sum (b : C) (z d : R) r :
  Csum (map (fun xw => RtoC (snd xw * fst xw) * (RtoC (exp (2 * (fst xw / (2 * z)) * d)) * b))%C r)
  = (RtoC (qsum (fun x => x * exp (2 * (x / (2 * z)) * d))%R r) * b)%C.
Proof.
  unfold Csum, qsum. induction r as [|[x w] r IH]; cbn [map fold_right fst snd]; [ring|]. rewrite IH, RtoC_plus, !RtoC_mult. ring.
Qed.

(** C101. A lens at least as thick as the height of the charge: the documented average of the reflection coefficient does not exist
    (its integral diverges), and what refl_coef_qs_above_surf returns for n nodes is at least n (2n - 1) times the reflection of the
    sample below the lens: it grows without bound with n_lag. *)
Lemma C101_thick_lens_proof :
  forall (laggauss : laggauss_t) (D : Defaults) (e en : C) nu (d z : R) (n : nat),
  let b := ((en - e) / (en + e))%C in
  (0 < n)%nat -> documented_rule n (laggauss n) -> e <> RtoC 0 -> en <> RtoC 0 -> (en + e <> 0)%C -> en <> e ->
  0 < z <= d -> Forall (fun xw => fst xw * d / (2 * z) <= MAX_EXP_ARG) (laggauss n) ->
  (exists v, refl_coef_qs_above_surf laggauss D (stack [e; (- e)%C; en] [d] nu) (rr z) (Some n) = Ok (Some v) /\
     INR n * (2 * INR n - 1) * Cmod b <= Cmod v) /\
  (forall q, 0 <= q -> q * d <= MAX_EXP_ARG -> refl_coef_qs (stack [e; (- e)%C; en] [d] nu) (rr q) = Ok (Some (RtoC (exp (2 * q * d)) * b)%C)) /\
  (forall l, ~ Cintegral_to_infinity (fun q => (RtoC (exp (2 * q * d)) * b) * RtoC (q * exp (- 2 * z * q)))%C l).
Proof.
  intros lg D e en nu d z n b Hn HR He Hen Hs Hne Hz HM.
  assert (P : forall q, 0 <= q -> q * d <= MAX_EXP_ARG -> refl_coef_qs (stack [e; (- e)%C; en] [d] nu) (rr q) = Ok (Some (RtoC (exp (2 * q * d)) * b)%C)).
  { intros q Hq Hqd. assert (Hs' : (e + en)%C <> RtoC 0) by (rewrite Cplus_comm; exact Hs).
    assert (B1 : refl_coef_qs (stack [e; en] [] nu) (rr q) = Ok (Some b)).
    { rewrite (proj1 (C12_bulk_refl_independent_of_q_proof e en nu (rr q) Hen)). f_equal. unfold refl_coef_qs_single, cadd, csub. cbn [olift2]. rewrite cdiv_ok by assumption. unfold b. reflexivity. }
    assert (B2 : exists t, trans_coef_qs (stack [e; en] [] nu) (rr q) = Ok (Some t)).
    { change (stack [e; en] [] nu) with (qs_sample e [] en nu) in *. rewrite refl_coef_qs_struct in B1 by (repeat constructor; assumption). rewrite trans_coef_qs_struct by (repeat constructor; assumption).
      destruct (Ceq_dec (c00 (Mqs q e [] en)) (RtoC 0)) as [Z|Z]; [rewrite Z, cdiv_zero in B1; discriminate|]. unfold rc. rewrite cdiv_ok by exact Z. eauto. }
    destruct B2 as [t B2]. refine (proj1 (C101_lens_amplifies_proof e [en] [] nu d q b t eq_refl He _ _ B1 B2)); [repeat constructor; exact Hen|].
    rewrite Rabs_pos_eq; [exact Hqd|]. apply Rmult_le_pos; lra. }
  assert (B0 : b <> RtoC 0).
  { unfold b. apply Cdiv_neq_0; [|exact Hs]. intros X. apply Hne. replace en with ((en - e) + e)%C by ring. rewrite X. ring. }
  split; [|split; [exact P|]].
  - destruct (documented_exact n (lg n) Hn HR) as [PO _].
    assert (V : refl_coef_qs_above_surf lg D (stack [e; (- e)%C; en] [d] nu) (rr z) (Some n)
      = Ok (Some (Csum (map (fun xw => RtoC (snd xw * fst xw) * (fun q => (RtoC (exp (2 * q * d)) * b)%C) (fst xw / (2 * z))%R)%C (lg (dflt (d_n_lag D) (Some n))))))).
    { apply (above_ok lg D (stack [e; (- e)%C; en] [d] nu) z (Some n) (fun q => RtoC (exp (2 * q * d)) * b)%C); [cbn [dflt]; lia|lra| |].
      - cbn [dflt]. intros xw Hin. rewrite Forall_forall in PO, HM. destruct (PO xw Hin) as [Px _]. specialize (HM xw Hin). apply P.
        + apply Rlt_le, Rdiv_lt_0_compat; lra.
        + replace (fst xw / (2 * z) * d) with (fst xw * d / (2 * z)) by (field; lra). exact HM.
      - apply (refl_qs_ok_indep _ (rr 0) _ (P 0 ltac:(lra) ltac:(rewrite Rmult_0_l; pose proof MAX_pos; lra))). }
    eexists. split; [exact V|]. cbn [dflt]. cbv beta. rewrite (lens_sum b z d (lg n)). rewrite Cmod_mult, Cmod_R. apply Rmult_le_compat_r; [apply Cmod_ge_0|].
    apply Rle_trans with (qsum (fun x => x * sum_f_R0 (fun k => x ^ k / INR (fact k)) (2 * n - 2)) (lg n)).
    + rewrite (qsum_taylor n (lg n) Hn HR) by lia. replace (S (2 * n - 2))%nat with (2 * n - 1)%nat by lia. rewrite S_INR, minus_INR, mult_INR by lia. cbn [INR]. lra.
    + eapply Rle_trans; [|apply Rle_abs]. apply qsum_mono; [exact PO|]. intros x Hx. apply Rmult_le_compat_l; [lra|].
      eapply Rle_trans; [apply exp_ge_taylor; lra|]. apply exp_mon. replace (2 * (x / (2 * z)) * d) with (x * (d / z)) by (field; lra).
      assert (1 <= d / z) by (apply Rle_div_r; lra). assert (x * 1 <= x * (d / z)) by (apply Rmult_le_compat_l; lra). lra.
  - assert (RL : forall c l, c <> 0 -> ~ integral_to_infinity (fun q => c * (q * exp (2 * q * (d - z)))) l).
    { intros c l Hc [X1 X2]. 
      assert (EX : forall B, 0 <= B -> ex_RInt (fun q => q * exp (2 * q * (d - z))) 0 B) by (intros B _; apply (ex_RInt_continuous (V := R_CompleteNormedModule)); intros x _; apply (ex_derive_continuous (V := R_NormedModule)); auto_derive; trivial).
      assert (LB : forall B, 0 <= B -> B ^ 2 / 2 <= RInt (fun q => q * exp (2 * q * (d - z))) 0 B).
      { intros B HB. assert (I : is_RInt (fun q => q) 0 B (B ^ 2 / 2 - 0 ^ 2 / 2)).
        { apply (is_RInt_derive (fun q => q ^ 2 / 2)); [intros x _; auto_derive; [trivial|field]|intros x _; apply continuous_id]. }
        apply (is_RInt_unique (V := R_CompleteNormedModule)) in I. assert (EI : @eq R (RInt (fun q => q) 0 B) (B ^ 2 / 2)) by (eapply eq_trans; [exact I|cbn; lra]). rewrite <- EI.
        apply RInt_le; [exact HB|apply (ex_RInt_continuous (V := R_CompleteNormedModule)); intros; apply continuous_id|now apply EX|].
        intros x Hx. assert (1 <= exp (2 * x * (d - z))). { rewrite <- exp_0. apply exp_mon. assert (0 <= x * (d - z)) by (apply Rmult_le_pos; lra). lra. }
        assert (x * 1 <= x * exp (2 * x * (d - z))) by (apply Rmult_le_compat_l; lra). lra. }
      apply is_lim_spec in X2. specialize (X2 (mkposreal 1 Rlt_0_1)). destruct X2 as [M HMM]. cbn [pos] in HMM.
      set (B := Rmax (M + 1) (Rmax 1 (2 * ((Rabs l + 2) / Rabs c)))).
      assert (B1 : M < B) by (unfold B; pose proof (Rmax_l (M + 1) (Rmax 1 (2 * ((Rabs l + 2) / Rabs c)))); lra).
      assert (B2 : 1 <= B) by (unfold B; eapply Rle_trans; [|apply Rmax_r]; apply Rmax_l).
      assert (B3 : 2 * ((Rabs l + 2) / Rabs c) <= B) by (unfold B; eapply Rle_trans; [|apply Rmax_r]; apply Rmax_r).
      specialize (HMM B B1). specialize (LB B ltac:(lra)). specialize (EX B ltac:(lra)).
      assert (Q : RInt (fun q => c * (q * exp (2 * q * (d - z)))) 0 B = c * RInt (fun q => q * exp (2 * q * (d - z))) 0 B) by (apply (RInt_scal (fun q => q * exp (2 * q * (d - z)))); exact EX).
      rewrite Q in HMM. set (I := RInt _ 0 B) in *. pose proof (Rabs_pos_lt c Hc) as PC.
      assert (A : Rabs c * I <= Rabs l + 1).
      { replace (Rabs c * I) with (Rabs (c * I)) by (rewrite Rabs_mult, (Rabs_pos_eq I); [reflexivity|nra]).
        replace (c * I) with ((c * I - l) + l) by ring. eapply Rle_trans; [apply Rabs_triang|]. lra. }
      assert (B * 1 <= B * B) by (apply Rmult_le_compat_l; lra).
      assert (C1 : (Rabs l + 2) / Rabs c <= I) by nra.
      apply Rle_div_l in C1; [|exact PC]. lra. }
    intros l [H1 H2].
    assert (NZ : Re b <> 0 \/ Im b <> 0).
    { destruct (Req_dec (Re b) 0) as [E1|E1]; [right|left; exact E1]. intros E2. apply B0. destruct b as [x y]. cbn in *. subst. reflexivity. }
    assert (F : forall c q, c * (q * exp (2 * q * (d - z))) = c * exp (2 * q * d) * (q * exp (- 2 * z * q))).
    { intros c q. replace (2 * q * (d - z)) with (2 * q * d + - 2 * z * q) by ring. rewrite exp_plus. ring. }
    assert (IE : forall f g m, (forall x, f x = g x) -> integral_to_infinity f m -> integral_to_infinity g m).
    { intros f g m E [I1 I2]. split.
      - intros B HB. apply (ex_RInt_ext f); [intros; apply E|now apply I1].
      - apply (is_lim_ext (fun B => RInt f 0 B)); [|exact I2]. intros B. apply RInt_ext. intros; apply E. }
    destruct NZ as [NZ|NZ].
    + apply (RL _ (Re l) NZ). refine (IE _ _ _ _ H1). intros x. rewrite F. destruct b as [b1 b2]. cbn. ring.
    + apply (RL _ (Im l) NZ). refine (IE _ _ _ _ H2). intros x. rewrite F. destruct b as [b1 b2]. cbn. ring.
Qed.

(** C101, a case: one node (x = w = 1), lens of permittivity -1 and thickness 2 on glass of permittivity 3, charge at height 1. *)
Lemma C101_thick_lens_example_proof : forall (D : Defaults) nu,
  let lg : laggauss_t := fun _ => [(1, 1)] in
  documented_rule 1 (lg 1%nat) /\ Forall (fun xw => fst xw * 2 / (2 * 1) <= MAX_EXP_ARG) (lg 1%nat) /\
  exists v, refl_coef_qs_above_surf lg D (stack [RtoC 1; (- RtoC 1)%C; RtoC 3] [2] nu) (rr 1) (Some 1%nat) = Ok (Some v) /\ 1 / 2 <= Cmod v.
Proof.
  intros D nu lg. destruct C58_example_proof as [HR _].
  assert (F : Forall (fun xw => fst xw * 2 / (2 * 1) <= MAX_EXP_ARG) (lg 1%nat)) by (constructor; [cbn [fst]; pose proof MAX_16; lra|constructor]).
  split; [exact HR|]. split; [exact F|].
  assert (N1 : RtoC 1 <> RtoC 0) by (intros X; apply RtoC_inj in X; lra). assert (N3 : RtoC 3 <> RtoC 0) by (intros X; apply RtoC_inj in X; lra).
  assert (N4 : (RtoC 3 + RtoC 1)%C <> RtoC 0) by (rewrite <- RtoC_plus; intros X; apply RtoC_inj in X; lra).
  assert (N5 : RtoC 3 <> RtoC 1) by (intros X; apply RtoC_inj in X; lra).
  destruct (C101_thick_lens_proof lg D (RtoC 1) (RtoC 3) nu 2 1 1 ltac:(lia) HR N1 N3 N4 N5 ltac:(lra) F) as [(v & E & B) _].
  exists v. split; [exact E|]. replace ((RtoC 3 - RtoC 1) / (RtoC 3 + RtoC 1))%C with (RtoC (1 / 2)) in B.
  - rewrite Cmod_R, Rabs_pos_eq in B by lra. cbn [INR] in B. lra.
  - rewrite <- RtoC_minus, <- RtoC_plus, <- RtoC_div by lra. f_equal. lra.
Qed.
