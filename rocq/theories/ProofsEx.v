(** * Concrete cases of the properties of the samples and the tip models *)
From Coq Require Import String Reals Lra Lia ZArith List Bool.
From Coquelicot Require Import Rcomplements Complex.
From Verif Require Import Num NumLemmas LimLemmas ModelBase ModelSample ModelTip StackLemmas Spec
  ProofsStackQS ProofsStackQS2 ProofsStackFF ProofsStackFF2 ProofsBulkFF ProofsSym ProofsPassive
  DemodLemmas ProofsDemod ProofsTip ProofsTip2 ModelRange SpecRange RangeLemmas ProofsRange2.
Import ListNotations.
Open Scope R_scope.

Ltac cne := let H := fresh in intros H; first [apply (f_equal Re) in H | idtac];
  unfold Re in H; simpl in H; lra.
Ltac ceq := apply injective_projections; simpl; field; try lra.

(** C04.  Air above a material of permittivity 2 + 3i: beta = 2/3 + i/3, and back. *)
Lemma C04_example_proof :
  refl_coef_qs_single (rc 1) (Some (2, 3)) = Some (2 / 3, 1 / 3) /\
  permitivitty (Some (2 / 3, 1 / 3)) (rc 1) = Some (2, 3).
Proof.
  assert (E : refl_coef_qs_single (rc 1) (Some (2, 3)) = Some (2 / 3, 1 / 3)).
  { unfold refl_coef_qs_single, rc, csub, cadd. cbn [olift2].
    rewrite cdiv_ok by cne. f_equal. ceq. }
  split; [exact E|]. rewrite <- E. apply C04_permitivitty_inverts_refl_proof; cne.
Qed.

(** C08.  A quarter-wave film: refractive indices 1, 2, 3 at normal incidence,
    wavenumber 1, film thickness pi/4 (round trip phase pi): r_s = -1/7. *)
Lemma quarter_wave : forall s, s * s = 1 ->
  parratt fresnel_s ff_round [(RtoC 1, RtoC 1); (RtoC 4, RtoC (s * 2)); (RtoC 9, RtoC 3)] [PI / 4]
    (RtoC (- 1 / 7)).
Proof.
  intros s Hs.
  assert (Hs2 : s = 1 \/ s = -1).
  { assert (E : (s - 1) * (s + 1) = 0) by lra. apply Rmult_integral in E. lra. }
  assert (HX : ff_round (RtoC 4, RtoC (s * 2)) (PI / 4) = RtoC (-1)).
  { unfold ff_round, Cexp. simpl. unfold Re, Im. simpl.
    match goal with |- context [exp ?a] => replace a with 0 by field end.
    rewrite exp_0.
    destruct Hs2; subst s.
    - replace (_ + _) with PI by field. unfold RtoC. rewrite cos_PI, sin_PI. f_equal; lra.
    - replace (_ + _) with (- PI) by field. unfold RtoC. rewrite cos_neg, sin_neg, cos_PI, sin_PI. f_equal; lra. }
  set (r0 := RtoC ((1 - s * 2) / (1 + s * 2))). set (r1 := RtoC ((s * 2 - 3) / (s * 2 + 3))).
  assert (N1 : 1 + s * 2 <> 0) by (destruct Hs2; lra).
  assert (N2 : s * 2 + 3 <> 0) by (destruct Hs2; lra).
  assert (D : (1 + r0 * (r1 * RtoC (-1)) = RtoC (1 - (1 - s * 2) / (1 + s * 2) * ((s * 2 - 3) / (s * 2 + 3))))%C).
  { unfold r0, r1. rewrite <- !RtoC_mult, <- RtoC_plus. f_equal. field. lra. }
  assert (N3 : 1 - (1 - s * 2) / (1 + s * 2) * ((s * 2 - 3) / (s * 2 + 3)) <> 0).
  { destruct Hs2; subst s.
    - replace (_ - _) with (14 / 15) by field. lra.
    - replace (_ - _) with (-14) by field. lra. }
  replace (RtoC (- 1 / 7)) with
    ((r0 + r1 * ff_round (RtoC 4, RtoC (s * 2)) (PI / 4)) / (1 + r0 * (r1 * ff_round (RtoC 4, RtoC (s * 2)) (PI / 4))))%C.
  - constructor.
    + split; [apply RtoC_neq_0; lra|]. split; [rewrite <- RtoC_plus; apply RtoC_neq_0; exact N1|].
      unfold r0. rewrite <- RtoC_minus, <- RtoC_plus, <- RtoC_div by exact N1. reflexivity.
    + constructor. split; [apply RtoC_neq_0; destruct Hs2; lra|].
      split; [rewrite <- RtoC_plus; apply RtoC_neq_0; exact N2|].
      unfold r1. rewrite <- RtoC_minus, <- RtoC_plus, <- RtoC_div by exact N2. reflexivity.
    + rewrite HX, D. apply RtoC_neq_0. exact N3.
  - rewrite HX, D. unfold r0, r1. rewrite <- RtoC_mult, <- RtoC_plus, <- RtoC_div by exact N3.
    f_equal. destruct Hs2; subst s; field.
Qed.

Lemma C08_example_proof :
  refl_coef (stack [RtoC 1; RtoC 4; RtoC 9] [PI / 4] None) (Some 0) None (Some 1) "s"
  = Ok (Some (RtoC (- 1 / 7))).
Proof.
  apply (C08_refl_coef_is_fresnel_parratt_proof false
    [(RtoC 1, RtoC 1); (RtoC 4, RtoC (1 * 2)); (RtoC 9, RtoC 3)] [PI / 4] None 1 0 (RtoC (- 1 / 7))).
  - repeat (apply Forall_cons; [split; [unfold is_kz; ceq|left; simpl; lra]|]). apply Forall_nil.
  - apply quarter_wave. lra.
Qed.

(** C09.  A film of permittivity 5 and thickness 3 on a lossy substrate 2 + 3i is
    invisible at q = 0; the point-dipole model never sees it. *)
Lemma C09_example_proof :
  refl_coef_qs (stack [RtoC 1; RtoC 5; (2, 3)] [3] None) (rr 0) = Ok (Some (2 / 3, 1 / 3)) /\
  pdm_eff_pol defaults0 (stack [RtoC 1; RtoC 5; (2, 3)] [3] None) None None None None
  = pdm_eff_pol defaults0 (stack [RtoC 1; (2, 3)] [] None) None None None None.
Proof.
  split.
  - destruct (C09_zero_momentum_sees_only_ends_proof (RtoC 1) [RtoC 5] (2, 3) [3] None) as [E _];
      [reflexivity|apply Forall_cons; [cne|apply Forall_nil]|cne|].
    etransitivity; [exact E|]. f_equal. apply C04_example_proof.
  - destruct (C09_pdm_ignores_inner_layers_proof defaults0 (RtoC 1) [RtoC 5] (2, 3) [3] None
      1 2 None None None None None None) as [E _];
      [reflexivity|apply Forall_cons; [cne|apply Forall_nil]|cne|]. exact E.
Qed.

Lemma MAX_16 : 16 <= MAX_EXP_ARG.
Proof.
  change MAX_EXP_ARG with (ln MAXF). rewrite <- (ln_exp 16). apply ln_le; [apply exp_pos|].
  replace 16 with (INR 16 * 1) by (rewrite INR_IZR_INZ; cbn; lra). rewrite <- exp_pow_nat.
  apply Rle_trans with (3 ^ 16).
  - apply pow_incr. pose proof exp_le_3. pose proof (exp_pos 1). lra.
  - apply Rle_trans with (2 ^ 1023); [|exact MAXF_big].
    apply Rle_trans with (4 ^ 16); [apply pow_incr; lra|].
    replace 4 with (2 ^ 2) by ring. rewrite <- pow_mult. apply Rle_pow; [lra|lia].
Qed.

(** C10.  Splitting a film of thickness 3 into 1 + 2, and inserting a layer of
    thickness 0, at momentum 1/2. *)
Lemma C10_example_proof :
  refl_coef_qs (stack [RtoC 1; RtoC 5; RtoC 5; (2, 3)] [1; 2] None) (rr (1 / 2))
  = refl_coef_qs (stack [RtoC 1; RtoC 5; (2, 3)] [1 + 2] None) (rr (1 / 2)) /\
  refl_coef_qs (stack [RtoC 1; RtoC 7; RtoC 5; (2, 3)] [0; 3] None) (rr (1 / 2))
  = refl_coef_qs (stack [RtoC 1; RtoC 5; (2, 3)] [3] None) (rr (1 / 2)).
Proof.
  split.
  - destruct (C10_split_layer_invisible_proof [RtoC 1] [(2, 3)] [] [] (RtoC 5) None (1/2) 1 2) as (_ & E & _);
      try reflexivity; try lra.
    + repeat (apply Forall_cons; [cne|]). apply Forall_nil.
    + pose proof MAX_16. lra.
    + exact E.
  - destruct (C10_zero_thickness_layer_invisible_proof [RtoC 1] [RtoC 5; (2, 3)] [] [3] (RtoC 7) None (1/2))
      as (_ & E & _); try reflexivity.
    + repeat (apply Forall_cons; [cne|]). apply Forall_nil.
    + exact E.
Qed.

(** C11.  The quarter-wave film computed with the other square root in the film. *)
Lemma C11_example_proof :
  parratt fresnel_s ff_round [(RtoC 1, RtoC 1); (RtoC 4, RtoC (-2)); (RtoC 9, RtoC 3)] [PI / 4] (RtoC (- 1 / 7)) /\
  is_kz 1 0 (RtoC 4) (RtoC (-2)) /\ ~ principal (RtoC (-2)) /\
  refl_coef (stack [RtoC 1; RtoC 4; RtoC 9] [PI / 4] None) (Some 0) None (Some 1) "s"
  = Ok (Some (RtoC (- 1 / 7))).
Proof.
  assert (P : parratt fresnel_s ff_round [(RtoC 1, RtoC 1); (RtoC 4, RtoC (-2)); (RtoC 9, RtoC 3)] [PI / 4] (RtoC (- 1 / 7))).
  { replace (-2) with (-1 * 2) by lra. apply quarter_wave. lra. }
  split; [exact P|]. split; [unfold is_kz; ceq|]. split; [intros [H|[H _]]; simpl in H; lra|].
  apply (C11_refl_coef_branch_independent_proof false (RtoC 1, RtoC 1) [(RtoC 4, RtoC (-2))] (RtoC 9, RtoC 3)
    [PI / 4] None 1 0).
  - repeat (apply Forall_cons; [unfold is_kz; ceq|]). apply Forall_nil.
  - left; simpl; lra.
  - left; simpl; lra.
  - exact P.
Qed.

(** C15.  Conjugating 2 + 3i conjugates the reflection 2/3 + i/3. *)
Lemma C15_example_proof :
  refl_coef_qs (stack [RtoC 1; (2, 3)] [] None) (rr 1) = Ok (Some (2 / 3, 1 / 3)) /\
  conj_sample (stack [RtoC 1; (2, 3)] [] None) = stack [RtoC 1; (2, -3)] [] None /\
  refl_coef_qs (stack [RtoC 1; (2, -3)] [] None) (rr 1) = Ok (Some (2 / 3, - (1 / 3))) /\
  real_sample (stack [RtoC 1; RtoC 2; RtoC (-5)] [1] None).
Proof.
  assert (E : refl_coef_qs (stack [RtoC 1; (2, 3)] [] None) (rr 1) = Ok (Some (2 / 3, 1 / 3))).
  { rewrite bulk_qs; [|cne|cne]. f_equal. f_equal. ceq. }
  assert (E2 : conj_sample (stack [RtoC 1; (2, 3)] [] None) = stack [RtoC 1; (2, -3)] [] None).
  { unfold conj_sample, stack. cbn. repeat f_equal. unfold Cconj, RtoC. simpl. f_equal. lra. }
  split; [exact E|]. split; [exact E2|]. split.
  - destruct (C15_conj_refl_trans_qs_proof (stack [RtoC 1; (2, 3)] [] None) (rr 1)) as [H _].
    rewrite E2, E in H. rewrite H. reflexivity.
  - unfold real_sample, stack. cbn. repeat (apply Forall_cons; [eexists; reflexivity|]). apply Forall_nil.
Qed.

(** C16.  A film seen from both sides: at q = 0 the two transmissions are 4/3
    and 2/3 = (1/2) 4/3; for the quarter-wave film the ratio is 3. *)
Lemma C16_example_proof :
  trans_coef_qs (stack [RtoC 1; RtoC 5; RtoC 2] [3] None) (rr 0) = Ok (rc (4 / 3)) /\
  trans_coef_qs (stack [RtoC 2; RtoC 5; RtoC 1] [3] None) (rr 0) = Ok (rc (2 / 3)) /\
  trans_coef (stack [RtoC 9; RtoC 4; RtoC 1] [PI / 4] None) (Some 0) None (Some 1) "s"
  = (let! t := trans_coef (stack [RtoC 1; RtoC 4; RtoC 9] [PI / 4] None) (Some 0) None (Some 1) "s" in
     Ok (rc 3 * t)%cv).
Proof.
  assert (E : trans_coef_qs (stack [RtoC 1; RtoC 5; RtoC 2] [3] None) (rr 0) = Ok (rc (4 / 3))).
  { destruct (C09_zero_momentum_sees_only_ends_proof (RtoC 1) [RtoC 5] (RtoC 2) [3] None) as [_ E];
      [reflexivity|apply Forall_cons; [cne|apply Forall_nil]|cne|].
    etransitivity; [exact E|]. rewrite cdiv_ok by cne. unfold rc. do 2 f_equal. ceq. }
  split; [exact E|]. split.
  - pose proof (C16_reciprocity_qs_proof (RtoC 1) [RtoC 5] (RtoC 2) [3] None 0) as H.
    cbn [app rev length] in H. rewrite H.
    + rewrite E. cbn [rbind]. unfold rc, cmul. cbn [olift2]. do 2 f_equal. ceq.
    + reflexivity.
    + repeat (apply Forall_cons; [cne|]). apply Forall_nil.
  - pose proof (C16_reciprocity_proof false (RtoC 1) [RtoC 4] (RtoC 9) [PI / 4] None 1 0 (RtoC 1) (RtoC 3)) as H.
    cbn [app rev length pol] in H. rewrite H.
    + destruct (trans_coef (stack [RtoC 1; _; _] _ _) _ _ _ _); [|reflexivity]. cbn [rbind]. do 2 f_equal. unfold rc. f_equal. ceq.
    + reflexivity.
    + repeat (apply Forall_cons; [cne|]). apply Forall_nil.
    + discriminate.
    + unfold is_kz; ceq.
    + left; simpl; lra.
    + unfold is_kz; ceq.
    + left; simpl; lra.
Qed.

(** C17.  A 20 nm film given in metres, and the same film in nanometres. *)
Lemma C17_example_proof :
  let k := 10 ^ 9 in
  refl_coef_qs (stack [RtoC 1; RtoC 5; (2, 3)] [k * (20 / 10 ^ 9)] None) (rr (50000000 / k))
  = refl_coef_qs (stack [RtoC 1; RtoC 5; (2, 3)] [20 / 10 ^ 9] None) (rr 50000000) /\
  k * (20 / 10 ^ 9) = 20 /\ 50000000 / k = 1 / 20.
Proof.
  intros k. split; [|split; unfold k; lra].
  destruct (C17_units_refl_trans_qs_proof k (stack [RtoC 1; RtoC 5; (2, 3)] [20 / 10 ^ 9] None) 50000000) as [H _].
  - unfold k. lra.
  - exact H.
Qed.

(** C18.  A film without a wavenumber; momentum and angle both given; a
    misspelled polarization. *)
Lemma C18_example_proof :
  let s := stack [RtoC 1; RtoC 4; RtoC 9] [PI / 4] None in
  refl_coef s (Some 0) (Some 0) None "P"
  = Raise (ValueError "`nu_vac` must not be None for multilayer samples.") /\
  refl_coef s (Some 0) (Some 0) (Some 1) "P" = Raise (ValueError "Either `theta_in` or `q` must be None.") /\
  refl_coef s (Some 0) None (Some 1) "P" = Raise (ValueError "`polarization` must be 's' or 'p'") /\
  refl_coef s (Some 0) None (Some 1) "s" = Ok (rc (- 1 / 7)).
Proof.
  intros s.
  assert (HN : (2 <= n_layers s)%nat) by (cbn; lia).
  split; [|split; [|split]].
  - refine (proj1 (proj2 (proj1 (C18_far_field_errors_proof s (Some 0) (Some 0) None "P" HN) _))).
    cbn. repeat split; lia.
  - refine (proj1 (proj2 (proj1 (proj2 (C18_far_field_errors_proof s (Some 0) (Some 0) (Some 1) "P" HN)) _ _))).
    + intros [H _]. discriminate.
    + split; discriminate.
  - refine (proj1 (proj2 (proj1 (proj2 (proj2 (C18_far_field_errors_proof s (Some 0) None (Some 1) "P" HN))) _ _ _))).
    + intros [H _]. discriminate.
    + intros [_ H]. apply H. reflexivity.
    + split; discriminate.
  - apply C08_example_proof.
Qed.

(** C19.  At normal incidence any wavenumber gives -1/3 for air on index 2; at
    the explicit momentum 12 the wavenumbers 20 and 15 give -13/45 and -5/13. *)
Lemma C19_example_proof :
  refl_coef (stack [RtoC 1; RtoC 4] [] None) None None (Some 7) "s" = Ok (rc (- 1 / 3)) /\
  refl_coef (stack [RtoC 1; RtoC (197 / 80)] [] None) (Some 12) None (Some 20) "s" = Ok (rc (- 13 / 45)) /\
  refl_coef (stack [RtoC 1; RtoC (197 / 80)] [] None) (Some 12) None (Some 15) "s" = Ok (rc (- 5 / 13)).
Proof.
  split; [|split].
  - destruct (C19_wavenumber_irrelevant_proof (rc 1) (rc 4) None None (Some 7) None None "s") as [H _];
      try (intros v Hv; inversion Hv; lra).
    etransitivity; [exact H|]. apply C20_example_proof.
  - apply (C08_refl_coef_is_fresnel_parratt_proof false
      [(RtoC 1, RtoC 16); (RtoC (197 / 80), RtoC 29)] [] None 20 12 (RtoC (- 13 / 45))).
    + repeat (apply Forall_cons; [split; [unfold is_kz; ceq|left; simpl; lra]|]). apply Forall_nil.
    + constructor. repeat split; try cne. ceq.
  - apply (C08_refl_coef_is_fresnel_parratt_proof false
      [(RtoC 1, RtoC 9); (RtoC (197 / 80), RtoC (81 / 4))] [] None 15 12 (RtoC (- 5 / 13))).
    + repeat (apply Forall_cons; [split; [unfold is_kz; ceq|left; simpl; lra]|]). apply Forall_nil.
    + constructor. repeat split; try cne. ceq.
Qed.

(** C21.  A film of permittivity 5 and thickness 2 on 2 + 3i at momentum 1/2. *)
Lemma C21_example_proof :
  refl_coef (stack [RtoC 1; RtoC 5; (2, 3)] [2] None) (Some (1 / 2)) None (Some 0) "p"
  = refl_coef_qs (stack [RtoC 1; RtoC 5; (2, 3)] [2] None) (rr (1 / 2)).
Proof.
  apply (C21_quasistatic_is_zero_wavenumber_proof [RtoC 1; RtoC 5; (2, 3)] [2] None (1 / 2)).
  - reflexivity.
  - repeat (apply Forall_cons; [cne|]). apply Forall_nil.
  - lra.
  - apply Forall_cons; [|apply Forall_nil]. rewrite Rabs_pos_eq by lra. pose proof MAX_16. lra.
Qed.

(** C22.  An index-2 film of thickness pi/2 at wavenumber 1 (phase pi) is
    invisible: r_s = (1 - 3) / (1 + 3); the half-wave film of thickness 1/4 is not. *)
Lemma C22_example_proof :
  refl_coef (stack [RtoC 1; RtoC 4; RtoC 9] [PI / 2] None) (Some 0) None (Some 1) "s" = Ok (rc (- 1 / 2)) /\
  (exists r, refl_coef (stack [RtoC 1; RtoC (2 ^ 2); RtoC 1] [1 / 4] None) None None (Some 1) "s" = Ok (Some r)
             /\ r <> RtoC 0) /\
  (exists r : R, refl_coef (stack [RtoC 4; RtoC 9] [] None) None (Some (PI / 2)) (Some 1) "s" = Ok (rc r)
                 /\ Rabs r < 1).
Proof.
  split; [|split].
  - etransitivity.
    + apply (C22_pi_phase_layer_invisible_proof false [RtoC 1] [RtoC 9] [] [] (RtoC 4) None 1 0 2 (PI / 2) 1).
      * reflexivity.
      * reflexivity.
      * repeat (apply Forall_cons; [cne|]). apply Forall_nil.
      * discriminate.
      * unfold is_kz; ceq.
      * lra.
    + apply (C08_refl_coef_is_fresnel_parratt_proof false
        [(RtoC 1, RtoC 1); (RtoC 9, RtoC 3)] [] None 1 0 (RtoC (- 1 / 2))).
      * repeat (apply Forall_cons; [split; [unfold is_kz; ceq|left; simpl; lra]|]). apply Forall_nil.
      * constructor. repeat split; try cne. ceq.
  - apply (C22_half_wave_film_not_invisible_proof false 2 1 (1 / 4) None); lra.
  - apply (C22_grazing_incidence_not_total_proof false 4 9 1 None); lra.
Qed.

(** the one-node Gauss-Laguerre rule *)
Definition one_node : laggauss_t := fun _ => [(1, 1)].
Lemma one_node_rule n : laguerre_rule (one_node n).
Proof.
  unfold laguerre_rule, one_node. cbn. repeat split; try lra.
  apply Forall_cons; [cbn; lra|apply Forall_nil].
Qed.

(** a film of permittivity 5 and thickness ln 2 on a substrate 2, at momentum 1:
    interfaces 2/3 and -3/7, round trip 1/4, reflection 47/78 *)
Lemma film_47_78 nu : refl_coef_qs (stack [RtoC 1; RtoC 5; RtoC 2] [ln 2] nu) (rr 1) = Ok (rc (47 / 78)).
Proof.
  assert (HX : qs_round 1 (RtoC 5) (ln 2) = RtoC (/ 4)).
  { unfold qs_round. f_equal. replace (-2 * 1 * ln 2) with (- (ln 2 + ln 2)) by ring.
    rewrite exp_Ropp, exp_plus, exp_ln by lra. lra. }
  apply C07_refl_coef_qs_is_parratt_proof.
  - replace (RtoC (47 / 78)) with ((RtoC (2 / 3) + RtoC (- 3 / 7) * qs_round 1 (RtoC 5) (ln 2))
      / (1 + RtoC (2 / 3) * (RtoC (- 3 / 7) * qs_round 1 (RtoC 5) (ln 2))))%C.
    + constructor.
      * repeat split; try cne. ceq.
      * constructor. repeat split; try cne. ceq.
      * rewrite HX. cne.
    + rewrite HX. ceq.
  - apply Forall_cons; [|apply Forall_nil]. pose proof MAX_16. pose proof ln_lt_2.
    assert (ln 2 <= 1). { rewrite <- (ln_exp 1). apply ln_le; [lra|]. pose proof (exp_ineq1_le 1). lra. }
    rewrite Rabs_pos_eq; lra.
Qed.

(** C24.  With one node the average over that film is its reflection at momentum
    1 / (2 z): for z = 1/2 that is q = 1. *)
Lemma C24_example_proof :
  laguerre_rule (one_node 1%nat) /\
  refl_coef_qs_above_surf one_node defaults0 (stack [RtoC 1; RtoC 5; RtoC 2] [ln 2] None) (rr (1 / 2)) (Some 1%nat)
  = Ok (rc (47 / 78)).
Proof.
  split; [apply one_node_rule|].
  rewrite (above_ok _ _ _ _ _ (fun _ => RtoC (47 / 78))).
  - unfold rc. do 2 f_equal. ceq.
  - discriminate.
  - lra.
  - intros xw [<-|[]]. cbn [fst]. replace (1 / (2 * (1 / 2))) with 1 by field. apply film_47_78.
  - destruct (refl_coef_qs (stack [RtoC 1; RtoC 5; RtoC 2] [ln 2] None) (rr (1 / 2))) eqn:E; [eauto|discriminate].
Qed.

(** C25.  The three methods on silicon-like permittivity 12 under vacuum, with
    the default tip and one quadrature node. *)
Lemma C25_example_proof :
  let alpha := fdm_eff_pol one_node defaults0 (stack [RtoC 1; RtoC 12] [] None)
                 None None None None None None None (Some 1%nat) in
  alpha (Some "Q_ave"%string) = alpha (Some "bulk"%string) /\
  alpha (Some "multi"%string) = alpha (Some "bulk"%string).
Proof.
  intros alpha.
  destruct (C25_methods_agree_proof one_node defaults0 (RtoC 1) (RtoC 12) None None None None None None None None (Some 1%nat))
    as (_ & H1 & H2); cbn [given_or defaults0 d_z_tip d_r_tip d_L_tip d_d_Q1 d_d_Qa]; try lra.
  - discriminate.
  - apply one_node_rule.
  - cne.
  - cne.
  - split; [exact H1|apply H2; cne].
Qed.

(** C38.  With 5 intervals the seventh harmonic of (x - 7)^2 around 7 with
    amplitude 6 is minus the second, -9, instead of 0. *)
Lemma C38_example_proof :
  demod defaults0 (fun x => Ok (Some (poly (fun m => if Nat.eqb m 2 then RtoC 1 else RtoC 0) 3 (x - 7)))) 7 6 7 (Some 5%nat)
  = Ok (Some (RtoC (- 9))).
Proof.
  etransitivity; [exact (C38_aliasing_proof defaults0 _ 7 6 2 1 (Some 5%nat))|].
  rewrite C37_example_proof. cbn. unfold rc, cmul. cbn. do 2 f_equal. ceq.
Qed.

(** C41.  A film and its substrate give the same demodulated point-dipole signal;
    a tip that does not move has no second harmonic. *)
Lemma C41_example_proof :
  pdm_eff_pol_n defaults0 (stack [RtoC 1; RtoC 5; (2, 3)] [3] None) (50 / 10 ^ 9) 2 (Some 0) None None None None
  = pdm_eff_pol_n defaults0 (stack [RtoC 1; (2, 3)] [] None) (50 / 10 ^ 9) 2 (Some 0) None None None None /\
  pdm_eff_pol_n defaults0 (stack [RtoC 1; RtoC 2; RtoC 3] [5 / 10 ^ 9] None) 0 2 (Some 0) None None None None
  = Ok (rc 0).
Proof.
  split.
  - apply C41_pdm_tapping_range_proof.
    + apply Rlt_le, Rdiv_lt_0_compat; lra.
    + intros z _.
      destruct (C09_pdm_ignores_inner_layers_proof defaults0 (RtoC 1) [RtoC 5] (2, 3) [3] None
        1 2 (Some z) None None None None None) as [E _];
      [reflexivity|apply Forall_cons; [cne|apply Forall_nil]|cne|]. exact E.
  - destruct C27_example_proof as (_ & _ & _ & _ & E).
    refine (proj2 (C41_no_tapping_proof one_node defaults0 _ 0 2 None None None None None None None None None None None _ _ _) E).
    + discriminate.
    + right. intros [k H]. cbn in H. lia.
Qed.
