From Coq Require Import String Reals Lra Lia ZArith List Bool.
From Coquelicot Require Import Rcomplements Complex.
From Verif Require Import Num ModelBase ModelSample ModelTip NumLemmas ModelInt SpecInt ProofsInt ProofsInt2 ProofsInt3.
Import ListNotations.
Open Scope R_scope.

Lemma cdiv_nz a b : b <> RtoC 0 -> (Some a / Some b)%cv = Some (a / b)%C.
Proof. intros H. now apply cdiv_ok. Qed.
Lemma csqrt_pos y : 0 <= y -> csqrt (rc y) = rc (sqrt y).
Proof.
  intros H. unfold csqrt, rc. cbn [olift1]. f_equal. unfold Csqrt.
  rewrite Cmod_R. cbn [Re Im RtoC fst snd]. rewrite Rabs_pos_eq by lra.
  replace ((y + y) / 2) with y by field. replace ((y - y) / 2) with 0 by field.
  rewrite sqrt_0. destruct (Rle_dec 0 0); unfold RtoC; f_equal; ring.
Qed.

(** the s-polarised transfer matrix of one interface *)
Lemma bulk_s (n1 n2 : C) : n1 <> RtoC 0 -> (n1 + n2)%C <> RtoC 0 ->
  let M := trans_matrix (Some n2 / Some n1)%cv in
  (m10 M / m00 M)%cv = Some ((n1 - n2) / (n1 + n2))%C.
Proof.
  intros H1 H2. cbn zeta. rewrite cdiv_nz by exact H1. unfold trans_matrix, rc. cbn [m10 m00 cadd cmul olift2].
  rewrite !(cdiv_nz _ (RtoC 2)) by apply C2_neq_0.
  rewrite cdiv_nz.
  - f_equal. replace (RtoC (-1)) with (- RtoC 1)%C by (rewrite <- RtoC_opp; f_equal; lra).
    assert (H3 : (n2 + n1)%C <> RtoC 0) by (intros E; apply H2; rewrite <- E; ring).
    field. repeat split; try assumption; apply C2_neq_0.
  - intros E. apply H2. transitivity (RtoC 2 * n1 * ((RtoC 1 + RtoC 1 * (n2 / n1)) / RtoC 2))%C.
    + field. repeat split; try exact H1; apply C2_neq_0.
    + rewrite E. ring.
Qed.

(** An integer does not always give what the equal float gives: not even if it is
    stored exactly, in 64 bits. *)
Lemma C88_integers_are_floats_refuted_proof : ~ (forall s q nu pol,
  fits (Word 64 true) q -> fits (Word 64 true) nu ->
  i_refl_coef (Word 64 true) s (Some (I q)) None (Some (I nu)) pol
  = refl_coef (in_floats s) (Some (IZR q)) None (Some (IZR nu)) pol).
Proof.
  intros H. specialize (H (mkIS [rc 1; rc 9] [] None) (2 ^ 32)%Z (2 ^ 31)%Z "s"%string).
  assert (F1 : fits (Word 64 true) (2 ^ 32)) by (cbn; lia).
  assert (F2 : fits (Word 64 true) (2 ^ 31)) by (cbn; lia).
  specialize (H F1 F2).
  assert (Hn : power_fits (Word 64 true) 2 (I (2 ^ 31))) by (cbn; lia).
  assert (Hq : same_bits 64 ((2 ^ 32) ^ 2) 0) by (exists 1%Z; reflexivity).
  destruct (C88_normal_incidence_proof 64 true (mkIS [rc 1; rc 9] [] None) (2 ^ 32) (I (2 ^ 31)) "s" ltac:(lia) Hq Hn Logic.I)
    as [E _].
  rewrite E in H. clear E. unfold refl_coef, transfer_matrix in H.
  cbn [resolve_nu resolve_q rbind in_floats i_eps_stack i_t_stack eps_stack n_layers length Nat.eqb String.eqb Ascii.eqb Bool.eqb
       map multilayer Nat.ltb Nat.leb Nat.sub seq real_of] in H.
  unfold trans_factor in H. cbn [nth Nat.add] in H.
  set (x := IZR (2 ^ 31)) in H. assert (Hx : 0 < x) by (apply IZR_lt; reflexivity).
  assert (Ey : IZR (2 ^ 32) = 2 * x) by (unfold x; rewrite <- mult_IZR; apply f_equal; reflexivity).
  rewrite Ey in H.
  assert (S1 : nu_z_of x 0 (rc 1) = Some (RtoC x)).
  { unfold nu_z_of. replace (rc 1 * ofR (rr x ^ 2)%rv - ofR (rr 0 ^ 2)%rv)%cv with (rc (x ^ 2))
      by (unfold rc; cbn; f_equal; unfold RtoC; apply injective_projections; cbn; ring).
    rewrite csqrt_pos by nra. unfold rc. now rewrite sqrt_pow2 by lra. }
  assert (S2 : nu_z_of x 0 (rc 9) = Some (RtoC (3 * x))).
  { unfold nu_z_of. replace (rc 9 * ofR (rr x ^ 2)%rv - ofR (rr 0 ^ 2)%rv)%cv with (rc ((3 * x) ^ 2))
      by (unfold rc; cbn; f_equal; unfold RtoC; apply injective_projections; cbn; ring).
    rewrite csqrt_pos by nra. unfold rc. now rewrite sqrt_pow2 by lra. }
  assert (S3 : nu_z_of x (2 * x) (rc 1) = Some ((0, sqrt (3 * x ^ 2)) : C)).
  { unfold nu_z_of. replace (rc 1 * ofR (rr x ^ 2)%rv - ofR (rr (2 * x) ^ 2)%rv)%cv with (rc (- (3 * x ^ 2)))
      by (unfold rc; cbn; f_equal; unfold RtoC; apply injective_projections; cbn; ring).
    apply csqrt_neg. nra. }
  assert (S4 : nu_z_of x (2 * x) (rc 9) = Some (RtoC (sqrt (5 * x ^ 2)))).
  { unfold nu_z_of. replace (rc 9 * ofR (rr x ^ 2)%rv - ofR (rr (2 * x) ^ 2)%rv)%cv with (rc (5 * x ^ 2))
      by (unfold rc; cbn; f_equal; unfold RtoC; apply injective_projections; cbn; ring).
    rewrite csqrt_pos by nra. reflexivity. }
  rewrite S1, S2, S3, S4 in H.
  set (a := sqrt (3 * x ^ 2)) in H. set (b := sqrt (5 * x ^ 2)) in H.
  assert (Ha : 0 < a) by (apply sqrt_lt_R0; nra). assert (Hb : 0 < b) by (apply sqrt_lt_R0; nra).
  rewrite (bulk_s (RtoC x) (RtoC (3 * x))), (bulk_s ((0, a) : C) (RtoC b)) in H.
  2:{ intros E. apply (f_equal snd) in E. cbn in E. lra. }
  2:{ intros E. apply (f_equal snd) in E. cbn in E. lra. }
  2:{ intros E. apply (f_equal fst) in E. cbn in E. lra. }
  2:{ intros E. apply (f_equal fst) in E. cbn in E. lra. }
  apply (f_equal (fun r => match r with Ok (Some c) => Im c | _ => 0 end)) in H.
  assert (L : Im ((RtoC x - RtoC (3 * x)) / (RtoC x + RtoC (3 * x)))%C = 0) by (cbn; unfold Rdiv; ring).
  assert (R : Im (((0, a) - RtoC b) / ((0, a) + RtoC b))%C = 2 * a * b / (a ^ 2 + b ^ 2)) by (cbn; field; nra).
  rewrite L, R in H.
  assert (0 < 2 * a * b / (a ^ 2 + b ^ 2)); [|lra].
  apply Rdiv_lt_0_compat; nra.
Qed.

(** ** Examples *)
(** the s-polarised reflection of a film of permittivity 4 in vacuum for wavevectors k, 2k, k and
    propagation factors e, 1/e *)
Lemma film4_s (k e f : C) : k <> RtoC 0 -> (RtoC 9 * e - f <> RtoC 0)%C ->
  let M := chain (trans_matrix (Some (RtoC 2 * k)%C / Some k)%cv)
             [(trans_matrix (Some k / Some (RtoC 2 * k)%C)%cv, prop_matrix (Some e) (Some f))] in
  (m10 M / m00 M)%cv = Some (- RtoC 3 * (e - f) / (RtoC 9 * e - f))%C.
Proof.
  intros Hk HD. cbn zeta.
  assert (Hk2 : (RtoC 2 * k)%C <> RtoC 0) by (apply Cmult_neq_0; [apply C2_neq_0|exact Hk]).
  rewrite !cdiv_nz by assumption.
  replace ((RtoC 2 * k) / k)%C with (RtoC 2) by (field; exact Hk).
  replace (k / (RtoC 2 * k))%C with (RtoC (1 / 2)).
  2:{ rewrite RtoC_div by lra. field. split; [exact Hk|apply C2_neq_0]. }
  assert (TM : forall x, trans_matrix (Some (RtoC x)) = mkMat (rc ((1 + x) / 2)) (rc ((1 - x) / 2)) (rc ((1 - x) / 2)) (rc ((1 + x) / 2))).
  { intros x. unfold trans_matrix, rc. cbn [cadd cmul olift2].
    rewrite <- !RtoC_mult, <- !RtoC_plus, !cdiv_nz by apply C2_neq_0. rewrite <- !RtoC_div by lra.
    replace (1 + 1 * x) with (1 + x) by ring. replace (1 + -1 * x) with (1 - x) by ring. reflexivity. }
  rewrite !TM.
  unfold chain, prop_matrix, rc. cbn [fold_left fst snd mmul m00 m01 m10 m11 cadd cmul olift2].
  replace ((1 + 2) / 2) with (3 / 2) by lra. replace ((1 - 2) / 2) with (- (1 / 2)) by lra.
  replace ((1 + 1 / 2) / 2) with (3 / 4) by lra. replace ((1 - 1 / 2) / 2) with (1 / 4) by lra.
  assert (E8 : RtoC 8 <> RtoC 0) by (apply RtoC_neq_0; lra).
  assert (E4 : RtoC 4 <> RtoC 0) by (apply RtoC_neq_0; lra).
  match goal with |- (Some ?n / Some ?d)%cv = _ =>
    replace n with (- RtoC 3 * (e - f) / RtoC 8)%C; [replace d with ((RtoC 9 * e - f) / RtoC 8)%C|] end.
  - rewrite cdiv_nz.
    + f_equal. field. split; assumption.
    + intros E. apply HD. transitivity (RtoC 8 * ((RtoC 9 * e - f) / RtoC 8))%C; [field; exact E8|rewrite E; ring].
  - rewrite RtoC_opp, !RtoC_div by lra. replace (RtoC 8) with (RtoC 2 * RtoC 4)%C by (rewrite <- RtoC_mult; f_equal; lra).
    replace (RtoC 9) with (RtoC 3 * RtoC 3)%C by (rewrite <- RtoC_mult; f_equal; lra). field; repeat split; try assumption; apply C2_neq_0.
  - rewrite RtoC_opp, !RtoC_div by lra. replace (RtoC 8) with (RtoC 2 * RtoC 4)%C by (rewrite <- RtoC_mult; f_equal; lra).
    field; repeat split; try assumption; apply C2_neq_0.
Qed.

Lemma film4_nuz x : csqrt (rc 4 * rc x - rc 0)%cv = csqrt (rc (4 * x)).
Proof. f_equal. unfold rc. cbn. f_equal. unfold RtoC. apply injective_projections; cbn; ring. Qed.
Lemma film1_nuz x : csqrt (rc 1 * rc x - rc 0)%cv = csqrt (rc x).
Proof. f_equal. unfold rc. cbn. f_equal. unfold RtoC. apply injective_projections; cbn; ring. Qed.

(** A quarter-wave film of permittivity 4 in vacuum, wavenumber 50000 per metre
    (500 per centimetre): it reflects -3/5 of the amplitude; with the same wavenumber
    as a 32-bit integer, less than 1/3, as would any other thickness. *)
Lemma C88_no_interference_example_proof :
  (2 ^ Z.of_nat 32 <= 2 * 50000 ^ 2 < 2 * 2 ^ Z.of_nat 32)%Z /\
  (forall d, 0 < d ->
    exists r : R, i_refl_coef (Word 32 true) (mkIS [rc 1; rc 4; rc 1] [F d] None) None None (Some (I 50000)) "s"
                  = Ok (Some (RtoC r)) /\ - 1 / 3 < r < 0) /\
  refl_coef (mkSample [rc 1; rc 4; rc 1] [PI / (4 * 50000)] None) None None (Some 50000) "s"
  = Ok (Some (RtoC (- 3 / 5))).
Proof.
  split; [cbn; lia|]. split.
  - intros d Hd. unfold i_refl_coef, i_transfer_matrix.
    cbn [i_resolve_nu i_resolve_q rbind i_eps_stack i_t_stack length Nat.eqb String.eqb Ascii.eqb Bool.eqb
         map Nat.ltb Nat.leb Nat.sub seq removelast tl combine fst snd n_pow val].
    replace (0 ^ 2) with 0 by ring.
    assert (W : wrap (Word 32 true) (50000 ^ Z.of_nat 2) = (- 1794967296)%Z) by reflexivity.
    rewrite W. set (m := 1794967296).
    change (IZR (- 1794967296)) with (- m).
    assert (Hm : 0 < m) by (unfold m; lra).
    rewrite film4_nuz, film1_nuz. replace (4 * - m) with (- (4 * m)) by ring.
    rewrite !csqrt_neg by lra. rewrite sqrt_mult by lra.
    replace (sqrt 4) with 2 by (symmetry; replace 4 with (2 ^ 2) by ring; apply sqrt_pow2; lra).
    set (k := sqrt m). assert (Hk : 0 < k) by (apply sqrt_lt_R0; exact Hm).
    unfold trans_factor. cbn [nth Nat.add].
    replace ((0, 2 * k) : C) with (RtoC 2 * ((0, k) : C))%C by (unfold RtoC; apply injective_projections; cbn; ring).
    set (E := exp (2 * k * d)).
    match goal with |- context [prop_matrix ?a ?b] =>
      assert (P1 : a = Some (RtoC E)); [|assert (P2 : b = Some (RtoC (/ E)))] end.
    { unfold rc, cexp. cbn [cmul olift2 olift1]. f_equal. unfold Cexp, RtoC, E. cbn.
      match goal with |- (exp ?a * cos ?b, _) = _ => replace b with 0 by ring; replace a with (2 * k * d) by ring end.
      rewrite cos_0, sin_0. f_equal; ring. }
    { unfold rc, cexp. cbn [cmul olift2 olift1]. f_equal. unfold Cexp, RtoC, E. rewrite <- exp_Ropp. cbn.
      match goal with |- (exp ?a * cos ?b, _) = _ => replace b with 0 by ring; replace a with (- (2 * k * d)) by ring end.
      rewrite cos_0, sin_0. f_equal; ring. }
    rewrite P1, P2.
    assert (HE : 1 < E). { unfold E. rewrite <- exp_0. apply exp_increasing. assert (0 < k * d) by (apply Rmult_lt_0_compat; lra). lra. }
    assert (HI : 0 < / E < 1). { split; [apply Rinv_0_lt_compat; lra|]. rewrite <- Rinv_1. apply Rinv_lt_contravar; lra. }
    rewrite film4_s.
    + exists (Ropp 3 * (E - / E) / (9 * E - / E)). split.
      * do 2 f_equal. rewrite RtoC_div by lra. now rewrite RtoC_mult, !RtoC_minus, RtoC_mult, RtoC_opp.
      * split.
        -- apply (Rmult_lt_reg_r (9 * E - / E)); [lra|]. unfold Rdiv at 2. rewrite Rmult_assoc, Rinv_l by lra. lra.
        -- apply (Rmult_lt_reg_r (9 * E - / E)); [lra|]. unfold Rdiv. rewrite Rmult_assoc, Rinv_l by lra. lra.
    + intros Q. apply (f_equal snd) in Q. cbn in Q. lra.
    + intros Q. apply (f_equal fst) in Q. cbn in Q. lra.
  - unfold refl_coef, transfer_matrix.
    cbn [resolve_nu resolve_q rbind eps_stack t_stack n_layers multilayer length Nat.eqb String.eqb Ascii.eqb Bool.eqb
         map Nat.ltb Nat.leb Nat.sub seq removelast tl combine fst snd].
    assert (S1 : nu_z_of 50000 0 (rc 1) = Some (RtoC 50000)).
    { unfold nu_z_of. replace (rc 1 * ofR (rr 50000 ^ 2)%rv - ofR (rr 0 ^ 2)%rv)%cv with (rc (50000 ^ 2))
        by (unfold rc; cbn; f_equal; unfold RtoC; apply injective_projections; cbn; ring).
      rewrite csqrt_pos by lra. unfold rc. now rewrite sqrt_pow2 by lra. }
    assert (S4 : nu_z_of 50000 0 (rc 4) = Some (RtoC 2 * RtoC 50000)%C).
    { unfold nu_z_of. replace (rc 4 * ofR (rr 50000 ^ 2)%rv - ofR (rr 0 ^ 2)%rv)%cv with (rc ((2 * 50000) ^ 2))
        by (unfold rc; cbn; f_equal; unfold RtoC; apply injective_projections; cbn; ring).
      rewrite csqrt_pos by nra. unfold rc. rewrite sqrt_pow2 by lra. now rewrite RtoC_mult. }
    rewrite S1, S4. unfold trans_factor. cbn [nth Nat.add].
    assert (X : forall k, cexp (Some (0, k) * (Some (RtoC 2 * RtoC 50000)%C * rc (PI / (4 * 50000))))%cv = Some ((cos (k * (PI / 2)), sin (k * (PI / 2))) : C)).
    { intros k. unfold rc, cexp. cbn [cmul olift2 olift1]. f_equal. unfold Cexp. cbn.
      match goal with |- (exp ?a * cos ?b, _) = _ => replace b with (k * (PI / 2)) by field; replace a with 0 by ring end.
      rewrite exp_0. f_equal; ring. }
    rewrite !X. replace (-1 * (PI / 2)) with (- (PI / 2)) by ring. rewrite Rmult_1_l, cos_neg, sin_neg, cos_PI2, sin_PI2.
    rewrite film4_s.
    + do 2 f_equal. unfold RtoC. apply injective_projections; cbn; field.
    + apply RtoC_neq_0. lra.
    + intros Q. apply (f_equal snd) in Q. cbn in Q. lra.
Qed.

(** Concrete cases: 8-bit unsigned permittivities 3 and 1 give the reflection
    coefficient 63.5; a 32-bit momentum 65536 counts as normal incidence, a 32-bit
    wavenumber 65536 as none; a 48 nm sphere at 2000 nm has no finite polarisability,
    whatever the sample; and ordinary numbers stay in range. *)
Lemma C88_example_proof :
  i_refl_coef_qs_single (Word 8 false) (I 3) (I 1) = rc (127 / 2) /\
  same_bits 32 (65536 ^ 2) 0 /\ same_bits 32 ((48 + 2000) ^ 3) 0 /\
  i_refl_coef (Word 32 true) (mkIS [rc 1; rc 4; rc 1] [F 1] None) None None (Some (I 65536)) "p" = Ok None /\
  i_pdm_eff_pol (Word 32 true) defaults0 (mkSample [rc 1; rc 3] [] None) (Some (I 2000)) (Some (I 48)) None None = Ok None /\
  power_fits (Word 64 true) 2 (I 100000) /\ product_fits (Word 64 true) (I 10000000) (I 5) /\
  power_fits (Word 32 true) 3 (I 120).
Proof.
  split.
  { unfold i_refl_coef_qs_single. cbn [n_sub n_add val].
    replace (wrap (Word 8 false) (1 - 3)) with 254%Z by reflexivity.
    replace (wrap (Word 8 false) (1 + 3)) with 4%Z by reflexivity.
    unfold rc. rewrite cdiv_nz by (apply RtoC_neq_0; lra). rewrite <- RtoC_div by lra. do 2 f_equal. lra. }
  split; [exists 1%Z; reflexivity|]. split; [exists 2%Z; reflexivity|]. split.
  { apply C88_wavenumber_lost_proof; [lia|exists 1%Z; reflexivity|cbn; lia|left; reflexivity]. }
  split.
  { assert (E : exists x, i_pdm_eff_pol (Word 32 true) defaults0 (mkSample [rc 1; rc 3] [] None) (Some (I 2000)) (Some (I 48)) None None = Ok x)
      by (eexists; reflexivity).
    destruct E as [x E]. rewrite E. f_equal. eapply C88_point_dipole_lost_proof; [| |exact E]; [lia|exists 2%Z; reflexivity]. }
  repeat split; cbn; lia.
Qed.
