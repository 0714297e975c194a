(** * Proofs: overflow in the quasistatic transfer matrix (C52), single films *)
From Coq Require Import String Reals Lra Lia ZArith List Bool.
From Coquelicot Require Import Rcomplements Complex.
From Verif Require Import Num NumLemmas ModelBase ModelSample ModelTip StackLemmas Spec ModelRange SpecRange
  RangeLemmas ProofsStackQS ProofsStackQS2 ProofsRange ProofsRange2.
Import ListNotations.
Open Scope R_scope.

Lemma fin0 : inrange 0 = Fin 0.
Proof. apply inrange_ok. rewrite Rabs_R0. pose proof MAXF_pos. lra. Qed.
Lemma fadd_inrange_0 x : fadd (inrange x) (Fin 0) = inrange x.
Proof.
  unfold inrange. destruct (Rle_dec (Rabs x) MAXF) as [H|H].
  - cbn [fadd]. rewrite Rplus_0_r. apply inrange_ok, H.
  - destruct (Rlt_dec 0 x); reflexivity.
Qed.
Lemma scale_zero i : scale_inf i 0 = NaN.
Proof. unfold scale_inf. destruct (Rlt_dec 0 0); [lra|reflexivity]. Qed.
Lemma zmul_rf x y : zmul (rf x) (rf y) = re (inrange (x * y)).
Proof.
  unfold zmul, rf, re. cbn [fst snd fmul]. rewrite !Rmult_0_l, !Rmult_0_r, !fin0.
  unfold fsub. cbn [fopp]. rewrite Ropp_0, fadd_inrange_0. cbn [fadd]. rewrite Rplus_0_r, fin0. reflexivity.
Qed.
Lemma zadd_re a b : zadd (re a) (re b) = re (fadd a b).
Proof. unfold zadd, re. cbn [fst snd fadd]. rewrite Rplus_0_r, fin0. reflexivity. Qed.
Lemma zdot_rf x y u v :
  zadd (zmul (rf x) (rf u)) (zmul (rf y) (rf v)) = re (fadd (inrange (x * u)) (inrange (y * v))).
Proof. rewrite !zmul_rf. apply zadd_re. Qed.

(** the product for a single film, when the first step does not overflow *)
Lemma film_matrix (q t a b c d : R) :
  let p := clipR (q * t) in
  Rabs (a * exp p) <= MAXF -> Rabs (b * exp p) <= MAXF ->
  Rabs (a * exp (- p)) <= MAXF -> Rabs (b * exp (- p)) <= MAXF ->
  let M := zmm (zmm (rmat a b) (zP q t)) (rmat c d) in
  z00 M = re (fadd (inrange (a * exp p * c)) (inrange (b * exp (- p) * d))) /\
  z10 M = re (fadd (inrange (b * exp p * c)) (inrange (a * exp (- p) * d))).
Proof.
  cbn zeta. set (p := clipR (q * t)). intros H1 H2 H3 H4.
  rewrite zP_eq. fold p. unfold rmat. cbn [zmm z00 z01 z10 z11].
  rewrite !(zdot_rf _ _ _ _). rewrite !Rmult_0_r, !fin0.
  rewrite !(inrange_ok _ H1), !(inrange_ok _ H2), !(inrange_ok _ H3), !(inrange_ok _ H4).
  cbn [fadd]. rewrite !Rplus_0_r, !Rplus_0_l.
  rewrite !(inrange_ok _ H1), !(inrange_ok _ H2), !(inrange_ok _ H3), !(inrange_ok _ H4).
  change (re (Fin (a * exp p))) with (rf (a * exp p)).
  change (re (Fin (b * exp (- p)))) with (rf (b * exp (- p))).
  change (re (Fin (b * exp p))) with (rf (b * exp p)).
  change (re (Fin (a * exp (- p)))) with (rf (a * exp (- p))).
  rewrite !zdot_rf. split; reflexivity.
Qed.

Lemma film_struct q t e0 e1 e2 :
  zrefl_qs [zof e0; zof e1; zof e2] [Fin t] (Fin q)
  = let M := zmm (zmm (zT e0 e1) (zP q t)) (zT e1 e2) in Some (zdiv (z10 M) (z00 M)).
Proof. reflexivity. Qed.

Lemma zdiv_rf u v : v <> 0 -> Rabs u <= MAXF -> Rabs v <= MAXF -> Rabs (/ v) <= MAXF -> Rabs (u / v) <= MAXF ->
  zdiv (rf u) (rf v) = rf (u / v).
Proof.
  intros Hv Bu Bv Bi Bq. unfold zdiv, rf, re. cbn [fst snd fabs fge].
  destruct (Rle_dec (Rabs 0) (Rabs v)) as [H|H].
  2:{ exfalso. apply H. rewrite Rabs_R0. apply Rabs_pos. }
  assert (Z : 0 / v = 0) by (unfold Rdiv; ring).
  pose proof MAXF_pos as MP.
  rewrite (fdiv_fin 0 v Hv) by (rewrite Z, Rabs_R0; lra). rewrite Z.
  rewrite !(fmul_fin _ 0) by (rewrite Rmult_0_r, Rabs_R0; lra). rewrite !Rmult_0_r.
  rewrite !fadd_fin by (rewrite Rplus_0_r; assumption). rewrite !Rplus_0_r.
  rewrite fsub_fin by (rewrite Rminus_0_r, Rabs_R0; lra). rewrite Rminus_0_r.
  assert (I : 1 / v = / v) by (unfold Rdiv; ring).
  rewrite (fdiv_fin 1 v Hv) by (rewrite I; exact Bi). rewrite I.
  rewrite fmul_fin by exact Bq. rewrite fmul_fin by (rewrite Rmult_0_l, Rabs_R0; lra).
  rewrite Rmult_0_l. reflexivity.
Qed.

(** the exact value for a real film *)
Lemma film_exact (e0 e1 e2 t : R) nu (q : R) :
  let p := clipR (q * t) in
  let f := e0 / e1 in let g := e1 / e2 in
  let a := (1 + f) / 2 in let b := (1 - f) / 2 in let c := (1 + g) / 2 in let d := (1 - g) / 2 in
  e1 <> 0 -> e2 <> 0 -> a * exp p * c + b * exp (- p) * d <> 0 ->
  refl_coef_qs (stack [RtoC e0; RtoC e1; RtoC e2] [t] nu) (rr q)
  = Ok (Some (RtoC ((b * exp p * c + a * exp (- p) * d) / (a * exp p * c + b * exp (- p) * d)))).
Proof.
  cbn zeta. intros N1 N2 ND.
  change (stack [RtoC e0; RtoC e1; RtoC e2] [t] nu) with (qs_sample (RtoC e0) [(RtoC e1, t)] (RtoC e2) nu).
  rewrite refl_coef_qs_struct by (repeat constructor; apply RtoC_neq_0; assumption).
  assert (E1 : ((1 + RtoC e0 / RtoC e1) / 2)%C = RtoC ((1 + e0 / e1) / 2)).
  { rewrite <- RtoC_div, <- RtoC_plus, <- RtoC_div by lra. reflexivity. }
  assert (E2 : ((1 - RtoC e0 / RtoC e1) / 2)%C = RtoC ((1 - e0 / e1) / 2)).
  { rewrite <- RtoC_div, <- RtoC_minus, <- RtoC_div by lra. reflexivity. }
  assert (E3 : ((1 + RtoC e1 / RtoC e2) / 2)%C = RtoC ((1 + e1 / e2) / 2)).
  { rewrite <- RtoC_div, <- RtoC_plus, <- RtoC_div by lra. reflexivity. }
  assert (E4 : ((1 - RtoC e1 / RtoC e2) / 2)%C = RtoC ((1 - e1 / e2) / 2)).
  { rewrite <- RtoC_div, <- RtoC_minus, <- RtoC_div by lra. reflexivity. }
  unfold Mqs. cbn [stackM]. unfold Tqs, Pqs, pT, pP. cbn [pmul c00 c01 c10 c11].
  rewrite E1, E2, E3, E4. set (p := clipR (q * t)) in *.
  set (a := (1 + e0 / e1) / 2) in *. set (b := (1 - e0 / e1) / 2) in *.
  set (c := (1 + e1 / e2) / 2) in *. set (d := (1 - e1 / e2) / 2) in *.
  f_equal.
  assert (D : (RtoC a * (RtoC (exp p) * RtoC c + 0 * RtoC d) + RtoC b * (0 * RtoC c + RtoC (exp (- p)) * RtoC d))%C
              = RtoC (a * exp p * c + b * exp (- p) * d)).
  { rewrite RtoC_plus, !RtoC_mult. ring. }
  assert (N : (RtoC b * (RtoC (exp p) * RtoC c + 0 * RtoC d) + RtoC a * (0 * RtoC c + RtoC (exp (- p)) * RtoC d))%C
              = RtoC (b * exp p * c + a * exp (- p) * d)).
  { rewrite RtoC_plus, !RtoC_mult. ring. }
  rewrite D, N, cdiv_ok by (apply RtoC_neq_0; exact ND). rewrite RtoC_div by exact ND. reflexivity.
Qed.

Lemma film_E q t : 0 <= q * t ->
  let p := clipR (q * t) in 1 <= exp p <= MAXF /\ 0 < exp (- p) <= 1 /\ exp p * exp (- p) = 1.
Proof.
  intros Hq. cbn zeta. destruct (zprop_is q t) as (_ & H1 & _). set (p := clipR (q * t)) in *.
  assert (P : 0 <= p).
  { unfold p. rewrite clipR_pos by exact Hq. pose proof MAX_EXP_le. apply Rmin_glb; lra. }
  pose proof (exp_ineq1_le p). pose proof (exp_pos (- p)).
  assert (E3 : exp p * exp (- p) = 1) by (rewrite <- exp_plus, Rplus_opp_r; apply exp_0).
  repeat split; try lra. nra.
Qed.

(** C52. A film of real permittivity between those of the environment and of
    the substrate is safe at every thickness and momentum: the clip keeps the
    whole computation in range. *)
Lemma C52_graded_film_safe_proof :
  forall (e0 e1 e2 t : R) nu (q : R),
  0 < e0 -> e0 <= e1 -> e1 <= e2 ->
  tame (RtoC e0) -> tame (RtoC e1) -> tame (RtoC e2) -> 0 <= q * t ->
  exists r, refl_coef_qs (stack [RtoC e0; RtoC e1; RtoC e2] [t] nu) (rr q) = Ok (Some r) /\
            zrefl_qs (map zof [RtoC e0; RtoC e1; RtoC e2]) [Fin t] (Fin q) = Some (zof r).
Proof.
  intros e0 e1 e2 t nu q P0 H01 H12 T0 T1 T2 Hq.
  destruct (film_E q t Hq) as ([E1 E2] & [E3 E4] & E5). set (p := clipR (q * t)) in *.
  destruct (real_ratio e0 e1 P0 ltac:(lra) T0 T1) as [Pf _].
  destruct (real_ratio e1 e2 ltac:(lra) ltac:(lra) T1 T2) as [Pg _].
  assert (Hf : e0 / e1 <= 1) by (apply Rle_div_l; lra).
  assert (Hg : e1 / e2 <= 1) by (apply Rle_div_l; lra).
  pose proof (film_exact e0 e1 e2 t nu q) as FE. cbn zeta in FE. fold p in FE.
  cbn [map]. rewrite film_struct. cbn zeta. rewrite !zT_real by (assumption || lra).
  set (f := e0 / e1) in *. set (g := e1 / e2) in *.
  pose proof (film_matrix q t ((1 + f) / 2) ((1 - f) / 2) ((1 + g) / 2) ((1 - g) / 2)) as FM.
  cbn zeta in FM. fold p in FM.
  assert (Ha : 1 / 2 <= (1 + f) / 2 <= 1) by lra.
  assert (Hb : 0 <= (1 - f) / 2 <= 1 / 2) by lra.
  assert (Hc : 1 / 2 <= (1 + g) / 2 <= 1) by lra.
  assert (Hd : 0 <= (1 - g) / 2 <= 1 / 2) by lra.
  assert (Hsum : (1 + f) / 2 * ((1 + g) / 2) + (1 - f) / 2 * ((1 - g) / 2) <= 1) by nra.
  assert (Hsum' : (1 - f) / 2 * ((1 + g) / 2) + (1 + f) / 2 * ((1 - g) / 2) <= 1) by nra.
  set (a := (1 + f) / 2) in *. set (b := (1 - f) / 2) in *.
  set (c := (1 + g) / 2) in *. set (d := (1 - g) / 2) in *.
  pose proof MAXF_big' as MB.
  set (E := exp p) in *. set (F := exp (- p)) in *.
  destruct FM as [M0 M1]; try (rewrite Rabs_pos_eq; nra).
  rewrite M0, M1.
  assert (U1 : 0 <= a * c) by nra. assert (U2 : 0 <= b * d) by nra.
  assert (U3 : 0 <= b * c) by nra. assert (U4 : 0 <= a * d) by nra.
  assert (FE' : F <= E) by lra.
  assert (PE : 0 <= E) by lra. assert (PF : 0 <= F) by lra.
  assert (Mul : forall x y z, 0 <= x -> x <= y -> 0 <= z -> z <= 1 -> 0 <= x * z <= y).
  { intros x y z Hx Hxy Hz Hz1. split; [apply Rmult_le_pos; assumption|].
    apply Rle_trans with (y * 1); [apply Rmult_le_compat; lra|lra]. }
  assert (G1 : 0 <= a * E * c <= E).
  { replace (a * E * c) with (E * (a * c)) by ring. apply Mul; lra. }
  assert (G2 : 0 <= b * F * d <= E).
  { replace (b * F * d) with (F * (b * d)) by ring. apply Mul; lra. }
  assert (G3 : 0 <= b * E * c <= E).
  { replace (b * E * c) with (E * (b * c)) by ring. apply Mul; lra. }
  assert (G4 : 0 <= a * F * d <= E).
  { replace (a * F * d) with (F * (a * d)) by ring. apply Mul; lra. }
  assert (Mon : forall z, 0 <= z -> F * z <= E * z) by (intros z Hz; apply Rmult_le_compat_r; assumption).
  assert (S1 : a * E * c + b * F * d <= E).
  { replace (a * E * c + b * F * d) with (E * (a * c) + F * (b * d)) by ring.
    pose proof (Mon (b * d) U2). pose proof (Mul E E (a * c + b * d)). lra. }
  assert (S2 : b * E * c + a * F * d <= E).
  { replace (b * E * c + a * F * d) with (E * (b * c) + F * (a * d)) by ring.
    pose proof (Mon (a * d) U4). pose proof (Mul E E (b * c + a * d)). lra. }
  assert (L : 1 / 4 * E <= a * E * c).
  { replace (a * E * c) with (a * c * E) by ring. apply Rmult_le_compat_r; [exact PE|].
    clear - Ha Hc. nra. }
  rewrite !inrange_ok by (rewrite Rabs_pos_eq; lra).
  rewrite !fadd_fin by (rewrite Rabs_pos_eq; lra).
  change (re (Fin ?x)) with (rf x).
  set (u := b * E * c + a * F * d) in *. set (v := a * E * c + b * F * d) in *.
  assert (Pv : 1 / 4 <= v) by (unfold v; lra).
  exists (RtoC (u / v)). split; [apply FE; lra|].
  rewrite zof_R. f_equal. apply zdiv_rf.
  - lra.
  - rewrite Rabs_pos_eq; unfold u in *; lra.
  - rewrite Rabs_pos_eq; unfold v in *; lra.
  - assert (0 < / v) by (apply Rinv_0_lt_compat; lra).
    assert (/ v <= / (1 / 4)) by (apply Rinv_le_contravar; lra).
    rewrite Rabs_pos_eq; lra.
  - assert (0 <= u / v) by (apply Rdiv_le_0_compat; [unfold u|]; lra).
    rewrite Rabs_pos_eq by lra. apply Rle_trans with 4; [|lra].
    apply Rle_div_l; [lra|]. unfold u, v in *. lra.
Qed.

(** Beyond the clip *)
Lemma film_clipped q t : MAX_EXP_ARG <= q * t -> exp (clipR (q * t)) = MAXF.
Proof.
  intros H. pose proof MAX_EXP_le. rewrite clipR_pos by lra. rewrite Rmin_right by lra. apply exp_MAX.
Qed.

(** C52. A thick film in front of a substrate of lower permittivity: the
    denominator of the reflection coefficient overflows and the numerator does
    not, so that the method silently returns 0, although the exact value is
    within 2 MAX^-2 of the reflection coefficient of the top interface. *)
Lemma C52_thick_film_reflects_nothing_refuted_proof :
  forall (e0 e1 e2 t : R) nu (q : R),
  0 < e0 -> e0 <= e1 -> 0 < e2 ->
  tame (RtoC e0) -> tame (RtoC e1) -> tame (RtoC e2) -> MAX_EXP_ARG <= q * t ->
  4 * (e1 * e2) < (e1 + e0) * (e1 + e2) -> (e1 - e0) * (e1 + e2) <= 3 * (e1 * e2) ->
  zrefl_qs (map zof [RtoC e0; RtoC e1; RtoC e2]) [Fin t] (Fin q) = Some (zof (RtoC 0)) /\
  exists r, refl_coef_qs (stack [RtoC e0; RtoC e1; RtoC e2] [t] nu) (rr q) = Ok (Some r) /\
            Cmod (r - RtoC ((e1 - e0) / (e1 + e0)))%C <= 2 * exp (- 2 * MAX_EXP_ARG).
Proof.
  intros e0 e1 e2 t nu q P0 H01 P2 T0 T1 T2 Hq K1 K2.
  pose proof MAX_EXP_le as ME. pose proof MAXF_big' as MB.
  assert (Hq0 : 0 <= q * t) by lra.
  destruct (film_E q t Hq0) as (_ & [E3 E4] & E5). pose proof (film_clipped q t Hq) as EC.
  destruct (real_ratio e0 e1 P0 ltac:(lra) T0 T1) as [Pf Bf].
  destruct (real_ratio e1 e2 ltac:(lra) P2 T1 T2) as [Pg Bg].
  assert (Hf : e0 / e1 <= 1) by (apply Rle_div_l; lra).
  assert (K1' : 4 < (1 + e0 / e1) * (1 + e1 / e2)).
  { replace ((1 + e0 / e1) * (1 + e1 / e2)) with ((e1 + e0) * (e1 + e2) / (e1 * e2)) by (field; lra).
    apply (Rlt_div_r 4 _ (e1 * e2)); [nra|exact K1]. }
  assert (K2' : (1 - e0 / e1) * (1 + e1 / e2) <= 3).
  { replace ((1 - e0 / e1) * (1 + e1 / e2)) with ((e1 - e0) * (e1 + e2) / (e1 * e2)) by (field; lra).
    apply Rle_div_l; [nra|exact K2]. }
  split.
  - cbn [map]. rewrite film_struct. cbn zeta. rewrite !zT_real by (assumption || lra).
    set (f := e0 / e1) in *. set (g := e1 / e2) in *.
    pose proof (film_matrix q t ((1 + f) / 2) ((1 - f) / 2) ((1 + g) / 2) ((1 - g) / 2)) as FM.
    cbn zeta in FM. rewrite EC in *. set (F := exp (- clipR (q * t))) in *.
    destruct FM as [M0 M1]; try (rewrite Rabs_pos_eq; nra). rewrite M0, M1.
    rewrite (inrange_over ((1 + f) / 2 * MAXF * ((1 + g) / 2))) by nra.
    assert (Bd : Rabs ((1 - g) / 2) <= MAXF / 32).
    { apply Rabs_le. lra. }
    assert (Bs : forall x, 0 <= x <= 1 -> Rabs (x * ((1 - g) / 2)) <= MAXF / 32).
    { intros x Hx. rewrite Rabs_mult, (Rabs_pos_eq x) by lra. pose proof (Rabs_pos ((1 - g) / 2)). nra. }
    assert (B1 : Rabs ((1 - f) / 2 * F * ((1 - g) / 2)) <= MAXF / 32) by (apply Bs; nra).
    assert (B2 : Rabs ((1 + f) / 2 * F * ((1 - g) / 2)) <= MAXF / 32) by (apply Bs; nra).
    assert (B3 : 0 <= (1 - f) / 2 * MAXF * ((1 + g) / 2) <= 3 / 4 * MAXF).
    { replace ((1 - f) / 2 * MAXF * ((1 + g) / 2)) with ((1 - f) * (1 + g) / 4 * MAXF) by field. nra. }
    rewrite (inrange_ok ((1 - f) / 2 * F * ((1 - g) / 2))) by lra.
    rewrite (inrange_ok ((1 + f) / 2 * F * ((1 - g) / 2))) by lra.
    rewrite (inrange_ok ((1 - f) / 2 * MAXF * ((1 + g) / 2))) by (rewrite Rabs_pos_eq; lra).
    rewrite fadd_fin.
    2:{ eapply Rle_trans; [apply Rabs_triang|]. rewrite (Rabs_pos_eq ((1 - f) / 2 * MAXF * ((1 + g) / 2))) by lra. lra. }
    set (w := (1 - f) / 2 * MAXF * ((1 + g) / 2) + (1 + f) / 2 * F * ((1 - g) / 2)) in *.
    assert (Bw : Rabs w <= MAXF).
    { unfold w. eapply Rle_trans; [apply Rabs_triang|]. rewrite (Rabs_pos_eq ((1 - f) / 2 * MAXF * ((1 + g) / 2))) by lra. lra. }
    unfold zdiv, re. cbn [fadd fst snd fabs fge fdiv fmul]. rewrite !Rmult_0_l, !Rmult_0_r, !fin0.
    unfold fsub. cbn [fadd fdiv fopp]. rewrite Ropp_0, !Rplus_0_r, (inrange_ok w Bw), fin0.
    cbn [fmul]. rewrite !Rmult_0_r, fin0. reflexivity.
  - assert (Nz : forall x, x <> 0 -> RtoC x <> RtoC 0) by exact RtoC_neq_0.
    pose proof (exp_pos (- 2 * MAX_EXP_ARG)) as PE.
    assert (EM : exp (- 2 * MAX_EXP_ARG) * (MAXF * MAXF) = 1).
    { rewrite <- exp_MAX, <- !exp_plus. replace (-2 * MAX_EXP_ARG + (MAX_EXP_ARG + MAX_EXP_ARG)) with 0 by ring. apply exp_0. }
    assert (Mm : Rmin (q * t) MAX_EXP_ARG = MAX_EXP_ARG) by (apply Rmin_right; lra).
    set (bb := (e1 - e0) / (e1 + e0)).
    assert (Hbb : 0 <= bb <= 1).
    { unfold bb. split; [apply Rdiv_le_0_compat; lra|apply Rle_div_l; lra]. }
    set (r1 := (e2 - e1) / (e2 + e1)).
    assert (Hr1 : Rabs r1 <= 1).
    { unfold r1. apply Rabs_le. split; [apply Rle_div_r|apply Rle_div_l]; lra. }
    destruct (C13_top_interface_dominates_proof (RtoC e0) (RtoC e1) [RtoC e2] t [] nu q (RtoC r1) (RtoC bb) 1) as (r & Hr & Br).
    + reflexivity.
    + repeat constructor; apply Nz; lra.
    + rewrite <- RtoC_plus. apply Nz. lra.
    + unfold bb. rewrite <- RtoC_plus, <- RtoC_minus, <- RtoC_div by lra. reflexivity.
    + destruct (bulk_refl_any (RtoC e1) (RtoC e2) nu (rr q)) as [-> _]; [apply Nz; lra|].
      unfold refl_coef_qs_single, cadd, csub. cbn [olift2].
      rewrite <- RtoC_plus, <- RtoC_minus, cdiv_ok by (apply Nz; lra).
      rewrite <- RtoC_div by lra. reflexivity.
    + rewrite Cmod_R. exact Hr1.
    + exact Hq0.
    + rewrite Mm, Cmod_R, Rabs_pos_eq by lra.
      assert (MAXF * MAXF >= 1024) by nra. nra.
    + exists r. split; [exact Hr|]. rewrite Mm in Br.
      eapply Rle_trans; [exact Br|]. rewrite <- RtoC_mult, <- RtoC_minus, Cmod_R, Rabs_pos_eq by nra.
      assert (0 <= bb * bb) by nra. nra.
Qed.

(** C52. With a still lower substrate, or a film of lower permittivity than the
    environment, the thick film's reflection coefficient is nan. *)
Lemma C52_thick_film_nan_refuted_proof :
  forall (e0 e1 e2 t : R) (q : R),
  0 < e0 -> 0 < e1 -> 0 < e2 ->
  tame (RtoC e0) -> tame (RtoC e1) -> tame (RtoC e2) -> MAX_EXP_ARG <= q * t ->
  e1 < e0 \/ 4 * (e1 * e2) < (e1 - e0) * (e1 + e2) ->
  zrefl_qs (map zof [RtoC e0; RtoC e1; RtoC e2]) [Fin t] (Fin q) = Some (NaN, NaN).
Proof.
  intros e0 e1 e2 t q P0 P1 P2 T0 T1 T2 Hq K.
  pose proof MAX_EXP_le as ME. pose proof MAXF_big' as MB.
  assert (Hq0 : 0 <= q * t) by lra.
  destruct (film_E q t Hq0) as (_ & [E3 E4] & E5). pose proof (film_clipped q t Hq) as EC.
  destruct (real_ratio e0 e1 P0 P1 T0 T1) as [Pf Bf].
  destruct (real_ratio e1 e2 P1 P2 T1 T2) as [Pg Bg].
  cbn [map]. rewrite film_struct. cbn zeta. rewrite !zT_real by (assumption || lra).
  destruct (Rlt_dec e1 e0) as [H|H].
  - assert (Hf : 1 < e0 / e1) by (apply (Rlt_div_r 1 _ e1); lra).
    set (f := e0 / e1) in *. set (g := e1 / e2) in *.
    rewrite zdiv_bad; [reflexivity|]. apply zmm_bad.
    eapply rrow_over; [apply (rrow_P _ ((1 + f) / 2) ((1 - f) / 2)); repeat split; apply ex_Fin|eauto|].
    rewrite EC. nra.
  - destruct K as [K|K]; [lra|]. apply Rnot_lt_le in H.
    assert (Hf : e0 / e1 <= 1) by (apply Rle_div_l; lra).
    assert (K' : 4 < (1 - e0 / e1) * (1 + e1 / e2)).
    { replace ((1 - e0 / e1) * (1 + e1 / e2)) with ((e1 - e0) * (e1 + e2) / (e1 * e2)) by (field; lra).
      apply (Rlt_div_r 4 _ (e1 * e2)); [nra|exact K]. }
    set (f := e0 / e1) in *. set (g := e1 / e2) in *.
    pose proof (film_matrix q t ((1 + f) / 2) ((1 - f) / 2) ((1 + g) / 2) ((1 - g) / 2)) as FM.
    cbn zeta in FM. rewrite EC in *. set (F := exp (- clipR (q * t))) in *.
    destruct FM as [M0 M1]; try (rewrite Rabs_pos_eq; nra). rewrite M0, M1.
    rewrite (inrange_over ((1 + f) / 2 * MAXF * ((1 + g) / 2))) by nra.
    rewrite (inrange_over ((1 - f) / 2 * MAXF * ((1 + g) / 2))) by nra.
    assert (Bd : Rabs ((1 - g) / 2) <= MAXF / 32) by (apply Rabs_le; lra).
    assert (Bs : forall x, 0 <= x <= 1 -> Rabs (x * ((1 - g) / 2)) <= MAXF / 32).
    { intros x Hx. rewrite Rabs_mult, (Rabs_pos_eq x) by lra. pose proof (Rabs_pos ((1 - g) / 2)). nra. }
    assert (B1 : Rabs ((1 - f) / 2 * F * ((1 - g) / 2)) <= MAXF / 32) by (apply Bs; nra).
    assert (B2 : Rabs ((1 + f) / 2 * F * ((1 - g) / 2)) <= MAXF / 32) by (apply Bs; nra).
    rewrite !inrange_ok by lra.
    unfold zdiv, re. cbn [fadd fst snd fabs fge fdiv fmul]. rewrite !Rmult_0_l, !fin0.
    unfold fsub. cbn [fadd fdiv fopp fmul].
    rewrite ?scale_zero. cbn [fopp fadd fmul]. rewrite ?scale_zero, ?fin0. cbn [fmul]. rewrite ?scale_zero. reflexivity.
Qed.

(** example: vacuum, a film of permittivity 5 and a substrate of permittivity
    2 at q t = 1100: 0 is returned, the exact value is next to 2/3 *)
Lemma C52_example_silent_zero_proof :
  zrefl_qs (map zof [RtoC 1; RtoC 5; RtoC 2]) [Fin 1] (Fin 1100) = Some (zof (RtoC 0)) /\
  exists r, refl_coef_qs (stack [RtoC 1; RtoC 5; RtoC 2] [1] None) (rr 1100) = Ok (Some r) /\
            Cmod (r - RtoC (2 / 3))%C <= 2 * exp (- 2 * MAX_EXP_ARG).
Proof.
  replace (2 / 3) with ((5 - 1) / (5 + 1)) by lra.
  apply C52_thick_film_reflects_nothing_refuted_proof; try lra; try (apply tame_small; lra).
  pose proof MAX_EXP_le_1024. lra.
Qed.

(** example: vacuum, a film of permittivity 12 and a substrate of permittivity
    2 at q t = 1100 give nan *)
Lemma C52_example_film_nan_proof :
  zrefl_qs (map zof [RtoC 1; RtoC 12; RtoC 2]) [Fin 1] (Fin 1100) = Some (NaN, NaN).
Proof.
  apply C52_thick_film_nan_refuted_proof; try lra; try (apply tame_small; lra).
  pose proof MAX_EXP_le_1024. lra.
Qed.

Lemma thick_two q t1 t2 : 520 <= q * t1 -> 520 <= q * t2 ->
  MAXF * 3 ^ length [t1; t2] < exp (total_exponent q [t1; t2]).
Proof.
  intros Q1 Q2. unfold total_exponent. cbn [map fold_right length pow].
  pose proof MAX_EXP_le_1024 as H1. pose proof MAX_EXP_le as H2.
  assert (L : 16 <= MAX_EXP_ARG).
  { change MAX_EXP_ARG with (ln MAXF). rewrite <- (ln_exp 16). apply ln_le; [apply exp_pos|].
    replace 16 with (INR 16 * 1) by (rewrite INR_IZR_INZ; cbn; lra). rewrite <- exp_pow_nat.
    apply Rle_trans with (3 ^ 16).
    - apply pow_incr. pose proof exp_le_3. pose proof (exp_pos 1). lra.
    - apply Rle_trans with (2 ^ 1023); [|exact MAXF_big].
      apply Rle_trans with (4 ^ 16); [apply pow_incr; lra|].
      replace 4 with (2 ^ 2) by ring. rewrite <- pow_mult. apply Rle_pow; [lra|lia]. }
  assert (X : MAX_EXP_ARG + 9 <= Rmin (q * t1) MAX_EXP_ARG + (Rmin (q * t2) MAX_EXP_ARG + 0)).
  { unfold Rmin. destruct (Rle_dec (q * t1) MAX_EXP_ARG), (Rle_dec (q * t2) MAX_EXP_ARG); lra. }
  apply Rlt_le_trans with (exp (MAX_EXP_ARG + 9)).
  - rewrite exp_plus, exp_MAX. pose proof MAXF_pos. pose proof (exp_ineq1 9 ltac:(lra)). nra.
  - destruct (Rle_lt_or_eq_dec _ _ X) as [Y|Y]; [left; apply exp_increasing, Y|rewrite Y; lra].
Qed.

(** example: four media of permittivity 1, 2, 3, 4, two inner layers, q t = 600
    for each *)
Lemma C52_example_stack_nan_proof :
  zrefl_qs (map zof (map RtoC [1; 2; 3; 4])) (map Fin ([1; 1] ++ [])) (Fin 600) = Some (NaN, NaN).
Proof.
  apply C52_thick_stack_nan_proof.
  - reflexivity.
  - repeat (apply Forall_cons; [split; [lra|apply tame_small; lra]|]). apply Forall_nil.
  - repeat constructor; lra.
  - apply thick_two; lra.
Qed.

(** example: a film of permittivity 3 between 1 and 4 at q t = 800 *)
Lemma C52_example_graded_proof :
  exists r, refl_coef_qs (stack [RtoC 1; RtoC 3; RtoC 4] [2] None) (rr 400) = Ok (Some r) /\
            zrefl_qs (map zof [RtoC 1; RtoC 3; RtoC 4]) [Fin 2] (Fin 400) = Some (zof r).
Proof. apply C52_graded_film_safe_proof; try lra; apply tame_small; lra. Qed.

Lemma film_trans (e0 e1 e2 t : R) nu (q : R) :
  let p := clipR (q * t) in
  let f := e0 / e1 in let g := e1 / e2 in
  let a := (1 + f) / 2 in let b := (1 - f) / 2 in let c := (1 + g) / 2 in let d := (1 - g) / 2 in
  e1 <> 0 -> e2 <> 0 -> a * exp p * c + b * exp (- p) * d <> 0 ->
  trans_coef_qs (stack [RtoC e0; RtoC e1; RtoC e2] [t] nu) (rr q)
  = Ok (Some (RtoC (1 / (a * exp p * c + b * exp (- p) * d)))).
Proof.
  cbn zeta. intros N1 N2 ND.
  change (stack [RtoC e0; RtoC e1; RtoC e2] [t] nu) with (qs_sample (RtoC e0) [(RtoC e1, t)] (RtoC e2) nu).
  rewrite trans_coef_qs_struct by (repeat constructor; apply RtoC_neq_0; assumption).
  assert (E1 : ((1 + RtoC e0 / RtoC e1) / 2)%C = RtoC ((1 + e0 / e1) / 2)).
  { rewrite <- RtoC_div, <- RtoC_plus, <- RtoC_div by lra. reflexivity. }
  assert (E2 : ((1 - RtoC e0 / RtoC e1) / 2)%C = RtoC ((1 - e0 / e1) / 2)).
  { rewrite <- RtoC_div, <- RtoC_minus, <- RtoC_div by lra. reflexivity. }
  assert (E3 : ((1 + RtoC e1 / RtoC e2) / 2)%C = RtoC ((1 + e1 / e2) / 2)).
  { rewrite <- RtoC_div, <- RtoC_plus, <- RtoC_div by lra. reflexivity. }
  assert (E4 : ((1 - RtoC e1 / RtoC e2) / 2)%C = RtoC ((1 - e1 / e2) / 2)).
  { rewrite <- RtoC_div, <- RtoC_minus, <- RtoC_div by lra. reflexivity. }
  unfold Mqs. cbn [stackM]. unfold Tqs, Pqs, pT, pP. cbn [pmul c00 c01 c10 c11].
  rewrite E1, E2, E3, E4. set (p := clipR (q * t)) in *.
  set (a := (1 + e0 / e1) / 2) in *. set (b := (1 - e0 / e1) / 2) in *.
  set (c := (1 + e1 / e2) / 2) in *. set (d := (1 - e1 / e2) / 2) in *.
  f_equal.
  assert (D : (RtoC a * (RtoC (exp p) * RtoC c + 0 * RtoC d) + RtoC b * (0 * RtoC c + RtoC (exp (- p)) * RtoC d))%C
              = RtoC (a * exp p * c + b * exp (- p) * d)).
  { rewrite RtoC_plus, !RtoC_mult. ring. }
  rewrite D. unfold rc. rewrite cdiv_ok by (apply RtoC_neq_0; exact ND). rewrite RtoC_div by exact ND. reflexivity.
Qed.

(** example of the safe region: a film of permittivity 3 between 1 and 2 at
    q t = 1, well below the clip *)
Lemma C52_example_safe_region_proof :
  exists r, refl_coef_qs (stack [RtoC 1; RtoC 3; RtoC 2] [2] None) (rr (1 / 2)) = Ok (Some r) /\
            zrefl_qs (map zof [RtoC 1; RtoC 3; RtoC 2]) [Fin 2] (Fin (1 / 2)) = Some (zof r).
Proof.
  pose proof (film_exact 1 3 2 2 None (1 / 2)) as FR. pose proof (film_trans 1 3 2 2 None (1 / 2)) as FT.
  cbn zeta in FR, FT. destruct (film_E (1 / 2) 2 ltac:(lra)) as ([E1 E2] & [E3 E4] & E5).
  set (p := clipR (1 / 2 * 2)) in *.
  set (v := (1 + 1 / 3) / 2 * exp p * ((1 + 3 / 2) / 2) + (1 - 1 / 3) / 2 * exp (- p) * ((1 - 3 / 2) / 2)) in *.
  set (u := (1 - 1 / 3) / 2 * exp p * ((1 + 3 / 2) / 2) + (1 + 1 / 3) / 2 * exp (- p) * ((1 - 3 / 2) / 2)) in *.
  assert (Hv : 2 / 3 * exp p <= v) by (unfold v; lra).
  assert (Hu : - v <= u <= v) by (unfold u, v; lra).
  specialize (FR ltac:(lra) ltac:(lra) ltac:(lra)). specialize (FT ltac:(lra) ltac:(lra) ltac:(lra)).
  pose proof MAXF_big' as MB.
  exists (RtoC (u / v)). split; [exact FR|].
  apply (C52_safe_region_proof [RtoC 1; RtoC 3; RtoC 2] [2] None (1 / 2) (RtoC (u / v)) (RtoC (1 / v))).
  - reflexivity.
  - discriminate.
  - repeat (apply Forall_cons; [apply tame_small; lra|]). apply Forall_nil.
  - repeat constructor. lra.
  - unfold amplification, total_exponent. cbn [tl combine fold_right map fst snd].
    rewrite <- !RtoC_div by lra. rewrite <- !RtoC_plus, <- !RtoC_minus, !Cmod_R.
    rewrite (Rabs_pos_eq (1 + 1 / 3)), (Rabs_pos_eq (1 - 1 / 3)), (Rabs_pos_eq (1 + 3 / 2)), (Rabs_left (1 - 3 / 2)) by lra.
    assert (exp (Rmin (1 / 2 * 2) MAX_EXP_ARG + 0) <= 3); [|lra].
    rewrite Rplus_0_r. apply Rle_trans with (exp 1); [|exact exp_le_3].
    pose proof (Rmin_l (1 / 2 * 2) MAX_EXP_ARG) as H.
    destruct (Rle_lt_or_eq_dec _ _ H) as [H'|H'].
    + left. apply exp_increasing. lra.
    + right. f_equal. lra.
  - exact FR.
  - rewrite Cmod_R. assert (Rabs (u / v) <= 1); [|lra].
    rewrite Rabs_div by lra. apply Rle_div_l; [apply Rabs_pos_lt; lra|].
    rewrite (Rabs_pos_eq v) by lra. apply Rabs_le. lra.
  - exact FT.
  - rewrite Cmod_R. assert (0 < 1 / v <= 2); [|rewrite Rabs_pos_eq; lra].
    split; [apply Rdiv_lt_0_compat; lra|]. apply Rle_div_l; lra.
Qed.
