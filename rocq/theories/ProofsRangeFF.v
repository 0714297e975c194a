(** * Proofs: overflow in the far-field transfer matrix (C68) *)
From Coq Require Import String Reals Lra Lia ZArith List Bool.
From Coquelicot Require Import Rcomplements Complex.
From Verif Require Import Num NumLemmas ModelBase ModelSample ModelTip StackLemmas Spec ModelRange SpecRange
  RangeLemmas ProofsStackQS ProofsStackFF ProofsOpaque ModelRangeFF SpecRangeFF ProofsRange.
Import ListNotations.
Open Scope R_scope.

(** ** Wavevectors *)
Lemma MAXF_sq_le x : x ^ 2 <= MAXF -> x <= MAXF.
Proof. pose proof MAXF_big'. intros H1. destruct (Rle_dec x MAXF); [assumption|nra]. Qed.

Lemma znu_z_is nu q e k :
  is_kz nu q e k -> principal k ->
  Cmod e * nu ^ 2 <= MAXF -> nu ^ 2 <= MAXF -> q ^ 2 <= MAXF -> Cmod k ^ 2 <= MAXF ->
  zis (znu_z (Fin nu) (Fin q) (zof e)) k.
Proof.
  intros Hk Pk H1 H2 H3 H4. unfold znu_z.
  replace (nu ^ 2) with (nu * nu) in H1, H2 by ring. replace (q ^ 2) with (q * q) in H3 by ring.
  rewrite (fmul_fin nu nu) by (rewrite Rabs_pos_eq by nra; exact H2).
  rewrite (fmul_fin q q) by (rewrite Rabs_pos_eq by nra; exact H3).
  assert (E1 : zis (zmul (zof e) (re (Fin (nu * nu)))) (e * RtoC (nu * nu))%C).
  { apply zmul_is; [reflexivity|reflexivity|]. rewrite Cmod_R, Rabs_pos_eq by nra. exact H1. }
  rewrite E1.
  assert (B : Cmod (e * RtoC (nu * nu) - RtoC (q * q))%C <= MAXF).
  { replace (e * RtoC (nu * nu) - RtoC (q * q))%C with (k * k)%C.
    - rewrite Cmod_mult. lra.
    - unfold is_kz in Hk. rewrite Hk. do 2 f_equal; [|]; f_equal; try f_equal; ring. }
  assert (E2 : zsub (zof (e * RtoC (nu * nu))%C) (re (Fin (q * q))) = zof (e * RtoC (nu * nu) - RtoC (q * q))%C).
  { pose proof (Re_le (e * RtoC (nu * nu) - RtoC (q * q))%C) as R1.
    pose proof (Im_le (e * RtoC (nu * nu) - RtoC (q * q))%C) as R2.
    unfold zsub, zof, re. cbn [fst snd].
    rewrite !fsub_fin.
    - f_equal.
    - replace (Im (e * RtoC (nu * nu))%C - 0) with (Im (e * RtoC (nu * nu) - RtoC (q * q))%C); [lra|].
      unfold Im. simpl. ring.
    - replace (Re (e * RtoC (nu * nu))%C - q * q) with (Re (e * RtoC (nu * nu) - RtoC (q * q))%C); [lra|].
      unfold Re. simpl. ring. }
  rewrite E2. unfold zof at 1. cbn [zsqrt].
  assert (E3 : Csqrt (Re (e * RtoC (nu * nu) - RtoC (q * q))%C, Im (e * RtoC (nu * nu) - RtoC (q * q))%C) = k).
  { rewrite (is_kz_principal nu q e k Hk Pk). unfold kz. f_equal.
    replace (nu * nu) with (nu ^ 2) by ring. replace (q * q) with (q ^ 2) by ring.
    destruct (e * RtoC (nu ^ 2) - RtoC (q ^ 2))%C. reflexivity. }
  rewrite E3. pose proof (MAXF_sq_le _ H4) as H5. pose proof (Re_le k). pose proof (Im_le k).
  rewrite !inrange_ok by lra. reflexivity.
Qed.

(** ** NaN propagation *)
Definition hasnan (z : cflt) : Prop := fst z = NaN \/ snd z = NaN.
Definition nan2 : cflt := (NaN, NaN).
Lemma zmul_hasnan a b : hasnan b -> zmul a b = nan2.
Proof.
  intros [H|H]; unfold zmul, nan2; rewrite H, !fmul_nan_r, ?fsub_nan_l, ?fsub_nan_r, ?fadd_nan_l, ?fadd_nan_r; reflexivity.
Qed.
Lemma zmul_hasnan_l a b : hasnan a -> zmul a b = nan2.
Proof.
  intros [H|H]; unfold zmul, nan2; rewrite H, !fmul_nan_l, ?fsub_nan_l, ?fsub_nan_r, ?fadd_nan_l, ?fadd_nan_r; reflexivity.
Qed.
Lemma zadd_nan_l b : zadd nan2 b = nan2.
Proof. reflexivity. Qed.
Definition allnan (M : zmat) : Prop := z00 M = nan2 /\ z01 M = nan2 /\ z10 M = nan2 /\ z11 M = nan2.
Lemma nan2_has : hasnan nan2. Proof. left. reflexivity. Qed.

Lemma zmm_col M P T : hasnan (z00 P) -> hasnan (z10 P) -> allnan (zmm (zmm M P) T).
Proof.
  intros H0 H1.
  assert (E0 : z00 (zmm M P) = nan2) by (cbn [zmm z00]; rewrite (zmul_hasnan _ _ H0); apply zadd_nan_l).
  assert (E1 : z10 (zmm M P) = nan2) by (cbn [zmm z10]; rewrite (zmul_hasnan _ _ H0); apply zadd_nan_l).
  unfold allnan. set (N := zmm M P) in *. cbn [zmm z00 z01 z10 z11]. rewrite E0, E1.
  rewrite !(zmul_hasnan_l nan2) by apply nan2_has. rewrite !zadd_nan_l. auto.
Qed.
Lemma zmm_allnan M T : allnan M -> allnan (zmm M T).
Proof.
  intros (H0 & H1 & H2 & H3). unfold allnan. cbn [zmm z00 z01 z10 z11]. rewrite H0, H1, H2, H3.
  rewrite !(zmul_hasnan_l nan2) by apply nan2_has. rewrite !zadd_nan_l. auto.
Qed.
Lemma zchain_allnan l : forall M, allnan M -> allnan (zchain M l).
Proof.
  induction l as [|[T P] l IH]; intros M H; [exact H|].
  apply (IH (zmm (zmm M P) T)). apply zmm_allnan, zmm_allnan, H.
Qed.
Lemma zchain_app l1 l2 : forall M, zchain M (l1 ++ l2) = zchain (zchain M l1) l2.
Proof. intros M. unfold zchain. apply fold_left_app. Qed.
Lemma zchain_col M l1 T P l2 : hasnan (z00 P) -> hasnan (z10 P) -> allnan (zchain M (l1 ++ (T, P) :: l2)).
Proof.
  intros H0 H1. rewrite zchain_app. apply (zchain_allnan l2 (zmm (zmm _ P) T)). apply zmm_col; assumption.
Qed.

Definition overflowed (a : flt) : Prop := a = PInf \/ a = NInf.
Lemma inrange_cases x : overflowed (inrange x) \/ inrange x = Fin x /\ Rabs x <= MAXF.
Proof.
  unfold inrange, overflowed. destruct (Rle_dec (Rabs x) MAXF); [right; auto|].
  destruct (Rlt_dec 0 x); auto.
Qed.
Lemma scale_0 p : scale_inf p 0 = NaN.
Proof. unfold scale_inf. destruct (Rlt_dec 0 0); [lra|reflexivity]. Qed.
Lemma overflowed_0 a : overflowed a -> fmul a (Fin 0) = NaN.
Proof. intros [-> | ->]; apply scale_0. Qed.
Lemma over_mul_real a x : overflowed (fst a) \/ overflowed (snd a) -> x = 0 \/ x = 1 -> hasnan (zmul a (rf x)).
Proof.
  intros Ha Hx. unfold hasnan, zmul, rf, re. cbn [fst snd]. destruct Ha as [Ha|Ha].
  - right. rewrite (overflowed_0 _ Ha). apply fadd_nan_l.
  - left. rewrite (overflowed_0 _ Ha). apply fsub_nan_r.
Qed.

Lemma sqrt2_over x y : MAX_EXP_ARG + ln 2 / 2 < x ->
  ~ (Rabs (exp x * cos y) <= MAXF /\ Rabs (exp x * sin y) <= MAXF).
Proof.
  intros Hx [H1 H2]. pose proof MAXF_pos as PM.
  assert (E : exp (2 * x) = (exp x * cos y) ^ 2 + (exp x * sin y) ^ 2).
  { replace (2 * x) with (x + x) by ring. rewrite exp_plus. pose proof (sin2_cos2 y) as S. unfold Rsqr in S. 
    replace ((exp x * cos y) ^ 2 + (exp x * sin y) ^ 2) with (exp x * exp x * (sin y * sin y + cos y * cos y)) by ring.
    rewrite S. ring. }
  assert (B : exp (2 * x) <= 2 * MAXF ^ 2).
  { rewrite E. rewrite <- (pow2_abs (exp x * cos y)), <- (pow2_abs (exp x * sin y)).
    pose proof (Rabs_pos (exp x * cos y)). pose proof (Rabs_pos (exp x * sin y)). nra. }
  assert (exp (2 * MAX_EXP_ARG + ln 2) < exp (2 * x)) by (apply exp_increasing; lra).
  rewrite exp_plus, exp_ln in H by lra. replace (2 * MAX_EXP_ARG) with (MAX_EXP_ARG + MAX_EXP_ARG) in H by ring.
  rewrite exp_plus, exp_MAX in H. nra.
Qed.

Lemma zphase_is k t s : zis (zmul (zof k) (re (Fin t))) (k * RtoC t)%C -> (s = -1 \/ s = 1) -> Cmod k * Rabs t <= MAXF ->
  zmul (Fin 0, Fin s) (zmul (zof k) (re (Fin t))) = zof ((0, s)%R * (k * RtoC t))%C.
Proof.
  intros E Hs H. rewrite E. apply (zmul_is (Fin 0, Fin s) (zof (k * RtoC t)%C) (0, s)%R (k * RtoC t)%C).
  - reflexivity.
  - reflexivity.
  - rewrite Cmod_mult, Cmod_R. replace (Cmod (0, s)) with 1; [lra|].
    unfold Cmod. cbn [fst snd]. symmetry. rewrite <- sqrt_1. f_equal. destruct Hs as [-> | ->]; ring.
Qed.

Lemma zprop_ff_over k t : Cmod k * Rabs t <= MAXF -> MAX_EXP_ARG + ln 2 / 2 < Im k * t ->
  hasnan (z00 (zprop_ff (zof k) (Fin t))) /\ hasnan (z10 (zprop_ff (zof k) (Fin t))).
Proof.
  intros H1 H2. unfold zprop_ff. cbn [z00 z10].
  assert (E : zis (zmul (zof k) (re (Fin t))) (k * RtoC t)%C).
  { apply zmul_is; [reflexivity|reflexivity|]. rewrite Cmod_R. exact H1. }
  rewrite (zphase_is k t (-1) E) by auto.
  set (a := zexp (zof ((0, -1)%R * (k * RtoC t))%C)).
  assert (Ha : overflowed (fst a) \/ overflowed (snd a)).
  { unfold a, zof. cbn [zexp fst snd].
    set (x := Re ((0, -1)%R * (k * RtoC t))%C). set (y := Im ((0, -1)%R * (k * RtoC t))%C).
    assert (Ex : x = Im k * t) by (unfold x, Re, Im; simpl; ring).
    destruct (inrange_cases (exp x * cos y)) as [O|[_ B1]]; [left; exact O|].
    destruct (inrange_cases (exp x * sin y)) as [O|[_ B2]]; [right; exact O|].
    exfalso. apply (sqrt2_over x y); [lra|auto]. }
  split; apply over_mul_real; auto.
Qed.

(** ** Finding the layer in the product *)
Lemma combine_split {A B} (l1 : list B) b l2 : forall (l : list A), length l = length (l1 ++ b :: l2) ->
  exists a m1 m2, combine l (l1 ++ b :: l2) = m1 ++ (a, b) :: m2.
Proof.
  induction l1 as [|x l1 IH]; intros l H; destruct l as [|a l]; cbn in H; try lia.
  - exists a, [], (combine l l2). reflexivity.
  - destruct (IH l) as (a' & m1 & m2 & E); [lia|]. exists a', ((a, x) :: m1), m2. cbn [app combine]. rewrite E. reflexivity.
Qed.
Lemma combine_app {A B} (l1 : list A) : forall (m1 : list B) l2 m2, length l1 = length m1 ->
  combine (l1 ++ l2) (m1 ++ m2) = combine l1 m1 ++ combine l2 m2.
Proof.
  induction l1 as [|a l1 IH]; intros [|b m1] l2 m2 H; try discriminate; [reflexivity|].
  cbn in H. cbn [app combine]. rewrite IH by lia. reflexivity.
Qed.
Lemma removelast_length {A} (l : list A) : length (removelast l) = (length l - 1)%nat.
Proof.
  induction l as [|a [|b l] IH]; [reflexivity|reflexivity|]. rewrite removelast_cons2. cbn [length] in *. lia.
Qed.

(** C68. The far-field transfer matrix has no clip on its exponents: if the
    attenuation exponent of one layer exceeds the logarithm of the largest
    double (by more than ln 2 / 2), the reflection and the transmission
    coefficient are nan for both polarizations, whatever the rest of the
    stack is. *)
Lemma C68_opaque_layer_nan_refuted_proof :
  forall (p : bool) (es1 : list C) (e : C) (es2 : list C) (ts1 : list R) (t : R) (ts2 : list R) (nu q : R) (k : C),
  length es1 = S (length ts1) -> length es2 = S (length ts2) ->
  is_kz nu q e k -> principal k ->
  Cmod e * nu ^ 2 <= MAXF -> nu ^ 2 <= MAXF -> q ^ 2 <= MAXF -> Cmod k ^ 2 <= MAXF -> Cmod k * Rabs t <= MAXF ->
  MAX_EXP_ARG + ln 2 / 2 < Im k * t ->
  zrefl_ff p (map zof (es1 ++ e :: es2)) (map Fin (ts1 ++ t :: ts2)) (Fin nu) (Fin q) = Some (NaN, NaN) /\
  ztrans_ff p (map zof (es1 ++ e :: es2)) (map Fin (ts1 ++ t :: ts2)) (Fin nu) (Fin q) = Some (NaN, NaN).
Proof.
  intros p es1 e es2 ts1 t ts2 nu q k L1 L2 Hk Pk B1 B2 B3 B4 B5 HB.
  pose proof (znu_z_is nu q e k Hk Pk B1 B2 B3 B4) as Ek.
  destruct (zprop_ff_over k t B5 HB) as [N0 N1].
  assert (HM : exists M, ztransfer_ff p (map zof (es1 ++ e :: es2)) (map Fin (ts1 ++ t :: ts2)) (Fin nu) (Fin q) = Some M
                         /\ allnan M).
  { unfold ztransfer_ff.
    set (lay := map (fun e0 => (e0, znu_z (Fin nu) (Fin q) e0)) (map zof (es1 ++ e :: es2))).
    set (g := fun e0 => (zof e0, znu_z (Fin nu) (Fin q) (zof e0))).
    assert (El : lay = map g es1 ++ g e :: map g es2).
    { unfold lay. rewrite map_map, map_app. reflexivity. }
    assert (Ll : length lay = (length ts1 + length ts2 + 3)%nat).
    { rewrite El, app_length. cbn [length]. rewrite !map_length. lia. }
    assert (LT : length (ztrans_matrices_ff p lay) = (length ts1 + length ts2 + 2)%nat).
    { unfold ztrans_matrices_ff. rewrite map_length, combine_length, removelast_length.
      clearbody lay. destruct lay; cbn [tl length] in *; lia. }
    destruct (ztrans_matrices_ff p lay) as [|T Ts]; [cbn in LT; lia|]. cbn [length] in LT.
    replace (2 <? length (map zof (es1 ++ e :: es2)))%nat with true.
    2:{ symmetry. apply Nat.ltb_lt. rewrite map_length, app_length. cbn [length]. lia. }
    destruct es1 as [|a es1]; [discriminate|]. cbn [length] in L1. injection L1 as L1.
    assert (Ep : exists P1 P2, map (fun p0 => zprop_ff (snd (fst p0)) (snd p0)) (combine (removelast (tl lay)) (map Fin (ts1 ++ t :: ts2)))
                 = P1 ++ zprop_ff (zof k) (Fin t) :: P2 /\ length P1 = length ts1 /\ length P2 = length ts2).
    { rewrite El. cbn [map app tl].
      replace (removelast (map g es1 ++ g e :: map g es2)) with (map g es1 ++ g e :: removelast (map g es2)).
      2:{ destruct es2 as [|b es2]; [discriminate|]. cbn [map]. rewrite removelast_app by discriminate. reflexivity. }
      rewrite map_app. cbn [map]. rewrite combine_app by (rewrite !map_length; exact L1).
      cbn [combine]. rewrite map_app. cbn [map fst snd]. replace (snd (g e)) with (zof k) by (symmetry; exact Ek).
      do 2 eexists. split; [reflexivity|]. rewrite !map_length, !combine_length, !removelast_length, !map_length. lia. }
    destruct Ep as (P1 & P2 & -> & LP1 & LP2).
    destruct (combine_split P1 (zprop_ff (zof k) (Fin t)) P2 Ts) as (T' & m1 & m2 & ->).
    { rewrite app_length. cbn [length]. lia. }
    eexists. split; [reflexivity|]. apply zchain_col; assumption. }
  destruct HM as (M & EM & H0 & _ & H1 & _). unfold zrefl_ff, ztrans_ff. rewrite EM, H0, H1. split; reflexivity.
Qed.
