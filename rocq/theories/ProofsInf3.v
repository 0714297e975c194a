(** * Infinite arguments (C103): tips *)
From Coq Require Import String Reals Lra Lia ZArith List Bool.
From Coquelicot Require Import Rcomplements Complex.
From Verif Require Import Num NumLemmas ModelBase ModelSample ModelTip StackLemmas Spec ModelRange SpecRange
  RangeLemmas SpecInf ModelInf ProofsStackQS ProofsPassive ProofsRange ProofsRange3 ProofsTip2 ProofsInf ProofsInf2.
Import ListNotations.
Open Scope R_scope.

(** ** the point dipole at any height *)
Lemma zsub_is a b x y : zis a x -> zis b y -> Cmod (x - y)%C <= MAXF -> zis (zsub a b) (x - y)%C.
Proof.
  intros -> -> H. unfold zis, zof, zsub. cbn [fst snd].
  assert (H1 : Rabs (Re (x - y)%C) <= MAXF) by (eapply Rle_trans; [apply Re_le|exact H]).
  assert (H2 : Rabs (Im (x - y)%C) <= MAXF) by (eapply Rle_trans; [apply Im_le|exact H]).
  rewrite !fsub_fin; [f_equal; f_equal; unfold Re, Im; cbn; ring|..].
  - replace (Im x - Im y) with (Im (x - y)%C) by (unfold Im; cbn; ring). exact H2.
  - replace (Re x - Re y) with (Re (x - y)%C) by (unfold Re; cbn; ring). exact H1.
Qed.
(** division by a positive real *)
Lemma zdiv_real (a : C) h : 0 < h -> h <= MAXF -> / h <= MAXF -> Cmod a <= MAXF -> Cmod a / h <= MAXF -> zdiv (zof a) (re (Fin h)) = zof (a / RtoC h)%C.
Proof.
  intros Hh H1 H2 H3 H4. pose proof (Re_le a) as HR. pose proof (Im_le a) as HI. assert (Ih : 0 < / h) by (now apply Rinv_0_lt_compat).
  unfold zdiv, re, zof. cbn [fst snd fabs fge]. rewrite Rabs_R0. destruct (Rle_dec 0 (Rabs h)) as [_|H]; [|exfalso; apply H, Rabs_pos].
  rewrite fdiv_fin by (try lra; unfold Rdiv; rewrite Rmult_0_l, Rabs_R0; lra). replace (0 / h) with 0 by (field; lra).
  cbn [fmul]. rewrite !Rmult_0_r, inr0. cbn [fadd fsub fopp]. rewrite Ropp_0, !Rplus_0_r.
  rewrite (inrange_ok h), (inrange_ok (Re a)), (inrange_ok (Im a)) by (try rewrite (Rabs_pos_eq h); lra).
  rewrite fdiv_fin by (try lra; unfold Rdiv; rewrite Rmult_1_l, Rabs_pos_eq; lra). cbn [fmul].
  assert (B : forall x, Rabs x <= Cmod a -> inrange (x * (1 / h)) = Fin (x * (1 / h))).
  { intros x Hx. apply inrange_ok. rewrite Rabs_mult, (Rabs_pos_eq (1 / h)) by (unfold Rdiv; lra). eapply Rle_trans; [|exact H4]. unfold Rdiv. rewrite Rmult_1_l. apply Rmult_le_compat_r; lra. }
  rewrite !B by assumption. f_equal; f_equal; unfold Cdiv, Cinv, Cmult, RtoC, Re, Im; cbn [fst snd]; field; lra.
Qed.
Lemma zdiv_pinf (a : C) : Cmod a <= MAXF -> zdiv (zof a) (re PInf) = zof (RtoC 0).
Proof. intros H. apply zdiv_inf; [exists 0; now left|exact H]. Qed.
Lemma zdiv_one (a : C) x : zis x (RtoC 1) -> Cmod a <= MAXF -> zdiv (zof a) x = zof a.
Proof.
  intros -> H. pose proof MAXF_big'. change (zof (RtoC 1)) with (re (Fin 1)). rewrite zdiv_real by (try rewrite Rinv_1; try lra; unfold Rdiv; rewrite Rinv_1; lra).
  f_equal. field. intro Z. apply RtoC_inj in Z. lra.
Qed.

(** C103. The point dipole model at every height from contact to infinity ([z_tip = np.inf] included), with overflow of (r + z)^3 allowed: the result is the exact one, or
    the polarizability of the tip alone, which differs from it by less than 4 |alpha|^2 |beta| over the largest double. *)
Lemma C103_pdm_any_height_proof :
  forall (eps : list cflt) (r : R) (alpha b : C),
  zrefl_qs eps [] (Fin 0) = Some (zof b) -> 0 < r -> / TAME <= 16 * PI * r ^ 3 -> Cmod alpha <= TAME -> Cmod b <= TAME ->
  Cmod alpha * Cmod b <= 8 * PI * r ^ 3 ->
  zpdm_eff_pol eps PInf (Fin r) (zof alpha) = Some (zof alpha) /\
  forall z, 0 <= z -> exists a, zpdm_eff_pol eps (Fin z) (Fin r) (zof alpha) = Some (zof a) /\
    let exact := (alpha / (1 - alpha / RtoC (16 * PI * (r + z) ^ 3) * b))%C in
    (a = exact \/ a = alpha /\ Cmod (a - exact)%C <= 4 * Cmod alpha ^ 2 * Cmod b / MAXF).
Proof.
  intros eps r al b Hz Hr Hr3 Ha Hb Hab. pose proof PI_RGT_0 as HP. pose proof MAXF_big' as MB. pose proof MAXF_gt_TAME as MT. pose proof TAME_ge1 as T1. pose proof TAME_sq as T2.
  pose proof (Cmod_ge_0 al) as Pa. pose proof (Cmod_ge_0 b) as Pb.
  assert (Am : Cmod al <= MAXF) by lra.
  assert (Zr : forall x, zis x (RtoC 0) -> zdiv (zof al) (zsub (rf 1) (zmul x (zof b))) = zof al).
  { intros x Hx. apply zdiv_one; [|exact Am]. replace (RtoC 1) with (RtoC 1 - RtoC 0 * b)%C by ring. apply zsub_is; [apply zis_R|apply zmul_is; [exact Hx|reflexivity|rewrite Cmod_0; lra]|].
    replace (RtoC 1 - RtoC 0 * b)%C with (RtoC 1) by ring. rewrite Cmod_1. lra. }
  assert (Inf : forall h, h = PInf -> zdiv (zof al) (zsub (rf 1) (zmul (zdiv (zof al) (re h)) (zof b))) = zof al).
  { intros h ->. rewrite zdiv_pinf by exact Am. apply Zr. reflexivity. }
  assert (Pr3 : 0 < 16 * PI * r ^ 3) by (apply Rmult_lt_0_compat; [lra|now apply pow_lt]).
  split.
  - unfold zpdm_eff_pol, zpdm_geom. rewrite Hz. f_equal. apply Inf. cbn [fadd fcube fmul]. unfold scale_inf. destruct (Rlt_dec 0 (16 * PI)); [reflexivity|lra].
  - intros z Hz0. set (h := 16 * PI * (r + z) ^ 3).
    assert (H3 : r ^ 3 <= (r + z) ^ 3) by (apply pow_incr; lra). assert (Hh : 16 * PI * r ^ 3 <= h) by (unfold h; apply Rmult_le_compat_l; lra).
    assert (Hp : 0 < h) by lra. assert (Hf : Cmod al / h * Cmod b <= 1 / 2).
    { replace (Cmod al / h * Cmod b) with (Cmod al * Cmod b / h) by (field; lra). apply Rle_div_l; [exact Hp|]. lra. }
    assert (Ex : (1 - al / RtoC h * b)%C <> RtoC 0 /\ 1 / 2 <= Cmod (1 - al / RtoC h * b)%C <= 3 / 2).
    { assert (Cb : Cmod (al / RtoC h * b)%C <= 1 / 2) by (rewrite Cmod_mult, Cmod_div, Cmod_R, Rabs_pos_eq by (try (apply RtoC_neq_0; lra); lra); exact Hf).
      assert (1 / 2 <= Cmod (1 - al / RtoC h * b)%C).
      { pose proof (Cmod_triangle (1 - al / RtoC h * b)%C (al / RtoC h * b)%C) as T. replace (1 - al / RtoC h * b + al / RtoC h * b)%C with (RtoC 1) in T by ring. rewrite Cmod_1 in T. lra. }
      split; [intro Z; rewrite Z, Cmod_0 in *; lra|]. split; [assumption|]. unfold Cminus. eapply Rle_trans; [apply Cmod_triangle|]. rewrite Cmod_opp, Cmod_1. lra. }
    destruct Ex as [Nx Bx].
    unfold zpdm_eff_pol, zpdm_geom. rewrite Hz.
    assert (Cases : (fmul (Fin (16 * PI)) (fcube (fadd (Fin r) (Fin z))) = Fin h /\ h <= MAXF) \/ (fmul (Fin (16 * PI)) (fcube (fadd (Fin r) (Fin z))) = PInf /\ MAXF < h)).
    { cbn [fadd]. pose proof PI2_3_2 as P32. destruct (Rle_lt_dec (r + z) MAXF) as [C1|C1].
      - rewrite (inrange_ok (r + z)) by (rewrite Rabs_pos_eq; lra). cbn [fcube]. assert (C0 : 0 < (r + z) ^ 3) by (apply pow_lt; lra).
        assert (Ch : (r + z) ^ 3 <= h). { unfold h. rewrite <- (Rmult_1_l ((r + z) ^ 3)) at 1. apply Rmult_le_compat_r; [lra|]. lra. }
        destruct (Rle_lt_dec ((r + z) ^ 3) MAXF) as [C2|C2].
        + rewrite inrange_ok by (rewrite Rabs_pos_eq; lra). cbn [fmul]. fold h. destruct (Rle_lt_dec h MAXF) as [C3|C3].
          * left. rewrite inrange_ok by (rewrite Rabs_pos_eq; lra). auto.
          * right. rewrite inrange_over by exact C3. auto.
        + right. rewrite inrange_over by exact C2. cbn [fmul]. unfold scale_inf. destruct (Rlt_dec 0 (16 * PI)); [|lra]. split; [reflexivity|lra].
      - right. rewrite inrange_over by exact C1. cbn [fcube fmul]. unfold scale_inf. destruct (Rlt_dec 0 (16 * PI)); [|lra]. split; [reflexivity|].
        assert (1 <= (r + z) ^ 2) by (apply (pow_R1_Rle (r + z) 2); lra).
        assert ((r + z) * 1 <= (r + z) * (r + z) ^ 2) by (apply Rmult_le_compat_l; lra).
        assert (r + z <= (r + z) ^ 3) by (replace ((r + z) ^ 3) with ((r + z) * (r + z) ^ 2) by ring; lra).
        assert (1 * (r + z) ^ 3 <= h) by (unfold h; apply Rmult_le_compat_r; lra). lra. }
    destruct Cases as [[-> C]|[-> C]].
    + exists (al / (1 - al / RtoC h * b))%C. split; [|left; reflexivity]. f_equal.
      assert (TI : / h <= TAME).
      { rewrite <- (Rinv_inv TAME). apply Rinv_le_contravar; [apply Rinv_0_lt_compat; lra|lra]. }
      assert (Ah : Cmod al / h <= TAME * TAME) by (unfold Rdiv; apply Rmult_le_compat; try lra; left; now apply Rinv_0_lt_compat).
      assert (G : zis (zdiv (zof al) (re (Fin h))) (al / RtoC h)%C) by (apply zdiv_real; lra).
      assert (S1 : zis (zsub (rf 1) (zmul (zdiv (zof al) (re (Fin h))) (zof b))) (1 - al / RtoC h * b)%C).
      { apply zsub_is; [apply zis_R|apply zmul_is; [exact G|reflexivity|]|lra]. rewrite Cmod_div, Cmod_R, Rabs_pos_eq by (try (apply RtoC_neq_0; lra); lra). lra. }
      assert (A0 : zis (zof al) al) by reflexivity.
      pose proof (Rmax_half_Cmod (1 - al / RtoC h * b)%C) as RM.
      apply (zdiv_is _ _ _ _ (1 / 4) A0 S1); try lra.
    + exists al. split; [f_equal; now apply Inf|]. right. split; [reflexivity|].
      assert (Nh : RtoC h <> RtoC 0) by (apply RtoC_neq_0; lra).
      replace (al - al / (1 - al / RtoC h * b))%C with (- (al * al * b / RtoC h / (1 - al / RtoC h * b)))%C by (set (m := (1 - al / RtoC h * b)%C) in *; assert (Em : (al * b = RtoC h * (1 - m))%C) by (unfold m; field; exact Nh); replace (al * al * b / RtoC h / m)%C with (al * (al * b) / RtoC h / m)%C by (field; now split); rewrite Em; field; now split).
      rewrite Cmod_opp, (Cmod_div _ _ Nx), (Cmod_div _ _ Nh), !Cmod_mult, (Cmod_R h), (Rabs_pos_eq h) by lra.
      set (m := Cmod (1 - al / RtoC h * b)%C) in *. assert (Q : 0 <= Cmod al * Cmod al * Cmod b) by (apply Rmult_le_pos; [now apply Rmult_le_pos|exact Pb]).
      replace (4 * Cmod al ^ 2 * Cmod b / MAXF) with (Cmod al * Cmod al * Cmod b / MAXF * 4) by (field; lra).
      replace (Cmod al * Cmod al * Cmod b / h / m) with (Cmod al * Cmod al * Cmod b / h * / m) by (field; split; lra).
      assert (I1 : / h <= / MAXF) by (apply Rinv_le_contravar; lra). assert (I2 : / m <= 4) by (replace 4 with (/ (1 / 4)) by field; apply Rinv_le_contravar; lra).
      assert (I3 : 0 < / h) by (now apply Rinv_0_lt_compat).
      apply Rmult_le_compat; [apply Rmult_le_pos; lra|left; apply Rinv_0_lt_compat; lra| |exact I2]. unfold Rdiv. apply Rmult_le_compat_l; assumption.
Qed.

(** ** nan spreads *)
Ltac no00 := repeat match goal with |- context [Rlt_dec 0 0] => destruct (Rlt_dec 0 0); [lra|] end.
Definition zn (a : cflt) : Prop := fst a = NaN \/ snd a = NaN.
Lemma zn_nan : zn (NaN, NaN). Proof. now left. Qed.
Ltac nans := rewrite ?fmul_nan_r, ?fmul_nan_l, ?fsub_nan_r, ?fsub_nan_l, ?fadd_nan_r, ?fadd_nan_l, ?fmul_nan_l, ?fmul_nan_r.
Lemma zmul_n_l a b : zn a -> zmul a b = (NaN, NaN).
Proof. unfold zmul. intros [->| ->]; nans; reflexivity. Qed.
Lemma zmul_n_r a b : zn b -> zmul a b = (NaN, NaN).
Proof. unfold zmul. intros [->| ->]; nans; reflexivity. Qed.
Lemma zdiv_n_l a b : zn a -> zdiv a b = (NaN, NaN).
Proof. unfold zdiv. intros [->| ->]; destruct (fge _ _); cbv zeta; nans; reflexivity. Qed.
Lemma zsub_n_r a b : zn b -> zn (zsub a b).
Proof. unfold zsub, zn. cbn [fst snd]. intros [->| ->]; nans; auto. Qed.
Lemma inrange_pos x : 0 <= x -> inrange x = Fin x \/ inrange x = PInf.
Proof. intros H. destruct (Rle_lt_dec x MAXF); [left; apply inrange_ok; rewrite Rabs_pos_eq; lra|right; now apply inrange_over]. Qed.

Lemma zfdm_geom_z d r L g : 0 < r -> 0 < L -> 0 <= d -> zfdm_geom PInf (Fin d) (Fin r) (Fin L) (zof g) = (NaN, NaN).
Proof.
  intros Hr HL Hd. unfold zfdm_geom. apply zdiv_n_l.
  assert (E1 : fadd (fadd (Fin r) (fmul (Fin 2) PInf)) (fmul (Fin d) (Fin r)) = PInf).
  { cbn [fmul]. unfold scale_inf. destruct (Rlt_dec 0 2); [|lra]. cbn [fadd]. destruct (inrange_pos (d * r)) as [->| ->]; [apply Rmult_le_pos; lra|reflexivity|reflexivity]. }
  assert (E2 : fadd (fadd (Fin r) (fmul (Fin 4) PInf)) (fmul (fmul (Fin 2) (Fin d)) (Fin r)) = PInf).
  { cbn [fmul]. unfold scale_inf. destruct (Rlt_dec 0 4); [|lra]. cbn [fadd]. destruct (inrange_pos (2 * d)) as [->| ->]; [lra| |].
    - cbn [fmul]. destruct (inrange_pos (2 * d * r)) as [->| ->]; [apply Rmult_le_pos; lra|reflexivity|reflexivity].
    - cbn [fmul]. unfold scale_inf. destruct (Rlt_dec 0 r); [reflexivity|lra]. }
  rewrite E1, E2. cbn [fmul].
  destruct (inrange_pos (2 * L)) as [->| ->]; [lra| |].
  - destruct (inrange_pos (4 * L)) as [->| ->]; [lra| |].
    + cbn [fdiv flog]. unfold scale_inf. destruct (Rlt_dec 0 (2 * L)); [|lra]. destruct (Rlt_dec 0 0); [lra|]. destruct (Req_EM_T 0 0); [|lra].
      right. unfold zmul, zsub, re, zof. cbn [fst snd fsub fadd fopp fmul]. unfold scale_inf. destruct (Rlt_dec 0 0); [lra|]. reflexivity.
    + cbn [fdiv flog]. rewrite zmul_n_r by (now left). apply zn_nan.
  - cbn [fdiv]. rewrite zmul_n_l by (apply zsub_n_r; now left). apply zn_nan.
Qed.
Lemma zfdm_geom_L z d r g : 0 < r -> 0 <= z -> 0 <= d -> r + 4 * z + 2 * d * r <= MAXF -> Cmod g <= MAXF -> zfdm_geom (Fin z) (Fin d) (Fin r) PInf (zof g) = (NaN, NaN).
Proof.
  intros Hr Hz Hd Hm Hg. pose proof (Re_le g) as HR. pose proof (Im_le g) as HI. assert (P : 0 <= d * r) by (apply Rmult_le_pos; lra).
  assert (P2 : 0 <= 2 * d) by lra.
  assert (Q2 : fmul (Fin 2) PInf = PInf) by (cbn [fmul]; unfold scale_inf; destruct (Rlt_dec 0 2); [reflexivity|lra]).
  assert (Q4 : fmul (Fin 4) PInf = PInf) by (cbn [fmul]; unfold scale_inf; destruct (Rlt_dec 0 4); [reflexivity|lra]).
  assert (F1 : exists u, fadd (fadd (Fin r) (fmul (Fin 2) (Fin z))) (fmul (Fin d) (Fin r)) = Fin u).
  { rewrite !fmul_fin by (rewrite Rabs_pos_eq; lra). rewrite fadd_fin by (rewrite Rabs_pos_eq; lra). rewrite fadd_fin by (rewrite Rabs_pos_eq; lra). eauto. }
  assert (F2 : (exists u, 0 < u /\ fadd (fadd (Fin r) (fmul (Fin 4) (Fin z))) (fmul (fmul (Fin 2) (Fin d)) (Fin r)) = Fin u) \/ fadd (fadd (Fin r) (fmul (Fin 4) (Fin z))) (fmul (fmul (Fin 2) (Fin d)) (Fin r)) = PInf).
  { rewrite (fmul_fin 4 z) by (rewrite Rabs_pos_eq; lra). rewrite fadd_fin by (rewrite Rabs_pos_eq; lra). cbn [fmul]. destruct (inrange_pos (2 * d)) as [->| ->]; [lra| |].
    - left. exists (r + 4 * z + 2 * d * r). rewrite fmul_fin by (rewrite Rabs_pos_eq; lra). rewrite fadd_fin by (rewrite Rabs_pos_eq; lra). split; [lra|reflexivity].
    - right. cbn [fmul]. unfold scale_inf. destruct (Rlt_dec 0 r); [reflexivity|lra]. }
  unfold zfdm_geom. destruct F1 as [u ->]. rewrite Q2, Q4. destruct F2 as [(v & Pv & ->)| ->].
  - cbn [fdiv flog]. unfold scale_inf. destruct (Rlt_dec 0 v); [|lra]. destruct (Rlt_dec 0 r); [|lra]. cbn [flog].
    unfold zmul, zsub, zof, re. cbn [fst snd fsub fopp fadd]. rewrite Ropp_0, !Rplus_0_r, !inrange_ok by lra. cbn [fmul]. rewrite !Rmult_0_r, inr0.
    unfold zdiv. cbn [fst snd fabs fge fdiv fadd]. cbn [fmul]. rewrite ?Rmult_0_l, ?inr0. cbn [fadd fdiv fopp]. rewrite ?Ropp_0.
    set (gr := Re g) in *. set (gi := Im g) in *. unfold scale_inf, fsub.
    destruct (Rlt_dec 0 gr); destruct (Rlt_dec gr 0); destruct (Rlt_dec 0 gi); destruct (Rlt_dec gi 0); try lra;
      cbn [fadd fmul fopp]; unfold scale_inf; no00; cbn [fadd fmul fopp]; unfold scale_inf; no00; reflexivity.
  - cbn [fdiv flog]. apply zdiv_n_l. rewrite zmul_n_r by (now left). apply zn_nan.
Qed.

(** C103. The finite dipole model with an infinite height or an infinite tip length: nan over every sample; so is the default d_Q0 of an infinitely long tip.
    For the length the documented expression has a limit, the first statement of C103_long_tip. *)
Lemma C103_fdm_nan_refuted_proof :
  forall (eps : list cflt) (b : cflt) (z d0 d1 r L : R) (g : C),
  zrefl_qs eps [] (Fin 0) = Some b -> 0 < r -> 0 < L -> 0 <= z -> 0 <= d0 -> 0 <= d1 -> Cmod g <= MAXF ->
  zfdm_eff_pol eps PInf (Fin d0) (Fin d1) (Fin r) (Fin L) (zof g) = Some (NaN, NaN) /\
  (r + 4 * z + 2 * d0 * r <= MAXF -> r + 4 * z + 2 * d1 * r <= MAXF ->
   zfdm_eff_pol eps (Fin z) (Fin d0) (Fin d1) (Fin r) PInf (zof g) = Some (NaN, NaN)) /\
  zd_Q0 (Fin r) PInf = NaN.
Proof.
  intros eps b z d0 d1 r L g Hb Hr HL Hz H0 H1 Hg.
  assert (K : zadd (rf 1) (zdiv (zmul b (NaN, NaN)) (zmul (rf 2) (zsub (rf 1) (zmul b (NaN, NaN))))) = (NaN, NaN)).
  { rewrite (zmul_n_r b) by apply zn_nan. rewrite zdiv_n_l by apply zn_nan. reflexivity. }
  split; [|split].
  - unfold zfdm_eff_pol. rewrite Hb, !zfdm_geom_z by assumption. f_equal. exact K.
  - intros M0 M1. unfold zfdm_eff_pol. rewrite Hb, !zfdm_geom_L by assumption. f_equal. exact K.
  - unfold zd_Q0. cbn [fmul]. unfold scale_inf. destruct (Rlt_dec 0 (131 / 100)); [|lra]. destruct (inrange_pos (2 * r)) as [->| ->]; [lra|reflexivity|reflexivity].
Qed.

(** C103. The limits for a long tip: the geometry function tends to g at every height and charge position, and the default d_Q0 to 1.31. *)
Lemma C103_long_tip_proof :
  forall (z d r : R) (g : C) ep, 0 < r -> 0 <= z -> 0 <= d -> 0 < ep -> exists L0, 0 < L0 /\ forall L, L0 <= L ->
  Cmod (fdm_f z d r L g - g)%C <= ep /\ Rabs (131 / 100 * L / (L + 2 * r) - 131 / 100) <= ep.
Proof.
  intros z d r g ep Hr Hz Hd He. pose proof (Cmod_ge_0 g) as Pg. assert (P : 0 <= r * d) by (apply Rmult_le_pos; lra).
  set (h := r + 4 * z + 2 * r * d). set (c := r + 2 * z + r * d). assert (Hh : r <= h) by (unfold h; lra). assert (Hc : 0 < c) by (unfold c; lra).
  set (D := ln (h / r)). assert (HD : 0 <= D). { unfold D. rewrite <- ln_1. apply ln_le; [lra|]. apply Rle_div_r; lra. }
  set (K := 1 + 2 * (Cmod g * D) / ep). assert (HK : 1 <= K). { assert (0 <= 2 * (Cmod g * D) / ep) by (apply Rle_div_r; [lra|]; rewrite Rmult_0_l; apply Rmult_le_pos; [lra|now apply Rmult_le_pos]). unfold K. lra. }
  set (L1 := r / 4 * exp K). set (L2 := c * (1 + D) / ep). set (L3 := 3 * r / ep).
  assert (E1 : 0 < L1) by (unfold L1; apply Rmult_lt_0_compat; [lra|apply exp_pos]).
  exists (Rmax L1 (Rmax L2 L3)). split; [eapply Rlt_le_trans; [exact E1|apply Rmax_l]|].
  intros L HL. assert (HL1 : L1 <= L) by (eapply Rle_trans; [apply Rmax_l|exact HL]).
  assert (HL2 : L2 <= L) by (eapply Rle_trans; [apply Rmax_l|eapply Rle_trans; [apply Rmax_r|exact HL]]).
  assert (HL3 : L3 <= L) by (eapply Rle_trans; [apply Rmax_r|eapply Rle_trans; [apply Rmax_r|exact HL]]).
  assert (L0 : 0 < L) by lra. split.
  - set (v := ln (4 * L / r)). assert (Hv : K <= v).
    { unfold v. rewrite <- (ln_exp K). apply ln_le; [apply exp_pos|]. apply Rle_div_r; [lra|]. unfold L1 in HL1. lra. }
    assert (Ev : ln (4 * L / h) = v - D).
    { unfold v, D. rewrite <- ln_div; [f_equal; field; split; lra|apply Rdiv_lt_0_compat; lra|apply Rdiv_lt_0_compat; lra]. }
    assert (Ef : (fdm_f z d r L g - g = RtoC (- (D / v)) * g - RtoC (c / (2 * L) * ((v - D) / v)))%C).
    { unfold fdm_f. fold h c v. rewrite Ev. replace ((v - D) / v)%R with (1 + - (D / v))%R by (field; lra). rewrite !RtoC_mult, !RtoC_plus. ring. }
    rewrite Ef. unfold Cminus. eapply Rle_trans; [apply Cmod_triangle|]. rewrite Cmod_opp, Cmod_mult, !Cmod_R, Rabs_Ropp.
    assert (DV : 0 <= D / v) by (apply Rle_div_r; lra).
    assert (B1 : Rabs (D / v) * Cmod g <= ep / 2).
    { rewrite Rabs_pos_eq by exact DV. replace (D / v * Cmod g) with (Cmod g * D / v) by (field; lra). apply Rle_div_l; [lra|].
      apply Rle_trans with (ep / 2 * K); [|apply Rmult_le_compat_l; lra]. unfold K. replace (ep / 2 * (1 + 2 * (Cmod g * D) / ep)) with (ep / 2 + Cmod g * D) by (field; lra). lra. }
    assert (B2 : Rabs (c / (2 * L) * ((v - D) / v)) <= ep / 2).
    { rewrite Rabs_mult. assert (CL : 0 < c / (2 * L)) by (apply Rdiv_lt_0_compat; lra). rewrite (Rabs_pos_eq (c / (2 * L))) by lra.
      assert (R1 : Rabs ((v - D) / v) <= 1 + D).
      { replace ((v - D) / v) with (1 - D / v) by (field; lra). assert (D / v <= D) by (apply Rle_div_l; [lra|]; assert (D * 1 <= D * v) by (apply Rmult_le_compat_l; lra); lra). apply Rabs_le. lra. }
      apply Rle_trans with (c / (2 * L) * (1 + D)); [apply Rmult_le_compat_l; lra|].
      replace (c / (2 * L) * (1 + D)) with (c * (1 + D) / (2 * L)) by (field; lra). apply Rle_div_l; [lra|].
      unfold L2 in HL2. apply Rle_div_l in HL2; [|exact He]. lra. }
    lra.
  - replace (131 / 100 * L / (L + 2 * r) - 131 / 100) with (- (131 / 100 * 2 * r / (L + 2 * r))) by (field; lra).
    rewrite Rabs_Ropp, Rabs_pos_eq by (apply Rle_div_r; lra). apply Rle_div_l; [lra|]. unfold L3 in HL3. apply Rle_div_l in HL3; [|exact He].
    assert (0 <= ep * r) by (apply Rmult_le_pos; lra). lra.
Qed.

(** C103. A tip of infinite permittivity: nan, although the polarizability tends to that of the conducting tip, 4 pi r^3, which the default [eps_tip=None] gives. *)
Lemma C103_conducting_tip_proof :
  forall (r : R) (w : cflt), 0 < r -> infinite_eps w ->
  zalpha_eps (Fin r) w = (NaN, NaN) /\
  (4 * PI * r ^ 3 <= MAXF -> zalpha_metal (Fin r) = zof (RtoC (4 * PI * r ^ 3))) /\
  forall D, as_conductor (fun E => let! ra := pdm_defaults D (Some r) (Some E) None in Ok (snd ra)) (RtoC (4 * PI * r ^ 3)).
Proof.
  intros r w Hr Hw. pose proof PI_RGT_0 as HP. pose proof PI2_3_2 as P32. assert (R3 : 0 < r ^ 3) by (now apply pow_lt). assert (PR : 0 < 4 * PI * r ^ 3) by (apply Rmult_lt_0_compat; lra).
  split; [|split].
  - unfold zalpha_eps. apply zdiv_n_l. set (A := fmul (Fin (4 * PI)) (fcube (Fin r))).
    unfold zmul, zsub, re, rf, zn. cbn [fst snd].
    destruct Hw as [y [->|[->|[->| ->]]]]; cbn [fst snd re fsub fopp fadd fmul]; unfold scale_inf; (destruct (Rlt_dec 0 0); [lra|]); nans; auto.
  - intros H. unfold zalpha_metal. cbn [fcube]. rewrite inrange_ok.
    + rewrite fmul_fin by (rewrite Rabs_pos_eq; lra). reflexivity.
    + rewrite Rabs_pos_eq by lra. assert (1 * r ^ 3 <= 4 * PI * r ^ 3) by (apply Rmult_le_compat_r; lra). lra.
  - intros D ep He. exists (2 + 12 * PI * r ^ 3 / ep + 1). intros E HE.
    assert (Q : 0 < 12 * PI * r ^ 3 / ep) by (apply Rdiv_lt_0_compat; lra).
    assert (Bd : 12 * PI * r ^ 3 / ep + 1 <= Cmod (E + 2)%C).
    { pose proof (Cmod_triangle (E + 2)%C (- (2))%C) as T. replace (E + 2 + - (2))%C with E in T by ring. rewrite Cmod_opp, Cmod_R, Rabs_pos_eq in T by lra. lra. }
    assert (N : (E + 2)%C <> RtoC 0) by (intro Z; rewrite Z, Cmod_0 in Bd; lra).
    exists (RtoC (4 * PI * r ^ 3) * ((E - 1) / (E + 2)))%C. split.
    + rewrite (pdm_defaults_alpha D (Some r) (Some E) None _ (tip_dielectric r E N)). reflexivity.
    + replace (RtoC (4 * PI * r ^ 3) * ((E - 1) / (E + 2)) - RtoC (4 * PI * r ^ 3))%C with (- (RtoC (12 * PI * r ^ 3) / (E + 2)))%C.
      * rewrite Cmod_opp, (Cmod_div _ _ N), Cmod_R, Rabs_pos_eq by lra. apply Rle_div_l; [lra|].
        apply Rle_trans with (ep * (12 * PI * r ^ 3 / ep)); [right; field; lra|]. apply Rmult_le_compat_l; lra.
      * replace (12 * PI * r ^ 3)%R with (3 * (4 * PI * r ^ 3))%R by ring. rewrite (RtoC_mult 3). field. exact N.
Qed.

(** ** examples *)
Lemma conductor_limit (V : C -> res CV) (a b c d : C) : a <> RtoC 0 ->
  (forall E, E <> RtoC 0 -> (a + b / E)%C <> RtoC 0 -> V E = Ok (Some ((c + d / E) / (a + b / E))%C)) -> as_conductor V (c / a)%C.
Proof.
  intros Na HV ep Hp. assert (Pa : 0 < Cmod a) by (now apply Cmod_gt_0). pose proof (Cmod_ge_0 b) as Pb. pose proof (Cmod_ge_0 (a * d - c * b)%C) as Pm. set (m := Cmod (a * d - c * b)%C) in *.
  assert (A2 : 0 < Cmod a * Cmod a) by (now apply Rmult_lt_0_compat).
  set (B1 := 2 * Cmod b / Cmod a). set (B2 := 2 * m / (ep * (Cmod a * Cmod a))).
  assert (P1 : 0 <= B1) by (apply Rle_div_r; lra). assert (P2 : 0 <= B2) by (apply Rle_div_r; [now apply Rmult_lt_0_compat|lra]).
  exists (1 + B1 + B2). intros E HE. assert (E0 : 0 < Cmod E) by lra. assert (NE : E <> RtoC 0) by (intros ->; rewrite Cmod_0 in E0; lra).
  assert (Hb : Cmod (b / E)%C <= Cmod a / 2).
  { rewrite Cmod_div by exact NE. apply Rle_div_l; [exact E0|]. apply Rle_trans with (Cmod a / 2 * B1); [right; unfold B1; field; lra|apply Rmult_le_compat_l; lra]. }
  assert (Hd : Cmod a / 2 <= Cmod (a + b / E)%C).
  { pose proof (Cmod_triangle (a + b / E)%C (- (b / E))%C) as T. replace (a + b / E + - (b / E))%C with a in T by ring. rewrite Cmod_opp in T. lra. }
  assert (Nd : (a + b / E)%C <> RtoC 0) by (intro Z; rewrite Z, Cmod_0 in Hd; lra).
  eexists. split; [now apply HV|]. set (u := (a + b / E)%C) in *.
  replace ((c + d / E) / u - c / a)%C with ((a * d - c * b) / (E * a * u))%C.
  2:{ assert (Eu : (u * E = a * E + b)%C) by (unfold u; field; exact NE). assert (Eb : (b = u * E - a * E)%C) by (rewrite Eu; ring). rewrite Eb at 1. field. repeat split; assumption. }
  assert (NN : (E * a * u)%C <> RtoC 0) by (repeat apply Cmult_neq_0; assumption).
  rewrite Cmod_div, !Cmod_mult by exact NN. fold m. assert (Pu : 0 < Cmod u) by lra.
  apply Rle_div_l; [repeat apply Rmult_lt_0_compat; lra|].
  apply Rle_trans with (ep * (B2 * Cmod a * (Cmod a / 2))); [right; unfold B2; field; split; lra|].
  apply Rmult_le_compat_l; [lra|]. apply Rmult_le_compat; [apply Rmult_le_pos; lra|lra|apply Rmult_le_compat_r; lra|exact Hd].
Qed.
Lemma clip1 : clipR (1 * 1) = 1.
Proof.
  pose proof MAX_EXP_le. rewrite Rmult_1_l, clipR_pos by lra. apply Rmin_left. destruct (Rle_lt_dec 1 MAX_EXP_ARG) as [L|L]; [exact L|exfalso].
  pose proof (exp_increasing _ _ L) as I. rewrite exp_MAX in I. pose proof MAXF_big'. pose proof exp_le_3. lra.
Qed.
(** A film of permittivity 3 (q t = 1) on a perfect conductor: all hypotheses of C103_perfect_conductor hold, and the value is (e + 2/e) / (2 e + 1/e). *)
Lemma C103_example_film_proof :
  let r := RtoC ((exp 1 + 2 * exp (-1)) / (2 * exp 1 + exp (-1))) in
  as_conductor (fun E => refl_coef_qs (stack [RtoC 1; RtoC 3; E] [1] None) (rr 1)) r /\
  zrefl_qs [zof (RtoC 1); zof (RtoC 3); (PInf, Fin 0)] [Fin 1] (Fin 1) = Some (zof r).
Proof.
  intros r. pose proof (exp_pos 1) as X0. pose proof (exp_pos (-1)) as Y0. pose proof exp_le_3 as E3. pose proof MAXF_big' as MB.
  assert (Xi : exp (-1) <= 1). { pose proof (exp_increasing (-1) 0) as I. rewrite exp_0 in I. lra. }
  assert (X1 : 1 <= exp 1). { pose proof (exp_increasing 0 1) as I. rewrite exp_0 in I. lra. }
  assert (N4 : RtoC 4 <> RtoC 0) by (apply RtoC_neq_0; lra). assert (N3 : RtoC 3 <> RtoC 0) by (apply RtoC_neq_0; lra). assert (N2 : RtoC 2 <> RtoC 0) by (apply RtoC_neq_0; lra).
  assert (St : forall E, stack [RtoC 1; RtoC 3; E] [1] None = qs_sample (RtoC 1) [(RtoC 3, 1)] E None) by reflexivity.
  set (a := RtoC ((2 * exp 1 + exp (-1)) / 6)). set (b := RtoC ((2 * exp 1 - exp (-1)) / 2)). set (c := RtoC ((exp 1 + 2 * exp (-1)) / 6)). set (d := RtoC ((exp 1 - 2 * exp (-1)) / 2)).
  assert (Na : a <> RtoC 0) by (apply RtoC_neq_0; lra).
  assert (M0 : forall E, E <> RtoC 0 -> c00 (Mqs 1 (RtoC 1) [(RtoC 3, 1)] E) = (a + b / E)%C /\ c10 (Mqs 1 (RtoC 1) [(RtoC 3, 1)] E) = (c + d / E)%C).
  { intros E NE. unfold Mqs. cbn [stackM]. unfold Tqs, Pqs, pP, pT. cbn [pmul c00 c01 c10 c11]. rewrite clip1. replace (- (1)) with (-1) by lra. unfold a, b, c, d.
    rewrite !RtoC_div, !RtoC_plus, !RtoC_minus, !RtoC_mult by lra. assert (N6 : RtoC 6 <> RtoC 0) by (apply RtoC_neq_0; lra). replace (RtoC 6) with (RtoC 2 * RtoC 3)%C by (rewrite <- RtoC_mult; f_equal; ring).
    split; field; auto. }
  assert (Hr : as_conductor (fun E => refl_coef_qs (stack [RtoC 1; RtoC 3; E] [1] None) (rr 1)) r).
  { replace r with (c / a)%C. 2:{ unfold c, a, r. rewrite <- RtoC_div by lra. f_equal. field. lra. }
    apply (conductor_limit _ a b c d Na). intros E NE ND. rewrite St, refl_coef_qs_struct by (repeat constructor; assumption). rewrite (proj1 (M0 E NE)), (proj2 (M0 E NE)). now rewrite cdiv_ok. }
  assert (Hs : as_conductor (fun E => trans_coef_qs (stack [RtoC 1; RtoC 3; E] [1] None) (rr 1)) (RtoC 1 / a)%C).
  { apply (conductor_limit _ a b 1 0 Na). intros E NE ND. rewrite St, trans_coef_qs_struct by (repeat constructor; assumption). rewrite (proj1 (M0 E NE)). unfold rc. rewrite cdiv_ok by exact ND.
    do 2 f_equal. field. split; [exact NE|]. intro Z. apply ND. replace (a + b / E)%C with ((a * E + b) / E)%C by (field; exact NE). rewrite Z. field. exact NE. }
  split; [exact Hr|]. pose proof TAME_ge1 as T1.
  assert (TI : / TAME <= 1) by (rewrite <- Rinv_1; apply Rinv_le_contravar; lra).
  apply (C103_perfect_conductor_proof [RtoC 1; RtoC 3] [1] None 1 (PInf, Fin 0) r (RtoC 1 / a)%C); try exact Hr; try exact Hs; try reflexivity.
  - discriminate.
  - do 2 (apply Forall_cons; [unfold tame; rewrite Cmod_R, Rabs_pos_eq; lra|]). apply Forall_nil.
  - apply Forall_cons; [lra|apply Forall_nil].
  - exists 0. now left.
  - unfold amplification, total_exponent. cbn [tl combine map fold_right fst snd].
    assert (A1 : Cmod (1 + RtoC 1 / RtoC 3)%C = 4 / 3). { rewrite <- RtoC_div, <- RtoC_plus, Cmod_R, Rabs_pos_eq by lra. lra. }
    assert (A2 : Cmod (1 - RtoC 1 / RtoC 3)%C = 2 / 3). { rewrite <- RtoC_div, <- RtoC_minus, Cmod_R, Rabs_pos_eq by lra. lra. }
    rewrite A1, A2. assert (M : Rmin (1 * 1) MAX_EXP_ARG = 1) by (rewrite <- clipR_pos by lra; exact clip1). rewrite M. replace (1 + 0) with 1 by ring. lra.
  - unfold r. rewrite Cmod_R, Rabs_pos_eq by (apply Rle_div_r; lra). assert ((exp 1 + 2 * exp (-1)) / (2 * exp 1 + exp (-1)) <= 2) by (apply Rle_div_l; lra). lra.
  - rewrite Cmod_div, Cmod_1 by exact Na. unfold a. rewrite Cmod_R, Rabs_pos_eq by lra. assert (1 / ((2 * exp 1 + exp (-1)) / 6) <= 3) by (apply Rle_div_l; lra). lra.
Qed.
(** The point dipole over a perfect conductor: at infinite height the tip alone, at every finite height a finite number. *)
Lemma C103_example_tip_proof :
  let sample := [zof (RtoC 1); (PInf, Fin 0)] in let alpha := RtoC (4 * PI * 1 ^ 3) in
  zrefl_qs sample [] (Fin 0) = Some (zof (RtoC 1)) /\
  zpdm_eff_pol sample PInf (Fin 1) (zof alpha) = Some (zof alpha) /\
  zfdm_eff_pol sample PInf (Fin 1) (Fin (1 / 2)) (Fin 1) (Fin 15) (zof (RtoC (7 / 10))) = Some (NaN, NaN).
Proof.
  intros sample alpha. pose proof PI_RGT_0 as HP. pose proof PI_4 as P4. pose proof PI2_3_2 as P32. pose proof MAXF_big' as MB. pose proof TAME_ge1 as T1.
  assert (HI : infinite_eps (PInf, Fin 0)) by (exists 0; now left). assert (C1 : Cmod (RtoC 1) <= MAXF) by (rewrite Cmod_1; lra).
  assert (Hb : zrefl_qs sample [] (Fin 0) = Some (zof (RtoC 1))) by (apply (C103_metal_sample_proof (RtoC 1) (PInf, Fin 0) (Fin 0) None 0 HI C1)).
  assert (Ca : Cmod alpha = 4 * PI) by (unfold alpha; rewrite Cmod_R, Rabs_pos_eq; lra).
  assert (TI : / TAME <= 1) by (rewrite <- Rinv_1; apply Rinv_le_contravar; lra).
  split; [exact Hb|split].
  - apply (C103_pdm_any_height_proof sample 1 alpha (RtoC 1) Hb); rewrite ?Ca, ?Cmod_1; lra.
  - apply (C103_fdm_nan_refuted_proof sample _ 0 1 (1 / 2) 1 15 (RtoC (7 / 10)) Hb); try lra. rewrite Cmod_R, Rabs_pos_eq; lra.
Qed.
