(** * Lemmas: the rounded far-field functions follow the exact ones with an error of order u *)
From Coq Require Import String Reals Lra Lia List Permutation ZArith Bool.
From Coquelicot Require Import Rcomplements Complex.
From Verif Require Import Num NumLemmas ModelBase ModelSample SpecRound ModelRound ModelRound2 ModelRound3 RoundLemmas DemodLemmas RoundLemmas2 RoundTends RoundTends2.
Import ListNotations.
Open Scope R_scope.

Section Gauge.
Context {gauge_ : gauge}.

(** ** Chains of real roundings *)
Lemma near_trans a b c x y z : 0 <= a -> 0 <= b -> a + b + a * b <= c -> near a x y -> near b y z -> near c x z.
Proof.
  intros Ha Hb Hc H1 H2. pose proof (near_abs _ _ _ H1) as H3. unfold near in *. pose proof (Rabs_pos x) as Px.
  replace (z - x) with ((z - y) + (y - x)) by ring. eapply Rle_trans; [apply Rabs_triang|].
  apply (Rmult_le_compat_l b) in H3; [|exact Hb]. apply Rle_trans with ((a + b + a * b) * Rabs x); [|apply Rmult_le_compat_r; assumption]. lra.
Qed.
Lemma near_pos_plus e a b b' : 0 <= e -> 0 <= a -> 0 <= b -> near e b b' -> near e (a + b) (a + b').
Proof.
  intros He Ha Hb H. unfold near in *. replace (a + b' - (a + b)) with (b' - b) by ring. eapply Rle_trans; [exact H|].
  apply Rmult_le_compat_l; [exact He|]. rewrite !Rabs_pos_eq; lra.
Qed.
Lemma near_scale e c x y : near e x y -> near e (c * x) (c * y).
Proof.
  unfold near. intros H. replace (c * y - c * x) with (c * (y - x)) by ring. rewrite !Rabs_mult.
  pose proof (Rabs_pos c). replace (e * (Rabs c * Rabs x)) with (Rabs c * (e * Rabs x)) by ring. now apply Rmult_le_compat_l.
Qed.
Lemma near_nonneg e x y : e <= 1 -> 0 <= x -> near e x y -> 0 <= y.
Proof.
  intros He Hx H. unfold near in H. rewrite (Rabs_pos_eq x Hx) in H. apply Rabs_le_between in H. nra.
Qed.
Lemma near_neq_0 e x y : e < 1 -> x <> 0 -> near e x y -> y <> 0.
Proof.
  intros He Hx H E. subst y. unfold near in H. replace (0 - x) with (- x) in H by ring. rewrite Rabs_Ropp in H.
  pose proof (Rabs_pos_lt x Hx). nra.
Qed.
Lemma near_sqrt e x y : 0 <= e <= 1 -> 0 <= x -> near e x y -> near e (sqrt x) (sqrt y).
Proof.
  intros He Hx H. assert (Hy : 0 <= y) by (apply (near_nonneg e x); [lra|exact Hx|exact H]).
  unfold near in *. rewrite (Rabs_pos_eq x Hx) in H. rewrite (Rabs_pos_eq (sqrt x)) by apply sqrt_pos.
  pose proof (sqrt_pos x) as Px. pose proof (sqrt_pos y) as Py. pose proof (sqrt_sqrt x Hx) as Sx. pose proof (sqrt_sqrt y Hy) as Sy.
  set (p := sqrt x) in *. set (q := sqrt y) in *. rewrite <- Sx, <- Sy in H. apply Rabs_le_between in H. apply Rabs_le.
  destruct (Req_dec p 0) as [Z|Z].
  { rewrite Z in *. assert (q = 0) by nra. lra. }
  assert (0 < p) by lra. split.
  - apply Rnot_lt_le. intros L. assert (L1 : q < (1 - e) * p) by lra. assert (Pe : 0 < 1 - e) by nra.
    assert (L2 : q < p) by nra. assert (q * q <= q * ((1 - e) * p)) by (apply Rmult_le_compat_l; lra).
    assert (q * ((1 - e) * p) < p * ((1 - e) * p)) by (apply Rmult_lt_compat_r; lra). lra.
  - apply Rnot_lt_le. intros L. assert (L1 : (1 + e) * p < q) by lra. assert (L2 : p < q) by nra.
    assert (q * ((1 + e) * p) <= q * q) by (apply Rmult_le_compat_l; lra).
    assert (p * ((1 + e) * p) < q * ((1 + e) * p)) by (apply Rmult_lt_compat_r; [apply Rmult_lt_0_compat; lra|lra]). lra.
Qed.
Lemma near_inv_div e c x y y' : 0 <= e -> e <= c * (1 - e) -> e < 1 -> y <> 0 -> near e y y' -> near c (x / y) (x / y').
Proof.
  intros He Hc H1 Hy H. assert (Hy' : y' <> 0) by (apply (near_neq_0 e y); assumption).
  pose proof (Rabs_pos_lt y Hy) as P. pose proof (Rabs_pos_lt y' Hy') as P'. unfold near in *.
  assert (L : (1 - e) * Rabs y <= Rabs y').
  { assert (Rabs y <= Rabs (y' - y) + Rabs y'); [|lra]. rewrite <- (Rabs_Ropp (y' - y)). replace y with (- (y' - y) + y') at 1 by ring. apply Rabs_triang. }
  assert (Hc0 : 0 <= c) by nra.
  replace (x / y' - x / y) with (- (x * (y' - y) / (y * y'))) by (field; auto).
  rewrite Rabs_Ropp. unfold Rdiv. rewrite !Rabs_mult, !Rabs_inv, Rabs_mult.
  apply (Rmult_le_reg_r (Rabs y * Rabs y')); [now apply Rmult_lt_0_compat|].
  replace (Rabs x * Rabs (y' - y) * / (Rabs y * Rabs y') * (Rabs y * Rabs y')) with (Rabs x * Rabs (y' - y)) by (field; lra).
  replace (c * (Rabs x * / Rabs y) * (Rabs y * Rabs y')) with (Rabs x * (c * Rabs y')) by (field; lra).
  apply Rmult_le_compat_l; [apply Rabs_pos|]. eapply Rle_trans; [exact H|].
  apply Rle_trans with (c * ((1 - e) * Rabs y)); [|apply Rmult_le_compat_l; assumption]. nra.
Qed.

Section Sqrt.
Variables (u : R) (m : machine).
Hypotheses (Hu : 0 <= u <= 1 / 100) (Hm : rounds u m).

(** the larger of the two parts of the root, and the smaller one by division *)
Lemma half_root a h0 h : 0 <= a -> 0 < h0 -> near u h0 h ->
  let t := a_sqrt m (a_mul m (a_add m a h) (1 / 2)) in
  let t0 := sqrt ((h0 + a) / 2) in
  near (7 * u) t0 t /\ t0 <> 0 /\ forall x, near (7 * u) (x / (2 * t0)) (a_div m x (a_mul m 2 t)).
Proof.
  intros Ha Pz Hh t t0. assert (UU : 0 <= u * u <= u / 100) by nra.
  assert (S1 : near (2.01 * u) (a + h0) (a_add m a h)).
  { apply (near_trans u u _ _ (a + h)); [lra|lra|lra| |apply r_add; assumption].
    apply near_pos_plus; [lra|exact Ha|lra|exact Hh]. }
  assert (S2 : near (3.04 * u) ((h0 + a) / 2) (a_mul m (a_add m a h) (1 / 2))).
  { apply (near_trans (2.01 * u) u _ _ (a_add m a h * (1 / 2))); [lra|lra|lra| |apply r_mul; assumption].
    replace ((h0 + a) / 2) with ((1 / 2) * (a + h0)) by field. rewrite (Rmult_comm _ (1 / 2)). now apply near_scale. }
  assert (P2 : 0 < (h0 + a) / 2) by lra.
  assert (N2 : 0 <= a_mul m (a_add m a h) (1 / 2)) by (apply (near_nonneg (3.04 * u) _ _ ltac:(lra) (Rlt_le _ _ P2) S2)).
  assert (S3 : near (4.08 * u) t0 t).
  { apply (near_trans (3.04 * u) u _ _ (sqrt (a_mul m (a_add m a h) (1 / 2)))); [lra|lra|lra| |apply r_sqrt; assumption].
    apply near_sqrt; [lra|lra|exact S2]. }
  assert (T0 : t0 <> 0) by (unfold t0; pose proof (sqrt_lt_R0 _ P2); lra).
  split.
  { unfold near in *. eapply Rle_trans; [exact S3|]. apply Rmult_le_compat_r; [apply Rabs_pos|lra]. }
  split; [exact T0|]. intros x.
  assert (S4 : near (5.13 * u) (2 * t0) (a_mul m 2 t)).
  { apply (near_trans (4.08 * u) u _ _ (2 * t)); [lra|lra|lra| |apply r_mul; assumption]. now apply near_scale. }
  assert (N4 : a_mul m 2 t <> 0) by (apply (near_neq_0 (5.13 * u) (2 * t0)); [lra|lra|exact S4]).
  apply (near_trans (5.42 * u) u _ _ (x / a_mul m 2 t)); [lra|lra|lra| |apply r_div; assumption].
  apply (near_inv_div (5.13 * u)); [lra|nra|lra|lra|exact S4].
Qed.
Lemma csqrt_parts (z : C) : z <> RtoC 0 ->
  let t0 := sqrt ((Cmod z + Rabs (Re z)) / 2) in
  Csqrt z = if Rle_dec 0 (Re z) then (t0, Im z / (2 * t0)) else (Rabs (Im z) / (2 * t0), if Rle_dec 0 (Im z) then t0 else - t0).
Proof.
  intros Hz t0. pose proof (proj1 (Cmod_gt_0 _) Hz) as Pz. pose proof (Cmod_ge_Re z) as Hr. pose proof (Cmod_sqr z) as H2.
  assert (P2 : 0 < (Cmod z + Rabs (Re z)) / 2) by (pose proof (Rabs_pos (Re z)); lra).
  pose proof (sqrt_lt_R0 _ P2) as Pt. fold t0 in Pt.
  assert (Q2 : 0 <= (Cmod z - Rabs (Re z)) / 2) by lra.
  assert (V : sqrt ((Cmod z - Rabs (Re z)) / 2) = Rabs (Im z) / (2 * t0)).
  { apply (Rmult_eq_reg_r t0); [|lra]. unfold t0 at 1. rewrite <- sqrt_mult by lra.
    replace (Rabs (Im z) / (2 * t0) * t0) with (Rabs (Im z) / 2) by (field; lra).
    replace ((Cmod z - Rabs (Re z)) / 2 * ((Cmod z + Rabs (Re z)) / 2)) with ((Rabs (Im z) / 2)²).
    - apply sqrt_Rsqr. pose proof (Rabs_pos (Im z)). lra.
    - unfold Rsqr. pose proof (Rabs_sq (Im z)) as A1. pose proof (Rabs_sq (Re z)) as A2. nra. }
  unfold Csqrt. destruct (Rle_dec 0 (Re z)) as [Ha|Ha].
  - rewrite (Rabs_pos_eq (Re z) Ha) in V. unfold t0 in *. rewrite (Rabs_pos_eq (Re z) Ha) in *. rewrite V. f_equal.
    destruct (Rle_dec 0 (Im z)) as [Hb|Hb]; [rewrite Rabs_pos_eq by exact Hb; ring|rewrite Rabs_left by lra; field; lra].
  - unfold t0 in *. rewrite (Rabs_left (Re z)) in * by lra.
    replace (Cmod z - - Re z) with (Cmod z + Re z) in V by ring. rewrite V.
    replace (Cmod z + - Re z) with (Cmod z - Re z) by ring. f_equal. destruct (Rle_dec 0 (Im z)); ring.
Qed.
Lemma near_neg e x y : near e x y -> near e (- x) (- y).
Proof. unfold near. intros H. replace (- y - - x) with (- (y - x)) by ring. now rewrite !Rabs_Ropp. Qed.
Lemma kcsqrt_near z : cnear (7 * u) (Csqrt z) (k_csqrt m z).
Proof.
  unfold k_csqrt. destruct (Ceq_dec z (RtoC 0)) as [E|Hz].
  { subst z. unfold cnear. assert (E0 : Csqrt (RtoC 0) = RtoC 0).
    { pose proof (Csqrt_pos 0 ltac:(lra)) as Q. replace (0 ^ 2) with 0 in Q by ring. exact Q. }
    rewrite E0. replace (RtoC 0 - RtoC 0)%C with (RtoC 0) by ring. rewrite Cmod_0. lra. }
  rewrite (csqrt_parts z Hz). cbv zeta. destruct z as [a b]. cbn [Re Im fst snd] in *.
  destruct (Rle_dec 0 a) as [Ha|Ha].
  - rewrite (Rabs_pos_eq a Ha). destruct (half_root a (Cmod (a, b)) (a_hypot m a b) Ha (proj1 (Cmod_gt_0 _) Hz) (r_hypot _ _ Hm a b)) as (H1 & H2 & H3). cbv zeta in *.
    apply cnear_parts; cbn [Re Im fst snd]; [lra|exact H1|apply H3].
  - rewrite (Rabs_left a) by lra.
    destruct (half_root (- a) (Cmod (a, b)) (a_hypot m a b) ltac:(lra) (proj1 (Cmod_gt_0 _) Hz) (r_hypot _ _ Hm a b)) as (H1 & H2 & H3). cbv zeta in *.
    apply cnear_parts; cbn [Re Im fst snd]; [lra|apply H3|].
    destruct (Rle_dec 0 b); [exact H1|now apply near_neg].
Qed.
End Sqrt.

(** ** Square root, exponential *)
Lemma rt_Re v x : ct v x -> rt (olift1 Re v) (fun m : machine => Re (x m)).
Proof.
  intros H a Ha. destruct v as [b|]; [|discriminate]. injection Ha as <-. apply (small_dom _ _ 1 ltac:(lra) (H b eq_refl)).
  apply (ev_imp _ _ (ev_le 1 ltac:(lra))). intros u m _ _ _. rewrite (Rabs_pos_eq (Cmod _)) by apply Cmod_ge_0. rewrite Rmult_1_l.
  replace (Re (x m) - Re b) with (Re (x m - b)%C) by (unfold Re, Cminus, Cplus, Copp; cbn [fst]; ring). apply Cmod_ge_Re.
Qed.
Lemma Cmod_ge_Im (z : C) : Rabs (Im z) <= Cmod z.
Proof. eapply Rle_trans; [|apply Rmax_Cmod]. apply Rmax_r. Qed.
Lemma rt_Im v x : ct v x -> rt (olift1 Im v) (fun m : machine => Im (x m)).
Proof.
  intros H a Ha. destruct v as [b|]; [|discriminate]. injection Ha as <-. apply (small_dom _ _ 1 ltac:(lra) (H b eq_refl)).
  apply (ev_imp _ _ (ev_le 1 ltac:(lra))). intros u m _ _ _. rewrite (Rabs_pos_eq (Cmod _)) by apply Cmod_ge_0. rewrite Rmult_1_l.
  replace (Im (x m) - Im b) with (Im (x m - b)%C) by (unfold Im, Cminus, Cplus, Copp; cbn [snd]; ring). apply Cmod_ge_Im.
Qed.
Lemma T_kcexp v x : ct v x -> ct (cexp v) (fun m : machine => k_cexp m (x m)).
Proof.
  intros H. pose proof (rt_Re _ _ H) as HR. pose proof (rt_Im _ _ H) as HI.
  pose proof (T_pair _ _ _ _ (T_mul _ _ _ _ (T_exp _ _ HR) (T_cos _ _ HI)) (T_mul _ _ _ _ (T_exp _ _ HR) (T_sin _ _ HI))) as Q.
  destruct v as [b|]; [exact Q|apply ct_None].
Qed.
Lemma ct_csqrt b x : b <> RtoC 0 -> (Im b = 0 -> Re b < 0 -> ev (fun u m => Im (x m) = 0)) ->
  ct (Some b) x -> ct (csqrt (Some b)) (fun m : machine => Csqrt (x m)).
Proof.
  intros Hb Hcut H a Ha. injection Ha as <-.
  assert (G : exists c, 0 < c /\ ev (fun u m => c <= Cmod (Csqrt (x m) + Csqrt b)%C)).
  { pose proof (Csqrt_Re_nonneg b) as [P|P].
    - exists (Re (Csqrt b)). split; [exact P|]. apply (ev_imp _ _ (ev_le 1 ltac:(lra))). intros u m _ _ _.
      eapply Rle_trans; [|apply Cmod_ge_Re]. eapply Rle_trans; [|apply Rle_abs]. pose proof (Csqrt_Re_nonneg (x m)).
      unfold Re, Cplus in *. cbn [fst]. lra.
    - pose proof (Csqrt_sqr b) as S. destruct (Csqrt b) as [p w] eqn:E. cbn [Re fst] in P. subst p.
      assert (Eb : b = RtoC (- w ^ 2)).
      { rewrite <- S. unfold Cmult, RtoC. cbn [fst snd]. f_equal; ring. }
      assert (W : w <> 0) by (intros ->; apply Hb; rewrite Eb; f_equal; ring).
      assert (Pw2 : 0 < w ^ 2) by (rewrite <- Rsqr_pow2; now apply Rsqr_pos_lt).
      assert (Pw : 0 < w).
      { unfold Csqrt in E. injection E as _ E. rewrite Eb in E. unfold Im, RtoC in E. cbn [snd] in E.
        destruct (Rle_dec 0 0) as [_|N] in E; [|exfalso; lra]. pose proof (sqrt_pos ((Cmod (- w ^ 2, 0) - Re (- w ^ 2, 0)) / 2)). lra. }
      exists w. split; [exact Pw|].
      assert (HI : Im b = 0) by (rewrite Eb; reflexivity). assert (HR : Re b < 0) by (rewrite Eb; unfold Re, RtoC; cbn [fst]; lra).
      apply (ev_imp _ _ (ev_and _ _ (Hcut HI HR) (small_below _ (w ^ 2) Pw2 (H b eq_refl)))). intros u m _ _ [Q1 Q2].
      rewrite (Rabs_pos_eq (Cmod _)) in Q2 by apply Cmod_ge_0.
      assert (Q3 : Re (x m) <= 0).
      { pose proof (Cmod_ge_Re (x m - b)%C) as Q. apply Rabs_le_between in Q.
        replace (Re (x m - b)%C) with (Re (x m) + w ^ 2) in Q by (rewrite Eb; unfold Re, Cminus, Cplus, Copp, RtoC; cbn [fst]; ring). lra. }
      assert (Ex : x m = RtoC (- (sqrt (- Re (x m))) ^ 2)).
      { rewrite pow2_sqrt by lra. destruct (x m) as [p q]. unfold Re, Im, RtoC in *. cbn [fst snd] in *. f_equal; lra. }
      rewrite Ex, Csqrt_neg by apply sqrt_pos. pose proof (sqrt_pos (- Re (x m))) as Ps. set (r := sqrt (- Re (x m))) in *.
      eapply Rle_trans; [|apply Cmod_ge_Im]. eapply Rle_trans; [|apply Rle_abs]. unfold Im, Cplus. cbn [snd]. lra. }
  destruct G as (c & Pc & G). assert (Pi : 0 < / c) by (now apply Rinv_0_lt_compat).
  apply (small_dom _ _ (/ c) ltac:(lra) (H b eq_refl)). apply (ev_imp _ _ G). intros u m _ _ Q.
  rewrite !Rabs_pos_eq by apply Cmod_ge_0. apply (Rmult_le_reg_l c); [exact Pc|].
  replace (c * (/ c * Cmod (x m - b)%C)) with (Cmod (x m - b)%C) by (field; lra).
  replace (x m - b)%C with ((Csqrt (x m) + Csqrt b) * (Csqrt (x m) - Csqrt b))%C.
  2: { replace ((Csqrt (x m) + Csqrt b) * (Csqrt (x m) - Csqrt b))%C with (Csqrt (x m) * Csqrt (x m) - Csqrt b * Csqrt b)%C by ring. now rewrite !Csqrt_sqr. }
  rewrite Cmod_mult. apply Rmult_le_compat_r; [apply Cmod_ge_0|exact Q].
Qed.
Lemma near_0 u y : near u 0 y -> y = 0.
Proof.
  unfold near. rewrite Rabs_R0, Rmult_0_r, Rminus_0_r. intros H. destruct (Req_dec y 0) as [E|N]; [exact E|].
  pose proof (Rabs_pos_lt y N). lra.
Qed.

(** ** Vertical wavenumbers away from the light line *)
Lemma T_nu_z eps nu q x : rt (rr q) x ->
  (forall e, eps = Some e -> (e * RtoC (nu ^ 2) - RtoC (q ^ 2))%C <> RtoC 0) ->
  ct (nu_z_of nu q eps) (fun m : machine => k_nu_z m nu (x m) (val0 eps)).
Proof.
  intros Hq Hl. destruct eps as [e|]; [|apply ct_None]. specialize (Hl e eq_refl). cbn [val0].
  assert (HR : ct (Some e * ofR (rr nu ^ 2)%rv - ofR (rr q ^ 2)%rv)%cv
                  (fun m : machine => ksub m (kmul m e (RtoC (a_pow m nu 2))) (RtoC (a_pow m (x m) 2)))).
  { apply T_ksub; [apply T_kmul; [apply ct_const|]|]; apply ct_ofR, T_pow; [apply rt_const|exact Hq]. }
  unfold nu_z_of, k_nu_z. cbn [cmul csub ofR rpow rr olift1 olift2] in HR |- *.
  set (b := (e * RtoC (nu ^ 2) - RtoC (q ^ 2))%C) in *.
  assert (CUT : Im b = 0 -> Re b < 0 -> ev (fun u m => Im (ksub m (kmul m e (RtoC (a_pow m nu 2))) (RtoC (a_pow m (x m) 2))) = 0)).
  { intros HI _.
  assert (E : Im e * nu ^ 2 = 0).
  { rewrite <- HI. unfold b, Im, Re, Cminus, Cplus, Copp, Cmult, RtoC. cbn [fst snd]. ring. }
  exists (1 / 100). split; [lra|]. intros u m [_ _] [H1 _] _. unfold ksub, kmul, Im, Re, RtoC. cbn [fst snd].
  assert (X1 : a_mul m (fst e) 0 = 0) by (apply (near_0 u); pose proof (r_mul _ _ H1 (fst e) 0) as Q; now rewrite Rmult_0_r in Q).
  assert (X2 : a_mul m (snd e) (a_pow m nu 2) = 0).
  { apply (near_0 u). pose proof (r_mul _ _ H1 (snd e) (a_pow m nu 2)) as Q.
    replace (snd e * a_pow m nu 2) with 0 in Q; [exact Q|]. apply Rmult_integral in E. destruct E as [E|E].
    - unfold Im in E. rewrite E. ring.
    - pose proof (r_pow _ _ H1 nu 2) as Q'. rewrite E in Q'. apply near_0 in Q'. rewrite Q'. ring. }
  rewrite X1, X2.
  assert (X3 : a_add m 0 0 = 0) by (apply (near_0 u); pose proof (r_add _ _ H1 0 0) as Q; now rewrite Rplus_0_r in Q).
  rewrite X3. apply (near_0 u). pose proof (r_sub _ _ H1 0 0) as Q. now rewrite Rminus_0_r in Q. }
  apply (ct_round 7 _ _ _ ltac:(lra) (ct_csqrt b _ Hl CUT HR)). all_m. now apply kcsqrt_near.
Qed.

(** ** The transfer matrix *)
Lemma T_prop_matrix_ff a0 a b0 b : ct a0 a -> ct b0 b -> mt (prop_matrix a0 b0) (fun m : machine => k_prop_matrix_ff m (a m) (b m)).
Proof.
  intros Ha Hb. repeat split; cbn [prop_matrix k_prop_matrix_ff m00 m01 m10 m11 k00 k01 k10 k11]; apply T_kmul; try assumption; apply ct_const.
Qed.
Lemma lt_removelast {Y0 Y} (T : Y0 -> (machine -> Y) -> Prop) l0 l : lt_ T l0 l -> lt_ T (removelast l0) (fun m => removelast (l m)).
Proof.
  intros (ys & E & H). exists (removelast ys). split.
  - intros m. rewrite E. clear. induction ys as [|y ys IH]; [reflexivity|]. destruct ys as [|y' ys]; [reflexivity|].
    change (removelast (y :: y' :: ys)) with (y :: removelast (y' :: ys)). cbn [map] in *. rewrite <- IH. reflexivity.
  - clear E l. induction H as [|a y l0 ys H1 H2 IH]; [constructor|]. destruct H2 as [|b z l0 ys H3 H4]; [constructor|].
    change (removelast (y :: z :: ys)) with (y :: removelast (z :: ys)). change (removelast (a :: b :: l0)) with (a :: removelast (b :: l0)). now constructor.
Qed.
Lemma lt_nth l0 l i : lt_ ct l0 l -> ct (nth i l0 None) (fun m : machine => nth i (l m) (RtoC 0)).
Proof.
  intros (ys & E & H). apply (ct_ext _ (fun m : machine => nth i (map (fun y => y m) ys) (RtoC 0))); [intros m; now rewrite E|].
  clear E l. revert i. induction H as [|a y l0 ys H1 H2 IH]; intros i.
  - destruct i; apply ct_None.
  - destruct i as [|i]; cbn [nth map]; [exact H1|apply IH].
Qed.
Lemma T_resolve_q nu q th : rest (fun q0 x => rt (rr q0) x) (resolve_q nu q th) (fun m : machine => k_resolve_q m nu q th).
Proof.
  unfold resolve_q, k_resolve_q. destruct th as [th|]; destruct q as [q|].
  - intros m. reflexivity.
  - apply (rest_Ok (fun q0 x => rt (rr q0) x) _ (fun m : machine => a_mul m nu (a_sin m (Rabs th)))).
    exact (T_mul _ _ _ _ (rt_const nu) (T_sin _ _ (rt_const (Rabs th)))).
  - apply (rest_Ok (fun q0 x => rt (rr q0) x) _ (fun m : machine => q)). apply rt_const.
  - apply (rest_Ok (fun q0 x => rt (rr q0) x) _ (fun m : machine => 0)). apply rt_const.
Qed.

(** the vertical wavenumbers are accurate *)
Definition nu_z_ok (s : sample) (q th nu : option R) : Prop :=
  forall k q0 x, resolve_nu s nu = Ok k -> resolve_q k q th = Ok q0 -> (forall m : machine, k_resolve_q m k q th = Ok (x m)) ->
    rt (rr q0) x -> forall e, In e (eps_stack s) -> ct (nu_z_of k q0 e) (fun m : machine => k_nu_z m k (x m) (val0 e)).

Lemma T_transfer_ff s q th nu pol : nu_z_ok s q th nu ->
  rest mt (transfer_matrix s q th nu pol) (fun m : machine => k_transfer_matrix m s q th nu pol).
Proof.
  intros HL. unfold nu_z_ok in HL. unfold transfer_matrix, k_transfer_matrix. destruct (resolve_nu s nu) as [k|e]; cbn [rbind]; [|intros m; reflexivity].
  specialize (fun q0 x => HL k q0 x eq_refl).
  pose proof (T_resolve_q k q th) as HQ. destruct (resolve_q k q th) as [q0|e]; cbn [rest rbind] in *.
  2: { intros m. now rewrite HQ. }
  destruct HQ as (x & EQ & HQ). specialize (HL q0 x eq_refl EQ HQ).
  assert (G : rest mt (if Nat.eqb (n_layers s) 0 then Raise (ValueError msg_stack) else
      let nuz := map (nu_z_of k q0) (eps_stack s) in
      let! pol_p := (if String.eqb pol "p" then Ok true else if String.eqb pol "s" then Ok false else Raise (ValueError msg_pol)) in
      match map trans_matrix (map (trans_factor pol_p (eps_stack s) nuz) (seq 0 (n_layers s - 1))) with
      | [] => Raise (ValueError msg_stack)
      | T0 :: Ts => if multilayer s then
          Ok (chain T0 (combine Ts (map (fun p => let phi := (fst p * rc (snd p))%cv in
                        prop_matrix (cexp (Some (0, -1)%R * phi)%cv) (cexp (Some (0, 1)%R * phi)%cv)) (combine (removelast (tl nuz)) (t_stack s)))))
        else Ok T0
      end)
    (fun m : machine => if Nat.eqb (n_layers s) 0 then Raise (ValueError msg_stack) else
      let eps := map val0 (eps_stack s) in
      let nuz := map (k_nu_z m k (x m)) eps in
      let! pol_p := (if String.eqb pol "p" then Ok true else if String.eqb pol "s" then Ok false else Raise (ValueError msg_pol)) in
      match map (k_trans_matrix m) (map (k_trans_factor m pol_p eps nuz) (seq 0 (n_layers s - 1))) with
      | [] => Raise (ValueError msg_stack)
      | T0 :: Ts => if multilayer s then
          Ok (k_chain m T0 (combine Ts (map (fun p => let phi := kmul m (fst p) (RtoC (snd p)) in
                        k_prop_matrix_ff m (k_cexp m (kmul m (0, -1) phi)) (k_cexp m (kmul m (0, 1) phi))) (combine (removelast (tl nuz)) (t_stack s)))))
        else Ok T0
      end)).
  2: { clear - G EQ. match type of G with rest _ ?a ?b => match goal with |- rest _ ?c ?d => assert (E : forall m, d m = b m) by (intros m; rewrite EQ; reflexivity) end end.
       cbv zeta in G, E |- *. match type of G with rest _ ?a _ => destruct a as [M0|e] end; cbn [rest] in G |- *.
       - destruct G as (y & E1 & E2). exists y. split; [|exact E2]. intros m. rewrite E. apply E1.
       - intros m. rewrite E. apply G. }
  destruct (Nat.eqb (n_layers s) 0); [intros m; reflexivity|]. cbv zeta.
  assert (LE : lt_ ct (eps_stack s) (fun m : machine => map val0 (eps_stack s))).
  { replace (eps_stack s) with (map (fun e : CV => e) (eps_stack s)) at 1 by apply map_id.
    apply (lt_const ct _ (fun e : CV => e) (fun (_ : machine) e => val0 e)). intros e _. apply ct_val0. }
  assert (LN : lt_ ct (map (nu_z_of k q0) (eps_stack s)) (fun m : machine => map (k_nu_z m k (x m)) (map val0 (eps_stack s)))).
  { destruct (lt_const ct (eps_stack s) (nu_z_of k q0) (fun (m : machine) e => k_nu_z m k (x m) (val0 e))) as (ys & E & F).
    - intros e He. now apply HL.
    - exists ys. split; [|exact F]. intros m. rewrite map_map. apply E. }
  destruct (if String.eqb pol "p" then Ok true else if String.eqb pol "s" then Ok false else Raise (ValueError msg_pol)) as [pp|e]; cbn [rbind]; [|intros m; reflexivity].
  set (nz := map (nu_z_of k q0) (eps_stack s)) in *.
  set (nzm := fun m : machine => map (k_nu_z m k (x m)) (map val0 (eps_stack s))) in *.
  assert (TR : lt_ mt (map trans_matrix (map (trans_factor pp (eps_stack s) nz) (seq 0 (n_layers s - 1))))
                 (fun m : machine => map (k_trans_matrix m) (map (k_trans_factor m pp (map val0 (eps_stack s)) (nzm m)) (seq 0 (n_layers s - 1))))).
  { apply (lt_map ct mt _ (fun m : machine => map (k_trans_factor m pp (map val0 (eps_stack s)) (nzm m)) (seq 0 (n_layers s - 1))) trans_matrix k_trans_matrix).
    - apply (lt_const ct _ _ (fun (m : machine) i => k_trans_factor m pp (map val0 (eps_stack s)) (nzm m) i)). intros i _.
      pose proof (lt_nth _ _ i LE) as E0. pose proof (lt_nth _ _ (i + 1) LE) as E1.
      pose proof (lt_nth _ _ i LN) as N0. pose proof (lt_nth _ _ (i + 1) LN) as N1.
      unfold trans_factor, k_trans_factor. destruct pp.
      + exact (T_kdiv _ _ _ _ (T_kmul _ _ _ _ E0 N1) (T_kmul _ _ _ _ E1 N0)).
      + exact (T_kdiv _ _ _ _ N1 N0).
    - intros y0 y Hy. now apply T_trans_matrix. }
  assert (PR : lt_ mt (map (fun p => prop_matrix (cexp (Some (0, -1)%R * (fst p * rc (snd p)))%cv) (cexp (Some (0, 1)%R * (fst p * rc (snd p)))%cv)) (combine (removelast (tl nz)) (t_stack s)))
                 (fun m : machine => map (fun p => k_prop_matrix_ff m (k_cexp m (kmul m (0, -1) (kmul m (fst p) (RtoC (snd p))))) (k_cexp m (kmul m (0, 1) (kmul m (fst p) (RtoC (snd p)))))) (combine (removelast (tl (nzm m))) (t_stack s)))).
  { assert (LT : lt_ (fun t0 t => forall m : machine, t m = t0) (t_stack s) (fun m : machine => t_stack s)).
    { exists (map (fun t (_ : machine) => t) (t_stack s)). split.
      - intros m. rewrite map_map. symmetry. apply map_id.
      - induction (t_stack s); cbn [map]; constructor; auto. }
    pose proof (lt_combine _ _ _ _ _ _ (lt_removelast _ _ _ (lt_tl _ _ _ LN)) LT) as LC.
    apply (lt_map _ mt _ _ _ (fun (m : machine) p => k_prop_matrix_ff m (k_cexp m (kmul m (0, -1) (kmul m (fst p) (RtoC (snd p))))) (k_cexp m (kmul m (0, 1) (kmul m (fst p) (RtoC (snd p)))))) LC).
    intros p0 p [H1 H2].
    assert (HP : ct (fst p0 * rc (snd p0))%cv (fun m : machine => kmul m (fst (p m)) (RtoC (snd (p m))))).
    { apply T_kmul; [exact H1|]. apply (ct_ext _ (fun _ => RtoC (snd p0))); [intros m; now rewrite H2|apply ct_const]. }
    apply (T_prop_matrix_ff _ (fun m : machine => k_cexp m (kmul m (0, -1) (kmul m (fst (p m)) (RtoC (snd (p m)))))) _ (fun m : machine => k_cexp m (kmul m (0, 1) (kmul m (fst (p m)) (RtoC (snd (p m)))))));
      apply T_kcexp, T_kmul; try exact HP; apply ct_const. }
  destruct TR as (ys & E & F). destruct F as [|T0 y Ts ys' HT F].
  - intros m. rewrite E. reflexivity.
  - assert (TS : lt_ mt Ts (fun m : machine => map (fun y => y m) ys')) by (exists ys'; split; [reflexivity|exact F]).
    destruct (multilayer s).
    + eexists. split.
      { intros m. rewrite E. reflexivity. }
      exact (T_chain _ _ (lt_combine _ _ _ _ _ _ TS PR) _ _ HT).
    + exists y. split; [|exact HT]. intros m. rewrite E. reflexivity.
Qed.
Lemma T_refl_coef s q th nu pol : nu_z_ok s q th nu ->
  rest ct (refl_coef s q th nu pol) (fun m : machine => k_refl_coef m s q th nu pol).
Proof.
  intros HL. unfold refl_coef, k_refl_coef. apply (rest_bind mt ct _ _ _ (fun (m : machine) M => Ok (kdiv m (k10 M) (k00 M))) (T_transfer_ff s q th nu pol HL)).
  intros M0 M (H1 & H2 & H3 & H4). apply (rest_Ok ct _ (fun m : machine => kdiv m (k10 (M m)) (k00 (M m)))). now apply T_kdiv.
Qed.
Lemma T_trans_coef s q th nu pol : nu_z_ok s q th nu ->
  rest ct (trans_coef s q th nu pol) (fun m : machine => k_trans_coef m s q th nu pol).
Proof.
  intros HL. unfold trans_coef, k_trans_coef. apply (rest_bind mt ct _ _ _ (fun (m : machine) M => Ok (kdiv m (RtoC 1) (k00 M))) (T_transfer_ff s q th nu pol HL)).
  intros M0 M (H1 & H2 & H3 & H4). apply (rest_Ok ct _ (fun m : machine => kdiv m (RtoC 1) (k00 (M m)))). apply T_kdiv; [apply ct_const|exact H1].
Qed.
End Gauge.
