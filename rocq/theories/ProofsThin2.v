(** * Proofs: thin and thick films (C91), the averaged coefficient and the tip *)
From Coq Require Import String Reals Lra Lia ZArith List Bool.
From Coquelicot Require Import Coquelicot.
From Coq Require Import List.
From Verif Require Import Num NumLemmas ModelBase ModelSample ModelTip StackLemmas Spec SpecQuad SpecThin
  ProofsStackQS ProofsStackQS2 ProofsSym ProofsPassive Laguerre Laguerre2 ProofsFilm ProofsTip ProofsTip3 ProofsAbsorb ProofsThin.
Import ListNotations.
Open Scope R_scope.

(** the averaged coefficient of a film *)
Lemma film_average lg D (e0 e1 e2 : C) t nu z n_lag k : let n := given_or (d_n_lag D) n_lag in
  let b := image_factor e0 e1 in let c := image_factor e1 e2 in
  (forall xw, In xw (lg n) -> 0 < fst xw /\ 0 < snd xw) -> n <> O ->
  (e1 + e0 <> 0)%C -> (e2 + e1 <> 0)%C -> e1 <> RtoC 0 -> e2 <> RtoC 0 ->
  Cmod b * Cmod c <= k -> k < 1 -> 0 < z -> 0 <= t ->
  refl_coef_qs_above_surf lg D (stack [e0; e1; e2] [t] nu) (rr z) n_lag
  = Ok (Some (Csum (map (fun xw => RtoC (snd xw * fst xw) * film b c (trip (fst xw) t z))%C (lg n)))).
Proof.
  intros n b c Hp Hn H1 H2 N1 N2 Hk Hk1 Hz Ht.
  rewrite (above_ok lg D (stack [e0; e1; e2] [t] nu) z n_lag (fun q => film b c (exp (- 2 * clipR (q * t))))).
  - reflexivity.
  - exact Hn.
  - lra.
  - intros xw Hin. apply (film_refl e0 e1 e2 t nu _ k); try assumption.
    destruct (Hp xw Hin). left. apply Rdiv_lt_0_compat; lra.
  - eexists. apply (film_refl e0 e1 e2 t nu z k); try assumption. lra.
Qed.

Lemma rule_moments J rule : (2 <= J)%nat -> documented_rule J rule ->
  (forall xw, In xw rule -> 0 < fst xw /\ 0 < snd xw) /\
  Rsum (map (fun xw => snd xw * fst xw) rule) = 1 /\
  Rsum (map (fun xw => snd xw * fst xw * fst xw) rule) = 2 /\
  Rsum (map (fun xw => snd xw * fst xw * fst xw ^ 2) rule) = 6.
Proof.
  intros HJ HD. destruct (documented_exact J rule ltac:(lia) HD) as [P E]. rewrite Forall_forall in P. split; [exact P|].
  pose proof (E 1%nat ltac:(lia)) as E1. pose proof (E 2%nat ltac:(lia)) as E2. pose proof (E 3%nat ltac:(lia)) as E3.
  unfold qsum in *. unfold Rsum. simpl fact in *. simpl INR in *. split; [|split].
  - rewrite <- E1. f_equal. apply map_ext. intros; ring.
  - transitivity (1 + 1); [rewrite <- E2; f_equal; apply map_ext; intros; ring|ring].
  - transitivity (1 + 1 + 1 + 1 + 1 + 1); [rewrite <- E3; f_equal; apply map_ext; intros; ring|ring].
Qed.

(** C91. Thin films.  With the documented quadrature of at least two nodes the
    averaged coefficient of a film of thickness [t] below a charge at height [z]
    differs from that of the bare substrate by at most
    [2 K / (1-k)^2 t/z], and from the first-order value
    [s - 2 K / (1+bc)^2 t/z] by at most [6 |K| / (1-k)^3 (t/z)^2]; the number of
    nodes does not enter.  [b], [c] are the image factors of the two interfaces,
    [K = c (1 - b^2)]. *)
Lemma C91_thin_film_proof :
  forall (laggauss : laggauss_t) (D : Defaults) (e0 e1 e2 : C) (t z k : R) nu n_lag,
  let n := given_or (d_n_lag D) n_lag in
  let b := image_factor e0 e1 in let c := image_factor e1 e2 in let K := film_contrast b c in
  (2 <= n)%nat -> documented_rule n (laggauss n) ->
  (e1 + e0 <> 0)%C -> (e2 + e1 <> 0)%C -> (e2 + e0 <> 0)%C -> e1 <> RtoC 0 -> e2 <> RtoC 0 ->
  Cmod b * Cmod c <= k -> k < 1 -> 0 < z -> 0 <= t ->
  exists B : C, refl_coef_qs_above_surf laggauss D (stack [e0; e1; e2] [t] nu) (rr z) n_lag = Ok (Some B) /\
    Cmod (B - image_factor e0 e2)%C <= 2 * (Cmod K / (1 - k) ^ 2) * (t / z) /\
    Cmod (B - (image_factor e0 e2 - RtoC (2 * (t / z)) * K / ((1 + b * c) * (1 + b * c))))%C <= 6 * (Cmod K / (1 - k) ^ 3) * (t / z) ^ 2.
Proof.
  intros lg D e0 e1 e2 t z k nu nl n b c K Hn HD H1 H2 H3 N1 N2 Hk Hk1 Hz Ht.
  destruct (rule_moments n (lg n) Hn HD) as (Hp & M1 & M2 & M3).
  rewrite (film_average lg D e0 e1 e2 t nu z nl k) by (assumption || (unfold n in Hn; lia)).
  fold n b c. eexists. split; [reflexivity|]. rewrite <- (film_one e0 e1 e2 H1 H2 H3 N1). fold b c.
  assert (W : forall xw, In xw (lg n) -> 0 <= snd xw * fst xw) by (intros xw Hin; destruct (Hp xw Hin); apply Rmult_le_pos; lra).
  split.
  - eapply Rle_trans.
    + apply (Csum_dev (fun xw => snd xw * fst xw) (fun xw => film b c (trip (fst xw) t z)) (film b c 1)
        (fun xw => Cmod K / (1 - k) ^ 2 * (fst xw * (t / z)))); [exact W| |exact M1].
      intros xw Hin. destruct (Hp xw Hin) as [X1 _]. destruct (trip_thin (fst xw) t z X1 Ht Hz) as [_ [_ T]].
      apply (film_thin_le b c _ k); try assumption. now apply trip_range.
    + right. transitivity (Rsum (map (fun xw => (Cmod K / (1 - k) ^ 2 * (t / z)) * (snd xw * fst xw * fst xw)) (lg n))).
      * f_equal. apply map_ext. intros; ring.
      * rewrite Rsum_scal, M2. ring.
  - eapply Rle_trans.
    + apply (Csum_dev1 (fun xw => snd xw * fst xw) (fun xw => film b c (trip (fst xw) t z))
        (fun xw => film b c 1 - K * RtoC (fst xw * (t / z)) / ((1 + b * c) * (1 + b * c)))%C
        (fun xw => Cmod K / (1 - k) ^ 3 * (fst xw * (t / z)) ^ 2)); [exact W| |].
      * intros xw Hin. destruct (Hp xw Hin) as [X1 _]. destruct (trip_thin (fst xw) t z X1 Ht Hz) as [T0 T].
        apply (film_second_le b c _ k); try assumption. now apply trip_range.
      * transitivity (Csum (map (fun xw => RtoC (snd xw * fst xw) * film b c 1)%C (lg n))
          + Csum (map (fun xw => RtoC (snd xw * fst xw * fst xw) * (- (RtoC (t / z) * K / ((1 + b * c) * (1 + b * c)))))%C (lg n)))%C.
        -- rewrite <- Csum_plus. f_equal. apply map_ext. intros xw. rewrite !RtoC_mult. unfold Cdiv. ring.
        -- rewrite !Csum_const, M1, M2, (RtoC_mult 2). unfold Cdiv. ring.
    + right. transitivity (Rsum (map (fun xw => (Cmod K / (1 - k) ^ 3 * (t / z) ^ 2) * (snd xw * fst xw * fst xw ^ 2)) (lg n))).
      * f_equal. apply map_ext. intros; ring.
      * rewrite Rsum_scal, M3. ring.
Qed.

(** C91. Thick films.  The averaged coefficient differs from that of the bare film
    material by at most [|K| / (1-k)] times [z/t], and also times
    [exp (- t / (n z))] for the documented rule of [n] nodes (up to the floor the
    momentum clip leaves): what is below is lost exponentially. *)
Lemma C91_thick_film_proof :
  forall (laggauss : laggauss_t) (D : Defaults) (e0 e1 e2 : C) (t z k : R) nu n_lag,
  let n := given_or (d_n_lag D) n_lag in
  let b := image_factor e0 e1 in let c := image_factor e1 e2 in let K := film_contrast b c in
  (1 <= n)%nat -> documented_rule n (laggauss n) ->
  (e1 + e0 <> 0)%C -> (e2 + e1 <> 0)%C -> e1 <> RtoC 0 -> e2 <> RtoC 0 ->
  Cmod b * Cmod c <= k -> k < 1 -> 0 < z -> 0 < t ->
  exists B : C, refl_coef_qs_above_surf laggauss D (stack [e0; e1; e2] [t] nu) (rr z) n_lag = Ok (Some B) /\
    Cmod (B - b)%C <= Cmod K / (1 - k) * (z / t + exp (- 2 * MAX_EXP_ARG)) /\
    Cmod (B - b)%C <= Cmod K / (1 - k) * (exp (- (t / (INR n * z))) + exp (- 2 * MAX_EXP_ARG)).
Proof.
  intros lg D e0 e1 e2 t z k nu nl n b c K Hn HD H1 H2 N1 N2 Hk Hk1 Hz Ht.
  destruct (documented_exact n (lg n) ltac:(lia) HD) as [P E]. rewrite Forall_forall in P.
  assert (M0 : Rsum (map snd (lg n)) = 1).
  { pose proof (E 0%nat ltac:(lia)) as E0. unfold qsum in E0. unfold Rsum. simpl in E0. rewrite <- E0. f_equal. apply map_ext. intros; ring. }
  assert (M1 : Rsum (map (fun xw => snd xw * fst xw) (lg n)) = 1).
  { pose proof (E 1%nat ltac:(lia)) as E0. unfold qsum in E0. unfold Rsum. simpl in E0. rewrite <- E0. f_equal. apply map_ext. intros; ring. }
  rewrite (film_average lg D e0 e1 e2 t nu z nl k) by (assumption || lra || (unfold n in Hn; lia)).
  fold n b c. eexists. split; [reflexivity|].
  assert (W : forall xw, In xw (lg n) -> 0 <= snd xw * fst xw) by (intros xw Hin; destruct (P xw Hin); apply Rmult_le_pos; lra).
  assert (C0 : 0 <= Cmod K / (1 - k)) by (apply Rmult_le_pos; [apply Cmod_ge_0|left; apply Rinv_0_lt_compat; lra]).
  set (fl := exp (- 2 * MAX_EXP_ARG)). assert (F0 : 0 < fl) by apply exp_pos.
  assert (TZ : 0 < t / z) by (apply Rdiv_lt_0_compat; lra).
  assert (B : Cmod (Csum (map (fun xw => RtoC (snd xw * fst xw) * film b c (trip (fst xw) t z))%C (lg n)) - b)%C
     <= Rsum (map (fun xw => snd xw * fst xw * (Cmod K / (1 - k) * (exp (- (fst xw * (t / z))) + fl))) (lg n))).
  { apply (Csum_dev (fun xw => snd xw * fst xw) (fun xw => film b c (trip (fst xw) t z)) b); [exact W| |exact M1].
    intros xw Hin. destruct (P xw Hin) as [X1 _]. apply (film_thick_le b c _ k); try assumption.
    - apply trip_range; lra.
    - now apply trip_thick. }
  split; (eapply Rle_trans; [exact B|]).
  - apply Rle_trans with (Rsum (map (fun xw => Cmod K / (1 - k) * (z / t * snd xw + fl * (snd xw * fst xw))) (lg n))).
    + apply Rsum_le. intros xw Hin. destruct (P xw Hin) as [X1 X2].
      replace (snd xw * fst xw * (Cmod K / (1 - k) * (exp (- (fst xw * (t / z))) + fl)))
        with (Cmod K / (1 - k) * (snd xw * (fst xw * exp (- (fst xw * (t / z)))) + fl * (snd xw * fst xw))) by ring.
      apply Rmult_le_compat_l; [exact C0|]. apply Rplus_le_compat_r. rewrite (Rmult_comm (z / t)). apply Rmult_le_compat_l; [lra|].
      set (y := fst xw * (t / z)). assert (Y : 0 < y) by (apply Rmult_lt_0_compat; lra).
      pose proof (exp_ineq1_le y) as I. rewrite exp_Ropp. assert (0 < exp y) by apply exp_pos.
      apply (Rmult_le_reg_r (exp y)); [assumption|]. rewrite Rmult_assoc, Rinv_l by lra. rewrite Rmult_1_r.
      replace (fst xw) with (z / t * y) by (unfold y; field; lra). apply Rmult_le_compat_l; [left; apply Rdiv_lt_0_compat; lra|lra].
    + rewrite Rsum_scal. apply Rmult_le_compat_l; [exact C0|]. right.
      transitivity (z / t * Rsum (map snd (lg n)) + fl * Rsum (map (fun xw => snd xw * fst xw) (lg n))); [|rewrite M0, M1; ring].
      generalize (lg n). intro l. unfold Rsum. induction l as [|a l IH]; cbn [map fold_right]; [ring|]. rewrite IH. ring.
  - apply Rle_trans with (Rsum (map (fun xw => Cmod K / (1 - k) * (exp (- (t / (INR n * z))) + fl) * (snd xw * fst xw)) (lg n))).
    + apply Rsum_le. intros xw Hin. destruct (P xw Hin) as [X1 X2]. rewrite (Rmult_comm (snd xw * fst xw)).
      apply Rmult_le_compat_r; [now apply W|]. apply Rmult_le_compat_l; [exact C0|]. apply Rplus_le_compat_r.
      pose proof (node_lower n (lg n) HD xw Hin X1) as L.
      assert (PN : 0 < INR n) by (apply lt_0_INR; lia).
      assert (Q : t / (INR n * z) <= fst xw * (t / z)).
      { replace (t / (INR n * z)) with (1 / INR n * (t / z)) by (field; split; lra). apply Rmult_le_compat_r; lra. }
      destruct Q as [Q|Q]; [left; apply exp_increasing; lra|rewrite Q; lra].
    + rewrite Rsum_scal, M1, Rmult_1_r. lra.
Qed.

(** difference of two signals of one tip *)
Lemma signal_diff (u v f0 f1 : C) p : Cmod u * Cmod f1 <= p -> Cmod v * Cmod f1 <= p -> p < 1 ->
  exists a a', (rc 1 + Some (u * f0)%C / Some (2 * (1 - u * f1))%C)%cv = Some a /\
               (rc 1 + Some (v * f0)%C / Some (2 * (1 - v * f1))%C)%cv = Some a' /\
    Cmod (a - a')%C <= Cmod f0 / (2 * (1 - p) ^ 2) * Cmod (u - v)%C.
Proof.
  intros Hu Hv Hp.
  assert (L : forall w, Cmod w * Cmod f1 <= p -> 1 - p <= Cmod (1 - w * f1)%C).
  { intros w Hw. pose proof (Cmod_triangle (1 - w * f1)%C (w * f1)%C) as T.
    replace (1 - w * f1 + w * f1)%C with (RtoC 1) in T by ring. rewrite Cmod_1, Cmod_mult in T. lra. }
  assert (NZ : forall w, Cmod w * Cmod f1 <= p -> (1 - w * f1 <> 0)%C).
  { intros w Hw Z. pose proof (L w Hw) as K. rewrite Z, Cmod_0 in K. lra. }
  pose proof (NZ u Hu) as Nu. pose proof (NZ v Hv) as Nv.
  exists (1 + u * f0 / (2 * (1 - u * f1)))%C, (1 + v * f0 / (2 * (1 - v * f1)))%C.
  split; [|split].
  - rewrite cdiv_ok by (apply Cmult_neq_0; [apply C2_neq_0|exact Nu]). reflexivity.
  - rewrite cdiv_ok by (apply Cmult_neq_0; [apply C2_neq_0|exact Nv]). reflexivity.
  - replace (1 + u * f0 / (2 * (1 - u * f1)) - (1 + v * f0 / (2 * (1 - v * f1))))%C
      with (f0 * (u - v) / (2 * ((1 - u * f1) * (1 - v * f1))))%C by (field; repeat split; try assumption; apply C2_neq_0).
    assert (P2 : 0 < 2 * (1 - p) ^ 2) by (apply Rmult_lt_0_compat; [lra|apply pow_lt; lra]).
    eapply Rle_trans; [apply (Cmod_quot_le _ _ (2 * (1 - p) ^ 2) P2)|].
    + rewrite !Cmod_mult, Cmod_R, Rabs_pos_eq by lra. apply Rmult_le_compat_l; [lra|]. apply prod_ge; [lra| |]; now apply L.
    + rewrite Cmod_mult. right. field. lra.
Qed.

(** C91. The finite dipole model with method Q_ave sees a thin film with a strength
    proportional to its thickness over the height of the averaging charge (the point
    dipole model does not see it at all, C09). *)
Lemma C91_fdm_thin_film_proof :
  forall (laggauss : laggauss_t) (D : Defaults) (e0 e1 e2 : C) (t k p : R) nu z_tip r_tip L_tip g_factor d_Q0 d_Q1 d_Qa n_lag,
  let n := given_or (d_n_lag D) n_lag in
  let b := image_factor e0 e1 in let c := image_factor e1 e2 in
  let z := given_or (d_z_tip D) z_tip in let r := given_or (d_r_tip D) r_tip in let L := given_or (d_L_tip D) L_tip in
  let d0 := given_or (131 / 100 * L / (L + 2 * r)) d_Q0 in let d1 := given_or (d_d_Q1 D) d_Q1 in
  let g := given_or (d_g_factor D) g_factor in let zQ := z + r * given_or (d_d_Qa D) d_Qa in
  let delta := 2 * (Cmod (film_contrast b c) / (1 - k) ^ 2) * (t / zQ) in
  (2 <= n)%nat -> documented_rule n (laggauss n) ->
  (e1 + e0 <> 0)%C -> (e2 + e1 <> 0)%C -> (e2 + e0 <> 0)%C -> e1 <> RtoC 0 -> e2 <> RtoC 0 ->
  Cmod b * Cmod c <= k -> k < 1 -> 0 < zQ -> 0 <= t ->
  fdm_regular z d0 r L -> fdm_regular z d1 r L ->
  (Cmod (image_factor e0 e2) + delta) * Cmod (fdm_f z d1 r L g) <= p -> p < 1 ->
  exists a a' : C,
    fdm_eff_pol laggauss D (stack [e0; e1; e2] [t] nu) z_tip r_tip L_tip g_factor d_Q0 d_Q1 d_Qa n_lag (Some "Q_ave"%string) = Ok (Some a) /\
    fdm_eff_pol laggauss D (stack [e0; e2] [] nu) z_tip r_tip L_tip g_factor d_Q0 d_Q1 d_Qa n_lag (Some "Q_ave"%string) = Ok (Some a') /\
    Cmod (a - a')%C <= Cmod (fdm_f z d0 r L g) / (2 * (1 - p) ^ 2) * delta.
Proof.
  intros lg D e0 e1 e2 t k p nu z_tip r_tip L_tip gf d_Q0 d_Q1 d_Qa nl n b c z r L d0 d1 g zQ delta Hn HD H1 H2 H3 N1 N2 Hk Hk1 Hz Ht R0 R1 Hp Hp1.
  destruct (C91_thin_film_proof lg D e0 e1 e2 t zQ k nu nl Hn HD H1 H2 H3 N1 N2 Hk Hk1 Hz Ht) as (B & EB & DB & _).
  fold b c in DB. change (Cmod (B - image_factor e0 e2)%C <= delta) in DB.
  assert (ES : refl_coef_qs_above_surf lg D (stack [e0; e2] [] nu) (rr zQ) nl = Ok (Some (image_factor e0 e2))).
  { destruct (rule_moments n (lg n) Hn HD) as (P & M1 & _).
    rewrite (above_ok lg D _ zQ nl (fun _ => image_factor e0 e2)).
    - do 2 f_equal. change (dflt (d_n_lag D) nl) with n. rewrite Csum_const, M1. ring.
    - change (dflt (d_n_lag D) nl) with n. lia.
    - lra.
    - intros xw _. now apply bulk_iface.
    - eexists. now apply bulk_iface. }
  rewrite (qave_eff_pol lg D (stack [e0; e1; e2] [t] nu) z_tip r_tip L_tip gf d_Q0 d_Q1 d_Qa nl B EB R0 R1).
  rewrite (qave_eff_pol lg D (stack [e0; e2] [] nu) z_tip r_tip L_tip gf d_Q0 d_Q1 d_Qa nl _ ES R0 R1).
  fold z r L d0 d1 g.
  assert (D0 : 0 <= delta) by (eapply Rle_trans; [apply Cmod_ge_0|exact DB]).
  assert (SB : Cmod B <= Cmod (image_factor e0 e2) + delta).
  { pose proof (Cmod_triangle (B - image_factor e0 e2)%C (image_factor e0 e2)) as T.
    replace (B - image_factor e0 e2 + image_factor e0 e2)%C with B in T by ring. lra. }
  destruct (signal_diff B (image_factor e0 e2) (fdm_f z d0 r L g) (fdm_f z d1 r L g) p) as (a & a' & Ea & Ea' & Da).
  - eapply Rle_trans; [|exact Hp]. apply Rmult_le_compat_r; [apply Cmod_ge_0|exact SB].
  - eapply Rle_trans; [|exact Hp]. apply Rmult_le_compat_r; [apply Cmod_ge_0|lra].
  - exact Hp1.
  - exists a, a'. rewrite Ea, Ea'. split; [reflexivity|]. split; [reflexivity|].
    eapply Rle_trans; [exact Da|]. apply Rmult_le_compat_l; [|exact DB].
    apply Rmult_le_pos; [apply Cmod_ge_0|]. left. apply Rinv_0_lt_compat. apply Rmult_lt_0_compat; [lra|apply pow_lt; lra].
Qed.
