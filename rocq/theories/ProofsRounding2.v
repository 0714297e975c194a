(** * C74, C75: the quasistatic code in arithmetic that rounds *)
From Coq Require Import String Reals Lra Lia ZArith List Bool Permutation.
From Coquelicot Require Import Rcomplements Complex.
From Verif Require Import Num NumLemmas ModelBase ModelSample ModelTip StackLemmas Spec ProofsSym DemodLemmas ProofsPassive ProofsTip ProofsTip2 ProofsTaylor
  ProofsContrast3 ProofsAbsorb SpecRound SpecAccurate ModelRound ModelRound2 RoundLemmas RoundLemmas2 RoundTends RoundTends2 ProofsRounding.
Import ListNotations.
Open Scope R_scope.
#[local] Existing Instance plain.

Lemma ct_accurate v (x : machine -> C) d run : ct v x -> v = Some d -> (forall m, run m = Ok (x m)) -> accurate run d.
Proof.
  intros H Hv E. destruct (H d Hv) as (K & HK & u0 & H0 & Q). exists K, u0. split; [exact HK|]. split; [exact H0|].
  intros u m Hu Hm. exists (x m). split; [apply E|]. specialize (Q u m Hu Hm I). rewrite Rabs_pos_eq in Q by apply Cmod_ge_0. exact Q.
Qed.
Lemma rest_tracks r0 r : rest ct r0 r -> tracks r0 r.
Proof.
  intros H. destruct r0 as [v|e]; cbn [rest] in H.
  - destruct H as (x & E & H). split; [intros e X; discriminate|]. split.
    + intros v' _ m. exists (x m). apply E.
    + intros d Hd. injection Hd as Hd. apply (ct_accurate v x d r H Hd E).
  - split; [intros e' X m; injection X as <-; apply H|]. split; intros ? X; discriminate.
Qed.
(** on an exact machine accurate programs are exact *)
Lemma accurate_exact run d m : accurate run d -> rounding 0 m -> run m = Ok d.
Proof.
  intros (K & u0 & HK & H0 & Q) Hm. destruct (Q 0 m ltac:(lra) Hm) as (x & E & H). rewrite Rmult_0_r in H.
  rewrite E. f_equal. assert (Z : (x - d)%C = RtoC 0) by (apply Cmod_eq_0; pose proof (Cmod_ge_0 (x - d)%C); lra).
  replace x with ((x - d) + d)%C by ring. rewrite Z. ring.
Qed.

(** ** C74 *)
(** C74. fdm.eff_pol in rounding arithmetic: same exceptions, error of order u. *)
Lemma C74_fdm_eff_pol_proof : forall laggauss D s z_tip r_tip L_tip g_factor d_Q0 d_Q1 d_Qa n_lag method,
  tracks (fdm_eff_pol laggauss D s z_tip r_tip L_tip g_factor d_Q0 d_Q1 d_Qa n_lag method)
         (fun m => k_fdm_eff_pol m laggauss D s (given_or (d_z_tip D) z_tip) r_tip L_tip g_factor d_Q0 d_Q1 d_Qa n_lag method).
Proof.
  intros. apply rest_tracks. pose proof (T_fdm_eff_pol laggauss D s (given_or (d_z_tip D) z_tip) (fun _ => given_or (d_z_tip D) z_tip) r_tip L_tip g_factor d_Q0 d_Q1 d_Qa n_lag method (rt_const _)) as H.
  destruct z_tip as [z|]; exact H.
Qed.
(** C74. fdm.eff_pol_n, every method: likewise. *)
Lemma C74_fdm_eff_pol_n_proof : forall laggauss D s A_tip n z_tip n_trapz r_tip L_tip g_factor d_Q0 d_Q1 d_Qa n_lag method,
  tracks (fdm_eff_pol_n laggauss D s A_tip n z_tip n_trapz r_tip L_tip g_factor d_Q0 d_Q1 d_Qa n_lag method)
         (fun m => k_fdm_eff_pol_n m laggauss D s A_tip n z_tip n_trapz r_tip L_tip g_factor d_Q0 d_Q1 d_Qa n_lag method).
Proof. intros. apply rest_tracks, T_fdm_eff_pol_n. Qed.
(** C74. fdm.eff_pol_n_taylor: likewise. *)
Lemma C74_fdm_taylor_proof : forall laggauss D s A_tip n z_tip r_tip L_tip g_factor d_Q0 d_Q1 d_Qa n_lag method n_trapz n_tayl,
  tracks (fdm_eff_pol_n_taylor laggauss D s A_tip n z_tip r_tip L_tip g_factor d_Q0 d_Q1 d_Qa n_lag method n_trapz n_tayl)
         (fun m => k_fdm_eff_pol_n_taylor m laggauss D s A_tip n z_tip r_tip L_tip g_factor d_Q0 d_Q1 d_Qa n_lag method n_trapz n_tayl).
Proof. intros. apply rest_tracks, T_fdm_taylor. Qed.
(** C74. pdm.eff_pol: likewise. *)
Lemma C74_pdm_eff_pol_proof : forall D s z_tip r_tip eps_tip alpha_tip,
  tracks (pdm_eff_pol D s z_tip r_tip eps_tip alpha_tip)
         (fun m => k_pdm_eff_pol m D s (given_or (d_z_tip D) z_tip) r_tip eps_tip alpha_tip).
Proof.
  intros. apply rest_tracks. pose proof (T_pdm_eff_pol D s (given_or (d_z_tip D) z_tip) (fun _ => given_or (d_z_tip D) z_tip) r_tip eps_tip alpha_tip (rt_const _)) as H.
  destruct z_tip as [z|]; exact H.
Qed.
(** C74. pdm.eff_pol_n: likewise. *)
Lemma C74_pdm_eff_pol_n_proof : forall D s A_tip n z_tip n_trapz r_tip eps_tip alpha_tip,
  tracks (pdm_eff_pol_n D s A_tip n z_tip n_trapz r_tip eps_tip alpha_tip)
         (fun m => k_pdm_eff_pol_n m D s A_tip n z_tip n_trapz r_tip eps_tip alpha_tip).
Proof. intros. apply rest_tracks, T_pdm_eff_pol_n. Qed.
(** C74. pdm.eff_pol_n_taylor: likewise. *)
Lemma C74_pdm_taylor_proof : forall D s A_tip n z_tip r_tip eps_tip alpha_tip n_trapz n_tayl,
  tracks (pdm_eff_pol_n_taylor D s A_tip n z_tip r_tip eps_tip alpha_tip n_trapz n_tayl)
         (fun m => k_pdm_eff_pol_n_taylor m D s A_tip n z_tip r_tip eps_tip alpha_tip n_trapz n_tayl).
Proof. intros. apply rest_tracks, T_pdm_taylor. Qed.

(** the contrast with a reference sample *)
Lemma accurate_ratio run run' a b : b <> RtoC 0 -> accurate run a -> accurate run' b ->
  (forall m, exists x, run m = Ok x) -> (forall m, exists x, run' m = Ok x) ->
  accurate (fun m => let! x := run m in let! y := run' m in Ok (kdiv m x y)) (a / b)%C.
Proof.
  intros Hb H1 H2 O1 O2.
  set (gx := fun m => match run m with Ok x => x | Raise _ => RtoC 0 end). set (gy := fun m => match run' m with Ok x => x | Raise _ => RtoC 0 end).
  assert (C1 : forall r d, accurate r d -> ct (Some d) (fun m => match r m with Ok x => x | Raise _ => RtoC 0 end)).
  { intros r d (K & u0 & HK & H0 & Q) d' E. injection E as <-. exists K. split; [exact HK|]. exists u0. split; [exact H0|].
    intros u m Hu Hm _. destruct (Q u m Hu Hm) as (x & -> & B). rewrite Rabs_pos_eq by apply Cmod_ge_0. exact B. }
  apply (ct_accurate (Some a / Some b)%cv (fun m => kdiv m (gx m) (gy m))).
  - apply T_kdiv; [exact (C1 _ _ H1)|exact (C1 _ _ H2)].
  - now apply cdiv_ok.
  - intros m. unfold gx, gy. destruct (O1 m) as (x & ->). destruct (O2 m) as (y & ->). reflexivity.
Qed.
(** C74. The contrast with a reference whose signal is not zero. *)
Lemma C74_contrast_proof : forall laggauss D s s' A_tip n z_tip n_trapz r_tip L_tip g_factor d_Q0 d_Q1 d_Qa n_lag method a b,
  let exact := fun t => fdm_eff_pol_n laggauss D t A_tip n z_tip n_trapz r_tip L_tip g_factor d_Q0 d_Q1 d_Qa n_lag method in
  let run := fun m t => k_fdm_eff_pol_n m laggauss D t A_tip n z_tip n_trapz r_tip L_tip g_factor d_Q0 d_Q1 d_Qa n_lag method in
  exact s = Ok (Some a) -> exact s' = Ok (Some b) -> b <> RtoC 0 ->
  accurate (fun m => let! x := run m s in let! y := run m s' in Ok (kdiv m x y)) (a / b)%C.
Proof.
  intros lag D s s' A n z nt r L g d0 d1 da nl me a b exact run E E' Hb.
  destruct (C74_fdm_eff_pol_n_proof lag D s A n z nt r L g d0 d1 da nl me) as (_ & O1 & Q1).
  destruct (C74_fdm_eff_pol_n_proof lag D s' A n z nt r L g d0 d1 da nl me) as (_ & O2 & Q2).
  apply (accurate_ratio (fun m => run m s) (fun m => run m s')); [exact Hb|now apply Q1|now apply Q2|apply (O1 _ E)|apply (O2 _ E')].
Qed.

(** more digits, smaller error *)
Lemma digits_rounding p : rounding (/ 2 ^ p) (digits p).
Proof.
  split; [apply chop_rounds|]. intros N HN. unfold digits. cbn [m_order]. pose proof (left_order_adds_up (Nat.pred N)) as H.
  now rewrite Nat.succ_pred in H.
Qed.
Lemma accurate_digits run d : accurate run d ->
  exists K p0, forall p, (p0 <= p)%nat -> exists x, run (digits p) = Ok x /\ Cmod (x - d)%C <= K / 2 ^ p.
Proof.
  intros (K & u0 & HK & H0 & Q). exists K.
  destruct (nfloor_ex (/ u0)) as (p0 & _ & Hp); [left; now apply Rinv_0_lt_compat|]. exists (S p0). intros p Hle.
  destruct (Q (/ 2 ^ p) (digits p)) as (x & E & B).
  - assert (P2 : 0 < 2 ^ p) by (apply pow_lt; lra). split; [left; now apply Rinv_0_lt_compat|].
    rewrite <- (Rinv_involutive u0) by lra. apply Rinv_le_contravar; [now apply Rinv_0_lt_compat|].
    left. eapply Rlt_le_trans; [exact Hp|]. assert (G : forall k, INR k + 1 <= 2 ^ k).
    { induction k as [|k IH]; [simpl; lra|]. rewrite S_INR. cbn [pow]. pose proof (pos_INR k). lra. }
    eapply Rle_trans; [apply G|]. apply Rle_pow; [lra|lia].
  - apply digits_rounding.
  - exists x. split; [exact E|exact B].
Qed.
(** C74. With p binary digits the error is at most K / 2^p from some p on. *)
Lemma C74_digits_proof : forall laggauss D s A_tip n z_tip n_trapz r_tip L_tip g_factor d_Q0 d_Q1 d_Qa n_lag method d,
  fdm_eff_pol_n laggauss D s A_tip n z_tip n_trapz r_tip L_tip g_factor d_Q0 d_Q1 d_Qa n_lag method = Ok (Some d) ->
  exists K p0, forall p, (p0 <= p)%nat -> exists x,
    k_fdm_eff_pol_n (digits p) laggauss D s A_tip n z_tip n_trapz r_tip L_tip g_factor d_Q0 d_Q1 d_Qa n_lag method = Ok x /\ Cmod (x - d)%C <= K / 2 ^ p.
Proof.
  intros lag D s A n z nt r L g d0 d1 da nl me d E. destruct (C74_fdm_eff_pol_n_proof lag D s A n z nt r L g d0 d1 da nl me) as (_ & _ & Q).
  exact (accurate_digits _ _ (Q d E)).
Qed.

(** ** The demodulation of C73 is the one used by the tip models *)
Lemma tl_map {X Y} (f : X -> Y) l : tl (map f l) = map f (tl l).
Proof. now destruct l. Qed.
Lemma combine_seq {Y} (y : nat -> Y) N : forall a, combine (map y (seq (S a) N)) (map y (seq a (S N))) = map (fun k => (y (S k), y k)) (seq a N).
Proof.
  induction N as [|N IH]; intros a; [reflexivity|]. change (seq a (S (S N))) with (a :: seq (S a) (S N)). change (seq (S a) (S N)) with (S a :: seq (S (S a)) N) at 1.
  cbn [map combine]. rewrite IH. reflexivity.
Qed.
Lemma tl_combine_seq {Y} (y : nat -> Y) N : combine (tl (map y (seq 0 (N + 1)))) (map y (seq 0 (N + 1))) = map (fun k => (y (S k), y k)) (seq 0 N).
Proof.
  replace (N + 1)%nat with (S N) by lia. rewrite tl_map. change (tl (seq 0 (S N))) with (seq 1 N). apply combine_seq.
Qed.
Lemma ksum_ext A t v w : (forall k, In k (leaves t) -> v k = w k) -> ksum A t v = ksum A t w.
Proof.
  induction t as [k|l IHl r IHr]; intros H; cbn [ksum]; [apply H; now left|].
  rewrite IHl, IHr; [reflexivity| |]; intros k Hk; apply H; cbn [leaves]; apply in_or_app; auto.
Qed.
Lemma demod_res_demod (m : machine) D f fk x_0 amp n nt :
  let N := given_or (d_n_trapz D) nt in N <> O -> adds_up (m_order m N) N ->
  (exists c, f (a_add m x_0 (a_mul m 0 amp)) = Ok c) ->
  (forall k, (k <= N)%nat -> f (k_position m x_0 amp (k_theta m N k)) = Ok (fk (k_position m x_0 amp (k_theta m N k)))) ->
  k_demod_res m D f x_0 amp n nt = Ok (k_demod m (m_order m N) fk x_0 amp n N).
Proof.
  intros N HN HO [c Hc] Hf. unfold k_demod_res. rewrite dflt_given. fold N. rewrite Hc. cbn [rbind].
  rewrite (mapM_ok _ (fun k => fk (k_position m x_0 amp (k_theta m N k)))).
  2: { intros k Hk. apply in_seq in Hk. apply Hf. lia. }
  cbn [rbind]. f_equal. unfold k_demod. cbv zeta. f_equal.
  replace (combine (map (fun k => fk (k_position m x_0 amp (k_theta m N k))) (seq 0 (N + 1))) (seq 0 (N + 1)))
    with (map (fun k => (fk (k_position m x_0 amp (k_theta m N k)), k)) (seq 0 (N + 1))).
  2: { rewrite <- (map_id (seq 0 (N + 1))) at 3. now rewrite combine_map_seq. }
  rewrite map_map. cbn [fst snd].
  unfold k_trapezoid. rewrite (tl_combine_seq (fun k => kmul m (fk (k_position m x_0 amp (k_theta m N k))) (k_phase m n (k_theta m N k)))), map_map. cbn [fst snd].
  unfold k_sum. set (F := fun k : nat => _).
  assert (LF : length (map F (seq 0 N)) = N) by (now rewrite map_length, seq_length).
  destruct (map F (seq 0 N)) as [|w ws] eqn:EF; [cbn [length] in LF; lia|]. rewrite <- EF in *. rewrite LF.
  apply ksum_ext. intros k Hk. apply (Permutation_in _ HO) in Hk. apply in_seq in Hk.
  rewrite (nth_indep _ (RtoC 0) (F O)) by (rewrite map_length, seq_length; lia). rewrite map_nth, seq_nth by lia. reflexivity.
Qed.

(** ** No bound relative to the signal *)
Lemma noise_value u x_0 amp : Re (k_demod (exact_but u) (left_order 1) (fun _ => RtoC 1) x_0 amp 1 2) = u / 2.
Proof.
  pose proof PI_RGT_0 as PP.
  assert (T0 : k_theta (exact_but u) 2 0 = - PI) by (unfold k_theta; cbn; ring).
  assert (T1 : k_theta (exact_but u) 2 1 = 0) by (unfold k_theta; cbn; field).
  assert (T2 : k_theta (exact_but u) 2 2 = PI) by reflexivity.
  unfold k_demod. cbn [ksum left_order]. rewrite T0, T1, T2. unfold k_integrand.
  replace (a_mul (exact_but u) (- IZR 1) (- PI)) with PI by (cbn; ring).
  replace (a_mul (exact_but u) (- IZR 1) 0) with 0 by (cbn; ring).
  replace (a_mul (exact_but u) (- IZR 1) PI) with (- PI) by (cbn; ring).
  assert (E1 : a_cos (exact_but u) PI = -1) by (cbn; destruct (Req_EM_T PI 0); [lra|apply cos_PI]).
  assert (E2 : a_cos (exact_but u) (- PI) = -1) by (cbn; destruct (Req_EM_T (- PI) 0); [lra|rewrite cos_neg; apply cos_PI]).
  assert (E3 : a_cos (exact_but u) 0 = 1 + u) by (cbn; destruct (Req_EM_T 0 0); [reflexivity|congruence]).
  assert (S1 : a_sin (exact_but u) PI = 0) by (cbn; apply sin_PI).
  assert (S2 : a_sin (exact_but u) (- PI) = 0) by (cbn; rewrite sin_neg, sin_PI; ring).
  assert (S3 : a_sin (exact_but u) 0 = 0) by (cbn; apply sin_0).
  rewrite E1, E2, E3, S1, S2, S3.
  unfold kdiv, kmul, kadd, RtoC, Re, Im. cbn [fst snd exact_but a_add a_sub a_mul a_div INR].
  repeat (destruct (Rle_dec _ _) as [?|NL]; [|exfalso; apply NL; cbn [fst snd]; rewrite Rabs_R0; apply Rabs_pos]).
  cbn [fst snd]. field.
Qed.
Definition exact_but_m (u : R) : machine := Mach (exact_but u) (fun N => left_order (Nat.pred N)).
Lemma exact_but_rounding u : 0 <= u -> rounding u (exact_but_m u).
Proof.
  intros Hu. split; [now apply exact_but_rounds|]. intros N HN. unfold exact_but_m. cbn [m_order]. pose proof (left_order_adds_up (Nat.pred N)) as H.
  now rewrite Nat.succ_pred in H.
Qed.
(** a sample like its environment: alpha_eff is 1 at every height *)
Lemma vacuum_eff_pol lag D z : 0 <= z ->
  fdm_eff_pol lag D (stack [RtoC 1; RtoC 1] [] None) (Some z) (Some 1) (Some 10) (Some (RtoC 1)) (Some 1) (Some 1) None None (Some "bulk"%string) = Ok (Some (RtoC 1)).
Proof.
  intros Hz. assert (E0 : ((RtoC 1 - RtoC 1) / (RtoC 1 + RtoC 1))%C = RtoC 0) by (field; apply C2_neq_0).
  rewrite (bulk_eff_pol lag D _ (Some z) (Some 1) (Some 10) (Some (RtoC 1)) (Some 1) (Some 1) None None (RtoC 0)).
  - cbn [given_or]. unfold rc, cadd. rewrite cdiv_ok.
    + cbn [olift2]. do 2 f_equal. field. exact C2_neq_0.
    + rewrite !Cmult_0_l. replace (2 * (1 - 0))%C with (RtoC 2) by (rewrite <- RtoC_minus, <- RtoC_mult; f_equal; ring). exact C2_neq_0.
  - reflexivity.
  - rewrite bulk_qs; [now rewrite E0|apply RtoC_neq_0; lra|rewrite <- RtoC_plus; apply RtoC_neq_0; lra].
  - unfold fdm_regular. cbn [given_or]. lra.
  - unfold fdm_regular. cbn [given_or]. lra.
Qed.
Lemma same_but_cos u lag D s z r L g d_Q0 d_Q1 d_Qa nl : k_fdm_eff_pol (exact_but_m u) lag D s z r L g d_Q0 d_Q1 d_Qa nl (Some "bulk"%string)
  = k_fdm_eff_pol (exact_but_m 0) lag D s z r L g d_Q0 d_Q1 d_Qa nl (Some "bulk"%string).
Proof.
  assert (E1 : kadd (exact_but_m u) = kadd (exact_but_m 0)) by reflexivity.
  assert (E2 : ksub (exact_but_m u) = ksub (exact_but_m 0)) by reflexivity.
  assert (E3 : kmul (exact_but_m u) = kmul (exact_but_m 0)) by reflexivity.
  assert (E4 : kdiv (exact_but_m u) = kdiv (exact_but_m 0)) by reflexivity.
  assert (E5 : a_add (exact_but_m u) = a_add (exact_but_m 0)) by reflexivity.
  assert (E6 : a_sub (exact_but_m u) = a_sub (exact_but_m 0)) by reflexivity.
  assert (E7 : a_mul (exact_but_m u) = a_mul (exact_but_m 0)) by reflexivity.
  assert (E8 : a_div (exact_but_m u) = a_div (exact_but_m 0)) by reflexivity.
  assert (E9 : a_log (exact_but_m u) = a_log (exact_but_m 0)) by reflexivity.
  assert (E10 : a_exp (exact_but_m u) = a_exp (exact_but_m 0)) by reflexivity.
  assert (E11 : a_lit (exact_but_m u) = a_lit (exact_but_m 0)) by reflexivity.
  assert (G : forall d r L g, k_fdm_geom_func (exact_but_m u) z d r L g = k_fdm_geom_func (exact_but_m 0) z d r L g)
    by (intros; unfold k_fdm_geom_func; rewrite E2, E3, E4, E5, E7, E8, E9; reflexivity).
  assert (AL : k_fdm_alpha (exact_but_m u) = k_fdm_alpha (exact_but_m 0)) by (unfold k_fdm_alpha; rewrite E1, E2, E3, E4; reflexivity).
  assert (TM : k_trans_matrix (exact_but_m u) = k_trans_matrix (exact_but_m 0)) by (unfold k_trans_matrix; rewrite E1, E3, E4; reflexivity).
  assert (KM : kmmul (exact_but_m u) = kmmul (exact_but_m 0)) by (unfold kmmul; rewrite E1, E3; reflexivity).
  assert (RC : k_refl_coef_qs (exact_but_m u) s 0 = k_refl_coef_qs (exact_but_m 0) s 0).
  { unfold k_refl_coef_qs, k_transfer_matrix_qs, k_chain, k_trans_matrices_qs, k_prop_matrices_qs, k_prop_matrix, k_clip.
    rewrite E3, E4, E7, E9, E10, TM, KM. reflexivity. }
  unfold k_fdm_eff_pol, k_fdm_defaults. cbn [String.eqb Ascii.eqb Bool.eqb]. rewrite RC, AL, E5, E7, E8, E11. rewrite !G. 
  destruct (multilayer s); [reflexivity|]. destruct (k_refl_coef_qs (exact_but_m 0) s 0); cbn [rbind]; reflexivity.
Qed.

(** C74. No bound relative to the signal: over a sample like its environment the exact harmonic is zero,
    the computed one is not. *)
Lemma C74_relative_error_refuted_proof :
  ~ (forall laggauss D s A_tip n z_tip n_trapz r_tip L_tip g_factor d_Q0 d_Q1 d_Qa n_lag method d,
       fdm_eff_pol_n laggauss D s A_tip n z_tip n_trapz r_tip L_tip g_factor d_Q0 d_Q1 d_Qa n_lag method = Ok (Some d) ->
       exists K u0, 0 < u0 /\ forall u m, 0 <= u <= u0 -> rounding u m ->
         exists x, k_fdm_eff_pol_n m laggauss D s A_tip n z_tip n_trapz r_tip L_tip g_factor d_Q0 d_Q1 d_Qa n_lag method = Ok x /\
           Cmod (x - d)%C <= K * u * Cmod d).
Proof.
  intros H. set (s := stack [RtoC 1; RtoC 1] [] None).
  assert (EX : fdm_eff_pol_n laggauss12 defaults0 s 1 1 (Some 1) (Some 2%nat) (Some 1) (Some 10) (Some (RtoC 1)) (Some 1) (Some 1) None None (Some "bulk"%string) = Ok (Some (RtoC 0))).
  { unfold fdm_eff_pol_n. cbn [dflt].
    rewrite (demod_mean defaults0 _ (fun _ => Some (RtoC 1)) (1 + 1) 1 1 (Some 2%nat)); cbn [dflt].
    - unfold dmean. rewrite (mean_Some _ _ (fun k => RtoC 1 * ph 1 (node 2 k))%C) by (discriminate || reflexivity).
      change (Ok (Some (cmean 2 (fun k => RtoC 1 * ph 1 (node 2 k))%C)) = Ok (Some (RtoC 0))). rewrite cmean_scal, mean_ph; [do 2 f_equal; ring|discriminate|intros [q Hq]; lia].
    - discriminate.
    - exists (Some (RtoC 1)). apply vacuum_eff_pol. lra.
    - intros k _. apply vacuum_eff_pol. pose proof (height_range (1 + 1) 1 2 k). rewrite Rabs_R1 in *. lra. }
  specialize (H _ _ _ _ _ _ _ _ _ _ _ _ _ _ _ _ EX). destruct H as (K & u0 & H0 & Q).
  set (u := Rmin u0 (1 / 2)). assert (Hu : 0 < u <= u0) by (unfold u; split; [apply Rmin_pos; lra|apply Rmin_l]).
  assert (Hu1 : u <= 1 / 2) by apply Rmin_r.
  destruct (Q u (exact_but_m u) ltac:(lra) (exact_but_rounding u ltac:(lra))) as (x & E & B).
  rewrite Cmod_0, Rmult_0_r in B. replace (x - RtoC 0)%C with x in B by ring.
  assert (Z : x = RtoC 0) by (apply Cmod_eq_0; pose proof (Cmod_ge_0 x); lra). subst x.
  assert (V : forall z, 0 <= z -> k_fdm_eff_pol (exact_but_m u) laggauss12 defaults0 s z (Some 1) (Some 10) (Some (RtoC 1)) (Some 1) (Some 1) None None (Some "bulk"%string) = Ok (RtoC 1)).
  { intros z Hz. rewrite same_but_cos.
    destruct (C74_fdm_eff_pol_proof laggauss12 defaults0 s (Some z) (Some 1) (Some 10) (Some (RtoC 1)) (Some 1) (Some 1) None None (Some "bulk"%string)) as (_ & _ & T).
    exact (accurate_exact _ _ _ (T _ (vacuum_eff_pol laggauss12 defaults0 z Hz)) (exact_but_rounding 0 ltac:(lra))). }
  assert (CB : forall t, -1 <= a_cos (exact_but_m u) t <= 2).
  { intros t. cbn. destruct (Req_EM_T t 0); [lra|]. pose proof (COS_bound t). lra. }
  unfold k_fdm_eff_pol_n in E. rewrite (demod_res_demod (exact_but_m u) defaults0 _ (fun _ => RtoC 1) _ 1 1 (Some 2%nat)) in E.
  - injection E as E. apply (f_equal Re) in E. rewrite noise_value in E. unfold Re in E. simpl in E. lra.
  - discriminate.
  - apply (left_order_adds_up 1).
  - exists (RtoC 1). apply V. cbn. lra.
  - intros k _. apply V. unfold k_position. pose proof (CB (k_theta (exact_but_m u) (given_or (d_n_trapz defaults0) (Some 2%nat)) k)) as [C1 _]. 
    change (a_add (exact_but_m u)) with Rplus. change (a_mul (exact_but_m u)) with Rmult. cbn [dflt]. lra.
Qed.

(** C74. Example: the third harmonic of a default tip over permittivity 2 and over 12 (finite
    dipole model, real g_factor): the computed contrast is accurate, with any
    order of summation *)
Lemma C74_example_proof : forall laggauss, exists a b,
  fdm_eff_pol_n laggauss defaults0 (stack [RtoC 1; RtoC 2] [] None) (20 / 10 ^ 9) 3 None None None None (Some (RtoC (7 / 10))) None None None None None = Ok (Some a) /\
  fdm_eff_pol_n laggauss defaults0 (stack [RtoC 1; RtoC 12] [] None) (20 / 10 ^ 9) 3 None None None None (Some (RtoC (7 / 10))) None None None None None = Ok (Some b) /\
  b <> RtoC 0 /\ rounding (/ 2 ^ 53) (digits 53).
Proof.
  intros lag. destruct (C69_example_proof lag) as [_ (m1 & m2 & E1 & E2 & H)]. exists (RtoC (- m1)), (RtoC (- m2)).
  split; [exact E1|]. split; [exact E2|]. split; [apply RtoC_neq_0; lra|apply digits_rounding].
Qed.
(** C74. Example: a film in the averaged-charge method *)
Lemma C74_example_film_proof : exists a,
  accurate (fun m => k_fdm_eff_pol m laggauss12 defaults0 (stack [RtoC 1; (-2, 1/10)%R; (11, 1/100)%R] [30] None)
     1 (Some 20) (Some 300) (Some (RtoC (7/10))) (Some (1/2)) (Some (1/2)) (Some (7/5)) (Some 2%nat) (Some "Q_ave"%string)) a /\ 0 < Im a.
Proof.
  destruct C63_example_film_proof as (a & E & I). exists a. split; [|exact I].
  destruct (C74_fdm_eff_pol_proof laggauss12 defaults0 (stack [RtoC 1; (-2, 1/10)%R; (11, 1/100)%R] [30] None)
     (Some 1) (Some 20) (Some 300) (Some (RtoC (7/10))) (Some (1/2)) (Some (1/2)) (Some (7/5)) (Some 2%nat) (Some "Q_ave"%string)) as (_ & _ & Q).
  exact (Q a E).
Qed.

(** ** C75 *)
(** C75. refl_coef_qs of any stack in rounding arithmetic: same exceptions, error of order u. *)
Lemma C75_refl_coef_qs_proof : forall s q, tracks (refl_coef_qs s (rr q)) (fun m => k_refl_coef_qs m s q).
Proof. intros. apply rest_tracks, (T_refl_coef_qs s (rr q) (fun _ => q)), rt_const. Qed.
(** C75. trans_coef_qs: likewise. *)
Lemma C75_trans_coef_qs_proof : forall s q, tracks (trans_coef_qs s (rr q)) (fun m => k_trans_coef_qs m s q).
Proof. intros. apply rest_tracks, (T_trans_coef_qs s (rr q) (fun _ => q)), rt_const. Qed.
(** C75. refl_coef_qs_above_surf: likewise. *)
Lemma C75_above_surf_proof : forall laggauss D s z_Q n_lag,
  tracks (refl_coef_qs_above_surf laggauss D s (rr z_Q) n_lag) (fun m => k_refl_coef_qs_above_surf m laggauss D s z_Q n_lag).
Proof. intros. apply rest_tracks, (T_above laggauss D s (rr z_Q) (fun _ => z_Q)), rt_const. Qed.
Lemma rest_map {Y0 Y} (T : Y0 -> (machine -> Y) -> Prop) r0 r (F0 : Y0 -> CV) (F : Y -> C) :
  rest T r0 r -> (forall y0 y, T y0 y -> ct (F0 y0) (fun m => F (y m))) ->
  tracks (let! y := r0 in Ok (F0 y)) (fun m => let! y := r m in Ok (F y)).
Proof.
  intros H HF. apply rest_tracks. apply (rest_bind T ct _ r _ (fun (m : machine) y => Ok (F y)) H).
  intros y0 y Hy. apply (rest_Ok ct _ (fun m : machine => F (y m))). now apply HF.
Qed.
(** C75. surf_pot_and_field: both components. *)
Lemma C75_surf_pot_and_field_proof : forall laggauss D s z_Q n_lag,
  let exact := surf_pot_and_field laggauss D s (rr z_Q) n_lag in
  let run := fun m => k_surf_pot_and_field m laggauss D s z_Q n_lag in
  tracks (let! p := exact in Ok (fst p)) (fun m => let! p := run m in Ok (fst p)) /\
  tracks (let! p := exact in Ok (snd p)) (fun m => let! p := run m in Ok (snd p)).
Proof.
  intros lag D s z n exact run. pose proof (T_surf lag D s (rr z) (fun _ => z) n (rt_const z)) as H.
  split; apply (rest_map _ _ _ _ _ H); intros y0 y [H1 H2]; assumption.
Qed.
(** C75. image_depth_and_charge: both components. *)
Lemma C75_image_depth_and_charge_proof : forall laggauss D s z_Q n_lag,
  let exact := image_depth_and_charge laggauss D s (rr z_Q) n_lag in
  let run := fun m => k_image_depth_and_charge m laggauss D s z_Q n_lag in
  tracks (let! p := exact in Ok (ofR (fst p))) (fun m => let! p := run m in Ok (RtoC (fst p))) /\
  tracks (let! p := exact in Ok (snd p)) (fun m => let! p := run m in Ok (snd p)).
Proof.
  intros lag D s z n exact run. pose proof (T_image lag D s (rr z) (fun _ => z) n (rt_const z)) as H.
  split.
  - apply (rest_map _ _ _ (fun p => ofR (fst p)) (fun p => RtoC (fst p)) H). intros y0 y [H1 H2]. now apply ct_ofR.
  - apply (rest_map _ _ _ snd snd H). intros y0 y [H1 H2]. exact H2.
Qed.
(** C75. lorentz_perm. *)
Lemma C75_lorentz_proof : forall nu nu_j gamma_j A_j nu_plasma f_j eps_inf,
  tracks (lorentz_perm nu nu_j gamma_j A_j nu_plasma f_j eps_inf) (fun m => k_lorentz_perm m nu nu_j gamma_j A_j nu_plasma f_j eps_inf).
Proof. intros. apply rest_tracks, T_lorentz. Qed.
(** C75. drude_perm. *)
Lemma C75_drude_proof : forall nu nu_plasma gamma eps_inf,
  tracks (drude_perm nu nu_plasma gamma eps_inf) (fun m => k_drude_perm m nu nu_plasma gamma eps_inf).
Proof. intros. apply rest_tracks. apply T_lorentz. Qed.
(** C75. From the permittivity to fdm.eff_pol, back through the closed-form inverse and permitivitty, all
    computed in rounding arithmetic: the permittivity is recovered with an error of order u. *)
Lemma C75_fdm_round_trip_proof : forall laggauss D (e0 e1 : C) nu z_tip r_tip L_tip g_factor d_Q0 d_Q1 d_Qa n_lag a,
  let s := stack [e0; e1] [] nu in
  let z := given_or (d_z_tip D) z_tip in let r := given_or (d_r_tip D) r_tip in
  let L := given_or (d_L_tip D) L_tip in let g := given_or (d_g_factor D) g_factor in
  let d0 := given_or (131 / 100 * L / (L + 2 * r)) d_Q0 in
  let d1 := given_or (d_d_Q1 D) d_Q1 in
  e0 <> RtoC 0 -> e1 <> RtoC 0 -> (e0 + e1 <> 0)%C ->
  fdm_regular z d0 r L -> fdm_regular z d1 r L ->
  g <> RtoC ((r + 2 * z + r * d0) / (2 * L)) -> r + 4 * z + 2 * r * d0 <> 4 * L ->
  fdm_eff_pol laggauss D s z_tip r_tip L_tip g_factor d_Q0 d_Q1 d_Qa n_lag None = Ok (Some a) ->
  accurate (fun m => let! alpha := k_fdm_eff_pol m laggauss D s z r_tip L_tip g_factor d_Q0 d_Q1 d_Qa n_lag None in
                     Ok (k_permitivitty m (k_fdm_refl_coef_qs_from_eff_pol m D alpha z_tip r_tip L_tip g_factor d_Q0 d_Q1) e0)) e1.
Proof.
  intros lag D e0 e1 nu zt rt_ Lt gt q0 q1 qa nl a s z r L g d0 d1 H0 H1 H2 R0 R1 Hg Hl E.
  pose proof (C26_inverse_after_eff_pol_proof lag D e0 e1 nu zt rt_ Lt gt q0 q1 qa nl a H1 H2 R0 R1 Hg Hl E) as I.
  pose proof (T_fdm_eff_pol lag D s z (fun _ => z) rt_ Lt gt q0 q1 qa nl None (rt_const _)) as Q.
  assert (E' : fdm_eff_pol lag D s (Some z) rt_ Lt gt q0 q1 qa nl None = Ok (Some a)) by (rewrite <- E; destruct zt; reflexivity).
  rewrite E' in Q. destruct Q as (x & Ex & Hx).
  apply (ct_accurate _ _ e1 _ (T_permitivitty _ _ e0 (T_fdm_inverse D _ _ zt rt_ Lt gt q0 q1 Hx))).
  - rewrite I. assert (N : (e1 + e0 <> 0)%C) by (now rewrite Cplus_comm).
    assert (N2 : (1 - (e1 - e0) / (e1 + e0))%C <> RtoC 0).
    { replace (1 - (e1 - e0) / (e1 + e0))%C with (2 * e0 / (e1 + e0))%C by (field; exact N). apply Cdiv_neq_0; [apply Cmult_neq_0; [apply C2_neq_0|exact H0]|exact N]. }
    unfold permitivitty, rc, cmul, cadd, csub. cbn [olift2]. rewrite cdiv_ok by exact N2. f_equal. field. split; [exact N|].
    replace (e1 + e0 - (e1 - e0))%C with (2 * e0)%C by ring. apply Cmult_neq_0; [apply C2_neq_0|exact H0].
  - intros m. rewrite Ex. reflexivity.
Qed.
(** C75. From a sample to pdm.eff_pol and back: the reflection coefficient is recovered with an error of order u. *)
Lemma C75_pdm_round_trip_proof : forall D s z_tip r_tip eps_tip alpha_tip beta alpha a,
  let z := given_or (d_z_tip D) z_tip in let r := given_or (d_r_tip D) r_tip in
  tip_alpha r eps_tip alpha_tip alpha -> alpha <> RtoC 0 -> r + z <> 0 ->
  refl_coef_qs s (rr 0) = Ok (Some beta) ->
  pdm_eff_pol D s z_tip r_tip eps_tip alpha_tip = Ok (Some a) ->
  accurate (fun m => let! x := k_pdm_eff_pol m D s z r_tip eps_tip alpha_tip in
                     k_pdm_refl_coef_qs_from_eff_pol m D x z_tip r_tip eps_tip alpha_tip) beta.
Proof.
  intros D s zt rt_ ep al beta alpha a z r HA Ha Hz Hb E.
  pose proof (C27_inverse_after_eff_pol_proof D s zt rt_ ep al beta alpha a HA Ha Hz Hb E) as I.
  pose proof (T_pdm_eff_pol D s z (fun _ => z) rt_ ep al (rt_const _)) as Q.
  assert (E' : pdm_eff_pol D s (Some z) rt_ ep al = Ok (Some a)) by (rewrite <- E; destruct zt; reflexivity).
  rewrite E' in Q.
  pose proof (rest_bind ct ct _ _ (fun x => pdm_refl_coef_qs_from_eff_pol D x zt rt_ ep al) (fun (m : machine) x => k_pdm_refl_coef_qs_from_eff_pol m D x zt rt_ ep al) Q
    (fun x0 x Hx => T_pdm_inverse D x0 x zt rt_ ep al Hx)) as W. cbn [rbind] in W. rewrite I in W.
  apply rest_tracks in W. apply W. reflexivity.
Qed.
(** C75. Example: the hypotheses of the round trip hold for a default tip at contact over permittivity -2 + i/10 *)
Lemma C75_example_proof : forall laggauss,
  accurate (fun m => let! alpha := k_fdm_eff_pol m laggauss defaults0 (stack [RtoC 1; (-2, 1/10)%R] [] None) 0 None None None None None None None None in
                     Ok (k_permitivitty m (k_fdm_refl_coef_qs_from_eff_pol m defaults0 alpha None None None None None None) (RtoC 1))) (-2, 1/10)%R.
Proof.
  intros lag. destruct (C63_example_defaults_proof lag) as (a & E). destruct C26_example_proof as (R0 & R1 & Hg & Hl).
  apply (C75_fdm_round_trip_proof lag defaults0 (RtoC 1) (-2, 1/10)%R None None None None None None None None None a); try assumption.
  - apply RtoC_neq_0. lra.
  - intros K. apply (f_equal Im) in K. unfold Im in K. simpl in K. lra.
  - intros K. apply (f_equal Im) in K. unfold Im in K. simpl in K. lra.
Qed.
