(** * Proofs: calls while the defaults are being changed (C93) *)
From Coq Require Import String Reals Lra Lia ZArith List Bool.
From Coquelicot Require Import Rcomplements Complex.
From Verif Require Import Num NumLemmas ModelBase ModelSample ModelTip ModelCache ModelThread Spec SpecThread.
From Verif Require Import SpecThin SpecTip SpecQuad StackLemmas ProofsPassive ProofsQuad2 ProofsTip5 ProofsFilm ProofsNlag ProofsThin ProofsThin4 ProofsThread ProofsThread2.
Import ListNotations.
Open Scope R_scope.

(** C93. Whatever other threads do to the defaults meanwhile, a call returns, or raises, what it would with some fixed
    defaults, each attribute of which was in force at some instant of the call; calls of the "multi" method that
    take the default [n_lag] need that attribute to stay. *)
Lemma C93_assembled_proof :
  forall (rule : laggauss_t) (sched : nat -> Defaults) (c : tcall) (i : nat),
  let j := snd (threaded rule sched c i) in
  (reads_n_lag_twice c = true ->
   forall k k', (i <= k <= j)%nat -> (i <= k' <= j)%nat -> d_n_lag (sched k) = d_n_lag (sched k')) ->
  exists D, assembled sched i j D /\ fst (threaded rule sched c i) = alone rule D c.
Proof. intros rule sched c i. apply assembled_main. Qed.

Lemma snd_mono rule sched c i : (i <= snd (threaded rule sched c i))%nat.
Proof.
  destruct c; cbn [threaded]; rewrite tmap_eq; cbn [snd].
  - rewrite t_above_eq. apply tick_le.
  - rewrite t_surf_eq. apply tick_le.
  - rewrite t_image_eq. apply tick_le.
  - revert i. apply mono_bind; [apply mono_or|intro]. apply mono_bind; [apply mono_fdm_heights|intro]. apply mono_pure.
  - revert i. apply mono_bind; [apply mono_or|intro]. unfold t_demod. apply mono_bind; [apply mono_or|intro].
    apply mono_bind; [apply mono_fdm_heights|intro]. apply mono_bind; [apply mono_fdm_heights|intro]. apply mono_pure.
  - revert i. apply mono_bind; [apply mono_or|intro]. apply mono_bind; [apply mono_fdm_defaults|intros [[[[[r' L'] g'] d0'] d1'] da']].
    apply mono_bind; [apply mono_or|intro]. cbv zeta. apply mono_bind.
    + set (mm := match method with None => _ | Some m => m end). destruct (String.eqb mm "bulk"); [apply mono_pure|].
      destruct (String.eqb mm "Q_ave"); [|apply mono_pure]. apply mono_bind; [apply mono_above|intro]. apply mono_pure.
    + intro. apply mono_bind; [apply mono_or|intro]. apply mono_pure.
  - revert i. apply mono_bind; [apply mono_or|intro]. apply mono_bind; [apply mono_fdm_defaults|intros [[[[[r' L'] g'] d0'] d1'] da']]. apply mono_pure.
  - revert i. apply mono_bind; [apply mono_or|intro]. apply mono_bind; [apply mono_pdm_heights|intro]. apply mono_pure.
  - revert i. apply mono_bind; [apply mono_or|intro]. unfold t_demod. apply mono_bind; [apply mono_or|intro].
    apply mono_bind; [apply mono_pdm_heights|intro]. apply mono_bind; [apply mono_pdm_heights|intro]. apply mono_pure.
  - revert i. apply mono_bind; [apply mono_or|intro]. apply mono_bind; [apply mono_pdm_defaults|intro]. apply mono_bind; [apply mono_or|intro].
    apply mono_bind; [apply mono_pure|intro]. apply mono_bind; [apply mono_or|intro]. apply mono_pure.
  - revert i. apply mono_bind; [apply mono_or|intro]. apply mono_bind; [apply mono_pdm_defaults|intro]. apply mono_pure.
Qed.

(** C93. A call during which nothing is assigned is the call of the sequential model, for every method. *)
Lemma C93_undisturbed_proof :
  forall (rule : laggauss_t) (sched : nat -> Defaults) (c : tcall) (i : nat) (D : Defaults),
  (forall k, (i <= k <= snd (threaded rule sched c i))%nat -> sched k = D) ->
  fst (threaded rule sched c i) = alone rule D c.
Proof.
  intros rule sched c i D H. destruct (assembled_main rule sched c i) as (D' & A & E).
  - intros _ k k' K K'. now rewrite !H.
  - rewrite E. f_equal. destruct D', D. unfold assembled, attribute_held in A. cbn in A.
    repeat match goal with A : (exists _, _) /\ _ |- _ => let k := fresh in let e := fresh in destruct A as ((k & ? & e) & A); rewrite H in e by assumption; cbn in e
      | A : exists _, _ |- _ => let k := fresh in let e := fresh in destruct A as (k & ? & e); rewrite H in e by assumption; cbn in e end.
    congruence.
Qed.

(** C93. One assignment to one attribute is atomic: the call gives the result from before it or the result from after it. *)
Lemma C93_one_assignment_proof :
  forall (rule : laggauss_t) (sched : nat -> Defaults) (c : tcall) (i : nat) (D1 D2 : Defaults),
  one_attribute D1 D2 ->
  (reads_n_lag_twice c = true -> d_n_lag D1 = d_n_lag D2) ->
  (forall k, (i <= k <= snd (threaded rule sched c i))%nat -> sched k = D1 \/ sched k = D2) ->
  fst (threaded rule sched c i) = alone rule D1 c \/ fst (threaded rule sched c i) = alone rule D2 c.
Proof.
  intros rule sched c i D1 D2 O T H. destruct (assembled_main rule sched c i) as (D' & A & E).
  - intros t k k' K K'. specialize (T t). destruct (H k K) as [-> | ->], (H k' K') as [-> | ->]; congruence.
  - rewrite E. clear E T. enough (D' = D1 \/ D' = D2) as [-> | ->] by auto.
    assert (Q : forall (A : Type) (attr : Defaults -> A) a, attribute_held sched i (snd (threaded rule sched c i)) attr a -> a = attr D1 \/ a = attr D2).
    { intros X attr x (k & K & ->). destruct (H k K) as [-> | ->]; auto. }
    unfold assembled in A. destruct A as (A1 & A2 & A3 & A4 & A5 & A6 & A7 & A8 & A9 & A10 & A11).
    apply Q in A1, A2, A3, A4, A5, A6, A7, A8, A9, A10, A11. clear Q H.
    destruct D' as [e0 z0 r0 L0 g0 d10 da0 N0 l0 J0 b0]. cbn in *.
    assert (C : forall (X : Type) (x y : X), x = y \/ x = y -> x = y) by tauto.
    destruct O; cbn in *;
      repeat match goal with A : ?x = ?y \/ ?x = ?y |- _ => apply C in A; subst x end;
      match goal with A : _ \/ _ |- _ => destruct A as [-> | ->]; auto end.
Qed.

(** C93. A call with every argument given cannot be disturbed at all. *)
Lemma C93_explicit_arguments_proof :
  forall (rule : laggauss_t) (sched : nat -> Defaults) (c : tcall) (i : nat) (D : Defaults),
  all_given c = true -> fst (threaded rule sched c i) = alone rule D c.
Proof.
  intros rule sched c i D G. destruct (assembled_main rule sched c i) as (D' & _ & ->).
  - intro T. exfalso. destruct c; cbn in T; try discriminate; destruct n_lag; try discriminate; cbn in G; rewrite ?andb_false_r in G; discriminate.
  - destruct c; cbn in G; rewrite ?andb_true_iff in G;
    repeat match goal with G : _ /\ _ |- _ => destruct G end;
    repeat match goal with G : is_given ?o = true |- _ => destruct o; [clear G|discriminate G] end; reflexivity.
Qed.

Definition moved (D : Defaults) (z r : R) : Defaults :=
  mkDefaults (d_eps_env D) z r (d_L_tip D) (d_g_factor D) (d_d_Q1 D) (d_d_Qa D) (d_n_trapz D) (d_n_lag D) (d_n_tayl D) (d_beta_threshold D).
Lemma pdm_moved D z r : 0 < r -> 0 <= z -> pdm_eff_pol (moved D z r) (stack [RtoC 1; RtoC 3] [] None) None None None None =
     Ok (Some (RtoC (4 * PI * r ^ 3 / (1 - r ^ 3 / (4 * (r + z) ^ 3) / 2)))).
Proof.
  assert (B : refl_coef_qs (stack [RtoC 1; RtoC 3] [] None) (rr 0) = Ok (Some (RtoC (1 / 2)))).
  { rewrite bulk_iface.
    - rewrite image_real by lra. do 3 f_equal. field.
    - apply RtoC_neq_0. lra.
    - apply conc_neq. lra. }
  intros Hr Hz. pose proof PI_RGT_0 as P.
    assert (P3 : 0 < (r + z) ^ 3) by (apply pow_lt; lra).
    assert (Q3 : r ^ 3 <= (r + z) ^ 3) by (apply pow_incr; lra).
    assert (Lt : r ^ 3 / (4 * (r + z) ^ 3) <= 1 / 4) by (apply Rle_div_l; lra).
    change (pdm_eff_pol (moved D z r) (stack [RtoC 1; RtoC 3] [] None) None None None None) with
           (pdm_eff_pol (moved D z r) (stack [RtoC 1; RtoC 3] [] None) (Some z) None None None).
    assert (T : tip_alpha (given_or (d_r_tip (moved D z r)) None) None None (RtoC (4 * PI * r ^ 3))) by apply tip_conductor.
    rewrite (pdm_eff_pol_value _ _ z None None None (RtoC (1 / 2)) _ T B) by (cbn; lra).
    cbn [given_or moved d_r_tip].
    rewrite <- RtoC_div, <- RtoC_mult, <- RtoC_minus by (apply Rgt_not_eq; nra).
    replace (4 * PI * r ^ 3 / (16 * PI * (r + z) ^ 3) * (1 / 2)) with (r ^ 3 / (4 * (r + z) ^ 3) / 2) by (field; split; lra || (intro; nra)).
    rewrite cdiv_ok by (apply RtoC_neq_0; lra). rewrite <- RtoC_div by lra. reflexivity. 
Qed.

(** C93. Two assignments are not atomic: while another thread lifts the tip and then makes it smaller, a call
    can use the old height with the new radius, and return what no state of the defaults gives, before, between or
    after the two assignments. *)
Lemma C93_torn_update_refuted_proof :
  forall (rule : laggauss_t) (D : Defaults),
  let at_ z r := mkDefaults (d_eps_env D) z r (d_L_tip D) (d_g_factor D) (d_d_Q1 D) (d_d_Qa D) (d_n_trapz D) (d_n_lag D) (d_n_tayl D) (d_beta_threshold D) in
  let sched k := match k with O => at_ 0 2 | S _ => at_ 1 1 end in
  let c := TPdm (stack [RtoC 1; RtoC 3] [] None) None None None None in
  exists a : R,
  fst (threaded rule sched c 0%nat) = Ok (VC (Some (RtoC a))) /\
  forall z r, (z = 0 /\ r = 2) \/ (z = 1 /\ r = 2) \/ (z = 1 /\ r = 1) ->
  exists a', alone rule (at_ z r) c = Ok (VC (Some (RtoC a'))) /\ a' <> a.
Proof.
  intros rule D at_ sched c.
  assert (V : forall z r, 0 < r -> 0 <= z -> pdm_eff_pol (at_ z r) (stack [RtoC 1; RtoC 3] [] None) None None None None =
     Ok (Some (RtoC (4 * PI * r ^ 3 / (1 - r ^ 3 / (4 * (r + z) ^ 3) / 2))))) by (intros; now apply (pdm_moved D)).
  pose proof PI_RGT_0 as P.
  exists (32 / 7 * PI). split.
  - cbn [threaded c]. rewrite tmap_eq. unfold t_pdm_eff_pol. rewrite (tbind_ok _ _ _ _ _ (or_default_eq sched d_z_tip None 0)).
    unfold tbind. rewrite (pdm_heights_eq sched _ _ None None None (tick None 0)) by discriminate. cbn [mapM tick fst snd].
    change (pdm_eff_pol (sched 1%nat) (stack [RtoC 1; RtoC 3] [] None) (Some (dflt (d_z_tip (sched 0%nat)) None)) None None None) with
           (pdm_eff_pol (at_ 0 1) (stack [RtoC 1; RtoC 3] [] None) None None None None).
    rewrite V by lra. cbn [rbind only tpure fst hd]. do 4 f_equal. field.
  - intros z r H. cbn [alone c].
    destruct H as [(-> & ->)|[(-> & ->)|(-> & ->)]]; rewrite V by lra; cbn [rbind]; (eexists; split; [reflexivity|]).
    + replace (4 * PI * 2 ^ 3 / (1 - 2 ^ 3 / (4 * (2 + 0) ^ 3) / 2)) with (256 / 7 * PI) by field. lra.
    + replace (4 * PI * 2 ^ 3 / (1 - 2 ^ 3 / (4 * (2 + 1) ^ 3) / 2)) with (32 * 27 / 26 * PI) by field. lra.
    + replace (4 * PI * 1 ^ 3 / (1 - 1 ^ 3 / (4 * (1 + 1) ^ 3) / 2)) with (256 / 63 * PI) by field. lra.
Qed.

(** ** The order of the rule changed between the two reads *)
Lemma film_ok q : 0 <= q ->
  refl_coef_qs (stack [RtoC 1; RtoC 3; RtoC 5] [1] None) (rr q) = Ok (Some (RtoC ((1 / 2 + 1 / 4 * exp (- 2 * clipR (q * 1))) / (1 + 1 / 8 * exp (- 2 * clipR (q * 1)))))).
Proof.
  intro Hq. assert (B : image_factor (RtoC 1) (RtoC 3) = RtoC (1 / 2)) by (rewrite image_real by lra; f_equal; field).
  assert (C : image_factor (RtoC 3) (RtoC 5) = RtoC (1 / 4)) by (rewrite image_real by lra; f_equal; field).
  pose proof (film_refl (RtoC 1) (RtoC 3) (RtoC 5) 1 None q (1 / 2)) as F. cbv zeta in F. rewrite B, C in F.
  rewrite F.
  - do 2 f_equal. pose proof (factor_range q 1 Hq ltac:(lra)). unfold film. rewrite <- !RtoC_mult, <- !RtoC_plus.
    rewrite <- RtoC_div by lra. f_equal. field. lra.
  - apply conc_neq. lra.
  - apply conc_neq. lra.
  - apply RtoC_neq_0. lra.
  - apply RtoC_neq_0. lra.
  - rewrite !Cmod_R, !Rabs_pos_eq by lra. lra.
  - lra.
  - exact Hq.
  - lra.
Qed.
Lemma image_of (S0 S1 : R) : 0 < S0 -> 0 < S1 ->
  ((cabs (Some (RtoC S0 / RtoC (2 * 1))%C / Some (RtoC S1 / RtoC (4 * 1 ^ 2))%C)%cv - rr 1)%rv,
   (Some (RtoC S0 / RtoC (2 * 1))%C ^ 2 / Some (RtoC S1 / RtoC (4 * 1 ^ 2))%C)%cv)
  = (rr (2 * (S0 / S1) - 1), Some (RtoC (S0 ^ 2 / S1))).
Proof.
  intros H0 H1. assert (N : (RtoC S1 / RtoC (4 * 1 ^ 2) <> 0)%C) by (rewrite <- RtoC_div by lra; apply RtoC_neq_0; apply Rgt_not_eq, Rdiv_lt_0_compat; lra).
  rewrite !cdiv_ok by exact N. rewrite <- !RtoC_div by lra. f_equal.
  - unfold cabs, rsub, rr. cbn [olift1 olift2]. rewrite Cmod_R, Rabs_pos_eq.
    + f_equal. field. lra.
    + apply Rlt_le, Rdiv_lt_0_compat; apply Rdiv_lt_0_compat; lra.
  - unfold cpown. cbn [olift1 Cpown]. rewrite cdiv_ok by (rewrite RtoC_div by lra; exact N).
    rewrite <- !RtoC_mult, <- RtoC_div by lra. do 2 f_equal. field. lra.
Qed.
(** C93. If the default [n_lag] is changed between the two reads of one call of the "multi" method, the two
    charges of the tip are treated with different rules, and the result is that of no [n_lag], neither the old nor the new. *)
Lemma C93_n_lag_torn_refuted_proof :
  exists g : R, forall (rule : laggauss_t) (D : Defaults),
  rule 1%nat = [(1, 1)] -> rule 2%nat = [(2 - sqrt 2, (2 + sqrt 2) / 4); (2 + sqrt 2, (2 - sqrt 2) / 4)] ->
  let with_ n := mkDefaults (d_eps_env D) (d_z_tip D) (d_r_tip D) (d_L_tip D) (d_g_factor D) (d_d_Q1 D) (d_d_Qa D) (d_n_trapz D) n (d_n_tayl D) (d_beta_threshold D) in
  let sched k := match k with O => with_ 1%nat | S _ => with_ 2%nat end in
  let c := TFdm (stack [RtoC 1; RtoC 3; RtoC 5] [1] None) (Some 0) (Some 1) (Some 2) (Some (RtoC g)) (Some 1) (Some 1) (Some 1) None None in
  exists a : R,
  fst (threaded rule sched c 0%nat) = Ok (VC (Some (RtoC a))) /\
  forall n, n = 1%nat \/ n = 2%nat -> exists a', alone rule (with_ n) c = Ok (VC (Some (RtoC a'))) /\ a' <> a.
Proof.
  pose (b := fun x => (1 / 2 + 1 / 4 * exp (- 2 * clipR (x / (2 * 1) * 1))) / (1 + 1 / 8 * exp (- 2 * clipR (x / (2 * 1) * 1)))).
  pose (s2 := sqrt 2). assert (S2 : 1 < s2 < 2 /\ s2 * s2 = 2) by exact sqrt2_facts.
  destruct S2 as [S2 S22].
  assert (Hb : forall x, 0 <= x -> 1 / 2 < b x <= 2 / 3).
  { intros x Hx. unfold b. pose proof (factor_range (x / (2 * 1)) 1 ltac:(lra) ltac:(lra)) as F. set (E := exp _) in *. split.
    - rewrite <- Rlt_div_r; lra.
    - rewrite Rle_div_l; lra. }
  set (x1 := 2 - s2). set (x2 := 2 + s2). set (w1 := (2 + s2) / 4). set (w2 := (2 - s2) / 4).
  assert (Bs : b x2 < b x1).
  { unfold b. replace (x1 / (2 * 1) * 1) with (x1 / 2) by field. replace (x2 / (2 * 1) * 1) with (x2 / 2) by field.
    assert (exp (- 2 * clipR (x2 / 2)) < exp (- 2 * clipR (x1 / 2))).
    { apply exp_increasing. pose proof max_exp_ge_1. rewrite !clip_pos by (unfold x1, x2; lra).
      unfold x1, x2. unfold Rmin. repeat destruct (Rle_dec _ _); lra. }
    set (E1 := exp (- 2 * clipR (x1 / 2))) in *. set (E2 := exp (- 2 * clipR (x2 / 2))) in *.
    assert (0 < E2) by apply exp_pos.
    apply Rminus_lt. replace (_ - _) with (3 / 16 * (E2 - E1) / ((1 + 1 / 8 * E2) * (1 + 1 / 8 * E1))) by (field; lra).
    apply Ropp_lt_cancel. rewrite Ropp_0. replace (- _) with (3 / 16 * (E1 - E2) / ((1 + 1 / 8 * E2) * (1 + 1 / 8 * E1))) by (field; lra).
    apply Rdiv_lt_0_compat; [lra|]. apply Rmult_lt_0_compat; lra. }
  pose (S0 := w1 * b x1 + w2 * b x2). pose (S1 := w1 * x1 * b x1 + w2 * x2 * b x2).
  pose proof (Hb x1 ltac:(unfold x1; lra)) as B1. pose proof (Hb x2 ltac:(unfold x2; lra)) as B2. pose proof (Hb 1 ltac:(lra)) as B3.
  assert (W1 : w1 * x1 = 1 / 2) by (unfold w1, x1; nra). assert (W2 : w2 * x2 = 1 / 2) by (unfold w2, x2; nra).
  assert (W : w1 + w2 = 1) by (unfold w1, w2; lra).
  assert (W3 : 0 < w1 /\ 0 < w2) by (unfold w1, w2; lra).
  assert (HS1 : 1 / 2 < S1) by (unfold S1; rewrite W1, W2; lra).
  assert (HS0 : S0 <= 2 / 3) by (unfold S0; nra).
  assert (HS : S1 < S0).
  { unfold S1, S0. rewrite W1, W2. replace w2 with (1 - w1) by lra. assert (1 / 2 < w1) by (unfold w1; lra). nra. }
  (* images *)
  pose (d2 := 2 * (S0 / S1) - 1).
  assert (Hd2 : 1 < d2 <= 5 / 3).
  { unfold d2. assert (1 < S0 / S1) by (rewrite <- Rlt_div_r; lra). assert (S0 / S1 <= 4 / 3) by (rewrite Rle_div_l; lra). lra. }
  pose (p1 := b 1 * (ln (4 * 2 / (1 + 2 * 0 + 2 * 1)) / ln (4 * 2 / 1))).
  pose (p2 := S0 ^ 2 / S1 * (ln (4 * 2 / (1 + 2 * 0 + 2 * d2)) / ln (4 * 2 / 1))).
  assert (LnP : forall x, 1 < x -> 0 < ln x) by (intros x Hx; rewrite <- ln_1; apply ln_increasing; lra).
  assert (P1 : 0 < p1).
  { unfold p1. apply Rmult_lt_0_compat; [lra|]. apply Rdiv_lt_0_compat; apply LnP; lra. }
  assert (P2 : 0 < p2).
  { unfold p2. apply Rmult_lt_0_compat; [apply Rdiv_lt_0_compat; [apply pow_lt|]; lra|]. apply Rdiv_lt_0_compat; apply LnP; [|lra].
    rewrite <- Rlt_div_r; lra. }
  pose (a1 := (1 + 0 + 1) / (2 * 2)). pose (a2 := (1 + 0 + d2) / (2 * 2)).
  assert (A12 : a1 <> a2) by (unfold a1, a2; lra).
  assert (G : exists g, 1 < p1 * (g - a1) /\ 1 < p2 * (g - a2) /\ p1 * (g - a1) <> p2 * (g - a2)).
  { set (g0 := a1 + a2 + 1 / p1 + 1 / p2 + 1).
    assert (Q : forall g, g0 <= g -> 1 < p1 * (g - a1) /\ 1 < p2 * (g - a2)).
    { intros g Hg. assert (0 < 1 / p1) by (apply Rdiv_lt_0_compat; lra). assert (0 < 1 / p2) by (apply Rdiv_lt_0_compat; lra).
      assert (0 < a1) by (unfold a1; lra). assert (0 < a2) by (unfold a2; lra).
      split.
      - replace 1 with (p1 * (1 / p1)) by (field; lra). apply Rmult_lt_compat_l; [lra|]. unfold g0 in Hg. lra.
      - replace 1 with (p2 * (1 / p2)) by (field; lra). apply Rmult_lt_compat_l; [lra|]. unfold g0 in Hg. lra. }
    destruct (Req_dec (p1 * (g0 - a1)) (p2 * (g0 - a2))) as [E|E].
    - exists (g0 + 1). destruct (Q (g0 + 1) ltac:(lra)) as [Q1 Q2]. split; [exact Q1|split; [exact Q2|]]. intro E'.
      assert (p1 = p2) by lra. apply A12. assert (X : p1 * a1 = p1 * a2) by (rewrite <- H in E; lra).
      apply Rmult_eq_reg_l in X; lra.
    - exists g0. destruct (Q g0 ltac:(lra)) as [Q1 Q2]. auto. }
  destruct G as (g & X1 & X2 & X12). exists g. intros rule D R1 R2 with_ sched c.
  assert (I : forall n (D' : Defaults), d_n_lag D' = n -> (n = 1%nat \/ n = 2%nat) ->
    image_depth_and_charge rule D' (stack [RtoC 1; RtoC 3; RtoC 5] [1] None) (rr 0 + rr 1 * rr 1)%rv None =
    Ok (if Nat.eqb n 1 then (rr 1, Some (RtoC (b 1))) else (rr d2, Some (RtoC (S0 ^ 2 / S1))))).
  { intros n D' Hn H12. change (rr 0 + rr 1 * rr 1)%rv with (rr (0 + 1 * 1)). replace (0 + 1 * 1) with 1 by ring.
    unfold image_depth_and_charge.
    rewrite (surf_ok rule D' (stack [RtoC 1; RtoC 3; RtoC 5] [1] None) 1 None (fun q => RtoC ((1 / 2 + 1 / 4 * exp (- 2 * clipR (q * 1))) / (1 + 1 / 8 * exp (- 2 * clipR (q * 1)))))).
    - cbn [dflt]. rewrite Hn. destruct H12 as [-> | ->]; cbn [Nat.eqb].
      + rewrite R1. unfold Csum. cbn [map fold_right fst snd rbind].
        replace (RtoC 1 * _ + _)%C with (RtoC (b 1)) by (unfold b; ring).
        match goal with |- context [Some (?a / RtoC (4 * 1 ^ 2))%C] => replace a with (RtoC (b 1)) by (rewrite <- RtoC_mult, Cplus_0_r; f_equal; fold (b 1); ring) end.
        rewrite (image_of (b 1) (b 1)) by lra. do 2 f_equal; [f_equal; field; lra|]. do 2 f_equal. field. lra.
      + rewrite R2. unfold Csum. cbn [map fold_right fst snd rbind].
        match goal with |- context [Some (?a / RtoC (2 * 1))%C] => replace a with (RtoC S0) by (rewrite <- !RtoC_mult, Cplus_0_r, <- RtoC_plus; reflexivity) end.
        match goal with |- context [Some (?a / RtoC (4 * 1 ^ 2))%C] => replace a with (RtoC S1) by (rewrite <- !RtoC_mult, Cplus_0_r, <- RtoC_plus; reflexivity) end.
        rewrite (image_of S0 S1) by lra. reflexivity.
    - cbn [dflt]. rewrite Hn. lia.
    - lra.
    - intros xw Hx. apply film_ok. cbn [dflt] in Hx. rewrite Hn in Hx. destruct H12 as [-> | ->].
      + rewrite R1 in Hx. destruct Hx as [<-|[]]. cbn. lra.
      + rewrite R2 in Hx. destruct Hx as [<-|[<-|[]]]; cbn; fold s2; lra.
    - eexists. apply film_ok. lra. }
  pose (X := fun n => if Nat.eqb n 1 then p1 * (g - a1) else p2 * (g - a2)).
  assert (GM : forall n, n = 1%nat \/ n = 2%nat ->
    ((if Nat.eqb n 1 then Some (RtoC (b 1)) else Some (RtoC (S0 ^ 2 / S1))) *
     fdm_geom_func_multi (rr 0) (if Nat.eqb n 1 then rr 1 else rr d2) (rr 1) (rr 2) (Some (RtoC g)))%cv = Some (RtoC (X n))).
  { assert (F : forall d, fdm_f_image 0 d 1 2 (RtoC g) = RtoC ((g - (1 + 0 + d) / (2 * 2)) * (ln (4 * 2 / (1 + 2 * 0 + 2 * d)) / ln (4 * 2 / 1)))).
    { intro d. unfold fdm_f_image. now rewrite RtoC_mult, RtoC_minus. }
    intros n [-> | ->]; unfold X; cbn [Nat.eqb]; rewrite geom_image_ok by lra; rewrite F; unfold cmul; cbn [olift2]; f_equal; rewrite <- RtoC_mult; f_equal.
    - unfold p1, a1. ring.
    - unfold p2, a2. ring. }
  assert (XP : forall n, 1 < X n) by (intro n; unfold X; destruct (Nat.eqb n 1); assumption).
  assert (AL : forall m n, (rc 1 + Some (RtoC (X m)) / (rc 2 * (rc 1 - Some (RtoC (X n)))))%cv = Some (RtoC (1 + X m / (2 * (1 - X n))))).
  { intros m n. unfold rc, csub, cmul. cbn [olift2]. specialize (XP n). rewrite <- RtoC_minus, <- RtoC_mult, cdiv_ok by (apply RtoC_neq_0; lra).
    rewrite <- RtoC_div by lra. cbn [cadd olift2]. now rewrite RtoC_plus. }
  exists (1 + X 1%nat / (2 * (1 - X 2%nat))). split.
  - assert (J : forall n, (n = 1%nat \/ n = 2%nat) -> forall k, d_n_lag (sched k) = n ->
      t_image rule sched (stack [RtoC 1; RtoC 3; RtoC 5] [1] None) [(rr 0 + rr 1 * rr 1)%rv] None k =
      (Ok [(if Nat.eqb n 1 then (rr 1, Some (RtoC (b 1))) else (rr d2, Some (RtoC (S0 ^ 2 / S1))))], S k)).
    { intros n Hn k Hk. rewrite t_image_eq. cbn [mapM tick]. rewrite (I n _ Hk Hn). reflexivity. }
    pose proof (GM 1%nat (or_introl eq_refl)) as G1. pose proof (GM 2%nat (or_intror eq_refl)) as G2. cbn [Nat.eqb] in G1, G2.
    assert (HH : t_fdm_heights rule sched (stack [RtoC 1; RtoC 3; RtoC 5] [1] None) [0] (Some 1) (Some 2) (Some (RtoC g)) (Some 1) (Some 1) (Some 1) None None 0%nat
      = (Ok [Some (RtoC (1 + X 1%nat / (2 * (1 - X 2%nat))))], 2%nat)).
    { unfold t_fdm_heights.
      rewrite (tbind_ok _ _ _ _ _ (t_fdm_defaults_eq sched (Some 1) (Some 2) (Some (RtoC g)) (Some 1) (Some 1) (Some 1) 0)).
      change (multilayer (stack [RtoC 1; RtoC 3; RtoC 5] [1] None)) with true. cbn [dflt tick map String.eqb Ascii.eqb Bool.eqb].
      rewrite (tbind_ok _ _ _ _ _ (J 1%nat (or_introl eq_refl) 0%nat eq_refl)).
      rewrite (tbind_ok _ _ _ _ _ (J 2%nat (or_intror eq_refl) 1%nat eq_refl)).
      unfold tpure. cbn [Nat.eqb combine map fst snd]. rewrite G1, G2, AL. reflexivity. }
    cbn [threaded c]. rewrite tmap_eq. unfold t_fdm_eff_pol. rewrite (tbind_ok _ _ _ _ _ (or_default_eq sched d_z_tip (Some 0) 0)).
    cbn [dflt tick]. rewrite (tbind_ok _ _ _ _ _ HH). reflexivity.
  - intros n Hn. cbn [alone c]. unfold fdm_eff_pol, fdm_defaults. cbn [dflt].
    change (multilayer (stack [RtoC 1; RtoC 3; RtoC 5] [1] None)) with true. cbn [String.eqb Ascii.eqb Bool.eqb].
    exists (1 + X n / (2 * (1 - X n))). split.
    { rewrite (I n (with_ n) eq_refl Hn). pose proof (GM n Hn) as Gn.
      destruct Hn as [-> | ->]; cbn [Nat.eqb rbind fst snd] in *; rewrite Gn, AL; reflexivity. }
    pose proof (XP 1%nat) as U1. pose proof (XP 2%nat) as U2. assert (U : X 1%nat <> X 2%nat) by exact X12.
    intro E. apply U. destruct Hn as [-> | ->].
    + assert (E' : X 1%nat / (2 * (1 - X 1%nat)) = X 1%nat / (2 * (1 - X 2%nat))) by lra.
      apply (f_equal (fun y => y * (2 * (1 - X 1%nat)) * (2 * (1 - X 2%nat)))) in E'. field_simplify in E'; [|lra|lra]. nra.
    + assert (E' : X 2%nat / (2 * (1 - X 2%nat)) = X 1%nat / (2 * (1 - X 2%nat))) by lra.
      apply (f_equal (fun y => y * (2 * (1 - X 2%nat)))) in E'. field_simplify in E'; [|lra|lra]. lra.
Qed.

(** C93. A concrete call that meets the hypotheses: the radius is made smaller once while a call runs that has read the
    height but not yet the radius; it returns the result from after the assignment, which differs from the one before. *)
Lemma C93_one_assignment_example_proof :
  forall (rule : laggauss_t) (D : Defaults),
  let at_ r := mkDefaults (d_eps_env D) 0 r (d_L_tip D) (d_g_factor D) (d_d_Q1 D) (d_d_Qa D) (d_n_trapz D) (d_n_lag D) (d_n_tayl D) (d_beta_threshold D) in
  let sched k := match k with O => at_ 2 | S _ => at_ 1 end in
  let c := TPdm (stack [RtoC 1; RtoC 3] [] None) None None None None in
  one_attribute (at_ 2) (at_ 1) /\ reads_n_lag_twice c = false /\
  (forall k, sched k = at_ 2 \/ sched k = at_ 1) /\
  fst (threaded rule sched c 0%nat) = alone rule (at_ 1) c /\
  alone rule (at_ 1) c = Ok (VC (Some (RtoC (32 / 7 * PI)))) /\
  alone rule (at_ 2) c = Ok (VC (Some (RtoC (256 / 7 * PI)))).
Proof.
  intros rule D at_ sched c. split; [constructor|]. split; [reflexivity|]. split; [intros [|k]; auto|]. split; [|split].
  - cbn [threaded c alone]. rewrite tmap_eq. unfold t_pdm_eff_pol. rewrite (tbind_ok _ _ _ _ _ (or_default_eq sched d_z_tip None 0)).
    unfold tbind. rewrite (pdm_heights_eq sched _ _ None None None (tick None 0)) by discriminate. cbn [mapM tick fst snd].
    change (pdm_eff_pol (sched 1%nat) (stack [RtoC 1; RtoC 3] [] None) (Some (dflt (d_z_tip (sched 0%nat)) None)) None None None) with
           (pdm_eff_pol (at_ 1) (stack [RtoC 1; RtoC 3] [] None) None None None None).
    destruct (pdm_eff_pol (at_ 1) (stack [RtoC 1; RtoC 3] [] None) None None None None); reflexivity.
  - cbn [alone c]. change (at_ 1) with (moved D 0 1). rewrite pdm_moved by lra. cbn [rbind]. do 4 f_equal. field.
  - cbn [alone c]. change (at_ 2) with (moved D 0 2). rewrite pdm_moved by lra. cbn [rbind]. do 4 f_equal. field.
Qed.
