(** * Proofs: inversion by minimisation over weakly reflecting samples, the parameters of the script *)
From Coq Require Import String Reals Lra Lia ZArith List Bool.
From Coquelicot Require Import Rcomplements Complex.
From Verif Require Import Num NumLemmas LimLemmas ModelBase ModelSample ModelTip StackLemmas Spec
  ProofsStackQS ProofsStackQS2 ProofsBulkFF ProofsSym ProofsPassive DemodLemmas ProofsDemod ProofsTip ProofsTip2 ProofsTip3
  ProofsTaylor PosDef ProofsContrast ProofsContrast2 SpecMajor Majorant ProofsMajor ProofsMajor2 ProofsDefault ProofsPerm ProofsOsc ModelFit ProofsFit ProofsFit2.
Import ListNotations.
Open Scope R_scope.

Lemma finite_bound (h : nat -> R) N : exists B, 0 < B /\ forall k, (k < N)%nat -> h k <= B.
Proof.
  induction N as [|N [B [P H]]].
  - exists 1. split; [lra|]. intros k Hk. lia.
  - exists (B + Rabs (h N)). pose proof (Rabs_pos (h N)). split; [lra|]. intros k Hk. destruct (Nat.eq_dec k N) as [->|Ne].
    + pose proof (Rle_abs (h N)). lra.
    + specialize (H k ltac:(lia)). lra.
Qed.
Lemma Re_fdm_f_complex x d r L (g : C) : Re (fdm_f x d r L g) = fdm_r x d r L (Re g).
Proof. unfold fdm_f, fdm_r, Re. destruct g as [u v]. cbn. ring. Qed.
Lemma loop_small k F m : 0 < F -> 0 <= k <= 1 / 2 -> k <= m / (16 * F) -> F * (/ (1 - k) ^ 2 - 1) <= m / 2.
Proof.
  intros HF [H0 H1] H. assert (F16 : F * (8 * k) <= m / 2).
  { apply (Rmult_le_compat_l (8 * F)) in H; [|lra]. replace (8 * F * (m / (16 * F))) with (m / 2) in H by (field; lra). lra. }
  eapply Rle_trans; [|exact F16]. apply Rmult_le_compat_l; [lra|].
  assert (P : 0 < (1 - k) ^ 2) by (apply pow_lt; lra).
  replace (/ (1 - k) ^ 2 - 1) with ((1 - (1 - k) ^ 2) / (1 - k) ^ 2) by (field; lra).
  apply Rle_div_l; [exact P|]. nra.
Qed.

(** C105. Also for a complex g factor, as long as its real part exceeds the reach
    of the stroke: there are rho > 0 and K such that for all samples with
    reflection coefficients of modulus at most rho the permittivity error of any
    point the optimiser may stop at is at most K (residual + noise). In
    particular the objective of a noiseless signal vanishes nowhere else among
    them. *)
Lemma C105_weak_proof :
  forall (laggauss : laggauss_t) (D : Defaults) (p : params),
  let N := given_or (d_n_trapz D) (p_n_trapz p) in let z := given_or (d_z_tip D) (p_z_tip p) in
  let r := given_or (d_r_tip D) (p_r_tip p) in let L := given_or (d_L_tip D) (p_L_tip p) in let g := given_or (d_g_factor D) (p_g_factor p) in
  let d0 := given_or (131 / 100 * L / (L + 2 * r)) (p_d_Q0 p) in let d1 := given_or (d_d_Q1 D) (p_d_Q1 p) in
  p_method p = None \/ p_method p = Some "bulk"%string -> d_eps_env D <> RtoC 0 -> N <> O ->
  0 < p_A_tip p -> 0 < r < 4 * L -> 0 < r + 4 * z + 2 * r * d0 -> 0 < r + 4 * z + 2 * r * d1 ->
  r + 2 * (z + 2 * p_A_tip p) + r * d0 <= 2 * L * Re g -> r + 4 * (z + 2 * p_A_tip p) + 2 * r * d0 <= 4 * L ->
  exists rho K, 0 < rho < 1 /\ 0 < K /\
  forall (e b b' : C) (x : R * R),
  refl_coef_qs_single (Some (d_eps_env D)) (Some e) = Some b -> Cmod b <= rho ->
  refl_coef_qs_single (Some (d_eps_env D)) (Some (fst x, Rabs (snd x))) = Some b' -> Cmod b' <= rho ->
  exists a : C, simulate laggauss D p e = Ok (Some a) /\
  (forall alpha : C, exists delta, minimization_function laggauss D x (Some alpha) p = Ok (Some delta) /\
    Cmod ((fst x, Rabs (snd x)) - e)%C <= K * (delta + Cmod (alpha - a)%C)) /\
  (minimization_function laggauss D x (Some a) p = Ok (Some 0) -> e = (fst x, Rabs (snd x))).
Proof.
  intros lg D p N z r L g d0 d1 Hm Hv HN HA [Hr HrL] P0 P1 G0 V0. set (A := p_A_tip p) in *.
  assert (HL : 0 < L) by lra. assert (R0 : in_reach z A d0 r L (Re g)) by (repeat split; lra).
  set (c := (cosine z A (p_n p) N (fun x => Re (fdm_f x d0 r L g) / 2), cosine z A (p_n p) N (fun x => Im (fdm_f x d0 r L g) / 2)) : C).
  assert (Pc : 0 < Cmod c).
  { assert (Q : 0 < fst c).
    { unfold c. cbn [fst]. rewrite cosine_harm. rewrite (harm_ext N (p_n p) _ (fF r L (Re g) A z d0 N)).
      - apply dom_harm; [exact HN|]. now apply fF_dom.
      - intros k _. rewrite Re_fdm_f_complex. unfold fF, ff. field. }
    apply Cmod_gt_0. intros E. rewrite E in Q. cbn in Q. lra. }
  destruct (finite_bound (fun k => Cmod (fdm_f (tip_height z A N k) d0 r L g)) N) as [F [PF HF]].
  destruct (finite_bound (fun k => Cmod (fdm_f (tip_height z A N k) d1 r L g)) N) as [B [PB HB]].
  set (kappa := Rmin (1 / 2) (Cmod c / (16 * F))).
  assert (Pk : 0 < kappa) by (apply Rmin_glb_lt; [lra|apply Rdiv_lt_0_compat; lra]).
  assert (K1 : kappa <= 1 / 2) by apply Rmin_l. assert (K2 : kappa <= Cmod c / (16 * F)) by apply Rmin_r.
  set (rho := Rmin (1 / 2) (kappa / B)).
  assert (Pr : 0 < rho) by (apply Rmin_glb_lt; [lra|now apply Rdiv_lt_0_compat]).
  assert (R1 : rho <= 1 / 2) by apply Rmin_l. assert (R2 : rho <= kappa / B) by apply Rmin_r.
  assert (Mg : Cmod c / 2 <= Cmod c - F * (/ (1 - kappa) ^ 2 - 1)) by (pose proof (loop_small kappa F (Cmod c) PF ltac:(lra) K2); lra).
  set (m := Cmod c - F * (/ (1 - kappa) ^ 2 - 1)) in *.
  pose proof (Cmod_gt_0 (d_eps_env D)) as Pv. apply proj1 in Pv. specialize (Pv Hv).
  set (K := 2 * Cmod (d_eps_env D) / (1 - rho) ^ 2 * / m).
  assert (PK : 0 < K).
  { unfold K. apply Rmult_lt_0_compat; [apply Rdiv_lt_0_compat; [lra|apply pow_lt; lra]|apply Rinv_0_lt_compat; lra]. }
  exists rho, K. split; [lra|]. split; [exact PK|]. intros e b b' x Hb Hrho Hb' Hrho'.
  assert (X : forall k, z <= tip_height z A N k) by (intros k; rewrite tip_height_cs; pose proof (cs_bound N k); nra).
  destruct (C105_residual_proof lg D p e b b' x rho kappa F Hm Hv HN) as [a [Ea Ha]]; try assumption; try lra.
  { intros k Hk. cbv zeta. fold N z r L g d0 d1 A. specialize (X k). specialize (HF k Hk). specialize (HB k Hk). cbv beta in HF, HB.
    split; [repeat split; lra|]. split; [repeat split; lra|]. split; [lra|].
    apply Rle_trans with (rho * B); [apply Rmult_le_compat_l; lra|].
    apply (Rmult_le_compat_r B) in R2; [|lra]. replace (kappa / B * B) with kappa in R2 by (field; lra). exact R2. }
  fold N z r L g d0 d1 A c m in Ha.
  assert (Bd : forall alpha : C, exists delta, minimization_function lg D x (Some alpha) p = Ok (Some delta) /\
    Cmod ((fst x, Rabs (snd x)) - e)%C <= K * (delta + Cmod (alpha - a)%C)).
  { intros al. destruct (Ha al) as [dl [E1 [_ E2]]]. exists dl. split; [exact E1|]. specialize (E2 ltac:(lra)).
    eapply Rle_trans; [exact E2|]. apply Req_le. unfold K, Rdiv. ring. }
  exists a. split; [exact Ea|]. split; [exact Bd|]. intros Z. destruct (Bd a) as [dl [E1 E2]]. rewrite Z in E1.
  apply (f_equal (fun y => match y with Ok (Some u) => u | _ => dl end)) in E1. cbv beta iota in E1. subst dl.
  replace (a - a)%C with (RtoC 0) in E2 by ring. rewrite Cmod_0 in E2. rewrite Rplus_0_r, Rmult_0_r in E2.
  pose proof (Cmod_ge_0 ((fst x, Rabs (snd x)) - e)%C). assert (E3 : Cmod ((fst x, Rabs (snd x)) - e)%C = 0) by lra. apply Cmod_eq_0 in E3.
  replace e with ((fst x, Rabs (snd x)) - ((fst x, Rabs (snd x)) - e))%C by ring. rewrite E3. ring.
Qed.

Lemma Re_default_g : 69 / 100 <= Re (d_g_factor defaults0).
Proof.
  cbn [defaults0 d_g_factor]. pose proof cos_006. unfold Cexp, Re, RtoC, Cmult. cbn [fst snd]. rewrite exp_0. change (Im (0, 6 / 100)) with (6 / 100). lra.
Qed.

(** C105. The tip of the script: the default tip and settings, any amplitude up to
    90 nm and any harmonic. *)
Lemma C105_script_proof :
  forall (laggauss : laggauss_t) (A_tip : R) (n : Z), 0 < A_tip <= 90 / 10 ^ 9 ->
  exists rho K, 0 < rho < 1 /\ 0 < K /\
  forall (e b b' : C) (x : R * R),
  refl_coef_qs_single (Some (RtoC 1)) (Some e) = Some b -> Cmod b <= rho ->
  refl_coef_qs_single (Some (RtoC 1)) (Some (fst x, Rabs (snd x))) = Some b' -> Cmod b' <= rho ->
  exists a : C, simulate laggauss defaults0 (params_A_n A_tip n) e = Ok (Some a) /\
  (forall alpha : C, exists delta, minimization_function laggauss defaults0 x (Some alpha) (params_A_n A_tip n) = Ok (Some delta) /\
    Cmod ((fst x, Rabs (snd x)) - e)%C <= K * (delta + Cmod (alpha - a)%C)) /\
  (minimization_function laggauss defaults0 x (Some a) (params_A_n A_tip n) = Ok (Some 0) -> e = (fst x, Rabs (snd x))).
Proof.
  intros lg A n [HA HB]. pose proof Re_default_g as Hg.
  assert (Ed : 131 / 100 * d_L_tip defaults0 / (d_L_tip defaults0 + 2 * d_r_tip defaults0) = 393 / 340) by (cbn [defaults0 d_L_tip d_r_tip]; field).
  destruct (C105_weak_proof lg defaults0 (params_A_n A n)) as (rho & K & H1 & H2 & H); cbn [params_A_n p_A_tip p_n p_z_tip p_n_trapz p_r_tip p_L_tip p_g_factor p_d_Q0 p_d_Q1 p_d_Qa p_n_lag p_method given_or].
  - now left.
  - cbn. apply RtoC_neq_0. lra.
  - cbn. discriminate.
  - exact HA.
  - change (d_r_tip defaults0) with (20 / 10 ^ 9). change (d_L_tip defaults0) with (300 / 10 ^ 9). lra.
  - rewrite Ed. change (d_z_tip defaults0) with 0. change (d_r_tip defaults0) with (20 / 10 ^ 9). lra.
  - change (d_d_Q1 defaults0) with (5 / 10). change (d_z_tip defaults0) with 0. change (d_r_tip defaults0) with (20 / 10 ^ 9). lra.
  - rewrite Ed. change (d_z_tip defaults0) with 0. change (d_r_tip defaults0) with (20 / 10 ^ 9). change (d_L_tip defaults0) with (300 / 10 ^ 9). lra.
  - rewrite Ed. change (d_z_tip defaults0) with 0. change (d_r_tip defaults0) with (20 / 10 ^ 9). change (d_L_tip defaults0) with (300 / 10 ^ 9). lra.
  - exists rho, K. split; [exact H1|]. split; [exact H2|]. exact H.
Qed.

(** C105: a tip with r = 1, L = 4, g = i, no depth of the charges, swinging between
    the heights 1/4 and 7/4 and sampled at both ends: every point the optimiser
    may stop at with |b'| <= 1/10 has an error of at most 50 (residual + noise),
    for a material with |b| <= 1/10 such as eps = 11/9 (b = 1/10 exactly). *)
Lemma C105_example_proof :
  forall (laggauss : laggauss_t),
  let p := mkParams (3 / 4) 1 (Some (1 / 4)) (Some 2%nat) (Some 1) (Some 4) (Some (0, 1)%R) (Some 0) (Some 0) None None None in
  (forall (e b b' : C) (x : R * R),
   refl_coef_qs_single (Some (RtoC 1)) (Some e) = Some b -> Cmod b <= 1 / 10 ->
   refl_coef_qs_single (Some (RtoC 1)) (Some (fst x, Rabs (snd x))) = Some b' -> Cmod b' <= 1 / 10 ->
   exists a : C, simulate laggauss defaults0 p e = Ok (Some a) /\
   forall alpha : C, exists delta, minimization_function laggauss defaults0 x (Some alpha) p = Ok (Some delta) /\
    Cmod ((fst x, Rabs (snd x)) - e)%C <= 50 * (delta + Cmod (alpha - a)%C)) /\
  refl_coef_qs_single (Some (RtoC 1)) (Some (RtoC (11 / 9))) = Some (RtoC (1 / 10)) /\
  refl_coef_qs_single (Some (RtoC 1)) (Some (1, Rabs 0)) = Some (RtoC 0).
Proof.
  intros lg p.
  assert (T0 : tip_height (1 / 4) (3 / 4) 2 0 = 1 / 4).
  { unfold tip_height. replace (2 * PI * INR 0 / INR 2) with 0 by (cbn; field). rewrite cos_0. ring. }
  assert (T1 : tip_height (1 / 4) (3 / 4) 2 1 = 7 / 4).
  { unfold tip_height. replace (2 * PI * INR 1 / INR 2) with PI by (cbn; field). rewrite cos_PI. lra. }
  assert (l2 : 0 < ln 2) by (rewrite <- ln_1; apply ln_increasing; lra).
  assert (L16 : ln 16 = 4 * ln 2) by (replace 16 with (2 ^ 4) by ring; rewrite ln_pow by lra; cbn; ring).
  assert (L8 : ln 8 = 3 * ln 2) by (replace 8 with (2 ^ 3) by ring; rewrite ln_pow by lra; cbn; ring).
  assert (F0 : fdm_f (1 / 4) 0 1 4 (0, 1) = (- (9 / 64), 3 / 4)).
  { unfold fdm_f. replace (4 * 4 / (1 + 4 * (1 / 4) + 2 * 1 * 0)) with 8 by field. replace (4 * 4 / 1) with 16 by field. rewrite L8, L16.
    replace (3 * ln 2 / (4 * ln 2)) with (3 / 4) by (field; lra). apply injective_projections; cbn; field. }
  assert (F1 : fdm_f (7 / 4) 0 1 4 (0, 1) = (- (9 / 64), 1 / 4)).
  { unfold fdm_f. replace (4 * 4 / (1 + 4 * (7 / 4) + 2 * 1 * 0)) with 2 by field. replace (4 * 4 / 1) with 16 by field. rewrite L16.
    replace (ln 2 / (4 * ln 2)) with (1 / 4) by (field; lra). apply injective_projections; cbn; field. }
  assert (M0 : Cmod (- (9 / 64), 3 / 4) <= 78 / 100).
  { unfold Cmod. cbn [fst snd]. rewrite <- (sqrt_pow2 (78 / 100)) by lra. apply sqrt_le_1_alt. lra. }
  assert (M1 : Cmod (- (9 / 64), 1 / 4) <= 78 / 100).
  { unfold Cmod. cbn [fst snd]. rewrite <- (sqrt_pow2 (78 / 100)) by lra. apply sqrt_le_1_alt. lra. }
  split; [|split].
  - intros e b b' x Hb Hrho Hb' Hrho'.
    destruct (C105_residual_proof lg defaults0 p e b b' x (1 / 10) (78 / 1000) (39 / 100)) as [a [Ea Ha]]; try assumption; try lra; try (now left).
    + apply RtoC_neq_0. lra.
    + cbn. discriminate.
    + unfold p. cbn [p_A_tip p_n p_z_tip p_n_trapz p_r_tip p_L_tip p_g_factor p_d_Q0 p_d_Q1 p_d_Qa p_n_lag p_method given_or].
      intros [|[|k]] Hk; [| |lia]; [rewrite T0, F0|rewrite T1, F1]; (split; [repeat split; lra|]; split; [repeat split; lra|]; split; lra).
    + exists a. split; [exact Ea|]. intros al. destruct (Ha al) as (dl & E1 & _ & E2). exists dl. split; [exact E1|].
      unfold p in E2. cbn [p_A_tip p_n p_z_tip p_n_trapz p_r_tip p_L_tip p_g_factor p_d_Q0 p_d_Q1 p_d_Qa p_n_lag p_method given_or] in E2.
      assert (EC : Cmod (cosine (1 / 4) (3 / 4) 1 2 (fun x => Re (fdm_f x 0 1 4 (0, 1)) / 2), cosine (1 / 4) (3 / 4) 1 2 (fun x => Im (fdm_f x 0 1 4 (0, 1)) / 2)) = 1 / 8).
      { replace (cosine (1 / 4) (3 / 4) 1 2 (fun x => Re (fdm_f x 0 1 4 (0, 1)) / 2), cosine (1 / 4) (3 / 4) 1 2 (fun x => Im (fdm_f x 0 1 4 (0, 1)) / 2)) with (0, 1 / 8).
        - unfold Cmod. cbn [fst snd]. replace (0 ^ 2 + (1 / 8) ^ 2) with ((1 / 8) ^ 2) by ring. apply sqrt_pow2. lra.
        - assert (C0 : cos (IZR 1 * (2 * PI * INR 0 / INR 2)) = 1) by (replace (IZR 1 * (2 * PI * INR 0 / INR 2)) with 0 by (cbn; field); apply cos_0).
          assert (C1 : cos (IZR 1 * (2 * PI * INR 1 / INR 2)) = -1) by (replace (IZR 1 * (2 * PI * INR 1 / INR 2)) with PI by (cbn; field); apply cos_PI).
          unfold cosine. cbn [Sm]. rewrite C0, C1, T0, T1, F0, F1. cbn [Re Im fst snd INR]. f_equal; field. }
      rewrite EC in E2. specialize (E2 ltac:(lra)).
      change (d_eps_env defaults0) with (RtoC 1) in E2. rewrite Cmod_R, Rabs_R1 in E2. pose proof (Cmod_ge_0 (al - a)%C).
      assert (Pd : 0 <= dl) by (apply (proj1 (C105_objective_proof lg defaults0 p al) x); exact E1).
      eapply Rle_trans; [exact E2|]. set (S := dl + Cmod (al - a)%C) in *. assert (0 <= S) by (unfold S; lra).
      match goal with |- ?u * (S / ?m) <= _ => replace (u * (S / m)) with (u / m * S) by (field; lra) end.
      apply Rmult_le_compat_r; [assumption|]. lra.
  - unfold refl_coef_qs_single, csub, cadd. cbn [olift2]. rewrite <- RtoC_plus, <- RtoC_minus, cdiv_ok by (apply RtoC_neq_0; lra). f_equal. rewrite <- RtoC_div by lra. f_equal. field.
  - rewrite Rabs_R0. change (1, 0)%R with (RtoC 1). unfold refl_coef_qs_single, csub, cadd. cbn [olift2]. rewrite <- RtoC_plus, <- RtoC_minus, cdiv_ok by (apply RtoC_neq_0; lra). f_equal. rewrite <- RtoC_div by lra. f_equal. field.
Qed.

(** C105. The samples of the script: a sum of any number of oscillators (at least
    one) with positive strengths and dampings and any background is absorbing at
    every positive frequency, and over a real environment the mask |beta| >= 1
    marks exactly the frequencies where the real part is not positive. *)
Lemma C105_mask_proof :
  forall (nu background env : R) (l : list (R * R * R)),
  0 < nu -> 0 < env -> l <> [] -> (forall nu_j gamma_j A_j, In (nu_j, gamma_j, A_j) l -> 0 < gamma_j /\ 0 < A_j) ->
  exists e : C, oscillators nu l background = Ok (Some e) /\ 0 < Im e /\
    e = (RtoC background + Csum (map (fun o => RtoC (snd o) / (RtoC (fst (fst o) ^ 2 - nu ^ 2) - (0, 1)%R * RtoC (snd (fst o) * nu))) l))%C /\
    exists m, invalid_beta (RtoC env) e = Some m /\ (m = true <-> Re e <= 0).
Proof.
  intros nu bg v l Hn Hv Hl H.
  set (term := fun o : R * R * R => (RtoC (snd o) / (RtoC (fst (fst o) ^ 2 - nu ^ 2) - (0, 1)%R * RtoC (snd (fst o) * nu)))%C).
  assert (P : exists e : C, oscillators nu l bg = Ok (Some e) /\ 0 <= Im e /\ (l <> [] -> 0 < Im e) /\ e = (RtoC bg + Csum (map term l))%C).
  { clear Hl. induction l as [|[[nj g] A] l IH].
    - exists (RtoC bg). split; [reflexivity|]. split; [cbn; lra|]. split; [intros Z; now destruct Z|]. cbn. ring.
    - destruct IH as (w & Ew & Iw & _ & Sw); [intros a b c Hi; apply (H a b c); now right|].
      destruct (H nj g A ltac:(now left)) as [Hg HA]. destruct (C46_passive_proof nu nj g A (Some 0) HA Hg Hn) as [u [Eu Iu]].
      exists (u + w)%C. cbn [oscillators]. rewrite Eu. cbn [rbind]. rewrite Ew. cbn [rbind]. split; [reflexivity|].
      assert (0 < Im (u + w)%C) by (unfold Im in *; cbn; lra). split; [lra|]. split; [auto|].
      cbn [map Csum fold_right]. unfold Csum in Sw. rewrite Sw. rewrite lorentz_Dn in Eu by lra.
      apply (f_equal (fun x => match x with Ok (Some y) => y | _ => u end)) in Eu. cbv beta iota in Eu. rewrite <- Eu.
      assert (T : (RtoC A / Dn (nj ^ 2) g nu)%C = term (nj, g, A)).
      { unfold term. cbn [fst snd]. f_equal. unfold Dn. apply injective_projections; cbn; ring. }
      rewrite T. unfold Csum. ring. }
  destruct P as (e & Ee & _ & Ie & Se). specialize (Ie Hl). exists e. split; [exact Ee|]. split; [exact Ie|]. split; [exact Se|].
  assert (Ne : (e + RtoC v <> 0)%C) by (intros E; apply (f_equal Im) in E; unfold Im in *; cbn in E; lra).
  unfold invalid_beta, refl_coef_qs_single, csub, cadd. cbn [olift2]. rewrite cdiv_ok by exact Ne. eexists. split; [reflexivity|].
  unfold Cdiv. rewrite Cmod_mult, Cmod_inv by exact Ne. pose proof (proj1 (Cmod_gt_0 _) Ne) as Pm.
  assert (Q : 1 <= Cmod (e - RtoC v)%C * / Cmod (e + RtoC v)%C <-> Re e <= 0).
  { assert (S1 : Cmod (e - RtoC v)%C ^ 2 = (Re e - v) ^ 2 + Im e ^ 2) by (unfold Cmod; rewrite pow2_sqrt; [unfold Re, Im; cbn; ring|apply Rplus_le_le_0_compat; apply pow2_ge_0]).
    assert (S2 : Cmod (e + RtoC v)%C ^ 2 = (Re e + v) ^ 2 + Im e ^ 2) by (unfold Cmod; rewrite pow2_sqrt; [unfold Re, Im; cbn; ring|apply Rplus_le_le_0_compat; apply pow2_ge_0]).
    pose proof (Cmod_ge_0 (e - RtoC v)%C) as P0. set (x := Cmod (e - RtoC v)%C) in *. set (y := Cmod (e + RtoC v)%C) in *.
    assert (Z : 1 <= x * / y <-> y <= x).
    { split; intros K; [apply (Rmult_le_compat_r y) in K; [|lra]; replace (x * / y * y) with x in K by (field; lra); lra|].
      apply (Rmult_le_reg_r y); [exact Pm|]. replace (x * / y * y) with x by (field; lra). lra. }
    rewrite Z. split; intros K.
    - assert (y ^ 2 <= x ^ 2) by (apply pow_incr; lra). nra.
    - apply Rnot_lt_le. intros K2. assert (x * x < y * y) by (apply Rmult_le_0_lt_compat; lra). nra. }
  destruct (Rle_dec 1 _) as [K|K]; split; intros X; try reflexivity; try discriminate; tauto.
Qed.
