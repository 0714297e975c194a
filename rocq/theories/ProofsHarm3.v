(** * Proofs: the order of the harmonics for complex g factors and weakly reflecting, absorbing samples *)
From Coq Require Import String Reals Lra Lia ZArith List Bool.
From Coquelicot Require Import Rcomplements Complex.
From Verif Require Import Num NumLemmas LimLemmas ModelBase ModelSample ModelTip StackLemmas Spec
  ProofsStackQS ProofsStackQS2 ProofsBulkFF ProofsSym ProofsPassive DemodLemmas ProofsDemod ProofsTip ProofsTip2 ProofsTip3
  ProofsTaylor PosDef ProofsContrast ProofsContrast2 SpecMajor Majorant ProofsMajor ProofsMajor2 ProofsDefault ProofsPerm ProofsOsc
  ModelFit ProofsFit ProofsFit2 ProofsFit3 UniMod ProofsHarm.
Import ListNotations.
Open Scope R_scope.

Lemma Im_fdm_f_complex x d r L (g : C) : Im (fdm_f x d r L g) = Im g * (ln (4 * L / (r + 4 * x + 2 * r * d)) / ln (4 * L / r)).
Proof. unfold fdm_f, Im. destruct g as [u v]. cbn. ring. Qed.
Lemma Cmod_lt_parts (x y x' y' : R) : 0 < x < x' -> Rabs y <= Rabs y' -> Cmod (x, y) < Cmod (x', y').
Proof.
  intros Hx Hy. unfold Cmod. cbn [fst snd]. apply sqrt_lt_1_alt.
  assert (y ^ 2 <= y' ^ 2) by (rewrite <- !Rsqr_pow2; now apply Rsqr_le_abs_1). pose proof (pow2_ge_0 y). split; nra.
Qed.
(** the first Taylor coefficient is strictly ordered, whatever the phase of g *)
Lemma fdm_first_order z A n m N r L (g : C) d : N <> O -> 0 < A -> 0 < ln (4 * L / r) -> below r L (Re g) A z d ->
  (Z.abs n < Z.abs m)%Z -> (2 * Z.abs m <= Z.of_nat N)%Z ->
  0 < Cmod (tmean z A m N (fun x => fdm_f x d r L g / 2)%C) < Cmod (tmean z A n N (fun x => fdm_f x d r L g / 2)%C).
Proof.
  intros HN HA WL Hb Hnm Hm. rewrite !first_coef by exact HN. assert (R0 := proj1 Hb).
  set (re := fun i => cosine z A i N (fun x => Re (fdm_f x d r L g) / 2)).
  set (im := fun i => cosine z A i N (fun x => Im (fdm_f x d r L g) / 2)).
  assert (Er : forall i, re i = / 2 * harm N i (ff r L (Re g) A N z d)).
  { intros i. unfold re. rewrite cosine_harm, <- harm_scal. apply harm_ext. intros k _. rewrite Re_fdm_f_complex. unfold ff. field. }
  assert (Ei : forall i, im i = Im g / (2 * ln (4 * L / r)) * harm N i (vv r L A N z d)).
  { intros i. unfold im. rewrite cosine_harm, <- harm_scal. apply harm_ext. intros k _. rewrite Im_fdm_f_complex.
    rewrite (vv_eq r L (Re g) A N HA z d k R0). field. lra. }
  assert (P : forall i, 0 < harm N i (ff r L (Re g) A N z d)) by (intros i; apply dom_harm; [exact HN|]; now apply ff_dom).
  assert (Q : forall i, 0 < harm N i (vv r L A N z d)) by (intros i; apply dom_harm; [exact HN|]; now apply (vv_dom r L (Re g) A N HN HA)).
  assert (LP : harm N m (ff r L (Re g) A N z d) < harm N n (ff r L (Re g) A N z d)) by (apply dm_lt; auto; intros j; now apply ff_dm).
  assert (LQ : harm N m (vv r L A N z d) < harm N n (vv r L A N z d)) by (apply dm_lt; auto; intros j; now apply (vv_dm r L (Re g) A N HN HA)).
  pose proof (P m). pose proof (P n). pose proof (Q m). pose proof (Q n). fold (re n) (re m) (im n) (im m). split.
  - apply Cmod_gt_0. intros E. apply (f_equal fst) in E. cbn [fst RtoC] in E. rewrite Er in E. lra.
  - apply Cmod_lt_parts; [rewrite !Er; lra|]. rewrite !Ei, !Rabs_mult. rewrite !(Rabs_pos_eq (harm _ _ _)) by lra.
    apply Rmult_le_compat_l; [apply Rabs_pos|lra].
Qed.

(** below a threshold the first coefficients decide *)
Lemma weak_order z A n m N (f0 f1 : R -> C) : N <> O -> (0 < Z.abs n < Z.abs m)%Z -> (2 * Z.abs m <= Z.of_nat N)%Z ->
  0 < Cmod (tmean z A m N (fun x => f0 x / 2)%C) < Cmod (tmean z A n N (fun x => f0 x / 2)%C) ->
  exists rho, 0 < rho /\ forall b : C, 0 < Cmod b <= rho ->
  (forall k, (k < N)%nat -> (1 - b * f1 (tip_height z A N k) <> 0)%C) /\
  0 < Cmod (tmean z A m N (fun x => 1 + b * f0 x / (2 * (1 - b * f1 x)))%C) < Cmod (tmean z A n N (fun x => 1 + b * f0 x / (2 * (1 - b * f1 x)))%C).
Proof.
  intros HN [Hn0 Hnm] Hm [C0 C1].
  set (c := fun i => tmean z A i N (fun x => f0 x / 2)%C). fold (c n) (c m) in C0, C1.
  set (mu := Rmin (Cmod (c m)) ((Cmod (c n) - Cmod (c m)) / 2)).
  assert (Pm : 0 < mu) by (apply Rmin_glb_lt; lra).
  assert (M1 : mu <= Cmod (c m)) by apply Rmin_l. assert (M2 : mu <= (Cmod (c n) - Cmod (c m)) / 2) by apply Rmin_r.
  destruct (finite_bound (fun k => Cmod (f0 (tip_height z A N k))) N) as [F [PF HF]].
  destruct (finite_bound (fun k => Cmod (f1 (tip_height z A N k))) N) as [B [PB HB]].
  set (kappa := Rmin (1 / 2) (mu / (16 * F))).
  assert (Pk : 0 < kappa) by (apply Rmin_glb_lt; [lra|apply Rdiv_lt_0_compat; lra]).
  assert (K1 : kappa <= 1 / 2) by apply Rmin_l. assert (K2 : kappa <= mu / (16 * F)) by apply Rmin_r.
  assert (LS := loop_small kappa F mu PF ltac:(lra) K2).
  exists (kappa / B). split; [now apply Rdiv_lt_0_compat|]. intros b [Pb Hbr].
  assert (LB : forall k, (k < N)%nat -> Cmod b * Cmod (f1 (tip_height z A N k)) <= kappa).
  { intros k Hk. specialize (HB k Hk). cbv beta in HB. apply Rle_trans with (kappa / B * B).
    - apply Rmult_le_compat; auto using Cmod_ge_0.
    - apply Req_le. field. lra. }
  split.
  { intros k Hk.
    assert (Q := one_minus_mod (b * f1 (tip_height z A N k))%C kappa ltac:(rewrite Cmod_mult; now apply LB) ltac:(lra)).
    intros E. rewrite E, Cmod_0 in Q. lra. }
  assert (EST : forall i, (0 < Z.abs i)%Z -> (2 * Z.abs i <= Z.of_nat N)%Z ->
    Cmod (tmean z A i N (fun x => 1 + b * f0 x / (2 * (1 - b * f1 x)))%C - b * c i)%C <= mu / 2 * Cmod b).
  { intros i Hi HiN.
    assert (SD := signal_diff z A i N f0 f1 b (RtoC 0) F kappa HN).
    eapply Rle_trans; [|apply Rmult_le_compat_r; [apply Cmod_ge_0|exact LS]].
    replace (b - 0)%C with b in SD by ring.
    rewrite (tmean_ext z A i N (fun x => 1 + 0 * f0 x / (2 * (1 - 0 * f1 x)))%C (fun _ => RtoC 1)) in SD.
    2:{ intros k _. replace (2 * (1 - 0 * f1 (tip_height z A N k)))%C with (RtoC 2) by ring. field. injection; lra. }
    rewrite tmean_one in SD; [|exact HN|right; intros K; apply Z.divide_abs_r in K; apply Z.divide_pos_le in K; lia].
    replace (Z.eqb i 0) with false in SD by (symmetry; apply Z.eqb_neq; lia).
    fold (c i) in SD. eapply Rle_trans; [|apply SD].
    - apply Req_le. f_equal. ring.
    - intros k Hk. cbv zeta. specialize (HF k Hk). cbv beta in HF. specialize (LB k Hk). rewrite Cmod_0. repeat split; lra.
    - lra. }
  assert (En := EST n Hn0 ltac:(lia)). assert (Em := EST m ltac:(lia) Hm).
  set (an := tmean z A n N _) in *. set (am := tmean z A m N _) in *. clearbody an am.
  assert (T1 := Cmod_triangle (an - b * c n)%C (- an)%C). replace (an - b * c n + - an)%C with (- (b * c n))%C in T1 by ring. rewrite !Cmod_opp, Cmod_mult in T1.
  assert (T2 := Cmod_triangle (am - b * c m)%C (- am)%C). replace (am - b * c m + - am)%C with (- (b * c m))%C in T2 by ring. rewrite !Cmod_opp, Cmod_mult in T2.
  assert (T3 := Cmod_triangle (am - b * c m)%C (b * c m)%C). replace (am - b * c m + b * c m)%C with am in T3 by ring. rewrite Cmod_mult in T3.
  assert (Cmod b * mu <= Cmod b * Cmod (c m)) by (apply Rmult_le_compat_l; lra).
  assert (Cmod b * (mu + mu) <= Cmod b * (Cmod (c n) - Cmod (c m))) by (apply Rmult_le_compat_l; lra).
  assert (0 < Cmod b * mu) by (now apply Rmult_lt_0_compat). split; lra.
Qed.

(** C106. Complex g factors and absorbing samples: for every tip within its reach
    and every two harmonics 0 < |n| < |m| up to half the number of samples there is a
    threshold below which every reflection coefficient, of whatever phase, gives a
    stronger harmonic n. *)
Lemma C106_weak_proof :
  forall (laggauss : laggauss_t) (D : Defaults) (A_tip : R) (n m : Z) (n_trapz : option nat)
    (z_tip r_tip L_tip : option R) (g_factor : option C) (d_Q0 d_Q1 d_Qa : option R) (n_lag : option nat),
  let N := given_or (d_n_trapz D) n_trapz in let z := given_or (d_z_tip D) z_tip in
  let r := given_or (d_r_tip D) r_tip in let L := given_or (d_L_tip D) L_tip in let g := given_or (d_g_factor D) g_factor in
  let d0 := given_or (131 / 100 * L / (L + 2 * r)) d_Q0 in let d1 := given_or (d_d_Q1 D) d_Q1 in
  N <> O -> 0 < A_tip -> 0 < r < 4 * L -> 0 < r + 4 * z + 2 * r * d0 -> 0 < r + 4 * z + 2 * r * d1 ->
  r + 2 * (z + 2 * A_tip) + r * d0 < 2 * L * Re g -> r + 4 * (z + 2 * A_tip) + 2 * r * d0 < 4 * L ->
  (0 < Z.abs n < Z.abs m)%Z -> (2 * Z.abs m <= Z.of_nat N)%Z ->
  exists rho, 0 < rho /\
  forall (s : sample) (b : C) method, method = None \/ method = Some "bulk"%string ->
  multilayer s = false -> refl_coef_qs s (rr 0) = Ok (Some b) -> 0 < Cmod b <= rho ->
  exists a_n a_m : C,
    fdm_eff_pol_n laggauss D s A_tip n z_tip n_trapz r_tip L_tip g_factor d_Q0 d_Q1 d_Qa n_lag method = Ok (Some a_n) /\
    fdm_eff_pol_n laggauss D s A_tip m z_tip n_trapz r_tip L_tip g_factor d_Q0 d_Q1 d_Qa n_lag method = Ok (Some a_m) /\
    0 < Cmod a_m < Cmod a_n.
Proof.
  intros lg D A n m nt z_tip r_tip L_tip gf d_Q0 d_Q1 d_Qa n_lag N z r L g d0 d1 HN HA [Hr HrL] P0 P1 G0 V0 [Hn0 Hnm] Hm.
  assert (HL : 0 < L) by lra. assert (R0 : below r L (Re g) A z d0) by (repeat split; lra).
  assert (WL : 0 < ln (4 * L / r)) by (rewrite <- ln_1; apply ln_increasing; [lra|]; apply Rlt_div_r; lra).
  destruct (weak_order z A n m N (fun x => fdm_f x d0 r L g) (fun x => fdm_f x d1 r L g) HN (conj Hn0 Hnm) Hm
    (fdm_first_order z A n m N r L g d0 HN HA WL R0 Hnm Hm)) as [rho [Pr W]].
  exists rho. split; [exact Pr|]. intros s b me Hme Hs Hb Hbr. destruct (W b Hbr) as [NZ ORD].
  assert (X : forall k, z <= tip_height z A N k) by (intros k; rewrite tip_height_cs; pose proof (cs_bound N k); nra).
  assert (VAL : forall i, fdm_eff_pol_n lg D s A i z_tip nt r_tip L_tip gf d_Q0 d_Q1 d_Qa n_lag me
     = Ok (Some (tmean z A i N (fun x => 1 + b * fdm_f x d0 r L g / (2 * (1 - b * fdm_f x d1 r L g)))%C))).
  { intros i. transitivity (fdm_eff_pol_n lg D s A i z_tip nt r_tip L_tip gf d_Q0 d_Q1 d_Qa n_lag (Some "bulk"%string)).
    { destruct Hme as [-> | ->]; [now apply eff_pol_n_none_bulk|reflexivity]. }
    apply fdm_n_value; auto. intros k Hk. cbv zeta. fold N z r L g d0 d1. specialize (X k).
    split; [repeat split; lra|]. split; [repeat split; lra|]. now apply NZ. }
  eexists. eexists. split; [apply VAL|]. split; [apply VAL|]. exact ORD.
Qed.

(** C106. Point dipole model, lossy tips and samples: below a threshold for
    |alpha b| the lower harmonic is the stronger, whatever the phases of the tip
    polarizability and of the reflection coefficient. The threshold depends on
    the stroke only. *)
Lemma C106_weak_pdm_proof :
  forall (D : Defaults) (A_tip : R) (n m : Z) (z_tip r_tip : option R) (n_trapz : option nat),
  let N := given_or (d_n_trapz D) n_trapz in let z := given_or (d_z_tip D) z_tip in
  let r := given_or (d_r_tip D) r_tip in
  N <> O -> 0 < A_tip -> 0 < r + z -> (0 < Z.abs n < Z.abs m)%Z -> (2 * Z.abs m <= Z.of_nat N)%Z ->
  exists rho, 0 < rho /\
  forall (s : sample) (eps_tip alpha_tip : option C) (alpha b : C),
  tip_alpha r eps_tip alpha_tip alpha -> refl_coef_qs s (rr 0) = Ok (Some b) -> 0 < Cmod (alpha * b)%C <= rho ->
  exists a_n a_m : C,
    pdm_eff_pol_n D s A_tip n z_tip n_trapz r_tip eps_tip alpha_tip = Ok (Some a_n) /\
    pdm_eff_pol_n D s A_tip m z_tip n_trapz r_tip eps_tip alpha_tip = Ok (Some a_m) /\
    0 < Cmod a_m < Cmod a_n.
Proof.
  intros D A n m z_tip r_tip nt N z r HN HA Hz [Hn0 Hnm] Hm.
  set (p := fun x => 1 / (16 * PI * (r + x) ^ 3)).
  assert (X : forall k, 0 < r + tip_height z A N k) by (intros k; rewrite tip_height_cs; pose proof (cs_bound N k); nra).
  assert (Y : forall k, 0 < 16 * PI * (r + tip_height z A N k) ^ 3).
  { intros k. pose proof PI_RGT_0. assert (0 < (r + tip_height z A N k) ^ 3) by (apply pow_lt, X). apply Rmult_lt_0_compat; lra. }
  assert (EC : forall i, Cmod (tmean z A i N (fun x => RtoC (2 * p x) / 2)%C) = harm N i (pdm_int 1 r z A N)).
  { intros i. rewrite (tmean_ext z A i N _ (fun x => RtoC (p x))) by (intros k _; rewrite RtoC_mult; field; injection; lra).
    rewrite tmean_real by exact HN. rewrite RtoC_mult, sgn_Cmod.
    rewrite (harm_ext N i _ (pdm_int 1 r z A N)) by (intros k _; unfold p; symmetry; apply pdm_int_eq; auto; lra).
    rewrite Cmod_R. apply Rabs_pos_eq. apply Rlt_le, dom_harm; [exact HN|]. apply pdm_int_dom; auto; lra. }
  assert (C0 : 0 < harm N m (pdm_int 1 r z A N)) by (apply dom_harm; [exact HN|]; apply pdm_int_dom; auto; lra).
  assert (C1 : harm N m (pdm_int 1 r z A N) < harm N n (pdm_int 1 r z A N)) by (apply dm_lt; auto; intros j; apply pdm_int_dm; auto; lra).
  destruct (weak_order z A n m N (fun x => RtoC (2 * p x)) (fun x => RtoC (p x)) HN (conj Hn0 Hnm) Hm) as [rho [Pr W]].
  { rewrite !EC. split; assumption. }
  exists rho. split; [exact Pr|]. intros s et alt alpha b Ht Hb Hr. destruct (W (alpha * b)%C Hr) as [NZ [O1 O2]].
  assert (Na : alpha <> RtoC 0) by (intros ->; rewrite Cmod_mult, Cmod_0 in Hr; lra).
  assert (EL : forall k, (alpha / RtoC (16 * PI * (r + tip_height z A N k) ^ 3) * b)%C = (alpha * b * RtoC (p (tip_height z A N k)))%C).
  { intros k. unfold p. rewrite RtoC_div by (specialize (Y k); lra). field. apply RtoC_neq_0. specialize (Y k). lra. }
  assert (VAL : forall i, pdm_eff_pol_n D s A i z_tip nt r_tip et alt
     = Ok (Some (alpha * tmean z A i N (fun x => 1 + alpha * b * RtoC (2 * p x) / (2 * (1 - alpha * b * RtoC (p x)))))%C)).
  { intros i. rewrite (pdm_n_value D s A i z_tip nt r_tip et alt alpha b Ht Hb HN).
    - fold N z r. rewrite <- tmean_scal. f_equal. f_equal. apply tmean_ext. intros k Hk. rewrite EL. specialize (NZ k Hk).
      set (u := (alpha * b * RtoC (p (tip_height z A N k)))%C) in *. rewrite RtoC_mult.
      replace (alpha * b * (2 * RtoC (p (tip_height z A N k))))%C with (2 * u)%C by (unfold u; ring). field. split; [exact NZ|injection; lra].
    - intros k Hk. fold N z r. cbv zeta. split; [specialize (X k); lra|]. rewrite EL. now apply NZ. }
  eexists. eexists. split; [apply VAL|]. split; [apply VAL|]. rewrite !Cmod_mult. assert (Pa : 0 < Cmod alpha) by (now apply Cmod_gt_0).
  split; [now apply Rmult_lt_0_compat|now apply Rmult_lt_compat_l].
Qed.

(** C106. The default tip and settings (complex g factor), any amplitude up to
    90 nm and any two harmonics up to 16. *)
Lemma C106_weak_default_proof :
  forall (laggauss : laggauss_t) (A_tip : R) (n m : Z), 0 < A_tip <= 90 / 10 ^ 9 -> (0 < Z.abs n < Z.abs m)%Z -> (Z.abs m <= 16)%Z ->
  exists rho, 0 < rho /\
  forall (s : sample) (b : C), multilayer s = false -> refl_coef_qs s (rr 0) = Ok (Some b) -> 0 < Cmod b <= rho ->
  exists a_n a_m : C,
    fdm_eff_pol_n laggauss defaults0 s A_tip n None None None None None None None None None None = Ok (Some a_n) /\
    fdm_eff_pol_n laggauss defaults0 s A_tip m None None None None None None None None None None = Ok (Some a_m) /\
    0 < Cmod a_m < Cmod a_n.
Proof.
  intros lg A n m HA Hn Hm.
  assert (DQ : 0 < 131 / 100 * (300 / 10 ^ 9) / (300 / 10 ^ 9 + 2 * (20 / 10 ^ 9)) < 2) by (split; [apply Rdiv_lt_0_compat; lra|apply Rlt_div_l; lra]).
  pose proof Re_default_g as HG.
  destruct (C106_weak_proof lg defaults0 A n m None None None None None None None None None) as [rho [Pr H]];
    try (unfold given_or; cbn [defaults0 d_r_tip d_z_tip d_n_trapz d_L_tip d_d_Q1]); try lra; try discriminate; try lia; try assumption.
  exists rho. split; [exact Pr|]. intros s b Hs Hb Hr. apply (H s b None); auto.
Qed.

(** permittivity 1 + 2 i t, an absorbing sample with a small reflection coefficient *)
Lemma faint t : 0 < t -> exists b : C, refl_coef_qs (stack [RtoC 1; (1, 2 * t)] [] None) (rr 0) = Ok (Some b) /\ 0 < Cmod b <= t.
Proof.
  intros Pr. set (b := (((1, 2 * t)%R - 1) / ((1, 2 * t)%R + 1))%C). exists b.
  assert (N1 : ((1, 2 * t)%R + 1)%C <> RtoC 0) by (intros E; apply (f_equal fst) in E; cbn in E; lra).
  assert (E1 : Cmod ((1, 2 * t)%R - 1)%C = 2 * t).
  { replace ((1, 2 * t)%R - 1)%C with (RtoC (2 * t) * (0, 1)%R)%C by (apply injective_projections; cbn; ring).
    rewrite Cmod_mult, Cmod_R, Rabs_pos_eq by lra. unfold Cmod. cbn [fst snd]. replace (0 ^ 2 + 1 ^ 2) with 1 by ring. rewrite sqrt_1. ring. }
  assert (E2 : 2 <= Cmod ((1, 2 * t)%R + 1)%C).
  { pose proof (Rmax_Cmod ((1, 2 * t)%R + 1)%C) as Q. cbn [fst snd Cplus RtoC] in Q. pose proof (Rmax_l (Rabs (1 + 1)) (Rabs (2 * t + 0))) as Q2.
    rewrite (Rabs_pos_eq (1 + 1)) in Q2 by lra. apply Rle_trans with (1 + 1); [lra|]. eapply Rle_trans; [exact Q2|]. rewrite (Rabs_pos_eq (1 + 1)) in Q by lra. exact Q. }
  split.
  - apply bulk_qs; [intros E; apply (f_equal fst) in E; cbn in E; lra|rewrite Cplus_comm; exact N1].
  - unfold b. rewrite Cmod_div by exact N1. rewrite E1. split; [apply Rdiv_lt_0_compat; lra|]. apply Rle_div_l; [lra|]. nra.
Qed.

(** C106, example: default tip, 50 nm amplitude: there are absorbing samples to
    which the theorems apply, and their third harmonic is weaker than the second
    in both models. *)
Lemma C106_weak_example_proof :
  forall laggauss, exists (t : R) (a2 a3 p2 p3 : C), 0 < t /\
    let s := stack [RtoC 1; (1, 2 * t)] [] None in
    fdm_eff_pol_n laggauss defaults0 s (50 / 10 ^ 9) 2 None None None None None None None None None None = Ok (Some a2) /\
    fdm_eff_pol_n laggauss defaults0 s (50 / 10 ^ 9) 3 None None None None None None None None None None = Ok (Some a3) /\
    pdm_eff_pol_n defaults0 s (50 / 10 ^ 9) 2 None None None None None = Ok (Some p2) /\
    pdm_eff_pol_n defaults0 s (50 / 10 ^ 9) 3 None None None None None = Ok (Some p3) /\
    0 < Cmod a3 < Cmod a2 /\ 0 < Cmod p3 < Cmod p2.
Proof.
  intros lg. destruct (C106_weak_default_proof lg (50 / 10 ^ 9) 2 3 ltac:(lra) ltac:(cbn; lia) ltac:(cbn; lia)) as [rho [Pr H]].
  destruct (C106_weak_pdm_proof defaults0 (50 / 10 ^ 9) 2 3 None None None) as [rho' [Pr' H']];
    try (unfold given_or; cbn [defaults0 d_r_tip d_z_tip d_n_trapz]); try lra; try discriminate; try (cbn; lia).
  set (al := 4 * PI * (20 / 10 ^ 9) ^ 3). assert (Pa : 0 < al).
  { pose proof PI_RGT_0. assert (0 < (20 / 10 ^ 9) ^ 3) by (apply pow_lt; lra). unfold al. apply Rmult_lt_0_compat; lra. }
  set (t := Rmin rho (rho' / al)).
  assert (Pt : 0 < t) by (apply Rmin_glb_lt; [exact Pr|now apply Rdiv_lt_0_compat]).
  assert (T1 : t <= rho) by apply Rmin_l. assert (T2 : t <= rho' / al) by apply Rmin_r.
  destruct (faint t Pt) as [b [Hb [B1 B2]]].
  destruct (H (stack [RtoC 1; (1, 2 * t)] [] None) b eq_refl Hb ltac:(lra)) as (a2 & a3 & X).
  destruct (H' _ None None (RtoC al) b (tip_conductor _) Hb) as (p2 & p3 & X').
  { rewrite Cmod_mult, Cmod_R, Rabs_pos_eq by lra. split; [now apply Rmult_lt_0_compat|].
    apply Rle_trans with (al * (rho' / al)); [apply Rmult_le_compat_l; lra|]. apply Req_le. field. lra. }
  exists t, a2, a3, p2, p3. cbv zeta. tauto.
Qed.
