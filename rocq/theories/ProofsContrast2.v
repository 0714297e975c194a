(** * Proofs: contrast and approach curves, continued (permittivities; finite
    dipole model) *)
From Coq Require Import String Reals Lra Lia ZArith List Bool.
From Coquelicot Require Import Rcomplements Complex.
From Verif Require Import Num NumLemmas LimLemmas ModelBase ModelSample ModelTip StackLemmas Spec
  ProofsStackQS ProofsStackQS2 ProofsBulkFF ProofsSym ProofsPassive DemodLemmas ProofsDemod ProofsTip ProofsTip2 ProofsTip3
  ProofsTaylor PosDef ProofsContrast.
Import ListNotations.
Open Scope R_scope.

Lemma bulk_real (e0 e1 : R) nu : 0 < e0 -> 0 < e1 ->
  refl_coef_qs (stack [RtoC e0; RtoC e1] [] nu) (rr 0) = Ok (Some (RtoC ((e1 - e0) / (e1 + e0)))).
Proof.
  intros H0 H1. rewrite bulk_qs; [|apply RtoC_neq_0; lra|rewrite <- RtoC_plus; apply RtoC_neq_0; lra].
  rewrite <- RtoC_minus, <- RtoC_plus, <- RtoC_div by lra. reflexivity.
Qed.
Lemma beta_incr e0 e1 e2 : 0 < e0 -> e0 <= e1 < e2 -> 0 <= (e1 - e0) / (e1 + e0) < (e2 - e0) / (e2 + e0) /\ (e2 - e0) / (e2 + e0) < 1.
Proof.
  intros H0 H. split; [split|].
  - apply Rle_div_r; lra.
  - apply Rlt_div_l; [lra|]. replace ((e2 - e0) / (e2 + e0) * (e1 + e0)) with ((e2 - e0) * (e1 + e0) / (e2 + e0)) by (field; lra).
    apply Rlt_div_r; [lra|]. nra.
  - apply Rlt_div_l; lra.
Qed.

(** C69. Point dipole model: over a bulk dielectric every harmonic grows strictly
    with the permittivity of the sample (metallic tip, or dielectric tip with
    eps_tip > 1), so a lossless permittivity can be read off uniquely. *)
Lemma C69_pdm_permittivity_proof :
  forall (D : Defaults) (e0 e1 e2 : R) nu1 nu2 (A_tip : R) (n : Z) (z_tip r_tip : option R) (n_trapz : option nat)
    (eps_tip : option R),
  let N := given_or (d_n_trapz D) n_trapz in let z := given_or (d_z_tip D) z_tip in
  let r := given_or (d_r_tip D) r_tip in
  0 < e0 -> e0 <= e1 < e2 -> N <> O -> 0 < A_tip -> 0 < r -> 0 <= z -> (forall e, eps_tip = Some e -> 1 < e) ->
  exists m1 m2 : R,
    pdm_eff_pol_n D (stack [RtoC e0; RtoC e1] [] nu1) A_tip n z_tip n_trapz r_tip (option_map RtoC eps_tip) None
      = Ok (Some (RtoC (sgn_pow n * m1))) /\
    pdm_eff_pol_n D (stack [RtoC e0; RtoC e2] [] nu2) A_tip n z_tip n_trapz r_tip (option_map RtoC eps_tip) None
      = Ok (Some (RtoC (sgn_pow n * m2))) /\
    0 <= m1 < m2.
Proof.
  intros D e0 e1 e2 nu1 nu2 A n z_tip r_tip nt et N z r H0 H HN HA Hr Hz Het.
  pose proof PI_RGT_0 as HP. assert (R3 : 0 < r ^ 3) by (apply pow_lt; exact Hr). assert (V : 0 < 4 * PI * r ^ 3) by (apply Rmult_lt_0_compat; lra).
  assert (T : exists alpha, tip_alpha r (option_map RtoC et) None (RtoC alpha) /\ 0 < alpha <= 4 * PI * r ^ 3).
  { destruct et as [e|]; cbn [option_map].
    - specialize (Het e eq_refl). exists (4 * PI * r ^ 3 * ((e - 1) / (e + 2))). split.
      + rewrite RtoC_mult, RtoC_div, RtoC_minus, RtoC_plus by lra. apply tip_dielectric. rewrite <- RtoC_plus. apply RtoC_neq_0. lra.
      + assert (0 < (e - 1) / (e + 2) <= 1) by (split; [apply Rdiv_lt_0_compat; lra|apply Rle_div_l; lra]). split; nra.
    - exists (4 * PI * r ^ 3). split; [apply tip_conductor|lra]. }
  destruct T as (alpha & Ht & Ha). destruct (beta_incr e0 e1 e2 H0 H) as [Hb Hb1].
  destruct (C69_pdm_contrast_proof D (stack [RtoC e0; RtoC e1] [] nu1) (stack [RtoC e0; RtoC e2] [] nu2) A n z_tip r_tip nt
     (option_map RtoC et) None alpha _ _ Ht (proj1 Ha) (bulk_real e0 e1 nu1 H0 ltac:(lra)) (bulk_real e0 e2 nu2 H0 ltac:(lra)) HN HA) as (m1 & m2 & E1 & E2 & M & _).
  - fold r z. lra.
  - exact Hb.
  - fold r z. set (b := (e2 - e0) / (e2 + e0)) in *. assert (r ^ 3 <= (r + z) ^ 3) by (apply pow_incr; lra).
    assert (alpha * b <= 4 * PI * r ^ 3 * 1) by (apply Rmult_le_compat; lra).
    assert (16 * PI * r ^ 3 <= 16 * PI * (r + z) ^ 3) by (apply Rmult_le_compat_l; lra). lra.
  - exists m1, m2. auto.
Qed.

(** ** Finite dipole model *)
(** everything within the stroke z .. z + 2 A is below the heights where a
    factor of the geometry function changes sign *)
Definition in_reach (z A d r L g : R) : Prop :=
  0 < r /\ 0 < L /\ 0 < r + 4 * z + 2 * r * d /\ r + 2 * (z + 2 * A) + r * d <= 2 * L * g /\ r + 4 * (z + 2 * A) + 2 * r * d <= 4 * L.
Definition fdm_r (x d r L g : R) : R := (g - (r + 2 * x + r * d) / (2 * L)) * (ln (4 * L / (r + 4 * x + 2 * r * d)) / ln (4 * L / r)).

Section FDM.
Context (r L g A : R) (N : nat) (HN : N <> O) (HA : 0 < A).
Definition uu (z d : R) (k : nat) : R := (g - (r + 2 * (z + A) + r * d) / (2 * L)) + A / L * cs N k.
Definition ee (z d : R) : R := r + 4 * (z + A) + 2 * r * d.
Definition vv (z d : R) (k : nat) : R := ln (4 * L / ee z d) + - ln (1 - 4 * A / ee z d * cs N k).
Definition ff (z d : R) (k : nat) : R := fdm_r (tip_height z A N k) d r L g.
Context (WL : 0 < ln (4 * L / r)).

Lemma reach_ee z d : in_reach z A d r L g -> 0 <= 4 * A < ee z d.
Proof using HA. unfold in_reach, ee. intros H. lra. Qed.
Lemma uu_eq z d k : in_reach z A d r L g -> uu z d k = g - (r + 2 * tip_height z A N k + r * d) / (2 * L).
Proof using. intros (_ & HL & _). unfold uu. rewrite tip_height_cs. field. lra. Qed.
Lemma vv_eq z d k : in_reach z A d r L g -> vv z d k = ln (4 * L / (r + 4 * tip_height z A N k + 2 * r * d)).
Proof using HA.
  intros H. pose proof (reach_ee z d H) as He. destruct H as (Hr & HL & _). unfold vv. rewrite tip_height_cs.
  pose proof (res1_pos N (ee z d) (4 * A) k He) as P.
  assert (Q : 0 < 1 - 4 * A / ee z d * cs N k) by (pose proof (scaled_lt N (ee z d) (4 * A) k He) as B; apply Rabs_lt_between in B; lra).
  replace (r + 4 * (z + A - A * cs N k) + 2 * r * d) with (ee z d * (1 - 4 * A / ee z d * cs N k)) by (unfold ee in *; field; lra).
  rewrite ln_div, ln_div by (try (apply Rmult_lt_0_compat); lra). rewrite (ln_mult (ee z d)) by lra. ring.
Qed.
Lemma ff_eq z d k : in_reach z A d r L g -> ff z d k = / ln (4 * L / r) * (uu z d k * vv z d k).
Proof using HA. intros H. unfold ff, fdm_r. rewrite uu_eq, vv_eq by exact H. unfold Rdiv. ring. Qed.

Lemma uu_dom z d : in_reach z A d r L g -> dom N O (uu z d).
Proof using HA.
  intros (Hr & HL & _ & Hg & _). unfold uu. apply (dom_plus N O (fun _ => _)).
  - apply dom_const. apply Rlt_Rminus. apply Rlt_div_l; lra.
  - apply mult_scal; [apply Rlt_le, Rdiv_lt_0_compat; lra|apply mult_cs].
Qed.
Lemma vv_dom z d j : in_reach z A d r L g -> dom N j (vv z d).
Proof using HN HA.
  intros H. pose proof (reach_ee z d H) as He. destruct H as (Hr & HL & _ & _ & Hv).
  assert (P0 : 0 < ln (4 * L / ee z d)).
  { rewrite <- ln_1. apply ln_increasing; [lra|]. apply Rlt_div_r; [lra|]. unfold ee in *. lra. }
  assert (MS := scaled_mult N (ee z d) (4 * A) He). assert (MB : forall k, (k < N)%nat -> Rabs (4 * A / ee z d * cs N k) < 1) by (intros; now apply scaled_lt).
  unfold vv. destruct j as [|j].
  - apply (dom_plus N O (fun _ => _)); [now apply dom_const|]. apply (mult_log N HN (fun k => 4 * A / ee z d * cs N k)); auto.
  - apply (dom_ext N (S j) (fun k => - ln (1 - 4 * A / ee z d * cs N k) + ln (4 * L / ee z d))); [intros; ring|].
    apply dom_plus; [|apply mult_const; lra].
    exists ((4 * A / ee z d) ^ S j / INR (S j)). split.
    + apply Rdiv_lt_0_compat; [apply pow_lt, Rdiv_lt_0_compat; lra|apply lt_0_INR; lia].
    + apply (mult_ext N (fun k => - ln (1 - 4 * A / ee z d * cs N k) - (4 * A / ee z d * cs N k) ^ S j / INR (S j))).
      * intros k _. rewrite Rpow_mult_distr. unfold Rdiv. ring.
      * apply (mult_log_minus N HN (fun k => 4 * A / ee z d * cs N k)); auto.
Qed.
Lemma ff_dom z d j : in_reach z A d r L g -> dom N j (ff z d).
Proof using HN HA WL.
  intros H. apply (dom_ext N j (fun k => / ln (4 * L / r) * (uu z d k * vv z d k))); [intros; symmetry; now apply ff_eq|].
  apply dom_scal; [now apply Rinv_0_lt_compat|]. apply dom_prod; [now apply uu_dom|now apply vv_dom].
Qed.
Lemma ff_bound z d k : in_reach z A d r L g -> 0 <= ff z d k <= fdm_r z d r L g.
Proof using HA WL.
  intros (Hr & HL & Hp & Hg & Hv). unfold ff, fdm_r. rewrite tip_height_cs. pose proof (cs_bound N k) as [C1 C2].
  assert (X : z <= z + A - A * cs N k <= z + 2 * A) by nra. set (x := z + A - A * cs N k) in *.
  assert (I := Rinv_0_lt_compat _ WL).
  assert (U : 0 <= g - (r + 2 * x + r * d) / (2 * L) <= g - (r + 2 * z + r * d) / (2 * L)).
  { split.
    - apply Rle_minus_r. rewrite Rplus_0_l. apply Rle_div_l; lra.
    - apply Rplus_le_compat_l, Ropp_le_contravar. apply Rmult_le_compat_r; [apply Rlt_le, Rinv_0_lt_compat; lra|lra]. }
  assert (W : 0 <= ln (4 * L / (r + 4 * x + 2 * r * d)) <= ln (4 * L / (r + 4 * z + 2 * r * d))).
  { split.
    - rewrite <- ln_1. apply ln_le; [lra|]. apply Rle_div_r; lra.
    - apply ln_le; [apply Rdiv_lt_0_compat; lra|]. apply Rmult_le_compat_l; [lra|]. apply Rinv_le_contravar; lra. }
  unfold Rdiv at 2 4. split.
  - apply Rmult_le_pos; [lra|]. apply Rmult_le_pos; lra.
  - unfold Rdiv at 4. apply Rmult_le_compat; try lra; [apply Rmult_le_pos; lra|]. apply Rmult_le_compat_r; lra.
Qed.
Lemma ff_loop z d b k : in_reach z A d r L g -> 0 <= b -> b * fdm_r z d r L g < 1 -> Rabs (b * ff z d k) < 1.
Proof using HA WL.
  intros H Hb Hs. pose proof (ff_bound z d k H) as B. rewrite Rabs_pos_eq by (apply Rmult_le_pos; lra).
  eapply Rle_lt_trans; [|exact Hs]. apply Rmult_le_compat_l; lra.
Qed.
(** closer is stronger *)
Lemma ff_closer z1 z2 d j : in_reach z1 A d r L g -> in_reach z2 A d r L g -> z1 < z2 -> dom N j (fun k => ff z1 d k - ff z2 d k).
Proof using HN HA WL.
  intros H1 H2 Hz. pose proof (reach_ee z1 d H1) as He1. pose proof (reach_ee z2 d H2) as He2.
  assert (HL : 0 < L) by apply H1.
  assert (Eu : forall k, uu z1 d k - uu z2 d k = (z2 - z1) / L) by (intros k; unfold uu; field; lra).
  set (y := fun k => 4 * (z2 - z1) * res1 N (ee z2 d) (4 * A) k).
  assert (Yd : forall i, dom N i y) by (intros i; unfold y; apply dom_scal; [lra|]; apply res1_dom; [exact HN|lra]).
  assert (Yb : forall k, 0 < y k < 1).
  { intros k. unfold y, res1. pose proof (res1_pos N (ee z1 d) (4 * A) k He1) as P1. pose proof (res1_pos N (ee z2 d) (4 * A) k He2) as P2.
    split; [apply Rmult_lt_0_compat; [lra|now apply Rinv_0_lt_compat]|]. apply Rlt_div_l; [exact P2|]. unfold ee in *. lra. }
  assert (Ev : forall k, vv z1 d k - vv z2 d k = - ln (1 - y k)).
  { intros k. pose proof (res1_pos N (ee z1 d) (4 * A) k He1) as P1. pose proof (res1_pos N (ee z2 d) (4 * A) k He2) as P2.
    rewrite !vv_eq by assumption. rewrite tip_height_cs, tip_height_cs.
    replace (r + 4 * (z1 + A - A * cs N k) + 2 * r * d) with (ee z1 d - 4 * A * cs N k) by (unfold ee; ring).
    replace (r + 4 * (z2 + A - A * cs N k) + 2 * r * d) with (ee z2 d - 4 * A * cs N k) by (unfold ee; ring).
    rewrite !ln_div by lra.
    replace (1 - y k) with ((ee z1 d - 4 * A * cs N k) / (ee z2 d - 4 * A * cs N k)).
    - rewrite ln_div by lra. ring.
    - unfold y, res1. unfold ee in *. field. lra. }
  assert (Vd : forall i, dom N i (fun k => - ln (1 - y k))).
  { intros i. apply (dom_ext N i (fun k => y k + (- ln (1 - y k) - y k ^ 1 / INR 1))); [intros; simpl; field|].
    apply dom_plus; [apply Yd|]. apply mult_log_minus; [exact HN|apply (dom_mult N 0), Yd|]. intros k _. pose proof (Yb k). rewrite Rabs_pos_eq; lra. }
  apply (dom_ext N j (fun k => / ln (4 * L / r) * (uu z2 d k * - ln (1 - y k) + (z2 - z1) / L * vv z1 d k))).
  { intros k _. rewrite !ff_eq by assumption. rewrite <- Ev, <- (Eu k). ring. }
  apply dom_scal; [now apply Rinv_0_lt_compat|]. apply dom_plus.
  - apply dom_prod; [now apply uu_dom|apply Vd].
  - apply mult_scal; [apply Rlt_le, Rdiv_lt_0_compat; lra|]. apply (dom_mult N 0). now apply vv_dom.
Qed.
End FDM.

Lemma in_reach_WL z A d r L g : 0 < A -> in_reach z A d r L g -> 0 <= d -> 0 <= z -> 0 < ln (4 * L / r).
Proof.
  intros HA (Hr & HL & Hp & Hg & Hv) Hd Hz. rewrite <- ln_1. apply ln_increasing; [lra|]. apply Rlt_div_r; [lra|]. nra.
Qed.
Lemma fdm_f_real x d r L g : fdm_f x d r L (RtoC g) = RtoC (fdm_r x d r L g).
Proof. unfold fdm_f, fdm_r. rewrite <- RtoC_minus, <- RtoC_mult. reflexivity. Qed.

Definition fdm_sig (r L g A z d0 d1 b : R) (N k : nat) : R := 1 + b / 2 * (/ (1 - b * ff r L g A N z d1 k) * ff r L g A N z d0 k).
Lemma fdm_signal lg D s A n z_tip nt r_tip L_tip gf d_Q0 d_Q1 d_Qa n_lag g b :
  let N := given_or (d_n_trapz D) nt in let z := given_or (d_z_tip D) z_tip in
  let r := given_or (d_r_tip D) r_tip in let L := given_or (d_L_tip D) L_tip in
  let d0 := given_or (131 / 100 * L / (L + 2 * r)) d_Q0 in let d1 := given_or (d_d_Q1 D) d_Q1 in
  given_or (d_g_factor D) gf = RtoC g ->
  multilayer s = false -> refl_coef_qs s (rr 0) = Ok (Some (RtoC b)) -> N <> O -> 0 < A -> r < 4 * L ->
  in_reach z A d0 r L g -> in_reach z A d1 r L g -> 0 <= b -> b * fdm_r z d1 r L g < 1 ->
  fdm_eff_pol_n lg D s A n z_tip nt r_tip L_tip gf d_Q0 d_Q1 d_Qa n_lag (Some "bulk"%string)
  = Ok (Some (RtoC (sgn_pow n * harm N n (fdm_sig r L g A z d0 d1 b N)))).
Proof.
  intros N z r L d0 d1 Hg Hm Hb HN HA HrL R0 R1 Hb0 Hs.
  assert (WL : 0 < ln (4 * L / r)) by (rewrite <- ln_1; apply ln_increasing; [lra|]; apply Rlt_div_r; [apply R0|lra]).
  assert (LB := fun k => ff_loop r L g A N HA WL z d1 b k R1 Hb0 Hs).
  assert (X : forall k, z <= tip_height z A N k) by (intros k; rewrite tip_height_cs; pose proof (cs_bound N k); nra).
  assert (EF : forall k, (1 - RtoC b * RtoC (fdm_r (tip_height z A N k) d1 r L g))%C = RtoC (1 - b * ff r L g A N z d1 k)).
  { intros k. rewrite <- RtoC_mult, <- RtoC_minus. reflexivity. }
  assert (PP : forall k, 0 < 1 - b * ff r L g A N z d1 k) by (intros k; pose proof (LB k) as P; apply Rabs_lt_between in P; lra).
  rewrite (fdm_n_value lg D s A n z_tip nt r_tip L_tip gf d_Q0 d_Q1 d_Qa n_lag (RtoC b) Hm Hb HN).
  2:{ intros k Hk. cbv zeta. fold N z r L d0 d1. rewrite Hg, fdm_f_real, EF. specialize (X k).
      destruct R0 as (A1 & A2 & A3 & _). destruct R1 as (_ & _ & A4 & _).
      split; [repeat split; lra|]. split; [repeat split; lra|]. apply RtoC_neq_0. pose proof (PP k). lra. }
  fold N z r L d0 d1. rewrite Hg. f_equal. f_equal.
  rewrite (tmean_ext z A n N _ (fun x => RtoC (1 + b / 2 * (/ (1 - b * fdm_r x d1 r L g) * fdm_r x d0 r L g)))).
  2:{ intros k Hk. rewrite !fdm_f_real, EF. pose proof (PP k) as P. change (fdm_r (tip_height z A N k) d1 r L g) with (ff r L g A N z d1 k).
      rewrite <- !RtoC_mult, <- RtoC_div, <- RtoC_plus by lra. f_equal. field. lra. }
  now rewrite tmean_real by exact HN.
Qed.

(** C69. Finite dipole model with a real g factor over a lossless bulk sample:
    as long as the whole stroke stays below the heights where the geometry
    functions change sign, and the loop gain at the lowest point below 1,
    harmonic n has the sign (-1)^n and grows strictly with the reflection
    coefficient. *)
Lemma C69_fdm_contrast_proof :
  forall (laggauss : laggauss_t) (D : Defaults) (s1 s2 : sample) (A_tip : R) (n : Z) (n_trapz : option nat)
    (z_tip r_tip L_tip : option R) (g_factor : option C) (d_Q0 d_Q1 d_Qa : option R) (n_lag : option nat) (g b1 b2 : R),
  let N := given_or (d_n_trapz D) n_trapz in let z := given_or (d_z_tip D) z_tip in
  let r := given_or (d_r_tip D) r_tip in let L := given_or (d_L_tip D) L_tip in
  let d0 := given_or (131 / 100 * L / (L + 2 * r)) d_Q0 in let d1 := given_or (d_d_Q1 D) d_Q1 in
  given_or (d_g_factor D) g_factor = RtoC g ->
  multilayer s1 = false -> multilayer s2 = false ->
  refl_coef_qs s1 (rr 0) = Ok (Some (RtoC b1)) -> refl_coef_qs s2 (rr 0) = Ok (Some (RtoC b2)) ->
  N <> O -> 0 < A_tip -> 0 < r < 4 * L -> 0 < r + 4 * z + 2 * r * d0 -> 0 < r + 4 * z + 2 * r * d1 ->
  r + 2 * (z + 2 * A_tip) + r * d0 <= 2 * L * g -> r + 4 * (z + 2 * A_tip) + 2 * r * d0 <= 4 * L ->
  r + 2 * (z + 2 * A_tip) + r * d1 <= 2 * L * g -> r + 4 * (z + 2 * A_tip) + 2 * r * d1 <= 4 * L ->
  0 <= b1 < b2 -> b2 * Re (fdm_f z d1 r L (RtoC g)) < 1 ->
  forall method, method = None \/ method = Some "bulk"%string ->
  exists m1 m2 : R,
    fdm_eff_pol_n laggauss D s1 A_tip n z_tip n_trapz r_tip L_tip g_factor d_Q0 d_Q1 d_Qa n_lag method = Ok (Some (RtoC (sgn_pow n * m1))) /\
    fdm_eff_pol_n laggauss D s2 A_tip n z_tip n_trapz r_tip L_tip g_factor d_Q0 d_Q1 d_Qa n_lag method = Ok (Some (RtoC (sgn_pow n * m2))) /\
    0 <= m1 < m2 /\ (0 < b1 -> 0 < m1).
Proof.
  intros lg D s1 s2 A n nt z_tip r_tip L_tip gf d_Q0 d_Q1 d_Qa n_lag g b1 b2 N z r L d0 d1 Hg M1 M2 H1 H2 HN HA [Hr HrL] P0 P1 G0 V0 G1 V1 Hb Hs m Hmeth.
  rewrite fdm_f_real in Hs. change (Re (RtoC (fdm_r z d1 r L g))) with (fdm_r z d1 r L g) in Hs.
  assert (R0 : in_reach z A d0 r L g) by (repeat split; lra). assert (R1 : in_reach z A d1 r L g) by (repeat split; lra).
  assert (WL : 0 < ln (4 * L / r)) by (rewrite <- ln_1; apply ln_increasing; [lra|]; apply Rlt_div_r; lra).
  assert (F0 : 0 <= fdm_r z d1 r L g) by (pose proof (ff_bound r L g A N HA WL z d1 0 R1); lra).
  assert (Hs1 : b1 * fdm_r z d1 r L g < 1) by (eapply Rle_lt_trans; [|exact Hs]; apply Rmult_le_compat_r; lra).
  assert (EM : forall s, multilayer s = false -> fdm_eff_pol_n lg D s A n z_tip nt r_tip L_tip gf d_Q0 d_Q1 d_Qa n_lag m
     = fdm_eff_pol_n lg D s A n z_tip nt r_tip L_tip gf d_Q0 d_Q1 d_Qa n_lag (Some "bulk"%string)).
  { intros s Hs0. destruct Hmeth as [-> | ->]; [now apply eff_pol_n_none_bulk|reflexivity]. }
  rewrite !EM by assumption.
  assert (B1 := fun k => ff_loop r L g A N HA WL z d1 b1 k R1 ltac:(lra) Hs1).
  assert (B2 := fun k => ff_loop r L g A N HA WL z d1 b2 k R1 ltac:(lra) Hs).
  assert (D0 := fun j => ff_dom r L g A N HN HA WL z d0 j R0). assert (D1 := fun j => ff_dom r L g A N HN HA WL z d1 j R1).
  assert (SG : forall b j, 0 < b -> (forall k, Rabs (b * ff r L g A N z d1 k) < 1) -> dom N j (fdm_sig r L g A z d0 d1 b N)).
  { intros b j Pb Bb. unfold fdm_sig. apply (dom_ext N j (fun k => b / 2 * (/ (1 - b * ff r L g A N z d1 k) * ff r L g A N z d0 k) + 1)); [intros; ring|].
    apply dom_plus; [|apply mult_const; lra]. apply dom_scal; [lra|]. apply dom_prod; [|apply D0].
    apply gain_dom0; [exact HN|lra|apply (dom_mult N 0), D1|auto]. }
  eexists. eexists. split; [|split; [|split]].
  - apply (fdm_signal lg D s1 A n z_tip nt r_tip L_tip gf d_Q0 d_Q1 d_Qa n_lag g b1); auto; lra.
  - apply (fdm_signal lg D s2 A n z_tip nt r_tip L_tip gf d_Q0 d_Q1 d_Qa n_lag g b2); auto; lra.
  - fold N z r L d0 d1. split.
    + destruct (Req_dec b1 0) as [E|E].
      * rewrite (harm_ext N n _ (fun _ => 1)) by (intros k _; unfold fdm_sig; rewrite E; unfold Rdiv; ring). now apply pd_1.
      * apply Rlt_le, dom_harm; [exact HN|]. apply SG; [lra|exact B1].
    + apply dom_harm_lt; [exact HN|].
      apply (dom_ext N _ (fun k => (/ (1 - b1 * ff r L g A N z d1 k) * / (1 - b2 * ff r L g A N z d1 k)) * ((b2 - b1) / 2 * ff r L g A N z d0 k))).
      { intros k _. unfold fdm_sig. pose proof (B1 k) as Q1. pose proof (B2 k) as Q2. apply Rabs_lt_between in Q1. apply Rabs_lt_between in Q2. field. split; lra. }
      apply dom_prod; [|apply dom_scal; [lra|apply D0]].
      apply (dom_prod N O (fun k => / (1 - b1 * ff r L g A N z d1 k))); apply gain_dom0; auto; try lra; apply (dom_mult N 0), D1.
  - intros P. fold N z r L d0 d1. apply dom_harm; [exact HN|]. apply SG; [exact P|exact B1].
Qed.

(** C69. ... and decays strictly with the height of the tip. *)
Lemma C69_fdm_approach_proof :
  forall (laggauss : laggauss_t) (D : Defaults) (s : sample) (A_tip : R) (n : Z) (n_trapz : option nat)
    (z1 z2 : R) (r_tip L_tip : option R) (g_factor : option C) (d_Q0 d_Q1 d_Qa : option R) (n_lag : option nat) (g b : R),
  let N := given_or (d_n_trapz D) n_trapz in
  let r := given_or (d_r_tip D) r_tip in let L := given_or (d_L_tip D) L_tip in
  let d0 := given_or (131 / 100 * L / (L + 2 * r)) d_Q0 in let d1 := given_or (d_d_Q1 D) d_Q1 in
  given_or (d_g_factor D) g_factor = RtoC g ->
  multilayer s = false -> refl_coef_qs s (rr 0) = Ok (Some (RtoC b)) ->
  N <> O -> 0 < A_tip -> 0 < r < 4 * L -> 0 < r + 4 * z1 + 2 * r * d0 -> 0 < r + 4 * z1 + 2 * r * d1 -> z1 < z2 ->
  r + 2 * (z2 + 2 * A_tip) + r * d0 <= 2 * L * g -> r + 4 * (z2 + 2 * A_tip) + 2 * r * d0 <= 4 * L ->
  r + 2 * (z2 + 2 * A_tip) + r * d1 <= 2 * L * g -> r + 4 * (z2 + 2 * A_tip) + 2 * r * d1 <= 4 * L ->
  0 < b -> b * Re (fdm_f z1 d1 r L (RtoC g)) < 1 ->
  forall method, method = None \/ method = Some "bulk"%string ->
  exists m1 m2 : R,
    fdm_eff_pol_n laggauss D s A_tip n (Some z1) n_trapz r_tip L_tip g_factor d_Q0 d_Q1 d_Qa n_lag method = Ok (Some (RtoC (sgn_pow n * m1))) /\
    fdm_eff_pol_n laggauss D s A_tip n (Some z2) n_trapz r_tip L_tip g_factor d_Q0 d_Q1 d_Qa n_lag method = Ok (Some (RtoC (sgn_pow n * m2))) /\
    0 < m2 < m1.
Proof.
  intros lg D s A n nt z1 z2 r_tip L_tip gf d_Q0 d_Q1 d_Qa n_lag g b N r L d0 d1 Hg Hm H HN HA [Hr HrL] P0 P1 Hz G0 V0 G1 V1 Hb Hs m Hmeth.
  rewrite fdm_f_real in Hs. change (Re (RtoC (fdm_r z1 d1 r L g))) with (fdm_r z1 d1 r L g) in Hs.
  assert (R01 : in_reach z1 A d0 r L g) by (repeat split; lra). assert (R11 : in_reach z1 A d1 r L g) by (repeat split; lra).
  assert (R02 : in_reach z2 A d0 r L g) by (repeat split; lra). assert (R12 : in_reach z2 A d1 r L g) by (repeat split; lra).
  assert (WL : 0 < ln (4 * L / r)) by (rewrite <- ln_1; apply ln_increasing; [lra|]; apply Rlt_div_r; lra).
  assert (Hs2 : b * fdm_r z2 d1 r L g < 1).
  { eapply Rle_lt_trans; [|exact Hs]. apply Rmult_le_compat_l; [lra|]. unfold fdm_r. assert (I := Rinv_0_lt_compat _ WL).
    assert (U : 0 <= g - (r + 2 * z2 + r * d1) / (2 * L) <= g - (r + 2 * z1 + r * d1) / (2 * L)).
    { split.
      - apply Rle_minus_r. rewrite Rplus_0_l. apply Rle_div_l; lra.
      - apply Rplus_le_compat_l, Ropp_le_contravar. apply Rmult_le_compat_r; [apply Rlt_le, Rinv_0_lt_compat; lra|lra]. }
    assert (W : 0 <= ln (4 * L / (r + 4 * z2 + 2 * r * d1)) <= ln (4 * L / (r + 4 * z1 + 2 * r * d1))).
    { split.
      - rewrite <- ln_1. apply ln_le; [lra|]. apply Rle_div_r; lra.
      - apply ln_le; [apply Rdiv_lt_0_compat; lra|]. apply Rmult_le_compat_l; [lra|]. apply Rinv_le_contravar; lra. }
    apply Rmult_le_compat; try lra; [apply Rmult_le_pos; lra|]. apply Rmult_le_compat_r; lra. }
  assert (EM : forall zt, fdm_eff_pol_n lg D s A n zt nt r_tip L_tip gf d_Q0 d_Q1 d_Qa n_lag m
     = fdm_eff_pol_n lg D s A n zt nt r_tip L_tip gf d_Q0 d_Q1 d_Qa n_lag (Some "bulk"%string)).
  { intros zt. destruct Hmeth as [-> | ->]; [now apply eff_pol_n_none_bulk|reflexivity]. }
  rewrite !EM.
  assert (B1 := fun k => ff_loop r L g A N HA WL z1 d1 b k R11 ltac:(lra) Hs).
  assert (B2 := fun k => ff_loop r L g A N HA WL z2 d1 b k R12 ltac:(lra) Hs2).
  assert (D01 := fun j => ff_dom r L g A N HN HA WL z1 d0 j R01). assert (D11 := fun j => ff_dom r L g A N HN HA WL z1 d1 j R11).
  assert (D02 := fun j => ff_dom r L g A N HN HA WL z2 d0 j R02). assert (D12 := fun j => ff_dom r L g A N HN HA WL z2 d1 j R12).
  eexists. eexists. split; [|split].
  - apply (fdm_signal lg D s A n (Some z1) nt r_tip L_tip gf d_Q0 d_Q1 d_Qa n_lag g b); auto; lra.
  - apply (fdm_signal lg D s A n (Some z2) nt r_tip L_tip gf d_Q0 d_Q1 d_Qa n_lag g b); auto; lra.
  - cbn [given_or]. fold N r L d0 d1. split; (apply dom_harm || apply dom_harm_lt); try exact HN.
    + unfold fdm_sig. apply (dom_ext N _ (fun k => b / 2 * (/ (1 - b * ff r L g A N z2 d1 k) * ff r L g A N z2 d0 k) + 1)); [intros; ring|].
      apply dom_plus; [|apply mult_const; lra]. apply dom_scal; [lra|]. apply dom_prod; [|apply D02].
      apply gain_dom0; [exact HN|lra|apply (dom_mult N 0), D12|auto].
    + apply (dom_ext N _ (fun k => b / 2 * (/ (1 - b * ff r L g A N z1 d1 k) * (ff r L g A N z1 d0 k - ff r L g A N z2 d0 k)
         + (/ (1 - b * ff r L g A N z1 d1 k) - / (1 - b * ff r L g A N z2 d1 k)) * ff r L g A N z2 d0 k))).
      { intros k _. unfold fdm_sig. ring. }
      apply dom_scal; [lra|]. apply dom_plus.
      * apply dom_prod; [apply gain_dom0; [exact HN|lra|apply (dom_mult N 0), D11|auto]|].
        apply (ff_closer r L g A N HN HA WL z1 z2 d0); assumption.
      * apply mult_mult; [|apply (dom_mult N 0), D02]. apply (dom_mult N 0).
        apply gain_closer; [exact HN|exact Hb|apply (dom_mult N 0), D11|apply (dom_mult N 0), D12| |auto|auto].
        apply (ff_closer r L g A N HN HA WL z1 z2 d1); assumption.
Qed.
