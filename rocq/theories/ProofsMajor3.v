(** * Proofs: contrast of absorbing samples: thresholds, and what happens beyond *)
From Coq Require Import String Reals Lra Lia ZArith List Bool.
From Coquelicot Require Import Rcomplements Complex.
From Verif Require Import Num NumLemmas LimLemmas ModelBase ModelSample ModelTip StackLemmas Spec
  ProofsStackQS ProofsStackQS2 ProofsBulkFF ProofsSym ProofsPassive DemodLemmas ProofsDemod ProofsTip ProofsTip2 ProofsTip3
  ProofsTaylor PosDef ProofsContrast ProofsContrast2 SpecMajor Majorant ProofsMajor ProofsMajor2.
Import ListNotations.
Open Scope R_scope.

Lemma Cdiv_eq (a b c : C) : b <> RtoC 0 -> a = (c * b)%C -> (a / b)%C = c.
Proof. intros H ->. field. exact H. Qed.
Lemma Sm_le f g N : (forall k, (k < N)%nat -> f k <= g k) -> Sm f N <= Sm g N.
Proof. induction N as [|N IH]; intros H; cbn [Sm]; [lra|]. assert (A := IH (fun k Hk => H k (Nat.lt_lt_succ_r _ _ Hk))). assert (B := H N (Nat.lt_succ_diag_r N)). lra. Qed.
Lemma Sm_delta a N : Sm (fun k => match k with O => a | S _ => 0 end) (S N) = a.
Proof. induction N as [|N IH]; [cbn [Sm]; ring|]. change (Sm (fun k => match k with O => a | S _ => 0 end) (S (S N))) with (Sm (fun k => match k with O => a | S _ => 0 end) (S N) + 0). rewrite IH. ring. Qed.
Lemma Sm_cs N : (2 <= N)%nat -> Sm (cs N) N = 0.
Proof.
  intros HN. pose proof PI_RGT_0 as HP. assert (PN : 2 <= INR N) by (replace 2 with (INR 2) by reflexivity; now apply le_INR).
  set (x := 2 * PI / INR N). assert (D := dirichlet x N).
  rewrite (Sm_ext _ (cs N)) in D by (intros k _; unfold cs, phi, x; f_equal; field; lra).
  replace ((INR N - / 2) * x) with (- (x / 2) + 2 * PI) in D by (unfold x; field; lra).
  rewrite sin_plus, sin_2PI, cos_2PI, sin_neg in D.
  assert (P : 0 < sin (x / 2)).
  { apply sin_gt_0; unfold x.
    - replace (2 * PI / INR N / 2) with (PI / INR N) by (field; lra). apply Rdiv_lt_0_compat; lra.
    - replace (2 * PI / INR N / 2) with (PI / INR N) by (field; lra). apply Rlt_div_l; [lra|]. nra. }
  apply (Rmult_eq_reg_l (2 * sin (x / 2))); lra.
Qed.
Lemma harm_1 N h : harm N 1 h = Sm (fun k => cs N k * h k) N / INR N.
Proof. unfold harm. f_equal. apply Sm_ext. intros k _. unfold cs. rewrite Rmult_1_l. ring. Qed.
(** first coefficient of a function that increases with the cosine *)
Lemma harm_1_incr N h h0 : N <> O -> (forall k, (k < N)%nat -> 0 <= h k) -> (forall k, (k < N)%nat -> 0 <= (h k - h0) * cs N k) -> 0 <= harm N 1 h.
Proof.
  intros HN H1 H2. rewrite harm_1. apply Rmult_le_pos; [|apply Rlt_le, Rinv_0_lt_compat, lt_0_INR; lia].
  destruct N as [|[|N]]; [contradiction| |].
  - cbn [Sm]. unfold cs, phi. cbn [INR]. replace (2 * PI * 0 / 1) with 0 by field. rewrite cos_0. specialize (H1 O ltac:(lia)). lra.
  - apply Rle_trans with (Sm (fun k => h0 * cs (S (S N)) k) (S (S N))); [rewrite Sm_scal, Sm_cs by lia; lra|].
    apply Sm_le. intros k Hk. specialize (H2 k Hk). lra.
Qed.
Lemma step rho g g' : 0 <= rho -> 0 <= g <= g' -> rho * g' <= 3 / 20 ->
  49 / 25 * g - g / (1 - rho * g) ^ 2 <= 49 / 25 * g' - g' / (1 - rho * g') ^ 2.
Proof.
  intros Hr Hg Hb. set (x := rho * g). set (y := rho * g'). fold y in Hb. assert (0 <= x) by (apply Rmult_le_pos; lra). assert (x <= y) by (apply Rmult_le_compat_l; lra).
  assert (Dx : 17 / 20 <= 1 - x) by lra. assert (Dy : 17 / 20 <= 1 - y) by lra.
  assert (E : 49 / 25 * g' - g' / (1 - y) ^ 2 - (49 / 25 * g - g / (1 - x) ^ 2) = (g' - g) * (49 / 25 - (1 - x * y) / ((1 - x) ^ 2 * (1 - y) ^ 2))).
  { unfold x, y in *. field. split; lra. }
  assert (K : (1 - x * y) / ((1 - x) ^ 2 * (1 - y) ^ 2) <= 49 / 25).
  { assert (Px : 289 / 400 <= (1 - x) ^ 2) by nra. assert (Py : 289 / 400 <= (1 - y) ^ 2) by nra.
    assert (PP : 289 / 400 * (289 / 400) <= (1 - x) ^ 2 * (1 - y) ^ 2) by (apply Rmult_le_compat; lra).
    apply Rle_div_l; [lra|]. assert (0 <= x * y) by (apply Rmult_le_pos; lra). lra. }
  assert (0 <= (g' - g) * (49 / 25 - (1 - x * y) / ((1 - x) ^ 2 * (1 - y) ^ 2))) by (apply Rmult_le_pos; lra). lra.
Qed.

Section PDM1.
Context (alpha r z A : R) (N : nat) (HN : N <> O) (Ha : 0 < alpha) (HA : 0 < A) (Hz : 0 < r + z).
Let kap := alpha / (16 * PI).
Let cc := r + z + A.
Lemma kap_pos : 0 < kap.
Proof using Ha. unfold kap. pose proof PI_RGT_0. apply Rdiv_lt_0_compat; lra. Qed.
Lemma g_form k : pdm_int alpha r z A N k = kap / (cc - A * cs N k) ^ 3.
Proof using Ha HA Hz. unfold pdm_int, res1. fold kap cc. pose proof (res1_pos N cc A k ltac:(unfold cc; lra)). field. lra. Qed.
Lemma g_pos k : 0 < pdm_int alpha r z A N k.
Proof using Ha HA Hz. rewrite g_form. apply Rdiv_lt_0_compat; [exact kap_pos|]. apply pow_lt, res1_pos. unfold cc. lra. Qed.
Lemma g_max k : pdm_int alpha r z A N k <= alpha / (16 * PI * (r + z) ^ 3).
Proof using Ha HA Hz.
  rewrite g_form. pose proof PI_RGT_0. pose proof kap_pos. pose proof (cs_bound N k).
  replace (alpha / (16 * PI * (r + z) ^ 3)) with (kap / (r + z) ^ 3) by (unfold kap; field; lra).
  apply Rmult_le_compat_l; [lra|]. apply Rinv_le_contravar; [apply pow_lt; lra|]. apply pow_incr. unfold cc. nra.
Qed.
Lemma g_vs_mid k : 0 <= cs N k /\ kap / cc ^ 3 <= pdm_int alpha r z A N k \/ cs N k <= 0 /\ pdm_int alpha r z A N k <= kap / cc ^ 3.
Proof using Ha HA Hz.
  rewrite g_form. pose proof kap_pos. pose proof (res1_pos N cc A k ltac:(unfold cc; lra)) as P. assert (0 < cc) by (unfold cc; lra).
  destruct (Rle_dec 0 (cs N k)) as [C|C]; [left|right]; (split; [lra|]); apply Rmult_le_compat_l; try lra; apply Rinv_le_contravar; try (apply pow_lt; lra); apply pow_incr; nra.
Qed.
(** the threshold for the first harmonic *)
Lemma first_threshold rho : 0 <= rho -> 20 * (alpha * rho) <= 3 * (16 * PI * (r + z) ^ 3) ->
  d1 N (fun k => alpha * pdm_int alpha r z A N k) (pdm_int alpha r z A N) rho 1 < 2 * c1 N (fun k => alpha * pdm_int alpha r z A N k) 1.
Proof using HN Ha HA Hz.
  intros Hr Hb. pose proof PI_RGT_0 as HP. set (g := pdm_int alpha r z A N).
  assert (Pc : 0 < harm N 1 (fun k => alpha * g k)) by (exact (F_pos alpha r z A N HN Ha HA Hz 1)).
  assert (GB : forall k, rho * g k <= 3 / 20).
  { intros k. assert (P3 : 0 < 16 * PI * (r + z) ^ 3) by (apply Rmult_lt_0_compat; [lra|apply pow_lt; lra]).
    apply Rle_trans with (rho * (alpha / (16 * PI * (r + z) ^ 3))); [apply Rmult_le_compat_l; [exact Hr|apply g_max]|].
    replace (rho * (alpha / (16 * PI * (r + z) ^ 3))) with (alpha * rho / (16 * PI * (r + z) ^ 3)) by (unfold Rdiv; ring). apply Rle_div_l; lra. }
  assert (GM : rho * (kap / cc ^ 3) <= 3 / 20).
  { assert (P3 : 0 < 16 * PI * (r + z) ^ 3) by (apply Rmult_lt_0_compat; [lra|apply pow_lt; lra]). pose proof kap_pos.
    apply Rle_trans with (rho * (alpha / (16 * PI * (r + z) ^ 3))).
    - apply Rmult_le_compat_l; [exact Hr|]. replace (alpha / (16 * PI * (r + z) ^ 3)) with (kap / (r + z) ^ 3) by (unfold kap; field; lra).
      apply Rmult_le_compat_l; [lra|]. apply Rinv_le_contravar; [apply pow_lt; lra|]. apply pow_incr. unfold cc. lra.
    - replace (rho * (alpha / (16 * PI * (r + z) ^ 3))) with (alpha * rho / (16 * PI * (r + z) ^ 3)) by (unfold Rdiv; ring). apply Rle_div_l; lra. }
  assert (M0 : 0 < kap / cc ^ 3) by (apply Rdiv_lt_0_compat; [exact kap_pos|apply pow_lt; unfold cc; lra]).
  set (v := fun g => 49 / 25 * g - g / (1 - rho * g) ^ 2).
  assert (Q : 0 <= harm N 1 (fun k => alpha * v (g k))).
  { rewrite harm_scal. apply Rmult_le_pos; [lra|]. apply (harm_1_incr N _ (v (kap / cc ^ 3)) HN).
    - intros k _. unfold v. pose proof (g_pos k) as P. fold g in P. pose proof (step rho 0 (g k) Hr ltac:(lra) (GB k)) as Q. unfold Rdiv in Q at 1 2. rewrite !Rmult_0_r, !Rmult_0_l in Q. lra.
    - intros k _. pose proof (g_pos k) as P. fold g in P. destruct (g_vs_mid k) as [[C G]|[C G]]; fold g in G.
      + apply Rmult_le_pos; [|exact C]. pose proof (step rho _ _ Hr (conj (Rlt_le _ _ M0) G) (GB k)). unfold v. lra.
      + pose proof (step rho _ _ Hr (conj (Rlt_le _ _ P) G) GM). unfold v. nra. }
  rewrite (harm_ext N 1 _ (fun k => 49 / 25 * (alpha * g k) - alpha * g k / (1 - rho * g k) ^ 2)) in Q by (intros; unfold v, Rdiv; ring).
  rewrite harm_minus, harm_scal in Q. unfold d1, c1. fold g. lra.
Qed.
(** beyond: a strongly absorbing resonance *)
Lemma beyond : (2 <= N)%nat -> exists t, 0 < t /\ harm N 1 (fun k => alpha * pdm_int alpha r z A N k * t / (1 + (t * pdm_int alpha r z A N k) ^ 2)) < 0.
Proof using HN Ha HA Hz.
  intros H2. pose proof kap_pos as Pk. assert (Pc : 0 < cc) by (unfold cc; lra). assert (PN : 0 < INR N) by (apply lt_0_INR; lia).
  set (g := pdm_int alpha r z A N). set (u0 := cc ^ 3 / kap). set (del := u0 - (cc - A) ^ 3 / kap). set (U := (cc + A) ^ 3 / kap).
  assert (Pd : 0 < del).
  { unfold del, u0. replace (cc ^ 3 / kap - (cc - A) ^ 3 / kap) with ((cc ^ 3 - (cc - A) ^ 3) / kap) by (field; lra). apply Rdiv_lt_0_compat; [|exact Pk].
    assert (0 < cc - A) by (unfold cc; lra). set (p := cc - A) in *. replace cc with (p + A) by (unfold p; ring).
    replace ((p + A) ^ 3 - p ^ 3) with (A * (3 * p ^ 2 + 3 * p * A + A ^ 2)) by ring. apply Rmult_lt_0_compat; [exact HA|]. nra. }
  assert (PU : 0 < U) by (apply Rdiv_lt_0_compat; [apply pow_lt; lra|exact Pk]).
  assert (PU3 : 0 < U ^ 3) by (now apply pow_lt).
  set (t := INR N * U ^ 3 / del + 1). assert (P0 : 0 < INR N * U ^ 3 / del) by (apply Rdiv_lt_0_compat; [now apply Rmult_lt_0_compat|exact Pd]).
  assert (Pt : 1 < t) by (unfold t; lra). exists t. split; [lra|].
  rewrite harm_1. unfold Rdiv at 1. apply (Rmult_lt_reg_r (INR N)); [exact PN|]. rewrite Rmult_0_l, Rmult_assoc, Rinv_l, Rmult_1_r by lra.
  set (Y := Sm _ N). apply (Rmult_lt_reg_l (t / alpha)); [apply Rdiv_lt_0_compat; lra|]. rewrite Rmult_0_r.
  assert (S1 : t / alpha * Y = Sm (fun k => t / alpha * (cs N k * (alpha * g k * t / (1 + (t * g k) ^ 2)))) N) by (unfold Y; now rewrite Sm_scal).
  assert (B : forall k, (k < N)%nat -> t / alpha * (cs N k * (alpha * g k * t / (1 + (t * g k) ^ 2))) <= (match k with O => - del | S _ => 0 end + u0 * cs N k) + U ^ 3 / t ^ 2).
  { intros k Hk. pose proof (g_pos k) as Pg. fold g in Pg. set (u := / g k). assert (Pu : 0 < u) by (now apply Rinv_0_lt_compat).
    assert (Q1 : 0 < 1 + (t * g k) ^ 2) by (pose proof (pow2_ge_0 (t * g k)); lra).
    assert (E : t / alpha * (cs N k * (alpha * g k * t / (1 + (t * g k) ^ 2))) = cs N k * u - cs N k * (u / (1 + (t * g k) ^ 2))) by (unfold u; field; split; [|split]; try lra; intros E0; lra).
    rewrite E. assert (Eu : u = (cc - A * cs N k) ^ 3 / kap).
    { unfold u, g. rewrite g_form. pose proof (res1_pos N cc A k ltac:(unfold cc; lra)). field. split; lra. }
    pose proof (cs_bound N k) as CB.
    assert (Bu : u <= U). { rewrite Eu. unfold U. apply Rmult_le_compat_r; [apply Rlt_le, Rinv_0_lt_compat, Pk|]. apply pow_incr. pose proof (res1_pos N cc A k ltac:(unfold cc; lra)). nra. }
    assert (R2 : - (cs N k * (u / (1 + (t * g k) ^ 2))) <= U ^ 3 / t ^ 2).
    { assert (Pq : 0 < u / (1 + (t * g k) ^ 2)) by (now apply Rdiv_lt_0_compat).
      apply Rle_trans with (u / (1 + (t * g k) ^ 2)); [nra|].
      apply Rle_trans with (u ^ 3 / t ^ 2).
      - replace (u ^ 3 / t ^ 2) with (u / (t * g k) ^ 2) by (unfold u; field; lra). apply Rmult_le_compat_l; [lra|].
        apply Rinv_le_contravar; [apply pow_lt; nra|lra].
      - apply Rmult_le_compat_r; [apply Rlt_le, Rinv_0_lt_compat, pow_lt; lra|]. apply pow_incr. lra. }
    assert (R1 : cs N k * u <= match k with O => - del | S _ => 0 end + u0 * cs N k).
    { destruct k as [|k].
      - assert (C0 : cs N 0 = 1) by (unfold cs, phi; cbn [INR]; replace (2 * PI * 0 / INR N) with 0 by (field; lra); apply cos_0).
        rewrite C0 in *. rewrite Eu. unfold del, u0. replace (cc - A * 1) with (cc - A) by ring. lra.
      - rewrite Eu. unfold u0. pose proof (res1_pos N cc A (S k) ltac:(unfold cc; lra)) as P.
        assert (M : cs N (S k) * ((cc - A * cs N (S k)) ^ 3 - cc ^ 3) <= 0).
        { destruct (Rle_dec 0 (cs N (S k))) as [C|C].
          - assert ((cc - A * cs N (S k)) ^ 3 <= cc ^ 3) by (apply pow_incr; nra). nra.
          - assert (cc ^ 3 <= (cc - A * cs N (S k)) ^ 3) by (apply pow_incr; nra). nra. }
        assert (0 < / kap) by (now apply Rinv_0_lt_compat). unfold Rdiv. nra. }
    lra. }
  rewrite S1. eapply Rle_lt_trans; [apply (Sm_le _ _ N B)|].
  rewrite (Sm_plus (fun k => match k with O => - del | S _ => 0 end + u0 * cs N k) (fun _ => U ^ 3 / t ^ 2)), (Sm_plus (fun k => match k with O => - del | S _ => 0 end)), Sm_scal, Sm_cs, Sm_const by exact H2.
  destruct N as [|M]; [lia|]. rewrite Sm_delta.
  assert (K : INR (S M) * (U ^ 3 / t ^ 2) < del).
  { replace (INR (S M) * (U ^ 3 / t ^ 2)) with (INR (S M) * U ^ 3 / del * del / t ^ 2) by (field; lra). apply Rlt_div_l; [apply pow_lt; lra|].
    rewrite Rmult_comm. apply Rmult_lt_compat_l; [exact Pd|]. fold t. unfold t in *. nra. }
  lra.
Qed.
End PDM1.

(** C97. First harmonic, conducting tip of the documented polarizability at or
    above contact, any amplitude and number of samples: over bulk samples
    with |beta| <= 3/5 the complex permittivity can be read off uniquely, and
    the sign of the imaginary part of the signal is that of the absorption. *)
Lemma C97_pdm_first_harmonic_proof :
  forall (D : Defaults) (e0 e1 e2 : C) nu1 nu2 (A_tip : R) (z_tip r_tip : option R) (n_trapz : option nat),
  let N := given_or (d_n_trapz D) n_trapz in let z := given_or (d_z_tip D) z_tip in
  let r := given_or (d_r_tip D) r_tip in
  e0 <> RtoC 0 -> e1 <> RtoC 0 -> e2 <> RtoC 0 -> (e0 + e1 <> 0)%C -> (e0 + e2 <> 0)%C ->
  N <> O -> 0 < A_tip -> 0 < r -> 0 <= z ->
  Cmod ((e1 - e0) / (e1 + e0))%C <= 3 / 5 -> Cmod ((e2 - e0) / (e2 + e0))%C <= 3 / 5 ->
  (pdm_eff_pol_n D (stack [e0; e1] [] nu1) A_tip 1 z_tip n_trapz r_tip None None
    = pdm_eff_pol_n D (stack [e0; e2] [] nu2) A_tip 1 z_tip n_trapz r_tip None None -> e1 = e2) /\
  exists a : C, pdm_eff_pol_n D (stack [e0; e1] [] nu1) A_tip 1 z_tip n_trapz r_tip None None = Ok (Some a) /\
    (0 < Im ((e1 - e0) / (e1 + e0))%C -> Im a < 0).
Proof.
  intros D e0 e1 e2 nu1 nu2 A z_tip r_tip nt N z r H0 H1 H2 S1 S2 HN HA Hr Hz Hb1 Hb2. pose proof PI_RGT_0 as HP.
  set (alpha := 4 * PI * r ^ 3). assert (R3 : 0 < r ^ 3) by (now apply pow_lt). assert (Ha : 0 < alpha) by (apply Rmult_lt_0_compat; lra).
  assert (Ht : tip_alpha r None None (RtoC alpha)) by apply tip_conductor.
  assert (RZ : r ^ 3 <= (r + z) ^ 3) by (apply pow_incr; lra). assert (PR : PI * r ^ 3 <= PI * (r + z) ^ 3) by (apply Rmult_le_compat_l; lra).
  assert (PP : 0 < PI * r ^ 3) by (apply Rmult_lt_0_compat; lra).
  assert (Hs : alpha * (3 / 5) < 16 * PI * (r + z) ^ 3) by (unfold alpha; lra).
  assert (Hth : cosine z A 1 N (fun x => alpha * dipole alpha r x / (1 - 3 / 5 * dipole alpha r x) ^ 2) < 2 * cosine z A 1 N (fun x => alpha * dipole alpha r x)).
  { rewrite pdm_c, pdm_d by lra. apply first_threshold; try assumption; try lra. unfold alpha. lra. }
  split.
  - apply (C97_pdm_unique_proof D e0 e1 e2 nu1 nu2 A 1 z_tip r_tip nt None None alpha (3 / 5)); auto; fold r z; lra.
  - destruct (C97_pdm_phase_proof D (stack [e0; e1] [] nu1) A 1 z_tip r_tip nt None None alpha (3 / 5) _ Ht Ha (bulk_qs e0 e1 nu1 (rr 0) H1 S1) HN HA ltac:(fold r z; lra) Hb1 Hs)
      as (a & E & _ & P). exists a. split; [exact E|]. intros I. specialize (P I Hth). unfold sgn_pow in P. cbn in P. lra.
Qed.

(** C97. Without a bound on the reflection coefficient this fails: whatever the
    (real) tip, there is an absorbing bulk sample, near the resonance
    eps = - eps_env, whose first harmonic has the opposite sign of the phase. *)
Lemma C97_pdm_phase_refuted_proof :
  forall (D : Defaults) (e0 : R) nu (A_tip : R) (z_tip r_tip : option R) (n_trapz : option nat)
    (eps_tip alpha_tip : option C) (alpha : R),
  let N := given_or (d_n_trapz D) n_trapz in let z := given_or (d_z_tip D) z_tip in
  let r := given_or (d_r_tip D) r_tip in
  tip_alpha r eps_tip alpha_tip (RtoC alpha) -> 0 < alpha -> 0 < e0 -> (2 <= N)%nat -> 0 < A_tip -> 0 < r + z ->
  exists e1 a : C, 0 < Im e1 /\ 0 < Im ((e1 - RtoC e0) / (e1 + RtoC e0))%C /\
    pdm_eff_pol_n D (stack [RtoC e0; e1] [] nu) A_tip 1 z_tip n_trapz r_tip eps_tip alpha_tip = Ok (Some a) /\ 0 < Im a.
Proof.
  intros D e0 nu A z_tip r_tip nt et alt alpha N z r Ht Ha He H2 HA Hz.
  assert (HN : N <> O) by lia.
  destruct (beyond alpha r z A N HN Ha HA Hz H2) as (t & Pt & Hneg).
  assert (NI : (1 - (0, t)%R <> 0)%C) by (intros E; apply (f_equal fst) in E; cbn in E; lra).
  assert (NP : (1 + (0, t)%R <> 0)%C) by (intros E; apply (f_equal fst) in E; cbn in E; lra).
  assert (Ne : RtoC e0 <> RtoC 0) by (apply RtoC_neq_0; lra).
  set (e1 := (RtoC e0 * ((1 + (0, t)%R) / (1 - (0, t)%R)))%C).
  assert (T2 : 0 < 1 + t ^ 2) by (pose proof (pow2_ge_0 t); lra).
  assert (Ev : e1 = (e0 * ((1 - t ^ 2) / (1 + t ^ 2)), e0 * (2 * t / (1 + t ^ 2)))%R).
  { unfold e1. assert (X : ((1 + (0, t)%R) / (1 - (0, t)%R))%C = ((1 - t ^ 2) / (1 + t ^ 2), 2 * t / (1 + t ^ 2))%R).
    { apply Cdiv_eq; [exact NI|].
      apply injective_projections; cbn; field; lra. }
    rewrite X. apply injective_projections; cbn; ring. }
  assert (N1 : e1 <> RtoC 0) by (unfold e1; apply Cmult_neq_0; [exact Ne|]; now apply Cdiv_neq_0).
  assert (S1 : (RtoC e0 + e1 = RtoC (2 * e0) / (1 - (0, t)%R))%C) by (unfold e1; rewrite RtoC_mult; field; exact NI).
  assert (N2 : (RtoC e0 + e1 <> 0)%C) by (rewrite S1; apply Cdiv_neq_0; [apply RtoC_neq_0; lra|exact NI]).
  assert (Eb : ((e1 - RtoC e0) / (e1 + RtoC e0))%C = (0, t)%R).
  { apply Cdiv_eq; [intros E; apply N2; rewrite <- E; ring|]. unfold e1. field. exact NI. }
  exists e1. eexists. split; [rewrite Ev; cbn; apply Rmult_lt_0_compat; [exact He|apply Rdiv_lt_0_compat; lra]|].
  rewrite Eb. split; [exact Pt|].
  assert (DEN : forall k, (1 - (0, t)%R * RtoC (pdm_int alpha r z A N k) <> 0)%C) by (intros k E; apply (f_equal fst) in E; cbn in E; lra).
  split.
  - apply (pdm_value D (stack [RtoC e0; e1] [] nu) A 1 z_tip nt r_tip et alt alpha (0, t)%R 0 Ht Ha); auto. rewrite <- Eb. now apply bulk_qs.
  - fold N z r. set (g := pdm_int alpha r z A N) in *. 
    assert (EI : forall w, Im (RtoC (sgn_pow 1) * w)%C = - Im w) by (intros w; unfold sgn_pow, Im; cbn; ring).
    rewrite EI, (hC_plus N 1 (fun _ => RtoC alpha)), (hC_real N 1 (fun _ => alpha)).
    assert (EJ : forall x w, Im (RtoC x + w)%C = Im w) by (intros x w; unfold Im; cbn; ring). rewrite EJ.
    unfold hC. cbn [Im snd]. rewrite (harm_ext N 1 _ (fun k => alpha * g k * t / (1 + (t * g k) ^ 2))); [lra|].
    intros k _. unfold loop.
    assert (Q : 0 < 1 + (t * g k) ^ 2) by (pose proof (pow2_ge_0 (t * g k)); lra).
    assert (X : (RtoC (alpha * g k) * (0, t)%R / (1 - (0, t)%R * RtoC (g k)))%C = (- (alpha * g k * t * (t * g k)) / (1 + (t * g k) ^ 2), alpha * g k * t / (1 + (t * g k) ^ 2))%R).
    { apply Cdiv_eq; [apply DEN|].
      apply injective_projections; cbn; field; cbn in Q; lra. }
    rewrite X. reflexivity.
Qed.
