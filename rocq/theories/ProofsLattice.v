(** * Proofs: superlattices (C94), the flow through thin layers *)
From Coq Require Import String Reals Lra Lia ZArith List Bool.
From Coquelicot Require Import Coquelicot.
From Coq Require Import List.
From Verif Require Import Num NumLemmas ModelBase ModelSample ModelTip StackLemmas Spec SpecQuad SpecThin SpecLattice
  ProofsStackQS ProofsStackQS2 ProofsSym ProofsPassive ProofsFilm ProofsThin ProofsCompare.
Import ListNotations.
Open Scope R_scope.

(** ** tanh *)
Definition th (u : R) : R := (1 - exp (- 2 * u)) / (1 + exp (- 2 * u)).
Lemma th_den u : 0 < 1 + exp (- 2 * u).
Proof. pose proof (exp_pos (- 2 * u)). lra. Qed.
Lemma th_range u : 0 <= u -> 0 <= th u < 1.
Proof.
  intros Hu. pose proof (exp_pos (- 2 * u)) as P. assert (exp (- 2 * u) <= 1).
  { destruct (Req_dec u 0) as [->|]; [replace (-2 * 0) with 0 by ring; rewrite exp_0; lra|].
    rewrite <- exp_0. left. apply exp_increasing. lra. }
  unfold th. split; [apply Rdiv_le_0_compat; lra|apply Rlt_div_l; lra].
Qed.
Lemma th_upper u : 0 <= u -> th u <= u.
Proof.
  intros Hu. pose proof (th_den u). unfold th. apply Rle_div_l; [lra|].
  destruct (Req_dec u 0) as [->|N]; [replace (-2 * 0) with 0 by ring; rewrite exp_0; lra|].
  set (g := fun x => x * (1 + exp (- 2 * x)) - (1 - exp (- 2 * x))).
  assert (D : forall x, is_derive g x (1 - exp (- 2 * x) * (1 + 2 * x))).
  { intro x. unfold g. auto_derive; [trivial|]. ring. }
  destruct (MVT_cor4 g (fun x => 1 - exp (- 2 * x) * (1 + 2 * x)) 0 u (fun c _ => D c) u) as (x & Ex & Hx).
  { rewrite Rminus_0_r, Rabs_pos_eq; lra. }
  assert (G : exp (- 2 * x) * (1 + 2 * x) <= 1).
  { pose proof (exp_ineq1_le (2 * x)) as I. pose proof (exp_pos (- 2 * x)).
    apply Rle_trans with (exp (- 2 * x) * exp (2 * x)); [apply Rmult_le_compat_l; lra|].
    rewrite <- exp_plus. replace (-2 * x + 2 * x) with 0 by ring. rewrite exp_0. lra. }
  assert (G0 : g 0 = 0) by (unfold g; replace (-2 * 0) with 0 by ring; rewrite exp_0; lra).
  assert (0 <= (1 - exp (-2 * x) * (1 + 2 * x)) * (u - 0)) by (apply Rmult_le_pos; lra).
  rewrite G0 in Ex. unfold g in Ex. lra.
Qed.
Lemma th_lower u : 0 <= u -> u - u ^ 2 <= th u.
Proof.
  intros Hu. pose proof (th_den u). pose proof (exp_pos (- 2 * u)). destruct (exp_upper (2 * u) ltac:(lra)) as [_ U].
  replace (- (2 * u)) with (- 2 * u) in U by ring. destruct (th_range u Hu) as [T0 _].
  destruct (Rle_dec u 1).
  - unfold th. apply Rle_div_r; [lra|]. assert (0 <= u - u ^ 2) by (simpl; nra). assert (exp (- 2 * u) <= 1) by (simpl in U; nra). simpl in *. nra.
  - simpl. nra.
Qed.
Lemma th_plus u v : 0 <= u -> 0 <= v -> th (u + v) = (th u + th v) / (1 + th u * th v).
Proof.
  intros Hu Hv. pose proof (th_range u Hu). pose proof (th_range v Hv). assert (0 < 1 + th u * th v) by nra.
  unfold th in *. replace (-2 * (u + v)) with (- 2 * u + - 2 * v) by ring. rewrite exp_plus.
  pose proof (exp_pos (- 2 * u)). pose proof (exp_pos (- 2 * v)). set (a := exp (- 2 * u)) in *. set (b := exp (- 2 * v)) in *.
  assert (0 < a * b) by now apply Rmult_lt_0_compat.
  field. repeat split; lra.
Qed.
Lemma hyp_th q t : hyp q t = th (clipR (q * t)).
Proof. reflexivity. Qed.
Lemma hyp_noclip q t : 0 <= q * t <= MAX_EXP_ARG -> hyp q t = th (q * t).
Proof. intros H. rewrite hyp_th, clip_pos, Rmin_left by lra. reflexivity. Qed.

(** ** One layer *)
Lemma seen_flow b y u v : 0 < b -> 0 < y -> 0 <= u -> 0 <= v -> seen b (seen b y (th u)) (th v) = seen b y (th (u + v)).
Proof.
  intros Hb Hy Hu Hv. rewrite (th_plus u v Hu Hv). pose proof (th_range u Hu). pose proof (th_range v Hv). set (S := th u) in *. set (T := th v) in *.
  unfold seen.
  assert (0 <= y * S) by (apply Rmult_le_pos; lra). assert (0 <= y * T) by (apply Rmult_le_pos; lra). assert (0 <= S * T) by (apply Rmult_le_pos; lra).
  assert (0 <= b * S) by (apply Rmult_le_pos; lra). assert (0 <= b * T) by (apply Rmult_le_pos; lra). assert (0 <= b * (S * T)) by (apply Rmult_le_pos; lra).
  assert (0 <= y * (S * T)) by (apply Rmult_le_pos; lra).
  field. repeat split; try lra.
  assert (0 < b * b) by nra. assert (0 <= b * (y * S)) by (apply Rmult_le_pos; lra). assert (0 <= b * (y * T)) by (apply Rmult_le_pos; lra). assert (0 <= b * (b * (S * T))) by (apply Rmult_le_pos; lra). nra.
Qed.
Section Box.
  Variables m M : R.
  Hypothesis Hm : 0 < m.
  Definition inb (x : R) : Prop := m <= x <= M.
  Lemma seen_box b y T : inb b -> inb y -> 0 <= T < 1 -> inb (seen b y T).
  Proof using Hm.
    unfold inb. intros Hb Hy HT. split.
    - rewrite <- (seen_same m T) by lra. eapply Rle_trans; [apply (seen_incr_x m m y T); lra|]. apply seen_incr_b; lra.
    - rewrite <- (seen_same M T) by lra. eapply Rle_trans; [apply (seen_incr_x b y M T); lra|]. apply seen_incr_b; lra.
  Qed.
  Lemma seen_lip b x x' T : inb b -> inb x -> inb x' -> 0 <= T < 1 -> Rabs (seen b x' T - seen b x T) <= Rabs (x' - x).
  Proof using Hm.
    unfold inb. intros Hb Hx Hx' HT. rewrite seen_diff_x by lra.
    assert (D1 : b <= b + x * T) by (assert (0 <= x * T) by (apply Rmult_le_pos; lra); lra).
    assert (D2 : b <= b + x' * T) by (assert (0 <= x' * T) by (apply Rmult_le_pos; lra); lra).
    assert (DD : b * b <= (b + x * T) * (b + x' * T)) by (apply Rmult_le_compat; lra).
    assert (Bp : 0 < b * b) by nra. assert (0 <= 1 - T * T <= 1) by nra.
    unfold Rdiv. rewrite Rabs_mult, Rabs_mult, Rabs_inv, (Rabs_pos_eq ((b + x * T) * _)) by lra.
    rewrite (Rabs_pos_eq (b * b * (1 - T * T))) by (apply Rmult_le_pos; lra).
    change (b * b * (1 - T * T) * Rabs (x' - x) / ((b + x * T) * (b + x' * T)) <= Rabs (x' - x)).
    apply Rle_div_l; [lra|]. rewrite (Rmult_comm (Rabs _)). apply Rmult_le_compat_r; [apply Rabs_pos|]. nra.
  Qed.
  Lemma sq_diff x y : inb x -> inb y -> Rabs (x * x - y * y) <= M * M.
  Proof using Hm. unfold inb. intros Hx Hy. apply Rabs_le. split; nra. Qed.
  Lemma seen_move b y u : inb b -> inb y -> 0 <= u -> Rabs (seen b y (th u) - y) <= M * M / m * u.
  Proof using Hm.
    intros Hb Hy Hu. pose proof (th_range u Hu) as T1. pose proof (th_upper u Hu) as T2. pose proof (sq_diff b y Hb Hy) as Q. unfold inb in *.
    assert (D1 : b <= b + y * th u) by (assert (0 <= y * th u) by (apply Rmult_le_pos; lra); lra).
    replace (seen b y (th u) - y) with (th u * (b * b - y * y) / (b + y * th u)) by (unfold seen; field; lra).
    unfold Rdiv. rewrite Rabs_mult, Rabs_mult, Rabs_inv, (Rabs_pos_eq (th u)), (Rabs_pos_eq (b + _)) by lra.
    apply Rle_trans with (u * (M * M) * / m); [|right; field; lra].
    apply Rmult_le_compat; [apply Rmult_le_pos; [lra|apply Rabs_pos]|left; apply Rinv_0_lt_compat; lra| |apply Rinv_le_contravar; lra].
    apply Rmult_le_compat; [lra|apply Rabs_pos|lra|exact Q].
  Qed.
  Lemma seen_step b y u : inb b -> inb y -> 0 <= u ->
    Rabs (seen b y (th u) - y - u * (b - y * y / b)) <= 2 * (M ^ 3 / m ^ 2) * u ^ 2.
  Proof using Hm.
    intros Hb Hy Hu. pose proof (th_range u Hu) as T1. pose proof (th_upper u Hu) as T2. pose proof (th_lower u Hu) as T3. pose proof (sq_diff b y Hb Hy) as Q. unfold inb in *.
    assert (Y0 : 0 <= y * th u) by (apply Rmult_le_pos; lra).
    set (T := th u) in *.
    replace (seen b y T - y - u * (b - y * y / b)) with ((b * b - y * y) * (b * (T - u) - y * (u * T)) / (b * (b + y * T))) by (unfold seen; field; lra).
    assert (N1 : Rabs (b * (T - u) - y * (u * T)) <= 2 * M * u ^ 2).
    { assert (0 <= u * T <= u ^ 2) by (simpl; nra). assert (0 <= u - T <= u ^ 2) by lra.
      assert (0 <= b * (u - T) <= M * u ^ 2) by (split; [apply Rmult_le_pos; lra|apply Rmult_le_compat; lra]).
      assert (0 <= y * (u * T) <= M * u ^ 2) by (split; [apply Rmult_le_pos; lra|apply Rmult_le_compat; lra]).
      apply Rabs_le. split; lra. }
    assert (DD : m ^ 2 <= b * (b + y * T)) by (replace (m ^ 2) with (m * m) by ring; apply Rmult_le_compat; lra).
    assert (mp : 0 < m ^ 2) by (apply pow_lt; lra).
    unfold Rdiv. rewrite Rabs_mult, Rabs_mult, Rabs_inv, (Rabs_pos_eq (b * _)) by lra.
    apply Rle_trans with ((M * M) * (2 * M * u ^ 2) * / m ^ 2); [|right; field; lra].
    apply Rmult_le_compat; [apply Rmult_le_pos; apply Rabs_pos|left; apply Rinv_0_lt_compat; lra| |apply Rinv_le_contravar; lra].
    apply Rmult_le_compat; [apply Rabs_pos|apply Rabs_pos|exact Q|exact N1].
  Qed.

  (** ** One period *)
  Definition through (q : R) (c : list (R * R)) (y : R) : R := fold_right (fun l x => seen (fst l) x (th (q * snd l))) y c.
  Definition drift (q : R) (c : list (R * R)) (y : R) : R := fold_right Rplus 0 (map (fun l => q * snd l * (fst l - y * y / fst l)) c).
  Definition okc (c : list (R * R)) : Prop := Forall (fun l => inb (fst l) /\ 0 <= snd l) c.
  Lemma total_nonneg c : okc c -> 0 <= total_thickness c.
  Proof using Type. induction 1 as [|l c [_ H] _ IH]; unfold total_thickness in *; cbn [map fold_right]; lra. Qed.
  Lemma period_step q y : 0 <= q -> inb y -> forall c, okc c -> let S := q * total_thickness c in
    inb (through q c y) /\ Rabs (through q c y - y) <= M * M / m * S /\
    Rabs (through q c y - y - drift q c y) <= 4 * (M ^ 3 / m ^ 2) * S ^ 2.
  Proof using Hm.
    intros Hq Hy. induction c as [|[b t] c IH]; intros Hc S.
    - unfold S, total_thickness, drift, through. cbn [fold_right map]. split; [exact Hy|].
      rewrite Rmult_0_r, !Rminus_0_r, Rminus_eq_0, Rabs_R0. simpl. split; lra.
    - inversion Hc as [|? ? [Hb Ht] Hc']; subst. cbn [fst snd] in *. destruct (IH Hc') as (I1 & I2 & I3). pose proof (total_nonneg c Hc') as P.
      set (S' := q * total_thickness c) in *. set (x := through q c y) in *. set (u := q * t).
      assert (Hu : 0 <= u) by (unfold u; apply Rmult_le_pos; lra). assert (HS' : 0 <= S') by (unfold S'; apply Rmult_le_pos; lra).
      assert (ES : S = u + S') by (unfold S, S', u, total_thickness; cbn [map fold_right snd]; ring).
      change (through q ((b, t) :: c) y) with (seen b x (th u)).
      pose proof (seen_move b x u Hb I1 Hu) as A1. pose proof (seen_step b x u Hb I1 Hu) as A2.
      assert (ED : drift q ((b, t) :: c) y = u * (b - y * y / b) + drift q c y) by (unfold drift; cbn [map fold_right fst snd]; reflexivity).
      split; [apply seen_box; [exact Hb|exact I1|now apply th_range]|]. split.
      + replace (seen b x (th u) - y) with ((seen b x (th u) - x) + (x - y)) by ring.
        eapply Rle_trans; [apply Rabs_triang|]. rewrite ES. lra.
      + rewrite ED.
        replace (seen b x (th u) - y - (u * (b - y * y / b) + drift q c y))
          with ((seen b x (th u) - x - u * (b - x * x / b)) + (u * ((y * y - x * x) / b) + (x - y - drift q c y))) by (unfold inb in Hb; field; lra).
        assert (K0 : 0 < M ^ 3 / m ^ 2) by (unfold inb in Hb; apply Rdiv_lt_0_compat; apply pow_lt; lra).
        assert (A3 : Rabs (u * ((y * y - x * x) / b)) <= 2 * (M ^ 3 / m ^ 2) * (u * S')).
        { unfold inb in *. replace (u * ((y * y - x * x) / b)) with (u * ((y + x) * / b * (y - x))) by (field; lra).
          rewrite Rabs_mult, (Rabs_pos_eq u) by lra. rewrite Rabs_mult. rewrite (Rabs_pos_eq ((y + x) * / b)) by (apply Rmult_le_pos; [lra|left; apply Rinv_0_lt_compat; lra]).
          rewrite (Rabs_minus_sym y x).
          apply Rle_trans with (u * ((2 * M * / m) * (M * M / m * S'))); [|right; field; lra].
          apply Rmult_le_compat_l; [lra|]. apply Rmult_le_compat; [apply Rmult_le_pos; [lra|left; apply Rinv_0_lt_compat; lra]|apply Rabs_pos| |exact I2].
          apply Rmult_le_compat; [lra|left; apply Rinv_0_lt_compat; lra|lra|apply Rinv_le_contravar; lra]. }
        eapply Rle_trans; [apply Rabs_triang|]. eapply Rle_trans; [apply Rplus_le_compat_l, Rabs_triang|]. rewrite ES.
        replace (4 * (M ^ 3 / m ^ 2) * (u + S') ^ 2) with (2 * (M ^ 3 / m ^ 2) * u ^ 2 + (2 * (M ^ 3 / m ^ 2) * (u * S') + 4 * (M ^ 3 / m ^ 2) * S' ^ 2) + (M ^ 3 / m ^ 2) * (2 * u ^ 2 + 6 * (u * S'))) by ring.
        assert (0 <= (M ^ 3 / m ^ 2) * (2 * u ^ 2 + 6 * (u * S'))).
        { apply Rmult_le_pos; [lra|]. assert (0 <= u ^ 2) by apply pow2_ge_0. assert (0 <= u * S') by now apply Rmult_le_pos. lra. }
        lra.
  Qed.

  (** ** The averages *)
  Lemma mean_facts c : okc c -> 0 < total_thickness c ->
    inb (mean_eps c) /\ / M <= mean_inv_eps c <= / m /\ 0 < m <= M.
  Proof using Hm.
    intros Hc HT.
    assert (Hmm : m <= M).
    { destruct c as [|l c]; [unfold total_thickness in HT; simpl in HT; lra|]. inversion Hc as [|? ? [Hl _] _]; subst. unfold inb in Hl. lra. }
    assert (A : m * total_thickness c <= fold_right Rplus 0 (map (fun l => fst l * snd l) c) <= M * total_thickness c /\
                / M * total_thickness c <= fold_right Rplus 0 (map (fun l => snd l / fst l) c) <= / m * total_thickness c).
    { clear HT. induction Hc as [|[b t] c [Hb Ht] _ IH]; unfold total_thickness in *; cbn [map fold_right fst snd] in *; [lra|]. unfold inb in Hb.
      assert (m * t <= b * t <= M * t) by (split; apply Rmult_le_compat_r; lra).
      assert (/ M <= / b <= / m) by (split; apply Rinv_le_contravar; lra).
      assert (/ M * t <= t / b <= / m * t) by (unfold Rdiv; rewrite (Rmult_comm t); split; apply Rmult_le_compat_r; lra).
      lra. }
    destruct A as [[A1 A2] [A3 A4]]. unfold inb, mean_eps, mean_inv_eps. repeat split; try lra.
    - apply Rle_div_r; lra.
    - apply Rle_div_l; lra.
    - apply Rle_div_r; lra.
    - apply Rle_div_l; lra.
  Qed.
  Definition stretch (c : list (R * R)) : R := sqrt (mean_eps c * mean_inv_eps c).
  Lemma film_facts c : okc c -> 0 < total_thickness c ->
    inb (film_eps c) /\ 0 < stretch c /\ stretch c ^ 2 <= M / m /\
    stretch c * film_eps c = mean_eps c /\ stretch c / film_eps c = mean_inv_eps c.
  Proof using Hm.
    intros Hc HT. destruct (mean_facts c Hc HT) as ([P1 P2] & [S1 S2] & _ & Hmm). unfold film_eps, stretch, inb in *.
    set (p := mean_eps c) in *. set (s := mean_inv_eps c) in *.
    assert (0 < / M) by (apply Rinv_0_lt_compat; lra). assert (s0 : 0 < s) by lra. assert (p0 : 0 < p) by lra.
    assert (ps : 0 < p / s) by now apply Rdiv_lt_0_compat. assert (pps : 0 < p * s) by now apply Rmult_lt_0_compat.
    assert (B0 : 0 < sqrt (p / s)) by now apply sqrt_lt_R0.
    assert (I1 : s * m <= 1) by (apply Rmult_le_compat_r with (r := m) in S2; [rewrite Rinv_l in S2; lra|lra]).
    assert (I2 : 1 <= s * M) by (apply Rmult_le_compat_r with (r := M) in S1; [rewrite Rinv_l in S1; lra|lra]).
    split; [split|split; [|split; [|split]]].
    - rewrite <- (sqrt_square m) by lra. apply sqrt_le_1; [nra|lra|]. rewrite <- Rle_div_r by lra. nra.
    - rewrite <- (sqrt_square M) by lra. apply sqrt_le_1; [lra|nra|]. rewrite Rle_div_l by lra. nra.
    - now apply sqrt_lt_R0.
    - rewrite pow2_sqrt by lra. rewrite <- Rle_div_r by lra. apply Rle_trans with (p * 1); [rewrite Rmult_assoc; apply Rmult_le_compat_l; lra|lra].
    - rewrite <- sqrt_mult by lra. replace (p * s * (p / s)) with (p * p) by (field; lra). apply sqrt_square. lra.
    - rewrite <- sqrt_div by lra. replace (p * s / (p / s)) with (s * s) by (field; lra). apply sqrt_square. lra.
  Qed.
  Lemma drift_mean q c y : okc c -> 0 < total_thickness c -> drift q c y = q * total_thickness c * (mean_eps c - y * y * mean_inv_eps c).
  Proof using Hm.
    intros Hc HT. unfold mean_eps, mean_inv_eps. set (T := total_thickness c) in *.
    replace (q * T * (fold_right Rplus 0 (map (fun l => fst l * snd l) c) / T - y * y * (fold_right Rplus 0 (map (fun l => snd l / fst l) c) / T)))
      with (q * (fold_right Rplus 0 (map (fun l => fst l * snd l) c) - y * y * fold_right Rplus 0 (map (fun l => snd l / fst l) c))) by (field; lra).
    clear HT T. unfold drift. induction Hc as [|[b t] c [Hb Ht] _ IH]; cbn [map fold_right fst snd] in *; [ring|]. rewrite IH. unfold inb in Hb. field. lra.
  Qed.
  Lemma period_film q c y : 0 <= q -> okc c -> 0 < total_thickness c -> inb y ->
    Rabs (through q c y - seen (film_eps c) y (th (stretch c * (q * total_thickness c)))) <= 6 * (M ^ 4 / m ^ 3) * (q * total_thickness c) ^ 2.
  Proof using Hm.
    intros Hq Hc HT Hy. destruct (period_step q y Hq Hy c Hc) as (_ & _ & A). destruct (film_facts c Hc HT) as (B1 & B2 & B3 & B4 & B5).
    destruct (mean_facts c Hc HT) as (_ & _ & _ & Hmm). rewrite (drift_mean q c y Hc HT) in A. set (u := q * total_thickness c) in *.
    assert (Hu : 0 <= u) by (unfold u; apply Rmult_le_pos; lra).
    assert (Hs : 0 <= stretch c * u) by (apply Rmult_le_pos; lra).
    pose proof (seen_step (film_eps c) y (stretch c * u) B1 Hy Hs) as A2.
    replace (stretch c * u * (film_eps c - y * y / film_eps c)) with (u * (mean_eps c - y * y * mean_inv_eps c)) in A2 by (rewrite <- B4, <- B5; unfold inb in B1; field; lra).
    set (F := seen (film_eps c) y (th (stretch c * u))) in *. set (G := through q c y) in *. set (d := u * (mean_eps c - y * y * mean_inv_eps c)) in *.
    replace (G - F) with ((G - y - d) - (F - y - d)) by ring. unfold Rminus at 1. eapply Rle_trans; [apply Rabs_triang|]. rewrite Rabs_Ropp.
    assert (K0 : 0 < M ^ 3 / m ^ 2) by (apply Rdiv_lt_0_compat; apply pow_lt; lra).
    assert (U0 : 0 <= u ^ 2) by apply pow2_ge_0.
    assert (R1 : 1 <= M / m) by (apply Rle_div_r; lra).
    replace (6 * (M ^ 4 / m ^ 3) * u ^ 2) with (6 * ((M ^ 3 / m ^ 2) * u ^ 2) * (M / m)) by (field; lra).
    replace ((stretch c * u) ^ 2) with (stretch c ^ 2 * u ^ 2) in A2 by ring.
    set (W := (M ^ 3 / m ^ 2) * u ^ 2) in *. assert (W0 : 0 <= W) by (unfold W; apply Rmult_le_pos; lra).
    replace (4 * (M ^ 3 / m ^ 2) * u ^ 2) with (4 * W) in A by (unfold W; ring).
    replace (2 * (M ^ 3 / m ^ 2) * (stretch c ^ 2 * u ^ 2)) with (2 * (W * stretch c ^ 2)) in A2 by (unfold W; ring).
    assert (W * stretch c ^ 2 <= W * (M / m)) by (apply Rmult_le_compat_l; lra).
    assert (W * 1 <= W * (M / m)) by (apply Rmult_le_compat_l; lra). lra.
  Qed.

  (** ** N periods *)
  Lemma iterate_close (f g : R -> R) d y : (forall x, inb x -> inb (f x)) -> (forall x, inb x -> inb (g x)) ->
    (forall x x', inb x -> inb x' -> Rabs (g x - g x') <= Rabs (x - x')) ->
    (forall x, inb x -> Rabs (f x - g x) <= d) -> inb y ->
    forall k, Rabs (Nat.iter k f y - Nat.iter k g y) <= INR k * d /\ inb (Nat.iter k f y) /\ inb (Nat.iter k g y).
  Proof using Type.
    intros Hf Hg Hl Hd Hy. induction k as [|k (I1 & I2 & I3)].
    - cbn [Nat.iter]. rewrite Rminus_eq_0, Rabs_R0. simpl. split; [lra|]. split; exact Hy.
    - split; [|split; [apply Hf; exact I2|apply Hg; exact I3]]. rewrite S_INR.
      change (Rabs (f (Nat.iter k f y) - g (Nat.iter k g y)) <= (INR k + 1) * d).
      set (a := Nat.iter k f y) in *. set (b := Nat.iter k g y) in *.
      replace (f a - g b) with ((f a - g a) + (g a - g b)) by ring. eapply Rle_trans; [apply Rabs_triang|].
      pose proof (Hd a I2). pose proof (Hl a b I2 I3). lra.
  Qed.
  Lemma through_app q c c' y : through q (c ++ c') y = through q c (through q c' y).
  Proof using Type. unfold through. now rewrite fold_right_app. Qed.
  Lemma through_repeat q c y : forall k, through q (concat (repeat c k)) y = Nat.iter k (through q c) y.
  Proof using Type. induction k as [|k IH]; [reflexivity|]. cbn [repeat concat]. rewrite through_app, IH. reflexivity. Qed.
  Lemma film_iter B y u : inb B -> inb y -> 0 <= u -> forall k, Nat.iter k (fun x => seen B x (th u)) y = seen B y (th (INR k * u)).
  Proof using Hm.
    intros HB Hy Hu. unfold inb in *. induction k as [|k IH].
    - cbn [Nat.iter nat_rect INR]. rewrite Rmult_0_l. unfold th. replace (-2 * 0) with 0 by ring. rewrite exp_0. unfold seen. simpl. field. lra.
    - change (seen B (Nat.iter k (fun x => seen B x (th u)) y) (th u) = seen B y (th (INR (S k) * u))). rewrite IH.
      rewrite seen_flow; try lra; [|apply Rmult_le_pos; [apply pos_INR|exact Hu]]. rewrite S_INR. do 2 f_equal. ring.
  Qed.
End Box.
