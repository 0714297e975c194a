(** * C99: photonic band gaps and pass bands of periodic coatings *)
From Coq Require Import String Reals Lra Lia ZArith List Bool.
From Coquelicot Require Import Rcomplements Complex.
From Verif Require Import Num NumLemmas ModelBase ModelSample ModelTip StackLemmas Spec SpecCoating
  ProofsStackQS ProofsStackQS2 ProofsStackFF ProofsStackFF2 ProofsBulkFF ProofsCoating ProofsCoating2.
Import ListNotations.
Open Scope R_scope.

Fixpoint rpow (m : rmat) (N : nat) : rmat := match N with O => rid | S N' => rmul m (rpow m N') end.
Lemma char_repeat p cell N : char_matrix p (concat (repeat cell N)) = rpow (char_matrix p cell) N.
Proof. induction N as [|N IH]; [reflexivity|]. cbn [repeat concat rpow]. now rewrite char_app, IH. Qed.

(** Cayley-Hamilton *)
Lemma rpow_rec m : unimod m -> forall N,
  rA (rpow m (S (S N))) = 2 * half_trace m * rA (rpow m (S N)) - rA (rpow m N) /\
  rB (rpow m (S (S N))) = 2 * half_trace m * rB (rpow m (S N)) - rB (rpow m N) /\
  rC (rpow m (S (S N))) = 2 * half_trace m * rC (rpow m (S N)) - rC (rpow m N) /\
  rD (rpow m (S (S N))) = 2 * half_trace m * rD (rpow m (S N)) - rD (rpow m N).
Proof.
  intros U N. cbn [rpow]. set (P := rpow m N). clearbody P. unfold unimod in U. unfold half_trace, rmul. cbn [rA rB rC rD].
  repeat split; apply Rminus_diag_uniq.
  - transitivity ((1 - (rA m * rD m + rB m * rC m)) * rA P); [field|rewrite U; ring].
  - transitivity ((1 - (rA m * rD m + rB m * rC m)) * rB P); [field|rewrite U; ring].
  - transitivity ((1 - (rA m * rD m + rB m * rC m)) * rC P); [field|rewrite U; ring].
  - transitivity ((1 - (rA m * rD m + rB m * rC m)) * rD P); [field|rewrite U; ring].
Qed.

(** the trace of a power in a gap *)
Definition gap_rate (h : R) : R := Rabs h + sqrt (h ^ 2 - 1).
Lemma gap_rate_spec h : 1 < Rabs h -> 1 < gap_rate h /\ gap_rate h + / gap_rate h = 2 * Rabs h.
Proof.
  intros H. unfold gap_rate. rewrite <- (pow2_abs h). set (a := Rabs h) in *. assert (P : 0 < a ^ 2 - 1) by nra.
  pose proof (sqrt_lt_R0 _ P) as S0. pose proof (sqrt_sqrt (a ^ 2 - 1) ltac:(lra)) as SS. set (w := sqrt (a ^ 2 - 1)) in *. split; [lra|].
  assert (E : (a + w) * (a - w) = 1) by nra. replace (/ (a + w)) with (a - w); [ring|].
  apply (Rmult_eq_reg_l (a + w)); [|lra]. rewrite E, Rinv_r by lra. reflexivity.
Qed.
Lemma gap_trace m : unimod m -> 1 < Rabs (half_trace m) -> forall N,
  let s := if Rle_dec 0 (half_trace m) then 1 else -1 in let l := gap_rate (half_trace m) in
  rA (rpow m N) + rD (rpow m N) = s ^ N * (l ^ N + (/ l) ^ N).
Proof.
  intros U H N s l. destruct (gap_rate_spec _ H) as [L1 L2]. fold l in L1, L2.
  assert (SH : s * Rabs (half_trace m) = half_trace m /\ s * s = 1).
  { unfold s. destruct (Rle_dec 0 (half_trace m)) as [X|X]; [rewrite Rabs_right by lra|rewrite Rabs_left by lra]; split; ring. }
  destruct SH as [SH SS].
  assert (ALL : rA (rpow m N) + rD (rpow m N) = s ^ N * (l ^ N + (/ l) ^ N) /\ rA (rpow m (S N)) + rD (rpow m (S N)) = s ^ S N * (l ^ S N + (/ l) ^ S N)).
  { induction N as [|N [I1 I2]].
    - split; [cbn; ring|]. cbn [rpow rmul rid rA rB rC rD]. cbn [pow]. unfold rmul, rid; cbn [rA rB rC rD].
      transitivity (2 * half_trace m); [unfold half_trace; field|]. rewrite !Rmult_1_r, L2. rewrite <- SH at 1. ring.
    - split; [exact I2|]. destruct (rpow_rec m U N) as (R1 & _ & _ & R4). rewrite R1, R4.
      transitivity (2 * half_trace m * (rA (rpow m (S N)) + rD (rpow m (S N))) - (rA (rpow m N) + rD (rpow m N))); [ring|]. rewrite I1, I2, <- SH.
      replace (2 * (s * Rabs (half_trace m))) with (s * (l + / l)) by (rewrite L2; ring). cbn [pow].
      set (X := l ^ N). set (Y := (/ l) ^ N). set (Z := s ^ N).
      replace (s * (s * Z)) with ((s * s) * Z) by ring. rewrite SS.
      transitivity (Z * ((s * s) * ((l + / l) * (l * X + / l * Y)) - (X + Y))); [ring|]. rewrite SS. field. lra. }
  exact (proj1 ALL).
Qed.

(** C99. Photonic band gaps: if half the trace of the characteristic matrix of a lossless unit cell exceeds 1 in magnitude, N periods of
    it transmit at most 8 y0 ys / min(y0, ys)^2 lambda^(-2N), lambda = |h| + sqrt(h^2 - 1) > 1: a perfect mirror in the limit. *)
Lemma C99_band_gap_proof :
  forall (p : bool) (nu q e0 k0 es ks : R) (cell : list layer) (N : nat) nu0,
  transparent nu q e0 k0 -> Forall (fun l => transparent nu q (lay_eps l) (lay_k l)) cell -> transparent nu q es ks ->
  let y0 := adm p e0 k0 in let ys := adm p es ks in let h := half_trace (char_matrix p cell) in
  let ls := concat (repeat cell N) in let s := stack (map RtoC (e0 :: map lay_eps ls ++ [es])) (map lay_t ls) nu0 in
  1 < Rabs h ->
  let lambda := Rabs h + sqrt (h ^ 2 - 1) in
  1 < lambda /\
  exists r t : C,
    refl_coef s (Some q) None (Some nu) (pol p) = Ok (Some r) /\
    trans_coef s (Some q) None (Some nu) (pol p) = Ok (Some t) /\
    ys / y0 * Cmod t ^ 2 <= 8 * y0 * ys / (Rmin y0 ys ^ 2 * lambda ^ (2 * N)) /\
    1 - 8 * y0 * ys / (Rmin y0 ys ^ 2 * lambda ^ (2 * N)) <= Cmod r ^ 2 < 1.
Proof.
  intros p nu q e0 k0 es ks cell N nu0 H0 HC Hs y0 ys h ls s Hh lambda.
  destruct (gap_rate_spec h Hh) as [L1 L2]. change (gap_rate h) with lambda in L1, L2. split; [exact L1|].
  assert (HL : Forall (ok_layer nu q) ls).
  { unfold ls. clear ls s. induction N as [|N IH]; cbn [repeat concat]; [constructor|]. apply Forall_app. split; [exact HC|exact IH]. }
  destruct (C99_lossless_coating_proof p nu q e0 k0 es ks ls nu0 H0 HL Hs) as (r & t & Er & Et & ET & ER & EP). fold y0 ys s in Er, Et, ET, ER, EP.
  exists r, t. split; [exact Er|]. split; [exact Et|].
  pose proof (adm_pos p nu q e0 k0 H0) as P0. pose proof (adm_pos p nu q es ks Hs) as Ps. fold y0 in P0. fold ys in Ps.
  assert (Eh : char_matrix p ls = rpow (char_matrix p cell) N) by (apply char_repeat). rewrite Eh in ET, ER, EP. set (m := rpow (char_matrix p cell) N) in *.
  pose proof (unimod_char p nu q cell HC) as U.
  pose proof (gap_trace (char_matrix p cell) U Hh N) as TR. cbv zeta in TR. fold h m in TR. change (gap_rate h) with lambda in TR.
  assert (T2 : (lambda ^ N) ^ 2 <= (rA m + rD m) ^ 2).
  { rewrite TR, Rpow_mult_distr. replace (((if Rle_dec 0 h then 1 else -1) ^ N) ^ 2) with 1.
    - rewrite Rmult_1_l. apply pow_incr. assert (0 < lambda ^ N) by (apply pow_lt; lra). assert (0 < (/ lambda) ^ N) by (apply pow_lt; apply Rinv_0_lt_compat; lra). lra.
    - rewrite <- pow_mult, Nat.mul_comm, pow_mult. destruct (Rle_dec 0 h); [replace (1 ^ 2) with 1 by ring|replace ((-1) ^ 2) with 1 by ring]; now rewrite pow1. }
  replace (lambda ^ (2 * N)) with ((lambda ^ N) ^ 2) by (now rewrite <- pow_mult, Nat.mul_comm).
  assert (PL : 0 < (lambda ^ N) ^ 2) by (apply pow_lt, pow_lt; lra). set (L := (lambda ^ N) ^ 2) in *.
  assert (PM : 0 < Rmin y0 ys) by (now apply Rmin_glb_lt). pose proof (Rmin_l y0 ys) as ML. pose proof (Rmin_r y0 ys) as MR. set (mn := Rmin y0 ys) in *.
  assert (DB : mn ^ 2 * L / 2 <= 2 * y0 * ys + (y0 * rA m) ^ 2 + (ys * rD m) ^ 2 + (y0 * ys * rB m) ^ 2 + rC m ^ 2).
  { assert (0 < y0 * ys) by (now apply Rmult_lt_0_compat). pose proof (pow2_ge_0 (y0 * ys * rB m)). pose proof (pow2_ge_0 (rC m)).
    assert (Q1 : mn ^ 2 * rA m ^ 2 <= (y0 * rA m) ^ 2) by (rewrite Rpow_mult_distr; apply Rmult_le_compat_r; [apply pow2_ge_0|apply pow_incr; lra]).
    assert (Q2 : mn ^ 2 * rD m ^ 2 <= (ys * rD m) ^ 2) by (rewrite Rpow_mult_distr; apply Rmult_le_compat_r; [apply pow2_ge_0|apply pow_incr; lra]).
    assert (Q3 : (rA m + rD m) ^ 2 <= 2 * (rA m ^ 2 + rD m ^ 2)) by (pose proof (pow2_ge_0 (rA m - rD m)); lra).
    assert (Q4 : mn ^ 2 * L <= mn ^ 2 * (2 * (rA m ^ 2 + rD m ^ 2))) by (apply Rmult_le_compat_l; [apply pow2_ge_0|lra]). lra. }
  assert (PB : 0 < mn ^ 2 * L / 2) by (apply Rdiv_lt_0_compat; [apply Rmult_lt_0_compat; [now apply pow_lt|exact PL]|lra]).
  set (D := 2 * y0 * ys + _ + _ + _ + _) in *.
  assert (TB : 4 * y0 * ys / D <= 8 * y0 * ys / (mn ^ 2 * L)).
  { replace (8 * y0 * ys / (mn ^ 2 * L)) with (4 * y0 * ys / (mn ^ 2 * L / 2)) by (field; split; lra).
    unfold Rdiv at 1 2. apply Rmult_le_compat_l; [assert (0 < y0 * ys) by (now apply Rmult_lt_0_compat); lra|]. now apply Rinv_le_contravar. }
  split; [lra|]. lra.
Qed.

(** ** Pass bands *)
Lemma cheb (X : nat -> R) th : sin th <> 0 -> (forall N, X (S (S N)) = 2 * cos th * X (S N) - X N) ->
  forall N, X N * sin th = X 1%nat * sin (INR N * th) - X 0%nat * (sin (INR N * th) * cos th - cos (INR N * th) * sin th).
Proof.
  intros S0 HX N.
  assert (ALL : X N * sin th = X 1%nat * sin (INR N * th) - X 0%nat * (sin (INR N * th) * cos th - cos (INR N * th) * sin th) /\
    X (S N) * sin th = X 1%nat * sin (INR (S N) * th) - X 0%nat * (sin (INR (S N) * th) * cos th - cos (INR (S N) * th) * sin th)).
  { induction N as [|N [I1 I2]].
    - cbn [INR]. rewrite Rmult_0_l, Rmult_1_l, sin_0, cos_0. split; ring.
    - split; [exact I2|]. rewrite HX. transitivity (2 * cos th * (X (S N) * sin th) - X N * sin th); [ring|]. rewrite I1, I2.
      rewrite !S_INR. set (a := INR N * th). replace ((INR N + 1) * th) with (a + th) by (unfold a; ring). replace ((INR N + 1 + 1) * th) with (a + th + th) by (unfold a; ring).
      rewrite !sin_plus, !cos_plus, ?sin_plus. pose proof (sin2_cos2 th) as E. unfold Rsqr in E.
      set (c := cos th) in *. set (w := sin th) in *. set (ca := cos a). set (sa := sin a).
      apply Rminus_diag_uniq.
      transitivity ((w * w + c * c - 1) * (X 1%nat * sa - X 0%nat * (sa * c - ca * w))); [ring|rewrite E; ring]. }
  exact (proj1 ALL).
Qed.
Lemma cheb_bound (X : nat -> R) th : 0 < sin th -> (forall N, X (S (S N)) = 2 * cos th * X (S N) - X N) ->
  forall N, Rabs (X N) <= (Rabs (X 1%nat) + 2 * Rabs (X 0%nat)) / sin th.
Proof.
  intros S0 HX N. pose proof (cheb X th ltac:(lra) HX N) as E. apply Rle_div_r; [exact S0|]. rewrite <- (Rabs_right (sin th)) by lra. rewrite <- Rabs_mult, E.
  eapply Rle_trans; [apply Rabs_triang|]. rewrite Rabs_Ropp, !Rabs_mult.
  assert (B : forall x, Rabs (sin x) <= 1 /\ Rabs (cos x) <= 1) by (intros x; pose proof (SIN_bound x); pose proof (COS_bound x); split; apply Rabs_le; lra).
  apply Rplus_le_compat.
  - rewrite <- (Rmult_1_r (Rabs (X 1%nat))) at 2. apply Rmult_le_compat_l; [apply Rabs_pos|apply B].
  - rewrite (Rmult_comm 2). apply Rmult_le_compat_l; [apply Rabs_pos|]. eapply Rle_trans; [apply Rabs_triang|]. rewrite Rabs_Ropp, !Rabs_mult.
    destruct (B (INR N * th)) as [B1 B2], (B th) as [B3 B4].
    pose proof (Rabs_pos (sin (INR N * th))). pose proof (Rabs_pos (cos (INR N * th))). pose proof (Rabs_pos (sin th)). pose proof (Rabs_pos (cos th)). nra.
Qed.

(** C99. Pass bands: if half the trace is below 1 in magnitude, the transmitted power stays above one positive constant whatever the
    number of periods: no lossless stack is a mirror there however thick. *)
Lemma C99_pass_band_proof :
  forall (p : bool) (nu q e0 k0 es ks : R) (cell : list layer),
  transparent nu q e0 k0 -> Forall (fun l => transparent nu q (lay_eps l) (lay_k l)) cell -> transparent nu q es ks ->
  Rabs (half_trace (char_matrix p cell)) < 1 ->
  exists c : R, 0 < c /\
  forall (N : nat) nu0,
  let ls := concat (repeat cell N) in let s := stack (map RtoC (e0 :: map lay_eps ls ++ [es])) (map lay_t ls) nu0 in
  exists r t : C,
    refl_coef s (Some q) None (Some nu) (pol p) = Ok (Some r) /\
    trans_coef s (Some q) None (Some nu) (pol p) = Ok (Some t) /\
    c <= adm p es ks / adm p e0 k0 * Cmod t ^ 2 /\ Cmod r ^ 2 <= 1 - c.
Proof.
  intros p nu q e0 k0 es ks cell H0 HC Hs Hh.
  set (y0 := adm p e0 k0). set (ys := adm p es ks). set (M := char_matrix p cell) in *. set (h := half_trace M) in *.
  pose proof (adm_pos p nu q e0 k0 H0) as P0. pose proof (adm_pos p nu q es ks Hs) as Ps. fold y0 in P0. fold ys in Ps.
  pose proof (unimod_char p nu q cell HC) as U. fold M in U.
  apply Rabs_def2 in Hh. set (th := acos h). assert (CT : cos th = h) by (apply cos_acos; lra).
  assert (ST : 0 < sin th).
  { unfold th. rewrite sin_acos by lra. apply sqrt_lt_R0. unfold Rsqr. nra. }
  set (bd := fun X : rmat -> R => (Rabs (X (rpow M 1)) + 2 * Rabs (X (rpow M 0))) / sin th).
  assert (B : forall N, Rabs (rA (rpow M N)) <= bd rA /\ Rabs (rB (rpow M N)) <= bd rB /\ Rabs (rC (rpow M N)) <= bd rC /\ Rabs (rD (rpow M N)) <= bd rD).
  { intros N. unfold bd. repeat split.
    - apply (cheb_bound (fun n => rA (rpow M n)) th ST). intros n. rewrite CT. exact (proj1 (rpow_rec M U n)).
    - apply (cheb_bound (fun n => rB (rpow M n)) th ST). intros n. rewrite CT. exact (proj1 (proj2 (rpow_rec M U n))).
    - apply (cheb_bound (fun n => rC (rpow M n)) th ST). intros n. rewrite CT. exact (proj1 (proj2 (proj2 (rpow_rec M U n)))).
    - apply (cheb_bound (fun n => rD (rpow M n)) th ST). intros n. rewrite CT. exact (proj2 (proj2 (proj2 (rpow_rec M U n)))). }
  set (K := 2 * y0 * ys + (y0 * bd rA) ^ 2 + (ys * bd rD) ^ 2 + (y0 * ys * bd rB) ^ 2 + bd rC ^ 2).
  assert (PP : 0 < y0 * ys) by (now apply Rmult_lt_0_compat).
  assert (PK : 0 < K).
  { unfold K. pose proof (pow2_ge_0 (y0 * bd rA)). pose proof (pow2_ge_0 (ys * bd rD)). pose proof (pow2_ge_0 (y0 * ys * bd rB)). pose proof (pow2_ge_0 (bd rC)). lra. }
  exists (4 * y0 * ys / K). split; [apply Rdiv_lt_0_compat; lra|]. intros N nu0 ls s.
  assert (HL : Forall (ok_layer nu q) ls).
  { unfold ls. clear ls s. induction N as [|N IH]; cbn [repeat concat]; [constructor|]. apply Forall_app. split; [exact HC|exact IH]. }
  destruct (C99_lossless_coating_proof p nu q e0 k0 es ks ls nu0 H0 HL Hs) as (r & t & Er & Et & ET & ER & EP). fold y0 ys s in Er, Et, ET, ER, EP.
  exists r, t. split; [exact Er|]. split; [exact Et|].
  assert (Eh : char_matrix p ls = rpow M N) by (apply char_repeat). rewrite Eh in ET, ER, EP. destruct (B N) as (B1 & B2 & B3 & B4). set (m := rpow M N) in *.
  assert (SQ : forall w x b, 0 <= w -> Rabs x <= b -> (w * x) ^ 2 <= (w * b) ^ 2).
  { intros w x b Hw Hx. rewrite !Rpow_mult_distr. apply Rmult_le_compat_l; [apply pow2_ge_0|]. rewrite <- (pow2_abs x). apply pow_incr. split; [apply Rabs_pos|exact Hx]. }
  pose proof (SQ y0 _ _ ltac:(lra) B1) as S1. pose proof (SQ (y0 * ys) _ _ ltac:(lra) B2) as S2. pose proof (SQ 1 _ _ ltac:(lra) B3) as S3. pose proof (SQ ys _ _ ltac:(lra) B4) as S4.
  rewrite !Rmult_1_l in S3.
  assert (DB : 2 * y0 * ys + (y0 * rA m) ^ 2 + (ys * rD m) ^ 2 + (y0 * ys * rB m) ^ 2 + rC m ^ 2 <= K) by (unfold K; lra).
  assert (PD : 0 < 2 * y0 * ys + (y0 * rA m) ^ 2 + (ys * rD m) ^ 2 + (y0 * ys * rB m) ^ 2 + rC m ^ 2).
  { pose proof (pow2_ge_0 (y0 * rA m)). pose proof (pow2_ge_0 (ys * rD m)). pose proof (pow2_ge_0 (y0 * ys * rB m)). pose proof (pow2_ge_0 (rC m)). lra. }
  set (D := 2 * y0 * ys + (y0 * rA m) ^ 2 + (ys * rD m) ^ 2 + (y0 * ys * rB m) ^ 2 + rC m ^ 2) in *.
  assert (TB : 4 * y0 * ys / K <= 4 * y0 * ys / D) by (unfold Rdiv; apply Rmult_le_compat_l; [lra|]; now apply Rinv_le_contravar).
  split; lra.
Qed.

(** C99. Both cases occur: the quarter-wave cell with admittances 1 and 1/2 at normal incidence (half trace -5/4, lambda 2) is in a gap,
    and a single layer of phase pi/2 (half trace 0) is in a pass band. *)
Lemma C99_bands_example_proof :
  let a : layer := (1, 1, PI / 2) in let b : layer := (4, 2, PI / 4) in
  transparent 1 0 (lay_eps a) (lay_k a) /\ transparent 1 0 (lay_eps b) (lay_k b) /\
  half_trace (char_matrix true [a; b]) = - (5 / 4) /\ half_trace (char_matrix true [b]) = 0.
Proof.
  intros a b. split; [unfold transparent, lay_eps, lay_k; cbn; repeat split; lra|]. split; [unfold transparent, lay_eps, lay_k; cbn; repeat split; lra|].
  assert (Pa : lay_phase a = PI / 2) by (unfold lay_phase, lay_k, lay_t; cbn; lra). assert (Pb : lay_phase b = PI / 2) by (unfold lay_phase, lay_k, lay_t; cbn; lra).
  unfold char_matrix, half_trace, rmul, layer_matrix, rid. cbn [fold_right rA rB rC rD]. rewrite Pa, Pb, cos_PI2, sin_PI2.
  unfold lay_adm, adm, lay_k, lay_eps. cbn [fst snd a b]. split; field.
Qed.
