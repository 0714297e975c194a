(** * C100: from the residual of a root to the signal it reproduces *)
From Coq Require Import String Reals Lra Lia ZArith List Bool Permutation.
From Coquelicot Require Import Coquelicot.
From Coq Require Import List.
From Verif Require Import Num NumLemmas ModelBase ModelSample ModelTip StackLemmas Spec SpecSampling DemodLemmas ProofsTip ProofsTip2 ProofsTip3 ProofsTip5
  SpecRound SpecSolver ModelRound ModelRound2 ModelRoundInv RoundLemmas RoundLemmas2 ProofsPassive ProofsTaylor ProofsDefault ProofsRounding ProofsRounding2 ProofsRounding3
  ProofsSampling3 ProofsSampling5 ProofsTotal ProofsTotal2 ProofsTotal3 ProofsTotal4.
Import ListNotations.
Open Scope R_scope.

Lemma poly_at_shift c z k : (Cpown z k * poly_at c z)%C = Csum (map (fun j => nth (j - k) c (RtoC 0) * Cpown z j)%C (seq k (length c))).
Proof.
  revert k. induction c as [|a c IH]; intros k; cbn [poly_at length seq map]; [cbn; ring|].
  unfold Csum in *. cbn [fold_right]. rewrite Nat.sub_diag. cbn [nth].
  replace (Cpown z k * (a + z * poly_at c z))%C with (a * Cpown z k + Cpown z (S k) * poly_at c z)%C by (cbn [Cpown]; ring).
  rewrite (IH (S k)). f_equal. f_equal. apply map_ext_in. intros j Hj. apply in_seq in Hj. replace (j - k)%nat with (S (j - S k)) by lia. reflexivity.
Qed.
Lemma poly_at_sum c z : poly_at c z = Csum (map (fun j => nth j c (RtoC 0) * Cpown z j)%C (seq 0 (length c))).
Proof.
  rewrite <- (Cmult_1_l (poly_at c z)). change (RtoC 1) with (Cpown z 0). rewrite (poly_at_shift c z 0). apply Csum_ext_in. intros j _. now rewrite Nat.sub_0_r.
Qed.
Lemma Cmod_sum_Rl (f : nat -> C) l : Cmod (Csum (map f l)) <= Rl (fun j => Cmod (f j)) l.
Proof.
  unfold Csum, Rl. induction l as [|a l IH]; cbn [map fold_right]; [rewrite Cmod_0; lra|]. eapply Rle_trans; [apply Cmod_triangle|]. lra.
Qed.
Lemma Rl_plus f g l : Rl (fun j => f j + g j) l = Rl f l + Rl g l.
Proof. unfold Rl. induction l as [|a l IH]; cbn [map fold_right]; [ring|]. rewrite IH. ring. Qed.
Lemma Csum_minus (f g : nat -> C) l : (Csum (map f l) - Csum (map g l))%C = Csum (map (fun j => f j - g j)%C l).
Proof. unfold Csum. induction l as [|a l IH]; cbn [map fold_right]; [ring|]. rewrite <- IH. ring. Qed.
Lemma total_offset m alpha (a' : nat -> C) n :
  total (k_offset m alpha (map a' (seq 0 (S n)))) = Cmod (ksub m (a' 0%nat) alpha) + Rl (fun j => Cmod (a' j)) (seq 1 n).
Proof. unfold total, Rl. cbn [seq map k_offset fold_right]. rewrite map_map. reflexivity. Qed.
Lemma nth_offset m alpha (a' : nat -> C) n j : (j < S n)%nat ->
  nth j (k_offset m alpha (map a' (seq 0 (S n)))) (RtoC 0) = if Nat.eqb j 0 then ksub m (a' 0%nat) alpha else a' j.
Proof.
  intros H. cbn [seq map k_offset]. destruct j as [|j]; [reflexivity|]. cbn [nth Nat.eqb].
  rewrite (nth_indep _ (RtoC 0) (a' 0%nat)) by (rewrite map_length, seq_length; lia). rewrite map_nth, seq_nth by lia. reflexivity.
Qed.

Lemma inverse_rounding u eta (m : machine) roots (a a' : nat -> C) (W e : nat -> R) (alpha beta b : C) delta S :
  rounding u m -> 0 <= u <= / 10 ^ 6 -> 0 <= eta <= / 10 ^ 3 -> backward_stable eta roots ->
  Cmod beta <= 101 / 100 -> Cmod (b - beta)%C <= delta -> delta <= / 10 ^ 4 ->
  (forall j, (j < 16)%nat -> ap (a j) (a' j) (W j) (W j * (1 + e j)) /\ 0 <= e j <= 1 / 20) ->
  1002 / 1000 * Rl (fun j => W j * (1 + e j) * (101 / 100) ^ j) (seq 1 15) <= S ->
  In b (roots (k_offset m alpha (map a' (seq 0 16)))) ->
  Cmod (Csum (map (fun j => a j * Cpown beta j)%C (seq 0 16)) - alpha)%C
  <= Rl (fun j => W j * (101 / 100) ^ j * (106 / 100 * e j + 12 / 10 * (INR j * delta))) (seq 0 16) + 2 * u * S + 37 * eta * S.
Proof.
  intros [Hm _] [Hu Hu1] [He He1] HB Hb Hd Hd1 Ha HS Hin.
  assert (D0 : 0 <= delta) by (eapply Rle_trans; [apply Cmod_ge_0|exact Hd]).
  set (c := k_offset m alpha (map a' (seq 0 16))) in *. destruct (HB c) as (c' & Lc & Dc & Rc). specialize (Rc b Hin).
  assert (LEN : length c = 16%nat) by reflexivity. rewrite LEN in *.
  set (nn := total c) in *. set (cj := fun j => nth j c (RtoC 0)). set (cj' := fun j => nth j c' (RtoC 0)).
  assert (N0 : 0 <= nn).
  { unfold nn, total. clear. induction c as [|x c IH]; cbn [map fold_right]; [lra|]. pose proof (Cmod_ge_0 x). lra. }
  assert (AB : ap beta b (101 / 100) (101 / 100 + delta)) by (split; [exact Hb|lra]).
  assert (PB : forall j, (j < 16)%nat -> (101 / 100 + delta) ^ j <= (101 / 100) ^ j * (1 + 10 / 9 * (INR j * delta)) /\ INR j * delta <= 15 / 10 ^ 4).
  { intros j Hj. assert (J : INR j <= 15) by (replace 15 with (INR 15) by (cbn; lra); apply le_INR; lia). pose proof (pos_INR j) as J0.
    assert (JX : 0 <= INR j * delta <= 15 / 10 ^ 4) by (split; [apply Rmult_le_pos; lra|apply Rle_trans with (15 * / 10 ^ 4); [apply Rmult_le_compat; lra|lra]]).
    split; [|lra]. apply Rle_trans with ((101 / 100 * (1 + delta)) ^ j); [apply pow_incr; lra|].
    rewrite Rpow_mult_distr. apply Rmult_le_compat_l; [apply pow_le; lra|]. apply pow_1_lin; lra. }
  assert (BJ : forall j, (j < 16)%nat -> Cmod (Cpown b j) <= 1002 / 1000 * (101 / 100) ^ j).
  { intros j Hj. destruct (PB j Hj) as [P1 P2]. rewrite Cmod_pown. apply Rle_trans with ((101 / 100 + delta) ^ j).
    - apply pow_incr. split; [apply Cmod_ge_0|]. replace b with ((b - beta) + beta)%C by ring. eapply Rle_trans; [apply Cmod_triangle|]. lra.
    - eapply Rle_trans; [exact P1|]. rewrite Rmult_comm. apply Rmult_le_compat_r; [apply pow_le; lra|lra]. }
  assert (SB : Rl (fun j => Cmod (Cpown b j)) (seq 0 16) <= 18).
  { eapply Rle_trans; [apply (Rl_le _ (fun j => 1002 / 1000 * (101 / 100) ^ j)); intros j Hj; apply in_seq in Hj; apply BJ; lia|].
    unfold Rl. cbn [seq map fold_right]. lra. }
  (* the computed coefficients *)
  assert (MA : forall j, (j < 16)%nat -> Cmod (a' j) <= W j * (1 + e j) /\ 0 <= W j * (1 + e j)).
  { intros j Hj. destruct (Ha j Hj) as [[A1 A2] E]. pose proof (Cmod_ge_0 (a j)). split.
    - replace (a' j) with ((a' j - a j) + a j)%C by ring. eapply Rle_trans; [apply Cmod_triangle|]. lra.
    - apply Rmult_le_pos; lra. }
  assert (CJ : forall j, (j < 16)%nat -> cj j = if Nat.eqb j 0 then ksub m (a' 0%nat) alpha else a' j).
  { intros j Hj. apply nth_offset. lia. }
  assert (ROOT : Csum (map (fun j => cj' j * Cpown b j)%C (seq 0 16)) = RtoC 0).
  { rewrite <- Rc, poly_at_sum, Lc. reflexivity. }
  set (dj := fun j => (cj' j - cj j)%C).
  assert (DJ : forall j, (j < 16)%nat -> Cmod (dj j) <= eta * nn) by (intros j Hj; apply Dc; exact Hj).
  assert (EN0 : 0 <= eta * nn) by (apply Rmult_le_pos; lra).
  assert (SD : Cmod (Csum (map (fun j => dj j * Cpown b j)%C (seq 0 16))) <= 18 * (eta * nn)).
  { eapply Rle_trans; [apply Cmod_sum_Rl|]. apply Rle_trans with (Rl (fun j => eta * nn * Cmod (Cpown b j)) (seq 0 16)).
    - apply Rl_le. intros j Hj. apply in_seq in Hj. rewrite Cmod_mult. apply Rmult_le_compat_r; [apply Cmod_ge_0|]. apply DJ. lia.
    - rewrite Rl_scal. rewrite (Rmult_comm 18). apply Rmult_le_compat_l; assumption. }
  assert (SC : Csum (map (fun j => cj j * Cpown b j)%C (seq 0 16)) = (- Csum (map (fun j => dj j * Cpown b j)%C (seq 0 16)))%C).
  { assert (X : (Csum (map (fun j => cj' j * Cpown b j)%C (seq 0 16)) - Csum (map (fun j => cj j * Cpown b j)%C (seq 0 16)))%C = Csum (map (fun j => dj j * Cpown b j)%C (seq 0 16))).
    { rewrite Csum_minus. apply Csum_ext_in. intros j _. unfold dj. ring. }
    rewrite <- X, ROOT. ring. }
  set (c0 := ksub m (a' 0%nat) alpha) in *.
  assert (SPLIT : forall f : nat -> C, Csum (map f (seq 0 16)) = (f 0%nat + Csum (map f (seq 1 15)))%C) by (intros f; reflexivity).
  assert (S1 : Rl (fun j => Cmod (a' j) * Cmod (Cpown b j)) (seq 1 15) <= S).
  { eapply Rle_trans; [|exact HS]. rewrite <- Rl_scal. apply Rl_le. intros j Hj. apply in_seq in Hj. destruct (MA j ltac:(lia)) as [M1 M2].
    pose proof (BJ j ltac:(lia)) as B1. replace (1002 / 1000 * (W j * (1 + e j) * (101 / 100) ^ j)) with (W j * (1 + e j) * (1002 / 1000 * (101 / 100) ^ j)) by ring.
    apply Rmult_le_compat; auto; apply Cmod_ge_0. }
  assert (S2 : Rl (fun j => Cmod (a' j)) (seq 1 15) <= S).
  { eapply Rle_trans; [|exact HS]. rewrite <- Rl_scal. apply Rl_le. intros j Hj. apply in_seq in Hj. destruct (MA j ltac:(lia)) as [M1 M2].
    assert (P1 : 1 <= (101 / 100) ^ j) by (apply pow_R1_Rle; lra). assert (W j * (1 + e j) * 1 <= W j * (1 + e j) * (101 / 100) ^ j) by (apply Rmult_le_compat_l; assumption). lra. }
  assert (C0 : Cmod c0 <= S + 18 * (eta * nn)).
  { rewrite SPLIT in SC. rewrite (CJ 0%nat ltac:(lia)) in SC. cbn [Nat.eqb Cpown] in SC.
    assert (X : c0 = (- Csum (map (fun j => dj j * Cpown b j)%C (seq 0 16)) - Csum (map (fun j => cj j * Cpown b j)%C (seq 1 15)))%C) by (rewrite <- SC; ring).
    rewrite X. eapply Rle_trans; [apply Cmod_triangle|]. rewrite !Cmod_opp.
    assert (Y : Cmod (Csum (map (fun j => cj j * Cpown b j)%C (seq 1 15))) <= S).
    { eapply Rle_trans; [apply Cmod_sum_Rl|]. eapply Rle_trans; [|exact S1]. apply Rl_le. intros j Hj. apply in_seq in Hj. rewrite Cmod_mult, CJ by lia.
      destruct j as [|j]; [lia|]. cbn [Nat.eqb]. lra. }
    lra. }
  assert (NN : nn <= 204 / 100 * S).
  { assert (X : nn = Cmod c0 + Rl (fun j => Cmod (a' j)) (seq 1 15)) by (apply (total_offset m alpha a' 15)).
    assert (eta * nn <= / 10 ^ 3 * nn) by (apply Rmult_le_compat_r; lra). lra. }
  assert (S0 : 0 <= S) by lra.
  assert (EN : eta * nn <= 204 / 100 * (eta * S)) by (apply Rle_trans with (eta * (204 / 100 * S)); [apply Rmult_le_compat_l; lra|lra]).
  assert (ES : 0 <= eta * S <= / 10 ^ 3 * S) by (split; [apply Rmult_le_pos; lra|apply Rmult_le_compat_r; lra]).
  assert (K0 : Cmod (a' 0%nat - alpha - c0)%C <= 2 * u * S).
  { pose proof (ksub_near u m Hu Hm (a' 0%nat) alpha) as K. fold c0 in K. unfold cnear in K. set (w := (a' 0%nat - alpha)%C) in *.
    assert (X : Cmod w <= Cmod c0 + Cmod (c0 - w)%C).
    { replace w with (c0 - (c0 - w))%C at 1 by ring. eapply Rle_trans; [apply Cmod_triangle|]. rewrite Cmod_opp. lra. }
    assert (Y : u * Cmod w <= / 10 ^ 6 * Cmod w) by (apply Rmult_le_compat_r; [apply Cmod_ge_0|lra]).
    assert (Z : Cmod w <= 2 * S) by lra. replace (w - c0)%C with (- (c0 - w))%C by ring. rewrite Cmod_opp.
    eapply Rle_trans; [exact K|]. apply Rle_trans with (u * (2 * S)); [apply Rmult_le_compat_l; assumption|lra]. }
  assert (F : Cmod (Csum (map (fun j => a j * Cpown beta j)%C (seq 0 16)) - Csum (map (fun j => a' j * Cpown b j)%C (seq 0 16)))%C
    <= Rl (fun j => W j * (101 / 100) ^ j * (106 / 100 * e j + 12 / 10 * (INR j * delta))) (seq 0 16)).
  { rewrite Csum_minus. eapply Rle_trans; [apply Cmod_sum_Rl|]. apply Rl_le. intros j Hj. apply in_seq in Hj.
    destruct (Ha j ltac:(lia)) as [Aj Ej]. destruct (PB j ltac:(lia)) as [P1 P2].
    assert (AP : ap (Cpown beta j) (Cpown b j) ((101 / 100) ^ j) ((101 / 100 + delta) ^ j)).
    { clear - AB D0. induction j as [|j IH]; [apply ap_refl; cbn; rewrite Cmod_1; lra|]. cbn [Cpown pow]. now apply ap_mul. }
    destruct (ap_mul _ _ _ _ _ _ _ _ Aj AP) as [_ Q]. rewrite <- Cmod_opp.
    replace (- (a j * Cpown beta j - a' j * Cpown b j))%C with (a' j * Cpown b j - a j * Cpown beta j)%C by ring. eapply Rle_trans; [exact Q|].
    assert (W0 : 0 <= W j) by (apply (ap_BM _ _ _ _ Aj)).
    set (w := W j) in *. set (ej := e j) in *. set (p := (101 / 100) ^ j) in *. assert (Pp : 0 < p) by (apply pow_lt; lra).
    set (y := INR j * delta) in *. assert (Y0 : 0 <= y) by (apply Rmult_le_pos; [apply pos_INR|exact D0]).
    assert (X1 : w * (1 + ej) * (101 / 100 + delta) ^ j <= w * (1 + ej) * (p * (1 + 10 / 9 * y))) by (apply Rmult_le_compat_l; [apply Rmult_le_pos; lra|exact P1]).
    assert (X2 : ej * y <= ej * (15 / 10 ^ 4)) by (apply Rmult_le_compat_l; lra).
    assert (X3 : w * p * ((1 + ej) * (1 + 10 / 9 * y) - 1) <= w * p * (106 / 100 * ej + 12 / 10 * y)) by (apply Rmult_le_compat_l; [apply Rmult_le_pos; lra|lra]).
    lra. }
  assert (G : (Csum (map (fun j => a' j * Cpown b j)%C (seq 0 16)) - alpha)%C = ((a' 0%nat - alpha - c0) + Csum (map (fun j => cj j * Cpown b j)%C (seq 0 16)))%C).
  { rewrite !SPLIT. rewrite (CJ 0%nat ltac:(lia)). cbn [Nat.eqb Cpown]. fold c0.
    replace (Csum (map (fun j => cj j * Cpown b j)%C (seq 1 15))) with (Csum (map (fun j => a' j * Cpown b j)%C (seq 1 15))); [ring|].
    apply Csum_ext_in. intros j Hj. apply in_seq in Hj. rewrite CJ by lia. destruct j as [|j]; [lia|]. reflexivity. }
  replace (Csum (map (fun j => a j * Cpown beta j)%C (seq 0 16)) - alpha)%C
    with ((Csum (map (fun j => a j * Cpown beta j)%C (seq 0 16)) - Csum (map (fun j => a' j * Cpown b j)%C (seq 0 16))) + (Csum (map (fun j => a' j * Cpown b j)%C (seq 0 16)) - alpha))%C by ring.
  rewrite G, SC. eapply Rle_trans; [apply Cmod_triangle|]. eapply Rle_trans; [apply Rplus_le_compat_l, Cmod_triangle|]. rewrite Cmod_opp. lra.
Qed.
