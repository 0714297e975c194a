(** * C98: the Taylor series as computed, against the documented integrals *)
From Coq Require Import String Reals Lra Lia ZArith List Bool Permutation.
From Coquelicot Require Import Coquelicot.
From Coq Require Import List.
From Verif Require Import Num NumLemmas ModelBase ModelSample ModelTip StackLemmas Spec SpecSampling DemodLemmas ProofsTip ProofsTip2 ProofsTip3 ProofsTip5
  SpecRound ModelRound ModelRound2 RoundLemmas RoundLemmas2 ProofsPassive ProofsTaylor ProofsDefault ProofsRounding ProofsRounding2 ProofsRounding3
  ProofsSampling3 ProofsSampling5 ProofsTotal ProofsTotal2.
Import ListNotations.
Open Scope R_scope.

Lemma pow_1_lin x k : 0 <= x -> INR k * x <= 1 / 10 -> (1 + x) ^ k <= 1 + 10 / 9 * (INR k * x).
Proof.
  intros Hx Hk. eapply Rle_trans; [apply pow_le_exp; exact Hx|]. set (s := INR k * x) in *. assert (0 <= s) by (apply Rmult_le_pos; [apply pos_INR|exact Hx]).
  pose proof (one_plus_le_exp (- s)) as E. rewrite exp_Ropp in E. pose proof (exp_pos s).
  assert (exp s <= / (1 - s)).
  { rewrite <- (Rinv_inv (exp s)). apply Rinv_le_contravar; lra. }
  assert (/ (1 - s) <= 1 + 10 / 9 * s); [|lra]. apply Rmult_le_reg_r with (1 - s); [lra|]. rewrite Rinv_l by lra. nra.
Qed.

(** ** Powers *)
Section Power.
Variable u : R. Variable m : machine.
Hypothesis Hm : rounds u m. Hypothesis Hu : 0 <= u. Hypothesis Hu1 : u <= / 10 ^ 4.
Lemma kmul_ap x0 x B M y0 y B' M' : ap x0 x B M -> ap y0 y B' M' -> ap (x0 * y0)%C (kmul m x y) (B * B') ((1 + 4 * u) * (M * M')).
Proof. intros H1 H2. apply (ap_round (4 * u) _ (x * y)%C); [lra|now apply ap_mul|]. apply kmul_near; [exact Hu|lra|exact Hm]. Qed.
Lemma kpow_loop_ap n : forall a0 a Ba Ma p0 p Bp Mp, ap a0 a Ba Ma -> ap p0 p Bp Mp ->
  ap (a0 * Cpown p0 (Pos.to_nat n))%C (kpow_loop m a p n) (Ba * Bp ^ Pos.to_nat n) (Ma * ((1 + 4 * u) * Mp) ^ Pos.to_nat n).
Proof.
  assert (SQ : forall (x : C) k, Cpown (x * x)%C k = Cpown x (2 * k)).
  { intros x k. rewrite ProofsTaylor.Cpown_mult, <- Cpown_add. f_equal. lia. }
  assert (PQ : forall (x : R) k, (x * x) ^ k = x ^ (2 * k)).
  { intros x k. rewrite Rpow_mult_distr, <- pow_add. f_equal. lia. }
  induction n as [n IH|n IH|]; intros a0 a Ba Ma p0 p Bp Mp H1 H2; cbn [kpow_loop].
  - specialize (IH _ _ _ _ _ _ _ _ (kmul_ap _ _ _ _ _ _ _ _ H1 H2) (kmul_ap _ _ _ _ _ _ _ _ H2 H2)).
    rewrite Pos2Nat.inj_xI. rewrite SQ, PQ in IH.
    replace ((1 + 4 * u) * ((1 + 4 * u) * (Mp * Mp))) with (((1 + 4 * u) * Mp) * ((1 + 4 * u) * Mp)) in IH by ring. rewrite PQ in IH.
    cbn [Cpown pow]. eapply ap_weaken; [|apply Req_le; reflexivity|apply Rle_refl].
    replace (a0 * (p0 * Cpown p0 (2 * Pos.to_nat n)))%C with (a0 * p0 * Cpown p0 (2 * Pos.to_nat n))%C by ring.
    replace (Ba * (Bp * Bp ^ (2 * Pos.to_nat n))) with (Ba * Bp * Bp ^ (2 * Pos.to_nat n)) by ring.
    replace (Ma * ((1 + 4 * u) * Mp * ((1 + 4 * u) * Mp) ^ (2 * Pos.to_nat n))) with ((1 + 4 * u) * (Ma * Mp) * ((1 + 4 * u) * Mp) ^ (2 * Pos.to_nat n)) by ring.
    exact IH.
  - specialize (IH _ _ _ _ _ _ _ _ H1 (kmul_ap _ _ _ _ _ _ _ _ H2 H2)).
    rewrite Pos2Nat.inj_xO. rewrite SQ, PQ in IH.
    replace ((1 + 4 * u) * ((1 + 4 * u) * (Mp * Mp))) with (((1 + 4 * u) * Mp) * ((1 + 4 * u) * Mp)) in IH by ring. rewrite PQ in IH. exact IH.
  - pose proof (kmul_ap _ _ _ _ _ _ _ _ H1 H2) as H. change (Pos.to_nat 1) with 1%nat. cbn [Cpown pow].
    replace (a0 * (p0 * RtoC 1))%C with (a0 * p0)%C by ring. rewrite Rmult_1_r. replace (Ma * ((1 + 4 * u) * Mp * 1)) with ((1 + 4 * u) * (Ma * Mp)) by ring. exact H.
Qed.
Lemma one_ap : ap (RtoC 1) (RtoC 1) 1 1.
Proof. apply ap_refl. rewrite Cmod_1. lra. Qed.
Lemma kpow_ap k x0 x B M : ap x0 x B M -> ap (Cpown x0 k) (kpow m x (Z.of_nat k)) (B ^ k) (((1 + 4 * u) * M) ^ k).
Proof.
  intros H. destruct k as [|k]; [cbn; exact one_ap|].
  cbn [Z.of_nat kpow]. pose proof (kpow_loop_ap (Pos.of_succ_nat k) _ _ _ _ _ _ _ _ one_ap H) as Q.
  rewrite SuccNat2Pos.id_succ in Q. rewrite !Rmult_1_l in Q. replace (RtoC 1 * Cpown x0 (S k))%C with (Cpown x0 (S k)) in Q by ring. exact Q.
Qed.

(** ** Sums of terms of different sizes *)
Definition Rl (f : nat -> R) (l : list nat) : R := fold_right Rplus 0 (map f l).
Lemma Rl_app f l l' : Rl f (l ++ l') = Rl f l + Rl f l'.
Proof. unfold Rl. induction l as [|a l IH]; cbn [app map fold_right]; [ring|]. rewrite IH. ring. Qed.
Lemma Rl_perm f l l' : Permutation l l' -> Rl f l = Rl f l'.
Proof. unfold Rl. induction 1; cbn [map fold_right]; try congruence. ring. Qed.
Lemma Rl_le f g l : (forall k, In k l -> f k <= g k) -> Rl f l <= Rl g l.
Proof.
  unfold Rl. induction l as [|a l IH]; intros H; cbn [map fold_right]; [lra|]. pose proof (H a (or_introl eq_refl)).
  assert (fold_right Rplus 0 (map f l) <= fold_right Rplus 0 (map g l)) by (apply IH; intros; apply H; now right). lra.
Qed.
Lemma Rl_pos f l : (forall k, In k l -> 0 <= f k) -> 0 <= Rl f l.
Proof.
  unfold Rl. induction l as [|a l IH]; intros H; cbn [map fold_right]; [lra|]. pose proof (H a (or_introl eq_refl)).
  assert (0 <= fold_right Rplus 0 (map f l)) by (apply IH; intros; apply H; now right). lra.
Qed.
Lemma Rl_scal c f l : Rl (fun k => c * f k) l = c * Rl f l.
Proof. unfold Rl. induction l as [|a l IH]; cbn [map fold_right]; [ring|]. rewrite IH. ring. Qed.
Lemma Rl_minus f g l : Rl f l - Rl g l = Rl (fun k => f k - g k) l.
Proof. unfold Rl. induction l as [|a l IH]; cbn [map fold_right]; [ring|]. rewrite <- IH. ring. Qed.
Lemma ksum_ap_w t v0 v B M : (forall k, In k (leaves t) -> ap (v0 k) (v k) (B k) (M k)) ->
  ap (Sl v0 (leaves t)) (ksum m t v) (Rl B (leaves t)) ((1 + u) ^ order_height t * Rl M (leaves t)).
Proof.
  induction t as [k|l IHl r IHr]; intros H; cbn [leaves ksum order_height] in *.
  - specialize (H k (or_introl eq_refl)). unfold Sl, Csum, Rl. cbn [map fold_right]. simpl pow. rewrite Cplus_0_r, !Rplus_0_r, ?Rmult_1_l. exact H.
  - assert (Hl := IHl (fun k Hk => H k (in_or_app _ _ _ (or_introl Hk)))).
    assert (Hr := IHr (fun k Hk => H k (in_or_app _ _ _ (or_intror Hk)))).
    pose proof (ap_round u _ _ _ _ _ Hu (ap_add _ _ _ _ _ _ _ _ Hl Hr) (kadd_near u m Hu Hm _ _)) as Hb.
    unfold Sl in *. rewrite map_app, Csum_app, !Rl_app. apply (ap_weaken _ _ _ _ _ _ Hb); [lra|].
    assert (Pl : 0 <= Rl M (leaves l)).
    { apply Rl_pos. intros k Hk. pose proof (ap_BM _ _ _ _ (H k (in_or_app _ _ _ (or_introl Hk)))). lra. }
    assert (Pr : 0 <= Rl M (leaves r)).
    { apply Rl_pos. intros k Hk. pose proof (ap_BM _ _ _ _ (H k (in_or_app _ _ _ (or_intror Hk)))). lra. }
    assert (X : (1 + u) ^ order_height l <= (1 + u) ^ Nat.max (order_height l) (order_height r)) by (apply Rle_pow; [lra|lia]).
    assert (Y : (1 + u) ^ order_height r <= (1 + u) ^ Nat.max (order_height l) (order_height r)) by (apply Rle_pow; [lra|lia]).
    cbn [pow]. set (q := (1 + u) ^ Nat.max _ _) in *.
    assert (X' : (1 + u) ^ order_height l * Rl M (leaves l) <= q * Rl M (leaves l)) by (apply Rmult_le_compat_r; assumption).
    assert (Y' : (1 + u) ^ order_height r * Rl M (leaves r) <= q * Rl M (leaves r)) by (apply Rmult_le_compat_r; assumption).
    assert (Z : (1 + u) * ((1 + u) ^ order_height l * Rl M (leaves l) + (1 + u) ^ order_height r * Rl M (leaves r)) <= (1 + u) * (q * Rl M (leaves l) + q * Rl M (leaves r))) by (apply Rmult_le_compat_l; lra).
    lra.
Qed.
End Power.

(** sixteen terms a_j beta^j, computed in any order *)
Lemma taylor_rounding u (m : machine) (a a' : nat -> C) (W e : nat -> R) (beta b : C) delta :
  rounding u m -> 0 <= u <= / 10 ^ 6 -> Cmod beta <= 101 / 100 -> Cmod (b - beta)%C <= delta -> delta <= / 10 ^ 4 ->
  (forall j, (j < 16)%nat -> ap (a j) (a' j) (W j) (W j * (1 + e j)) /\ 0 <= e j <= 1 / 20) ->
  Cmod (k_sum m (map (fun j => kmul m (a' j) (kpow m b (Z.of_nat j))) (seq 0 16)) - Csum (map (fun j => a j * Cpown beta j)%C (seq 0 16)))%C
  <= Rl (fun j => W j * (101 / 100) ^ j * (106 / 100 * e j + 12 / 10 * (INR j * (401 / 100 * u + delta)) + 25 * u)) (seq 0 16).
Proof.
  intros [Hm Ho] [Hu Hu1] Hb Hd Hd1 Ha.
  assert (D0 : 0 <= delta) by (eapply Rle_trans; [apply Cmod_ge_0|exact Hd]).
  assert (O16 : adds_up (m_order m 16) 16) by (apply Ho; lia).
  pose proof (height_of_sum _ _ O16) as HH.
  assert (Hu4 : u <= / 10 ^ 4) by lra.
  assert (AB : ap beta b (101 / 100) (101 / 100 + delta)) by (split; [exact Hb|lra]).
  set (B := fun j => W j * (101 / 100) ^ j).
  set (M := fun j => (1 + 4 * u) * (W j * (1 + e j) * ((1 + 4 * u) * (101 / 100 + delta)) ^ j)).
  set (v := fun j => kmul m (a' j) (kpow m b (Z.of_nat j))). set (v0 := fun j => (a j * Cpown beta j)%C).
  assert (V : forall j, (j < 16)%nat -> ap (v0 j) (v j) (B j) (M j)).
  { intros j Hj. apply (kmul_ap u m Hm Hu Hu4); [apply (Ha j Hj)|]. apply (kpow_ap u m Hm Hu Hu4). exact AB. }
  assert (LV : forall k, In k (leaves (m_order m 16)) -> (k < 16)%nat).
  { intros k Hk. apply (Permutation_in _ O16), in_seq in Hk. lia. }
  pose proof (ksum_ap_w u m Hm Hu (m_order m 16) v0 v B M (fun k Hk => V k (LV k Hk))) as [_ S].
  rewrite (Sl_adds_up _ _ v0 O16) in S. rewrite !(Rl_perm _ _ _ O16) in S.
  replace (k_sum m (map v (seq 0 16))) with (ksum m (m_order m 16) v).
  2: { unfold k_sum. change (length (map v (seq 0 16))) with 16%nat. cbn [map seq].
       apply ksum_ext. intros k Hk. apply LV in Hk. do 16 (destruct k as [|k]; [reflexivity|]). lia. }
  eapply Rle_trans; [exact S|]. rewrite <- Rl_scal, Rl_minus. apply Rl_le. intros j Hj. apply in_seq in Hj.
  destruct (Ha j ltac:(lia)) as [Aj Ej]. assert (W0 : 0 <= W j) by (apply (ap_BM _ _ _ _ Aj)).
  unfold M, B. set (x := 401 / 100 * u + delta). assert (X0 : 0 <= x <= 11 / 10 * / 10 ^ 4) by (unfold x; lra).
  assert (J : INR j <= 15) by (replace 15 with (INR 15) by (cbn; lra); apply le_INR; lia). pose proof (pos_INR j) as J0.
  assert (JX : 0 <= INR j * x <= 1 / 600) by (split; [apply Rmult_le_pos; lra|apply Rle_trans with (15 * (11 / 10 * / 10 ^ 4)); [apply Rmult_le_compat; lra|lra]]).
  assert (P1 : ((1 + 4 * u) * (101 / 100 + delta)) ^ j <= (101 / 100) ^ j * (1 + 10 / 9 * (INR j * x))).
  { apply Rle_trans with ((101 / 100 * (1 + x)) ^ j).
    - apply pow_incr. split; [apply Rmult_le_pos; lra|]. unfold x. assert (u * delta <= u * / 10 ^ 4) by (apply Rmult_le_compat_l; lra). lra.
    - rewrite Rpow_mult_distr. apply Rmult_le_compat_l; [apply pow_le; lra|]. apply pow_1_lin; lra. }
  assert (P2 : (1 + u) ^ order_height (m_order m 16) <= 1 + 168 / 10 * u).
  { apply Rle_trans with ((1 + u) ^ 15); [apply Rle_pow; [lra|lia]|]. eapply Rle_trans; [apply pow_1_lin; [exact Hu|]|]; replace (INR 15) with 15 by (cbn; lra); lra. }
  assert (P3 : (1 + u) ^ order_height (m_order m 16) * (1 + 4 * u) <= 1 + 21 * u).
  { apply Rle_trans with ((1 + 168 / 10 * u) * (1 + 4 * u)); [apply Rmult_le_compat_r; lra|].
    assert (u * u <= u * / 10 ^ 6) by (apply Rmult_le_compat_l; lra). lra. }
  set (h := (1 + u) ^ order_height (m_order m 16)) in *. set (b0 := (101 / 100) ^ j) in *. set (y := 10 / 9 * (INR j * x)) in *.
  assert (Pb : 0 < b0) by (unfold b0; apply pow_lt; lra). assert (H0 : 0 <= h) by (unfold h; apply pow_le; lra).
  set (ej := e j) in *. set (w := W j) in *. set (q := ((1 + 4 * u) * (101 / 100 + delta)) ^ j) in *.
  assert (Q0 : 0 <= q) by (unfold q; apply pow_le; apply Rmult_le_pos; lra).
  assert (K : h * ((1 + 4 * u) * (w * (1 + ej) * q)) <= w * b0 * ((1 + 21 * u) * ((1 + ej) * (1 + y)))).
  { replace (h * ((1 + 4 * u) * (w * (1 + ej) * q))) with ((h * (1 + 4 * u)) * (w * (1 + ej) * q)) by ring.
    replace (w * b0 * ((1 + 21 * u) * ((1 + ej) * (1 + y)))) with ((1 + 21 * u) * (w * (1 + ej) * (b0 * (1 + y)))) by ring.
    apply Rmult_le_compat; [apply Rmult_le_pos; lra|repeat apply Rmult_le_pos; lra|exact P3|]. apply Rmult_le_compat_l; [apply Rmult_le_pos; lra|exact P1]. }
  assert (Y : 0 <= y <= 1 / 500) by (unfold y; lra).
  assert (L : (1 + 21 * u) * ((1 + ej) * (1 + y)) - 1 <= 106 / 100 * ej + 12 / 10 * (INR j * x) + 25 * u).
  { assert (E1 : (1 + ej) * (1 + y) <= 1 + ej * (501 / 500) + y) by (assert (ej * y <= ej * (1 / 500)) by (apply Rmult_le_compat_l; lra); lra).
    apply Rle_trans with ((1 + 21 * u) * (1 + ej * (501 / 500) + y) - 1); [apply Rplus_le_compat_r, Rmult_le_compat_l; lra|].
    assert (u * ej <= / 10 ^ 6 * ej) by (apply Rmult_le_compat_r; lra). assert (u * y <= u * (1 / 500)) by (apply Rmult_le_compat_l; lra). unfold y in *. lra. }
  assert (WB : 0 <= w * b0) by (apply Rmult_le_pos; lra).
  apply (Rmult_le_compat_l (w * b0)) in L; [|exact WB]. lra.
Qed.

(** one demodulated power: relative to B^j, error 2 ((1 + k u)^j - 1) + 670 u *)
Lemma demod_within2 u m g fk z A n B F :
  rounding u m -> 0 <= u <= / 10 ^ 4 -> (Z.abs n <= 4)%Z -> 0 <= z -> 0 < A ->
  (forall x, z <= x <= z + 2 * A -> Cmod (g x) <= B) ->
  (forall x x', z <= x <= z + 2 * A -> Rabs (x' - x) <= u * (201 / 100 * (z + A) + 67 * A) -> Cmod (fk x' - g x)%C <= F) ->
  Cmod (k_demod m (m_order m 32) fk (a_add m z A) A n 32 - tmean z A n 32 g)%C <= 2 * F + 670 * u * B.
Proof.
  intros Hm Hu Hn Hz HA Hg Hf.
  destruct (demod_within defaults0 u m (fun x => Ok (Some (g x))) g (fun x => Ok (fk x)) fk z A n B F Hm Hu eq_refl Hn Hz HA) as (v & w & Ew & Ev & Bd); auto.
  assert (E1 : k_demod_res m defaults0 (fun x => Ok (fk x)) (a_add m z A) A n None = Ok (k_demod m (m_order m 32) fk (a_add m z A) A n 32)).
  { apply (demod_res_demod m defaults0 (fun x => Ok (fk x)) fk (a_add m z A) A n None); [cbn; lia|apply Hm; cbn; lia|eauto|reflexivity]. }
  assert (E2 : demod defaults0 (fun x => Ok (Some (g x))) (z + A) A n None = Ok (Some (tmean z A n 32 g))).
  { apply (demod_tip defaults0 (fun x => Ok (Some (g x))) g z A n None); [cbn; lia|eauto|reflexivity]. }
  rewrite E1 in Ew. rewrite E2 in Ev. injection Ew as ->. injection Ev as ->. exact Bd.
Qed.
Lemma tmean_bound2 z A n N g B : N <> O -> 0 <= A -> (forall x, z <= x <= z + 2 * A -> Cmod (g x) <= B) -> Cmod (tmean z A n N g) <= B.
Proof. intros HN HA H. apply tmean_bound; [exact HN|]. intros k Hk. apply H. now apply ProofsDefault.tip_height_range. Qed.
Lemma power_term u (m : machine) g fk z A n B k j :
  rounding u m -> 0 <= u <= / 10 ^ 6 -> (Z.abs n <= 4)%Z -> 0 <= z -> 0 < A -> 0 <= B -> 0 <= k <= 1000 -> (j < 16)%nat ->
  (forall x, z <= x <= z + 2 * A -> Cmod (g x) <= B ^ j) ->
  (forall x x', z <= x <= z + 2 * A -> Rabs (x' - x) <= u * (201 / 100 * (z + A) + 67 * A) -> Cmod (fk x' - g x)%C <= (B * (1 + k * u)) ^ j - B ^ j) ->
  let e := 20 / 9 * (INR j * (k * u)) + 670 * u in
  ap (tmean z A n 32 g) (k_demod m (m_order m 32) fk (a_add m z A) A n 32) (B ^ j) (B ^ j * (1 + e)) /\ 0 <= e <= 35 / 1000.
Proof.
  intros Hm [Hu Hu1] Hn Hz HA HB Hk Hj Hg Hf e.
  assert (KU : 0 <= k * u <= / 10 ^ 3) by (split; [apply Rmult_le_pos; lra|apply Rle_trans with (1000 * / 10 ^ 6); [apply Rmult_le_compat; lra|lra]]).
  assert (J : INR j <= 15) by (replace 15 with (INR 15) by (cbn; lra); apply le_INR; lia). pose proof (pos_INR j) as J0.
  assert (JK : 0 <= INR j * (k * u) <= 15 / 1000) by (split; [apply Rmult_le_pos; lra|apply Rle_trans with (15 * / 10 ^ 3); [apply Rmult_le_compat; lra|lra]]).
  split; [|unfold e; lra]. split; [apply tmean_bound2; [lia|lra|exact Hg]|].
  eapply Rle_trans; [apply (demod_within2 u m g fk z A n (B ^ j) _ Hm ltac:(lra) Hn Hz HA Hg Hf)|].
  rewrite Rpow_mult_distr. pose proof (pow_1_lin (k * u) j ltac:(lra) ltac:(lra)) as P. assert (PB : 0 <= B ^ j) by (now apply pow_le).
  apply (Rmult_le_compat_l (B ^ j)) in P; [|exact PB]. unfold e. lra.
Qed.
