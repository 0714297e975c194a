(** * Proofs: consistency of the root-finding inverses *)
From Coq Require Import String Reals Lra Lia ZArith List Bool Permutation Sorted.
From Coquelicot Require Import Rcomplements Complex.
From Verif Require Import Num NumLemmas LimLemmas ModelBase ModelSample ModelTip NArr SpecArr NArrLemmas ModelObj SpecObj
  ModelArr ModelArrTip ModelInv StackLemmas Spec SpecPoly SpecInv SpecNear FTA ArrSample
  ProofsStackQS ProofsStackQS2 ProofsPassive DemodLemmas ProofsDemod ProofsTip ProofsTip2 ProofsTip3 ProofsTaylor
  ProofsArr ProofsArr2 ProofsArrTip InvLemmas ProofsInv ProofsInv2 ProofsInv3 ProofsInv4 ProofsNear.
Import ListNotations.
Open Scope R_scope.

(** ** Polynomials given by a sequence of coefficients *)
Lemma peval_snoc : forall l a x, peval (l ++ [a]) x = (peval l x + Cpown x (length l) * a)%C.
Proof. induction l as [|b l IH]; intros a x; cbn [app peval length Cpown]; [ring|]. rewrite IH. ring. Qed.
Lemma pderiv_snoc : forall l b a x, pderiv ((b :: l) ++ [a]) x = (pderiv (b :: l) x + RtoC (INR (S (length l))) * Cpown x (length l) * a)%C.
Proof.
  induction l as [|c l IH]; intros b a x.
  - cbn [app pderiv peval length Cpown]. change (INR 1) with 1. ring.
  - change ((b :: c :: l) ++ [a]) with (b :: ((c :: l) ++ [a])). cbn [pderiv]. rewrite peval_snoc.
    change (peval l x + x * pderiv l x)%C with (pderiv (c :: l) x).
    assert (E := IH c a x). cbn [app pderiv] in E. cbn [app pderiv]. rewrite E.
    cbn [length Cpown]. rewrite (S_INR (S (length l))), RtoC_plus. cbn [Cpown]. ring.
Qed.
Lemma peval_seq (f : nat -> C) x m : peval (map f (seq 0 m)) x = Csum_to (fun j => f j * Cpown x j)%C m.
Proof.
  induction m as [|m IH]; [reflexivity|]. rewrite seq_S, map_app. cbn [map]. rewrite peval_snoc, IH, map_length, seq_length.
  cbn [Csum_to Nat.add]. ring.
Qed.
Lemma pderiv_seq (f : nat -> C) x m : pderiv (map f (seq 0 (S m))) x = Csum_to (fun j => RtoC (INR (S j)) * f (S j) * Cpown x j)%C m.
Proof.
  induction m as [|m IH]; [cbn [seq map pderiv peval Csum_to]; ring|].
  rewrite seq_S, map_app. change (map f [(0 + S m)%nat]) with [f (S m)].
  change (seq 0 (S m)) with (0%nat :: seq 1 m) at 1. cbn [map]. rewrite pderiv_snoc, map_length, seq_length.
  change (f 0%nat :: map f (seq 1 m)) with (map f (seq 0 (S m))). rewrite IH. cbn [Csum_to]. ring.
Qed.
Lemma Csum_to_mean z A n N (g : nat -> R -> C) m :
  Csum_to (fun j => tmean z A n N (g j)) m = tmean z A n N (fun x => Csum_to (fun j => g j x) m).
Proof.
  induction m as [|m IH]; cbn [Csum_to]; [symmetry; apply tmean_zero|]. rewrite IH, <- tmean_plus. reflexivity.
Qed.

(** ** A solution near an approximate solution *)
Lemma degree_head : forall a b (l : list C) d, (1 <= d)%nat -> degree (a :: l) d -> degree (b :: l) d.
Proof.
  intros a b l d H [H1 H2]. destruct d as [|d]; [lia|]. split; [exact H1|]. intros [|k] Hk; [lia|]. apply (H2 (S k) Hk).
Qed.
Lemma near_solution : forall c al x, pderiv c x <> RtoC 0 ->
  exists d, degree c d /\ (1 <= d < length c)%nat /\
    exists b, peval c b = al /\ Cmod (b - x)%C <= INR d * Cmod (peval c x - al)%C / Cmod (pderiv c x).
Proof.
  intros [|a c] al x H; [now destruct H|].
  destruct (near_root ((a - al)%C :: c) x H) as (d & Hd & Hl & b & Hb & B).
  exists d. split; [apply (degree_head (a - al)%C); [lia|exact Hd]|]. split; [exact Hl|]. exists b. split.
  - cbn [peval] in *. replace al with (al + 0)%C by ring. rewrite <- Hb. ring.
  - cbn [peval] in *. cbn [pderiv] in *. replace (a + x * peval c x - al)%C with (a - al + x * peval c x)%C by ring. exact B.
Qed.
Lemma degree_trim : forall c d, degree c d -> exists t, t <> [] /\ last t (RtoC 0) <> RtoC 0 /\ forall x, peval t x = peval c x.
Proof.
  induction c as [|a c IH]; intros d [H1 H2]; [exfalso; apply H1; destruct d; reflexivity|]. destruct d as [|d].
  - exists [a]. split; [discriminate|]. split; [exact H1|]. intro x. cbn [peval].
    assert (Z : forall c, (forall k, nth k c (RtoC 0) = RtoC 0) -> peval c x = RtoC 0).
    { clear. induction c as [|b c IH]; intros H; [reflexivity|]. cbn [peval]. rewrite (IH (fun k => H (S k))).
      pose proof (H 0%nat) as H0. cbn [nth] in H0. rewrite H0. ring. }
    rewrite Z; [reflexivity|]. intro k. apply (H2 (S k)). lia.
  - destruct (IH d) as (t & T0 & T1 & T2); [split; [exact H1|intros k Hk; apply (H2 (S k)); lia]|].
    exists (a :: t). split; [discriminate|]. split; [destruct t; [congruence|exact T1]|]. intro x. cbn [peval]. rewrite T2. reflexivity.
Qed.
Lemma multiplicity_pos : forall c d al b, degree c d -> (1 <= d)%nat -> peval c b = al ->
  exists m, (1 <= m)%nat /\ multiplicity (fun x => (peval c x - al)%C) b m.
Proof.
  intros c d al b Hd H1 Hb.
  assert (G : exists t, t <> [] /\ last t (RtoC 0) <> RtoC 0 /\ forall x, peval t x = (peval c x - al)%C).
  { destruct c as [|a c]; [exfalso; destruct Hd as [Hd _]; apply Hd; destruct d; reflexivity|].
    destruct (degree_trim _ _ (degree_head a (a - al)%C c d H1 Hd)) as (t & T0 & T1 & T2). exists t. split; [exact T0|]. split; [exact T1|].
    intro x. rewrite T2. cbn [peval]. ring. }
  destruct G as (t & T0 & T1 & T2). destruct (take_out (length t) t b (le_n _) T0 T1) as (k & q & Q0 & Q).
  exists k. split.
  - destruct k as [|k]; [|lia]. exfalso. apply Q0. specialize (Q b). rewrite T2, Hb in Q. cbn [Cpown] in Q.
    replace (peval q b) with (RtoC 1 * peval q b)%C by ring. rewrite <- Q. ring.
  - exists q. split; [|exact Q0]. intro x. rewrite <- T2. apply Q.
Qed.

(** ** Geometric sums *)
Lemma geo_sum (y : C) m : (1 - y <> 0)%C -> (Csum_to (fun j => Cpown y j) m = (1 - Cpown y m) / (1 - y))%C.
Proof.
  intros H. induction m as [|m IH]; cbn [Csum_to Cpown]; [field; exact H|]. rewrite IH. field. exact H.
Qed.
Lemma dgeo_sum (y : C) m : (1 - y <> 0)%C ->
  (Csum_to (fun j => RtoC (INR (S j)) * Cpown y j) m = (1 - RtoC (INR (S m)) * Cpown y m + RtoC (INR m) * Cpown y (S m)) / ((1 - y) * (1 - y)))%C.
Proof.
  intros H. induction m as [|m IH].
  - cbn [Csum_to Cpown]. change (INR 1) with 1. change (INR 0) with 0. field. exact H.
  - cbn [Csum_to]. rewrite IH. rewrite (S_INR (S m)), (S_INR m). cbn [Cpown]. rewrite !RtoC_plus. field. exact H.
Qed.
Lemma npow_to_0 rho : 0 <= rho < 1 -> forall eps, 0 < eps -> exists M, forall m, (M <= m)%nat -> INR m * rho ^ m < eps.
Proof.
  intros [H0 H1] eps He. set (s := sqrt rho).
  assert (S0 : 0 <= s) by apply sqrt_pos. assert (SS : s * s = rho) by (apply sqrt_sqrt; exact H0).
  assert (S1 : s < 1) by nra.
  assert (B : forall m, INR m * s ^ m <= / (1 - s)).
  { intros m. assert (G : forall k, (k <= m)%nat -> INR k * s ^ m <= (1 - s ^ k) / (1 - s)).
    { induction k as [|k IH]; intros Hk.
      - change (INR 0) with 0. cbn [pow]. unfold Rdiv. lra.
      - rewrite S_INR. specialize (IH ltac:(lia)).
        assert (s ^ m <= s ^ k). { replace m with (k + (m - k))%nat by lia. rewrite pow_add. pose proof (pow_le s k S0).
          assert (s ^ (m - k) <= 1) by (rewrite <- (pow1 (m - k)); apply pow_incr; lra). nra. }
        replace ((1 - s ^ S k) / (1 - s)) with ((1 - s ^ k) / (1 - s) + s ^ k) by (cbn [pow]; field; lra). lra. }
    eapply Rle_trans; [apply (G m (le_n m))|]. pose proof (pow_le s m S0). unfold Rdiv. rewrite <- (Rmult_1_l (/ (1 - s))) at 2.
    apply Rmult_le_compat_r; [apply Rlt_le, Rinv_0_lt_compat; lra|lra]. }
  assert (K0 : 0 <= / (1 - s)) by (apply Rlt_le, Rinv_0_lt_compat; lra).
  destruct (geometric_to_0 (/ (1 - s)) s K0 (conj S0 S1) eps He) as [M HM]. exists M. intros m Hm.
  eapply Rle_lt_trans; [|apply (HM m Hm)]. rewrite <- SS, Rpow_mult_distr. pose proof (pow_le s m S0). pose proof (B m). nra.
Qed.

(** ** The series of both models *)
Section Series.
Context (z A : R) (n : Z) (N : nat) (v w : R -> C) (c0 beta : C) (rho K : R).
Context (HN : N <> O) (Hrho : rho < 1).
Context (Hw : forall k, (k < N)%nat -> Cmod (beta * w (tip_height z A N k))%C <= rho).
Context (Hv : forall k, (k < N)%nat -> Cmod (v (tip_height z A N k)) <= K).
Definition sc (j : nat) : C := match j with O => c0 | S j => tmean z A n N (fun x => v x * Cpown (w x) j)%C end.
Let al := (c0 + tmean z A n N (fun x => beta * v x / (1 - beta * w x)))%C.
Let Sn := tmean z A n N (fun x => v x / ((1 - beta * w x) * (1 - beta * w x)))%C.

Lemma rho_pos : 0 <= rho.
Proof. eapply Rle_trans; [apply Cmod_ge_0|apply (Hw O); lia]. Qed.
Lemma K_pos : 0 <= K.
Proof. eapply Rle_trans; [apply Cmod_ge_0|apply (Hv O); lia]. Qed.
Lemma den_ok k : (k < N)%nat -> (1 - beta * w (tip_height z A N k) <> 0)%C /\ 1 - rho <= Cmod (1 - beta * w (tip_height z A N k))%C.
Proof. intros Hk. apply Cmod_1_minus; [now apply Hw|exact Hrho]. Qed.

Lemma series_value m : Cmod (peval (map sc (seq 0 (S m))) beta - al)%C <= Cmod beta * K * rho ^ m / (1 - rho).
Proof.
  assert (E : (peval (map sc (seq 0 (S m))) beta - al)%C
              = tmean z A n N (fun x => - (beta * v x * Cpown (beta * w x) m / (1 - beta * w x)))%C).
  { change (seq 0 (S m)) with (0%nat :: seq 1 m). cbn [map peval]. rewrite <- seq_shift, map_map.
    rewrite (peval_seq (fun j => sc (S j))). cbn [sc].
    rewrite (Csum_to_ext _ (fun j => tmean z A n N (fun x => v x * Cpown (beta * w x) j)%C)).
    2:{ intros j _. rewrite Cmult_comm, <- tmean_scal. apply tmean_ext. intros k _. rewrite Cpown_mult. ring. }
    rewrite Csum_to_mean, <- tmean_scal. unfold al.
    match goal with |- (c0 + ?u - (c0 + ?t))%C = _ => replace (c0 + u - (c0 + t))%C with (u + - RtoC 1 * t)%C by ring end.
    rewrite <- tmean_scal, <- tmean_plus. apply tmean_ext. intros k Hk. destruct (den_ok k Hk) as [D _]. set (x := tip_height z A N k) in *.
    rewrite (Csum_to_ext _ (fun j => Cpown (beta * w x) j * v x)%C) by (intros; ring).
    rewrite <- Csum_to_mult_r, geo_sum by exact D. field. exact D. }
  rewrite E. apply tmean_bound; [exact HN|]. intros k Hk. destruct (den_ok k Hk) as [D B]. pose proof (Hw k Hk) as Hwk. pose proof (Hv k Hk) as Hvk.
  set (x := tip_height z A N k) in *. rewrite Cmod_opp, Cmod_div by exact D. rewrite !Cmod_mult, Cmod_pown.
  pose proof (Cmod_ge_0 beta). pose proof (Cmod_ge_0 (v x)).
  pose proof (Cmod_ge_0 (beta * w x)%C).
  assert (P : Cmod (beta * w x)%C ^ m <= rho ^ m) by (apply pow_incr; lra).
  assert (0 <= Cmod (beta * w x)%C ^ m) by (apply pow_le; lra). rewrite Cmod_mult in *.
  unfold Rdiv. apply Rmult_le_compat.
  - repeat apply Rmult_le_pos; assumption.
  - apply Rlt_le, Rinv_0_lt_compat. lra.
  - apply Rmult_le_compat; try assumption; [apply Rmult_le_pos; assumption|]. apply Rmult_le_compat; lra.
  - apply Rinv_le_contravar; lra.
Qed.
Lemma series_deriv m : Cmod (pderiv (map sc (seq 0 (S m))) beta - Sn)%C <= 2 * K * (INR (S m) * rho ^ m) / ((1 - rho) * (1 - rho)).
Proof.
  assert (E : (pderiv (map sc (seq 0 (S m))) beta - Sn)%C
    = tmean z A n N (fun x => v x * (RtoC (INR m) * Cpown (beta * w x) (S m) - RtoC (INR (S m)) * Cpown (beta * w x) m) / ((1 - beta * w x) * (1 - beta * w x)))%C).
  { rewrite pderiv_seq. cbn [sc].
    rewrite (Csum_to_ext _ (fun j => tmean z A n N (fun x => RtoC (INR (S j)) * Cpown (beta * w x) j * v x)%C)).
    2:{ intros j _. rewrite <- Cmult_assoc, (Cmult_comm (tmean _ _ _ _ _)), Cmult_assoc, <- tmean_scal. apply tmean_ext.
        intros k _. rewrite Cpown_mult. ring. }
    rewrite (Csum_to_mean z A n N (fun j x => RtoC (INR (S j)) * Cpown (beta * w x) j * v x)%C). unfold Sn.
    match goal with |- (?u - ?t)%C = _ => replace (u - t)%C with (u + - RtoC 1 * t)%C by ring end.
    rewrite <- tmean_scal, <- tmean_plus. apply tmean_ext. intros k Hk. destruct (den_ok k Hk) as [D _]. set (x := tip_height z A N k) in *.
    rewrite <- Csum_to_mult_r, dgeo_sum by exact D. field. exact D. }
  rewrite E. apply tmean_bound; [exact HN|]. intros k Hk. destruct (den_ok k Hk) as [D B]. pose proof (Hw k Hk) as Hwk. pose proof (Hv k Hk) as Hvk.
  set (x := tip_height z A N k) in *. rewrite Cmod_div by (now apply Cmult_neq_0). rewrite !Cmod_mult.
  pose proof rho_pos as R0. pose proof (Cmod_ge_0 (v x)). pose proof (Cmod_ge_0 (beta * w x)%C).
  assert (P : forall q, Cmod (beta * w x)%C ^ q <= rho ^ q) by (intros q; apply pow_incr; lra).
  assert (P0 : forall q, 0 <= Cmod (beta * w x)%C ^ q) by (intros q; apply pow_le; lra).
  pose proof (pos_INR m) as I0. pose proof (S_INR m) as I1.
  assert (T : Cmod (RtoC (INR m) * Cpown (beta * w x) (S m) - RtoC (INR (S m)) * Cpown (beta * w x) m)%C <= 2 * (INR (S m) * rho ^ m)).
  { unfold Cminus. eapply Rle_trans; [apply Cmod_triangle|]. rewrite Cmod_opp, !Cmod_mult, !Cmod_pown, !Cmod_R, !Rabs_pos_eq by apply pos_INR.
    assert (Q : Cmod (beta * w x)%C ^ S m <= rho ^ m). { cbn [pow]. pose proof (P m). pose proof (P0 m). assert (Cmod (beta * w x)%C <= 1) by lra. nra. }
    pose proof (P m). pose proof (P0 m). pose proof (P0 (S m)). pose proof (pow_le rho m R0). rewrite I1. nra. }
  unfold Rdiv. apply Rmult_le_compat.
  - apply Rmult_le_pos; apply Cmod_ge_0.
  - apply Rlt_le, Rinv_0_lt_compat. rewrite <- Cmod_mult. apply Cmod_gt_0. now apply Cmult_neq_0.
  - replace (2 * K * (INR (S m) * rho ^ m)) with (K * (2 * (INR (S m) * rho ^ m))) by ring.
    apply Rmult_le_compat; try apply Cmod_ge_0; assumption.
  - rewrite <- ?Cmod_mult. apply Rinv_le_contravar; [nra|]. rewrite Cmod_mult. nra.
Qed.

Lemma series_near : Sn <> RtoC 0 -> forall eps, 0 < eps -> exists M, forall m, (M <= m)%nat ->
  exists d, degree (map sc (seq 0 (S m))) d /\ (1 <= d)%nat /\
    exists b, peval (map sc (seq 0 (S m))) b = al /\ Cmod (b - beta)%C < eps.
Proof.
  intros HS eps He. pose proof rho_pos as R0. pose proof K_pos as K0. pose proof (Cmod_ge_0 beta) as B0.
  assert (S0 : 0 < Cmod Sn) by (apply Cmod_gt_0, HS).
  assert (D1 : 0 < (1 - rho) * (1 - rho)) by nra.
  set (c1 := 2 * K / ((1 - rho) * (1 - rho)) + 1). assert (c1p : 1 <= c1). { unfold c1. assert (0 <= 2 * K / ((1 - rho) * (1 - rho))) by (apply Rmult_le_pos; [lra|apply Rlt_le, Rinv_0_lt_compat; lra]). lra. }
  set (c2 := Cmod beta * K / (1 - rho) * 2 / Cmod Sn + 1).
  assert (c2p : 1 <= c2). { unfold c2, Rdiv. assert (0 <= Cmod beta * K * / (1 - rho) * 2 * / Cmod Sn); [|lra].
    repeat apply Rmult_le_pos; try lra; apply Rlt_le, Rinv_0_lt_compat; lra. }
  set (e := Rmin (Cmod Sn / (2 * c1)) (eps / c2)).
  assert (Ee : 0 < e) by (apply Rmin_pos; apply Rdiv_lt_0_compat; lra).
  destruct (npow_to_0 rho (conj R0 Hrho) (e / 2) ltac:(lra)) as [M1 H1].
  destruct (geometric_to_0 1 rho Rle_0_1 (conj R0 Hrho) (e / 2) ltac:(lra)) as [M2 H2].
  exists (Nat.max M1 M2). intros m Hm. specialize (H1 m ltac:(lia)). specialize (H2 m ltac:(lia)). rewrite Rmult_1_l in H2.
  pose proof (pow_le rho m R0) as Pm. pose proof (pos_INR m) as Im0.
  assert (Q : INR (S m) * rho ^ m < e) by (rewrite S_INR; lra).
  assert (Q1 : e * c1 <= Cmod Sn / 2).
  { apply Rle_trans with (Cmod Sn / (2 * c1) * c1); [apply Rmult_le_compat_r; [lra|apply Rmin_l]|]. right. field. lra. }
  assert (Q2 : e * c2 <= eps).
  { apply Rle_trans with (eps / c2 * c2); [apply Rmult_le_compat_r; [lra|apply Rmin_r]|]. right. field. lra. }
  set (cs := map sc (seq 0 (S m))).
  assert (L : length cs = S m) by (unfold cs; rewrite map_length, seq_length; reflexivity).
  assert (HDv : Cmod Sn / 2 < Cmod (pderiv cs beta)).
  { pose proof (series_deriv m) as B. fold cs in B.
    assert (T : Cmod Sn <= Cmod (pderiv cs beta) + Cmod (pderiv cs beta - Sn)%C).
    { replace Sn with (pderiv cs beta - (pderiv cs beta - Sn))%C at 1 by ring. unfold Cminus at 1. eapply Rle_trans; [apply Cmod_triangle|].
      rewrite Cmod_opp. lra. }
    assert (2 * K * (INR (S m) * rho ^ m) / ((1 - rho) * (1 - rho)) < Cmod Sn / 2); [|lra].
    replace (2 * K * (INR (S m) * rho ^ m) / ((1 - rho) * (1 - rho))) with ((c1 - 1) * (INR (S m) * rho ^ m)) by (unfold c1; field; lra).
    assert (0 <= INR (S m) * rho ^ m) by (apply Rmult_le_pos; [apply pos_INR|lra]). nra. }
  destruct (near_solution cs al beta) as (d & Hd & Hd1 & b & Hb & Hbd).
  { intro E. rewrite E, Cmod_0 in HDv. lra. }
  exists d. split; [exact Hd|]. split; [lia|]. exists b. split; [exact Hb|]. eapply Rle_lt_trans; [exact Hbd|].
  pose proof (series_value m) as B. fold cs in B. rewrite L in Hd1.
  assert (Id : INR d <= INR (S m)) by (apply le_INR; lia). pose proof (pos_INR d).
  assert (B1 : INR d * Cmod (peval cs beta - al)%C / Cmod (pderiv cs beta) <= (c2 - 1) * (INR (S m) * rho ^ m)).
  { replace ((c2 - 1) * (INR (S m) * rho ^ m)) with (INR (S m) * (Cmod beta * K * rho ^ m / (1 - rho)) * / (Cmod Sn / 2))
      by (unfold c2; field; lra).
    apply Rmult_le_compat.
    - apply Rmult_le_pos; [lra|apply Cmod_ge_0].
    - apply Rlt_le, Rinv_0_lt_compat. lra.
    - apply Rmult_le_compat; [lra|apply Cmod_ge_0|exact Id|exact B].
    - apply Rinv_le_contravar; lra. }
  assert (0 <= INR (S m) * rho ^ m) by (apply Rmult_le_pos; [apply pos_INR|lra]). nra.
Qed.
End Series.
