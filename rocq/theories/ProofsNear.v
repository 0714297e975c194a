(** * Roots near an approximate root *)
From Coq Require Import String Reals Lra Lia ZArith List Bool Permutation Sorted.
From Coquelicot Require Import Rcomplements Complex.
From Verif Require Import Num NumLemmas ModelBase ModelSample ModelTip NArr SpecArr NArrLemmas ModelObj
  ModelArr ModelArrTip ModelInv SpecPoly SpecInv FTA ArrSample ProofsArr ProofsArr2 ProofsArrTip InvLemmas ProofsInv ProofsInv2.
Import ListNotations.
Open Scope R_scope.

Lemma pderiv_quot : forall p a, exists q, (forall x, peval p x = (peval p a + (x - a) * peval q x)%C) /\ peval q a = pderiv p a.
Proof.
  induction p as [|c p IH]; intro a.
  - exists []. split; [intro x; cbn [peval]; ring|reflexivity].
  - destruct (IH a) as (q & H & E). exists (peval p a :: q). split.
    + intro x. cbn [peval]. rewrite (H x). ring.
    + cbn [peval pderiv]. rewrite E. reflexivity.
Qed.
Lemma peval_off_point : forall p q a, (forall x, x <> a -> peval p x = peval q x) -> peval p a = peval q a.
Proof.
  intros p q a H.
  destruct (peval_lip p (Cmod a + 1)) as (K1 & HK1 & L1); [pose proof (Cmod_ge_0 a); lra|].
  destruct (peval_lip q (Cmod a + 1)) as (K2 & HK2 & L2); [pose proof (Cmod_ge_0 a); lra|].
  assert (Z : (peval p a - peval q a)%C = RtoC 0).
  { apply Cmod_eq_0. apply Rle_antisym; [|apply Cmod_ge_0]. apply le_epsilon. intros eps He. rewrite Rplus_0_l.
    set (e := Rmin 1 (eps / (K1 + K2 + 1))).
    assert (E0 : 0 < e) by (apply Rmin_pos; [lra|apply Rdiv_lt_0_compat; lra]).
    assert (E1 : e <= 1) by apply Rmin_l. assert (E2 : e <= eps / (K1 + K2 + 1)) by apply Rmin_r.
    assert (E3 : e * (K1 + K2 + 1) <= eps).
    { apply (Rmult_le_compat_r (K1 + K2 + 1)) in E2; [|lra]. replace (eps / (K1 + K2 + 1) * (K1 + K2 + 1)) with eps in E2 by (field; lra). exact E2. }
    set (x := (a + RtoC e)%C). assert (Hxa : (x - a)%C = RtoC e) by (unfold x; ring).
    assert (Nx : x <> a). { intros K. rewrite K in Hxa. replace (a - a)%C with (RtoC 0) in Hxa by ring. apply RtoC_inj in Hxa. lra. }
    assert (Mx : Cmod x <= Cmod a + 1). { unfold x. eapply Rle_trans; [apply Cmod_triangle|]. rewrite Cmod_R, Rabs_pos_eq by lra. lra. }
    specialize (L1 x a Mx ltac:(lra)). specialize (L2 x a Mx ltac:(lra)). rewrite Hxa, Cmod_R, Rabs_pos_eq in L1, L2 by lra.
    replace (peval p a - peval q a)%C with ((peval q x - peval q a) - (peval p x - peval p a))%C by (rewrite (H x Nx); ring).
    unfold Cminus at 1. eapply Rle_trans; [apply Cmod_triangle|]. rewrite Cmod_opp. nra. }
  replace (peval p a) with (peval p a - peval q a + peval q a)%C by ring. rewrite Z. ring.
Qed.
Lemma pderiv_ext : forall p q a, (forall x, peval p x = peval q x) -> pderiv p a = pderiv q a.
Proof.
  intros p q a H. destruct (pderiv_quot p a) as (u & Hu & <-). destruct (pderiv_quot q a) as (v & Hv & <-).
  apply peval_off_point. intros x Hx. assert (N : (x - a <> 0)%C) by (intro K; apply Hx; now apply Csub_eq0).
  assert (E : ((x - a) * peval u x = (x - a) * peval v x)%C).
  { transitivity (peval p x - peval p a)%C; [rewrite (Hu x); ring|]. rewrite !H, (Hv x). ring. }
  transitivity ((x - a) * peval u x / (x - a))%C; [field; exact N|]. rewrite E. field. exact N.
Qed.
Lemma pderiv_add_head : forall a v x, pderiv (add_head a v) x = pderiv v x.
Proof. intros a [|h t] x; cbn [add_head pderiv peval]; [ring|reflexivity]. Qed.
Lemma pderiv_mul_lin : forall r u x, pderiv (mul_lin r u) x = (peval u x + (x - r) * pderiv u x)%C.
Proof.
  induction u as [|a u IH]; intro x; cbn [mul_lin pderiv peval]; [ring|].
  rewrite peval_add_head, peval_mul_lin, pderiv_add_head, IH. ring.
Qed.
Lemma pderiv_prod : forall lead rs a, exists u, (forall x, peval u x = (lead * prod_minus rs x)%C) /\
  (~ In a rs -> pderiv u a = (lead * prod_minus rs a * Csum (map (fun r => / (a - r)) rs))%C).
Proof.
  intros lead rs a. induction rs as [|r rs (u & Hu & Hd)].
  - exists [lead]. split; [intro x; cbn [peval prod_minus]; ring|]. intros _. cbn [pderiv peval map]. unfold Csum. cbn [fold_right]. ring.
  - exists (mul_lin r u). split; [intro x; rewrite peval_mul_lin, Hu; cbn [prod_minus]; ring|].
    intros H. assert (N : (a - r <> 0)%C) by (intro K; apply H; left; symmetry; now apply Csub_eq0).
    rewrite pderiv_mul_lin, Hu, Hd by (intro K; apply H; right; exact K). cbn [prod_minus map]. unfold Csum. cbn [fold_right].
    change (fold_right Cplus (RtoC 0)) with Csum. field. exact N.
Qed.
Lemma Csum_inv_bound : forall (rs : list C) (a : C) m, 0 < m -> (forall r, In r rs -> m < Cmod (r - a)%C) -> rs <> [] ->
  Cmod (Csum (map (fun r => / (a - r))%C rs)) < INR (length rs) / m.
Proof.
  intros rs a m Hm H. 
  assert (B : forall r, In r rs -> Cmod (/ (a - r))%C < / m).
  { intros r Hr. specialize (H r Hr). assert (E : Cmod (a - r)%C = Cmod (r - a)%C) by (rewrite <- Cmod_opp; f_equal; ring).
    assert (N : (a - r <> 0)%C) by (apply Cmod_gt_0; lra).
    rewrite Cmod_inv by exact N. rewrite E. apply Rinv_lt_contravar; [apply Rmult_lt_0_compat; lra|exact H]. }
  clear H. intros Hne. destruct rs as [|r rs]; [contradiction|]. clear Hne.
  revert r B. induction rs as [|r' rs IH]; intros r B.
  - cbn [map length]. unfold Csum. cbn [fold_right]. rewrite Cplus_0_r. unfold Rdiv. rewrite Rmult_1_l. apply B. now left.
  - cbn [map]. unfold Csum. cbn [fold_right]. change (fold_right Cplus (RtoC 0)) with Csum.
    assert (IH' := IH r' ltac:(intros x Hx; apply B; now right)). cbn [map] in IH'.
    eapply Rle_lt_trans; [apply Cmod_triangle|]. assert (B0 := B r ltac:(now left)).
    change (length (r :: r' :: rs)) with (S (length (r' :: rs))). rewrite S_INR. unfold Rdiv in *. unfold Csum in *. cbn [fold_right] in *. lra.
Qed.
Lemma degree_exists : forall c, (exists k, nth k c (RtoC 0) <> RtoC 0) -> exists d, degree c d /\ (d < length c)%nat.
Proof.
  induction c as [|a c IH]; intros (k & Hk).
  - exfalso. apply Hk. destruct k; reflexivity.
  - assert (Dec : (exists k, nth k c (RtoC 0) <> RtoC 0) \/ forall k, nth k c (RtoC 0) = RtoC 0).
    { clear. induction c as [|x c IH]; [right; intros [|k]; reflexivity|].
      destruct (Ceq_dec x (RtoC 0)) as [->|N]; [|left; exists O; exact N].
      destruct IH as [(k & Hk)|H]; [left; exists (S k); exact Hk|right; intros [|k]; [reflexivity|apply H]]. }
    destruct Dec as [D|D].
    + destruct (IH D) as (d & [H1 H2] & Hl). exists (S d). split; [split; [exact H1|]|cbn [length]; lia].
      intros [|j] Hj; [lia|]. apply H2. lia.
    + exists O. split; [|cbn [length]; lia]. split; [|intros [|j] Hj; [lia|apply D]].
      destruct k as [|k]; [exact Hk|]. exfalso. apply Hk, D.
Qed.
Lemma pderiv_zero : forall c x, (forall k, nth (S k) c (RtoC 0) = RtoC 0) -> pderiv c x = RtoC 0.
Proof.
  intros [|a c] x H; [reflexivity|]. cbn [pderiv].
  assert (Z : forall c, (forall k, nth k c (RtoC 0) = RtoC 0) -> peval c x = RtoC 0 /\ pderiv c x = RtoC 0).
  { clear. induction c as [|b c IH]; intros H; [split; reflexivity|].
    destruct IH as [I1 I2]; [intro k; apply (H (S k))|]. cbn [peval pderiv]. rewrite I1, I2.
    pose proof (H O) as E. cbn [nth] in E. rewrite E. split; ring. }
  destruct (Z c) as [E1 E2]; [intro k; exact (H k)|]. rewrite E1, E2. ring.
Qed.

(** If the derivative at [a] does not vanish, some root is within
    degree * |p a / p' a| of [a]. *)
Lemma near_root : forall p a, pderiv p a <> RtoC 0 ->
  exists d, degree p d /\ (1 <= d < length p)%nat /\ exists r, peval p r = RtoC 0 /\ Cmod (r - a)%C <= INR d * Cmod (peval p a) / Cmod (pderiv p a).
Proof.
  intros p a HD.
  assert (K : exists k, nth (S k) p (RtoC 0) <> RtoC 0).
  { destruct (degree_exists (tl p)) as (d & [H1 _] & _).
    - destruct p as [|c p]; [exfalso; apply HD; reflexivity|]. cbn [tl].
      assert (Dec : (exists k, nth k p (RtoC 0) <> RtoC 0) \/ forall k, nth k p (RtoC 0) = RtoC 0).
      { clear. induction p as [|x c IH]; [right; intros [|k]; reflexivity|].
        destruct (Ceq_dec x (RtoC 0)) as [->|N]; [|left; exists O; exact N].
        destruct IH as [(k & Hk)|H]; [left; exists (S k); exact Hk|right; intros [|k]; [reflexivity|apply H]]. }
      destruct Dec as [D|D]; [exact D|]. exfalso. apply HD. apply pderiv_zero. exact D.
    - exists d. destruct p; [exfalso; apply HD; reflexivity|exact H1]. }
  destruct K as (k & Hk). destruct (degree_exists p (ex_intro _ (S k) Hk)) as (d & Hd & Hl).
  assert (D1 : (1 <= d)%nat). { destruct d; [|lia]. exfalso. apply Hk. apply (proj2 Hd). lia. }
  exists d. split; [exact Hd|]. split; [lia|].
  destruct (drop_zeros_degree p d Hd) as (t & _ & Lt & Ht & Hp).
  destruct (roots_exist d t Lt Ht) as (rs & Lr & Hr).
  destruct (pderiv_prod (last t (RtoC 0)) rs a) as (u & Hu & Hdu).
  assert (EU : pderiv p a = pderiv u a) by (apply pderiv_ext; intro x; rewrite Hp, Hr, Hu; reflexivity).
  assert (PD : 0 < Cmod (pderiv p a)) by now apply Cmod_gt_0.
  set (M := INR d * Cmod (peval p a) / Cmod (pderiv p a)).
  assert (Root : forall r, In r rs -> peval p r = RtoC 0).
  { intros r Hin. rewrite Hp, Hr. apply prod_minus_0 in Hin. rewrite Hin. ring. }
  destruct (In_dec Ceq_dec a rs) as [Hin|Hin].
  - exists a. split; [apply Root, Hin|]. replace (a - a)%C with (RtoC 0) by ring. rewrite Cmod_0.
    unfold Rdiv. apply Rmult_le_pos; [apply Rmult_le_pos; [apply pos_INR|apply Cmod_ge_0]|]. apply Rlt_le, Rinv_0_lt_compat, PD.
  - assert (NE : rs <> []) by (intros ->; cbn in Lr; lia).
    assert (Dec : (exists r, In r rs /\ Cmod (r - a)%C <= M) \/ forall r, In r rs -> M < Cmod (r - a)%C).
    { clear. induction rs as [|r rs IH]; [right; intros r []|].
      destruct (Rle_lt_dec (Cmod (r - a)%C) M) as [H|H]; [left; exists r; split; [now left|exact H]|].
      destruct IH as [(r' & H1 & H2)|H']; [left; exists r'; split; [now right|exact H2]|right]. intros x [<-|Hx]; [exact H|auto]. }
    destruct Dec as [(r & Hr1 & Hr2)|Far]; [exists r; split; [apply Root, Hr1|exact Hr2]|exfalso].
    assert (PA : peval p a = (last t (RtoC 0) * prod_minus rs a)%C) by (now rewrite Hp, Hr).
    assert (NA : peval p a <> RtoC 0).
    { rewrite PA. apply Cmult_neq_0; [exact Ht|]. intros E. apply Hin. now apply prod_minus_0. }
    assert (PA' : 0 < Cmod (peval p a)) by now apply Cmod_gt_0.
    assert (PI : 0 < INR d) by (apply lt_0_INR; lia).
    assert (PM : 0 < M). { unfold M. apply Rdiv_lt_0_compat; [apply Rmult_lt_0_compat; assumption|exact PD]. }
    pose proof (Csum_inv_bound rs a M PM Far NE) as B. rewrite Lr in B.
    assert (E : Cmod (pderiv p a) = Cmod (peval p a) * Cmod (Csum (map (fun r => / (a - r))%C rs))).
    { rewrite EU, (Hdu Hin), <- PA, Cmod_mult. reflexivity. }
    assert (E2 : INR d / M = Cmod (pderiv p a) / Cmod (peval p a)) by (unfold M; field; lra).
    rewrite E2 in B. apply (Rmult_lt_compat_l (Cmod (peval p a))) in B; [|exact PA']. rewrite <- E in B.
    replace (Cmod (peval p a) * (Cmod (pderiv p a) / Cmod (peval p a))) with (Cmod (pderiv p a)) in B by (field; lra). lra.
Qed.
