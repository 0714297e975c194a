(** * Polynomials with positive coefficients: the solution of smallest magnitude *)
From Coq Require Import String Reals Lra Lia ZArith List Bool Sorted.
From Coquelicot Require Import Rcomplements Complex.
From Verif Require Import Num NumLemmas LimLemmas ModelBase Spec SpecPoly SpecInv FTA DemodLemmas ProofsTaylor ProofsNear ProofsConsist PosDef.
Import ListNotations.
Open Scope R_scope.

Lemma Re_le_mod c : Re c <= Cmod c.
Proof. pose proof (Rmax_Cmod c) as H. pose proof (Rle_abs (fst c)). pose proof (Rmax_l (Rabs (fst c)) (Rabs (snd c))). unfold Re. lra. Qed.
Lemma Re_RtoC_mult x c : Re (RtoC x * c)%C = x * Re c.
Proof. destruct c as [a b]. unfold Re, RtoC. cbn. ring. Qed.
Lemma Cpown_real x m : Cpown (RtoC x) m = RtoC (x ^ m).
Proof. induction m as [|m IH]; [reflexivity|]. cbn [Cpown pow]. rewrite IH, <- RtoC_mult. reflexivity. Qed.

Section PosSeries.
Context (q : nat -> R) (Hq : forall j, 0 < q j) (c0 : C) (sg : R) (Hs : sg * sg = 1).
(** sum of q_j b^(j+1) over j < m, at a real and at a complex argument *)
Definition tm (m : nat) (b : R) : R := Sm (fun j => q j * b ^ S j) m.
Definition tC (m : nat) (x : C) : C := Csum_to (fun j => RtoC (q j) * Cpown x (S j))%C m.
(** the series itself *)
Definition cf (j : nat) : C := match j with O => c0 | S j => RtoC (sg * q j) end.
Definition cfs (m : nat) : list C := map cf (seq 0 (S m)).

Lemma sg_neq : sg <> 0.
Proof. intro E. rewrite E in Hs. lra. Qed.
Lemma tC_real m b : tC m (RtoC b) = RtoC (tm m b).
Proof.
  unfold tC, tm. induction m as [|m IH]; [reflexivity|]. cbn [Csum_to Sm]. rewrite IH, Cpown_real, <- RtoC_mult, <- RtoC_plus. reflexivity.
Qed.
Lemma cfs_value m x : peval (cfs m) x = (c0 + RtoC sg * tC m x)%C.
Proof.
  unfold cfs. change (seq 0 (S m)) with (0%nat :: seq 1 m). cbn [map peval cf]. f_equal. rewrite <- seq_shift, map_map, peval_seq. cbn [cf].
  unfold tC. induction m as [|m IH]; cbn [Csum_to]; [ring|]. rewrite Cmult_plus_distr_l, IH. cbn [Cpown]. rewrite RtoC_mult. ring.
Qed.
Lemma cfs_real m b : peval (cfs m) (RtoC b) = (c0 + RtoC (sg * tm m b))%C.
Proof. rewrite cfs_value, tC_real, <- RtoC_mult. reflexivity. Qed.
Lemma cfs_length m : length (cfs m) = S m.
Proof. unfold cfs. now rewrite map_length, seq_length. Qed.
Lemma cfs_nth m j : (j <= m)%nat -> nth j (cfs m) (RtoC 0) = cf j.
Proof.
  intros H. unfold cfs. rewrite (nth_indep _ _ (cf O)) by (rewrite map_length, seq_length; lia). rewrite map_nth, seq_nth by lia. reflexivity.
Qed.
Lemma cfs_degree m : (1 <= m)%nat -> degree (cfs m) m.
Proof using Hq Hs.
  intros H. split.
  - rewrite cfs_nth by lia. destruct m as [|m]; [lia|]. cbn [cf]. apply RtoC_neq_0. pose proof (Hq m). pose proof sg_neq. nra.
  - intros k Hk. apply nth_overflow. rewrite cfs_length. lia.
Qed.
Lemma tm_diff m b b' : (1 <= m)%nat -> 0 <= b <= b' -> q O * (b' - b) <= tm m b' - tm m b.
Proof using Hq.
  intros Hm Hb. unfold tm. induction m as [|m IH]; [lia|]. cbn [Sm].
  assert (P : q m * b ^ S m <= q m * b' ^ S m) by (apply Rmult_le_compat_l; [apply Rlt_le, Hq|]; apply pow_incr; lra).
  destruct m as [|m]; [cbn [Sm pow]; lra|]. specialize (IH ltac:(lia)). lra.
Qed.
Lemma tm_slope m b b' : (1 <= m)%nat -> 0 <= b -> 0 <= b' -> q O * Rabs (b' - b) <= Rabs (tm m b' - tm m b).
Proof using Hq.
  intros Hm Hb Hb'. pose proof (Hq O). destruct (Rle_dec b b') as [K|K].
  - pose proof (tm_diff m b b' Hm ltac:(lra)). rewrite Rabs_pos_eq by lra. rewrite Rabs_pos_eq; nra.
  - pose proof (tm_diff m b' b Hm ltac:(lra)). rewrite (Rabs_minus_sym b' b), (Rabs_minus_sym (tm m b')). rewrite !Rabs_pos_eq; nra.
Qed.
Lemma tm_inj m b b' : (1 <= m)%nat -> 0 <= b -> 0 <= b' -> tm m b = tm m b' -> b = b'.
Proof using Hq.
  intros Hm Hb Hb' E. pose proof (tm_slope m b b' Hm Hb Hb') as H. rewrite E, Rminus_eq_0, Rabs_R0 in H. pose proof (Hq O).
  pose proof (Rabs_pos (b' - b)). assert (Z : Rabs (b' - b) = 0) by nra. destruct (Req_dec (b' - b) 0) as [|N]; [lra|]. apply Rabs_no_R0 in N. lra.
Qed.
Lemma tm_0 m : tm m 0 = 0.
Proof. unfold tm. induction m as [|m IH]; [reflexivity|]. cbn [Sm]. rewrite IH. cbn [pow]. ring. Qed.
Lemma tm_pos m b : 0 <= b -> 0 <= tm m b.
Proof using Hq.
  intros Hb. unfold tm. induction m as [|m IH]; cbn [Sm]; [lra|]. pose proof (Hq m). pose proof (pow_le b (S m) Hb). nra.
Qed.
Lemma tm_more m k b : 0 <= b -> tm m b <= tm (m + k) b.
Proof using Hq.
  intros Hb. induction k as [|k IH]; [rewrite Nat.add_0_r; lra|]. rewrite Nat.add_succ_r. unfold tm in *. cbn [Sm].
  pose proof (Hq (m + k)). pose proof (pow_le b (S (m + k)) Hb). nra.
Qed.
Lemma tm_continuous m : continuity (tm m).
Proof.
  unfold tm. induction m as [|m IH]; cbn [Sm]; [apply continuity_const; intros x y; reflexivity|].
  apply (continuity_plus _ (fun b => q m * b ^ S m)); [exact IH|].
  apply (continuity_scal (fun b => b ^ S m)). apply derivable_continuous, derivable_pow.
Qed.
Lemma tm_solve m s : (1 <= m)%nat -> 0 <= s -> { b | 0 <= b /\ tm m b = s }.
Proof using Hq.
  intros Hm H. pose proof (Hq O) as Q. set (u := s / q O).
  assert (U : 0 <= u) by (apply Rmult_le_pos; [exact H|apply Rlt_le, Rinv_0_lt_compat, Q]).
  assert (E : s <= tm m u). { pose proof (tm_diff m 0 u Hm ltac:(lra)) as B. rewrite tm_0 in B. replace (q O * (u - 0)) with s in B by (unfold u; field; lra). lra. }
  assert (X : continuity (fun b => tm m b - s)).
  { apply (continuity_minus (tm m) (fun _ => s)); [apply tm_continuous|]. apply continuity_const. intros x y. reflexivity. }
  destruct (IVT_cor _ 0 u X U) as (b & Hb & Eb).
  - rewrite tm_0. nra.
  - exists b. split; [apply Hb|]. lra.
Qed.
Lemma tm_first m b x : (1 <= m)%nat -> 0 <= b -> tC m x = RtoC (tm m b) -> x <> RtoC b -> b < Cmod x.
Proof using Hq.
  intros Hm Hb E N. destruct (Rlt_le_dec b (Cmod x)) as [|H]; [assumption|exfalso].
  assert (P : forall j, Re (Cpown x (S j)) <= b ^ S j).
  { intros j. eapply Rle_trans; [apply Re_le_mod|]. rewrite Cmod_pown. apply pow_incr. split; [apply Cmod_ge_0|exact H]. }
  assert (G : q O * (b - Re x) <= tm m b - Re (tC m x)).
  { unfold tm, tC. clear E. induction m as [|m IH]; [lia|]. cbn [Csum_to Sm].
    match goal with |- _ <= ?u + ?v - Re (?w + ?y)%C => replace (Re (w + y)%C) with (Re w + Re y) by reflexivity end.
    rewrite Re_RtoC_mult. pose proof (Hq m) as Qm. pose proof (P m) as Pm.
    assert (T : q m * Re (Cpown x (S m)) <= q m * b ^ S m) by (apply Rmult_le_compat_l; lra).
    destruct m as [|m]; [|specialize (IH ltac:(lia)); lra].
    cbn [Sm Csum_to Cpown pow] in *. replace (x * RtoC 1)%C with x in * by ring. change (Re (RtoC 0)) with 0. lra. }
  rewrite E in G. change (Re (RtoC (tm m b))) with (tm m b) in G. pose proof (Hq O). assert (R1 : b <= Re x) by nra.
  apply N. pose proof (Re_le_mod x). assert (Ex : Re x = b) by lra. assert (M : Cmod x = b) by lra.
  apply injective_projections; [exact Ex|]. cbn [RtoC snd]. assert (M2 : Cmod x * Cmod x = b * b) by (rewrite M; reflexivity).
  unfold Cmod in M2. rewrite sqrt_sqrt in M2 by nra. unfold Re in Ex. rewrite Ex in M2. nra.
Qed.
Lemma cfs_simple m b : (1 <= m)%nat -> 0 <= b ->
  multiplicity (fun x => (peval (cfs m) x - (c0 + RtoC (sg * tm m b)))%C) (RtoC b) 1.
Proof using Hq Hs.
  intros Hm Hb. destruct (pderiv_quot (cfs m) (RtoC b)) as (u & Hu & Ed). exists u. split.
  - intros x. rewrite Hu, cfs_real. cbn [Cpown]. ring.
  - rewrite Ed. unfold cfs. rewrite pderiv_seq. cbn [cf].
    assert (E : Csum_to (fun j => RtoC (INR (S j)) * RtoC (sg * q j) * Cpown (RtoC b) j)%C m = RtoC (sg * Sm (fun j => INR (S j) * q j * b ^ j) m)).
    { clear Hm Hu Ed. induction m as [|m IH]; cbn [Csum_to Sm]; [f_equal; ring|]. rewrite IH, Cpown_real, <- !RtoC_mult, <- RtoC_plus. f_equal. ring. }
    rewrite E. apply RtoC_neq_0. apply Rmult_integral_contrapositive_currified; [exact sg_neq|].
    assert (P : forall k, 0 < Sm (fun j => INR (S j) * q j * b ^ j) (S k)).
    { induction k as [|k IH].
      - cbn [Sm INR pow]. pose proof (Hq O). lra.
      - remember (S k) as k'. cbn [Sm]. pose proof (pow_le b k' Hb). pose proof (Hq k'). pose proof (pos_INR (S k')).
        assert (0 <= INR (S k') * q k' * b ^ k') by (apply Rmult_le_pos; [apply Rmult_le_pos|]; lra). lra. }
    destruct m as [|m]; [lia|]. apply Rgt_not_eq, P.
Qed.
(** every solution is the non-negative one or larger in magnitude *)
Lemma cfs_first m b x : (1 <= m)%nat -> 0 <= b -> peval (cfs m) x = (c0 + RtoC (sg * tm m b))%C -> x <> RtoC b -> b < Cmod x.
Proof using Hq Hs.
  intros Hm Hb E. apply (tm_first m b x Hm Hb). rewrite cfs_value in E.
  assert (E2 : (RtoC sg * tC m x = RtoC sg * RtoC (tm m b))%C).
  { rewrite <- RtoC_mult. replace (RtoC sg * tC m x)%C with (c0 + RtoC sg * tC m x - c0)%C by ring. rewrite E. ring. }
  replace (tC m x) with (RtoC (sg * sg) * tC m x)%C by (rewrite Hs; ring).
  rewrite RtoC_mult, <- Cmult_assoc, E2, Cmult_assoc, <- RtoC_mult, Hs. ring.
Qed.
End PosSeries.

(** ** Reading off the first row *)
Lemma first_row (l : list CV) (b : R) : 0 <= b -> StronglySorted nan_last (map cabs l) -> occurrences l (RtoC b) = 1%nat ->
  (forall v, In v l -> exists x, v = Some x /\ (x <> RtoC b -> b < Cmod x)) ->
  exists rest, l = Some (RtoC b) :: rest /\ forall v, In v rest -> exists x, v = Some x /\ b < Cmod x.
Proof.
  intros Hb HS Hc HA. destruct l as [|v l]; [discriminate|].
  destruct (HA v (or_introl eq_refl)) as (x & -> & Hx). destruct (Ceq_dec x (RtoC b)) as [->|N].
  - exists l. split; [reflexivity|]. intros w Hw. destruct (HA w (or_intror Hw)) as (y & -> & Hy). exists y. split; [reflexivity|].
    apply Hy. intros ->. unfold occurrences in Hc. cbn [count_occ] in Hc. destruct (CV_eq_dec (Some (RtoC b)) (Some (RtoC b))) as [_|K]; [|congruence].
    apply (count_occ_In CV_eq_dec) in Hw. lia.
  - exfalso. specialize (Hx N). unfold occurrences in Hc. cbn [count_occ] in Hc.
    destruct (CV_eq_dec (Some x) (Some (RtoC b))) as [E|_]; [injection E as E; congruence|].
    assert (I : In (Some (RtoC b)) l) by (apply (count_occ_In CV_eq_dec); lia).
    cbn [map] in HS. inversion HS as [|? ? _ F]; subst. rewrite Forall_forall in F. specialize (F (cabs (Some (RtoC b))) (in_map cabs _ _ I)).
    cbn [cabs nan_last] in F. cbn in F. rewrite Cmod_R, Rabs_pos_eq in F by exact Hb. lra.
Qed.
