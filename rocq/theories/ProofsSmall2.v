(** * Proofs: small tapping amplitudes for the tip models *)
From Coq Require Import String Reals Lra Lia ZArith List Bool.
From Coquelicot Require Import Coquelicot.
From Coq Require Import List.
From Verif Require Import Num NumLemmas ModelBase ModelSample ModelTip StackLemmas Spec SpecTap
  ProofsStackQS ProofsPassive DemodLemmas ProofsDemod ProofsTip ProofsTip2 ProofsTip3 ProofsTaylor LimLemmas ProofsAbsorb ProofsSmall.
Import ListNotations.
Open Scope R_scope.

Definition smooth (g : R -> C) : Prop := forall n, ex n g.
Lemma sm_const c : smooth (fun _ => c).
Proof. intros n. apply ex_const. Qed.
Lemma sm_id : smooth (fun h => RtoC h).
Proof. intros n. apply ex_id. Qed.
Lemma sm_plus g k : smooth g -> smooth k -> smooth (fun h => g h + k h)%C.
Proof. intros G K n. apply ex_plus; [apply G|apply K]. Qed.
Lemma sm_mult g k : smooth g -> smooth k -> smooth (fun h => g h * k h)%C.
Proof. intros G K n. apply ex_mult; [apply G|apply K]. Qed.
Lemma sm_ext g k : (forall h, 0 <= h -> g h = k h) -> smooth g -> smooth k.
Proof. intros H G n. apply (ex_ext n g k); [|apply G]. exists 0. intros h [Hh _]. now apply H. Qed.
Lemma sm_minus g k : smooth g -> smooth k -> smooth (fun h => g h - k h)%C.
Proof.
  intros G K. apply (sm_ext (fun h => g h + (- RtoC 1) * k h)%C); [intros h _; ring|].
  apply sm_plus; [exact G|]. apply sm_mult; [apply sm_const|exact K].
Qed.
Lemma sm_limit g : smooth g -> tends at0 g (g 0).
Proof. intros G. destruct (ex_value 0 g (G 1%nat)) as (c & H & E). rewrite E. exact H. Qed.
Lemma sm_inv g : smooth g -> g 0 <> RtoC 0 -> smooth (fun h => / g h)%C.
Proof. intros G H n. apply (ex_inv n g (g 0)); [apply G|now apply sm_limit|exact H|exact H]. Qed.
Lemma sm_div g k : smooth g -> smooth k -> k 0 <> RtoC 0 -> smooth (fun h => g h / k h)%C.
Proof. intros G K H. unfold Cdiv. apply sm_mult; [exact G|now apply sm_inv]. Qed.
Lemma sm_aff a b : smooth (fun h => RtoC (a + b * h)).
Proof.
  apply (sm_ext (fun h => RtoC a + RtoC b * RtoC h)%C); [intros h _; now rewrite RtoC_plus, RtoC_mult|].
  apply sm_plus; [apply sm_const|]. apply sm_mult; [apply sm_const|apply sm_id].
Qed.
Lemma sm_pow a b k : smooth (fun h => RtoC ((a + b * h) ^ k)).
Proof.
  induction k as [|k IH]; [exact (sm_const (RtoC 1))|].
  apply (sm_ext (fun h => RtoC (a + b * h) * RtoC ((a + b * h) ^ k))%C); [intros h _; now rewrite <- RtoC_mult|].
  apply sm_mult; [apply sm_aff|exact IH].
Qed.
Lemma sm_away g : smooth g -> g 0 <> RtoC 0 -> exists d, 0 < d /\ forall h, 0 <= h < d -> g h <> RtoC 0.
Proof.
  intros G H. destruct (tends_away at0 g _ (sm_limit g G) H) as [M HM].
  exists (/ (Rmax M 1)). assert (P : 0 < Rmax M 1) by (pose proof (Rmax_r M 1); lra). split; [now apply Rinv_0_lt_compat|].
  intros h [H1 H2] K. assert (A : at0 M h).
  { split; [exact H1|]. pose proof (Rmax_l M 1). apply Rle_lt_trans with (Rmax M 1 * h); [nra|].
    apply (Rmult_lt_compat_l (Rmax M 1)) in H2; [|assumption]. rewrite Rinv_r in H2 by lra. exact H2. }
  specialize (HM h A). rewrite K, Cmod_0 in HM. pose proof (proj1 (Cmod_gt_0 _) H). lra.
Qed.

(** ** An expansion of every order is the structural notion *)
Lemma expands_ex n : forall g c, expands g 0 n c -> (n <> O -> g 0 = c O) -> ex n g.
Proof.
  induction n as [|n IH]; intros g c H H0.
  - exists (c O). intros eps He. destruct (H (eps / 2) ltac:(lra)) as (d & Hd & HB). exists (/ d). intros h [H1 H2].
    assert (Hh : h < d). { apply (Rmult_lt_reg_l (/ d)); [now apply Rinv_0_lt_compat|]. rewrite Rinv_l by lra. exact H2. }
    specialize (HB h (conj H1 Hh)). rewrite Rplus_0_l in HB. unfold poly in HB. cbn [Csum_to pow] in HB.
    replace (g h - (RtoC 0 + c O * RtoC 1))%C with (g h - c O)%C in HB by ring. lra.
  - pose (G := fun h => if Req_EM_T h 0 then c 1%nat else ((g h - c O) / RtoC h)%C).
    exists (c O), G. split.
    + exists 0. intros h _. unfold G. destruct (Req_EM_T h 0) as [->|Hh]; [rewrite H0 by lia; ring|].
      field. intros K. apply RtoC_inj in K. contradiction.
    + apply (IH G (fun m => c (S m))).
      * intros eps He. destruct (H eps He) as (d & Hd & HB). exists d. split; [exact Hd|]. intros h Hh.
        specialize (HB h Hh). rewrite Rplus_0_l in *. unfold G. destruct (Req_EM_T h 0) as [->|Hne].
        -- assert (E : poly (fun m => c (S m)) (S n) 0 = c 1%nat).
           { unfold poly. rewrite Csum_to_shift. cbn [pow].
             rewrite (Csum_to_ext _ (fun _ => RtoC 0)) by (intros m _; rewrite Rmult_0_l; ring).
             assert (Z0 : forall k, Csum_to (fun _ => RtoC 0) k = RtoC 0) by (clear; induction k; cbn; [reflexivity|rewrite IHk; ring]).
             rewrite Z0. ring. }
           rewrite E. replace (c 1%nat - c 1%nat)%C with (RtoC 0) by ring. rewrite Cmod_0.
           apply Rmult_le_pos; [lra|]. destruct n; simpl; lra.
        -- assert (Hp : 0 < h) by lra. assert (Nh : RtoC h <> RtoC 0) by (apply RtoC_neq_0; exact Hne).
           assert (E : poly c (S (S n)) h = (c O + RtoC h * poly (fun m => c (S m)) (S n) h)%C).
           { unfold poly. rewrite (Csum_to_shift (fun m => c m * RtoC (h ^ m))%C (S n)).
             rewrite (Cmult_comm (RtoC h)), Csum_to_mult_r. cbn [pow]. f_equal; [ring|].
             apply Csum_to_ext. intros m _. rewrite RtoC_mult. ring. }
           rewrite E in HB.
           replace (g h - (c O + RtoC h * poly (fun m => c (S m)) (S n) h))%C
             with (RtoC h * ((g h - c O) / RtoC h - poly (fun m => c (S m)) (S n) h))%C in HB by (field; exact Nh).
           rewrite Cmod_mult, Cmod_R, Rabs_pos_eq in HB by lra. apply (Rmult_le_reg_l h); [exact Hp|].
           cbn [pow] in HB. lra.
      * intros Hn. unfold G. destruct (Req_EM_T 0 0); [reflexivity|contradiction].
Qed.

(** ** The logarithm *)
Definition log_coef (a : R) (m : nat) : R := match m with O => 0 | S k => (- 1) ^ k * a ^ m / INR m end.
Fixpoint rsum_to (f : nat -> R) (n : nat) : R := match n with O => 0 | S m => rsum_to f m + f m end.
Lemma geom_alt u n : 1 + u <> 0 -> / (1 + u) - rsum_to (fun k => (- u) ^ k) n = (- u) ^ n / (1 + u).
Proof.
  intros H. induction n as [|n IH]; cbn [rsum_to]; [cbn [pow]; unfold Rdiv; rewrite Rmult_1_l; ring|].
  replace (/ (1 + u) - (rsum_to (fun k => (- u) ^ k) n + (- u) ^ n)) with ((- u) ^ n / (1 + u) - (- u) ^ n) by (rewrite <- IH; ring).
  cbn [pow]. field. exact H.
Qed.
Lemma log_rem_derive n u : 0 <= u ->
  is_derive (fun x => ln (1 + x) - rsum_to (fun m => log_coef 1 m * x ^ m) (S n)) u ((- u) ^ n / (1 + u)).
Proof.
  intros Hu. rewrite <- (geom_alt u n) by lra.
  assert (SD : is_derive (fun x => rsum_to (fun m => log_coef 1 m * x ^ m) (S n)) u (rsum_to (fun k => (- u) ^ k) n)).
  { induction n as [|n IH].
    - cbn [rsum_to log_coef]. apply (is_derive_ext (fun _ => 0 + 0)); [intros t; simpl; ring|]. apply is_derive_Reals. apply derivable_pt_lim_const.
    - change (rsum_to (fun k => (- u) ^ k) (S n)) with (rsum_to (fun k => (- u) ^ k) n + (- u) ^ n).
      apply (is_derive_ext (fun x => rsum_to (fun m => log_coef 1 m * x ^ m) (S n) + log_coef 1 (S n) * x ^ (S n))); [reflexivity|].
      apply (is_derive_plus (fun x => rsum_to (fun m => log_coef 1 m * x ^ m) (S n)) (fun x => log_coef 1 (S n) * x ^ (S n))); [exact IH|].
      auto_derive; [exact I|]. cbn [log_coef]. rewrite pow1. replace (- u) with (-1 * u) by ring. rewrite Rpow_mult_distr.
      replace (Init.Nat.pred (S n)) with n by reflexivity. change (match n with 0%nat => 1 | S _ => INR n + 1 end) with (INR (S n)). field. apply not_0_INR. lia. }
  assert (L : is_derive (fun x => ln (1 + x)) u (/ (1 + u))) by (auto_derive; [lra|field; lra]).
  apply (is_derive_ext (fun x => ln (1 + x) - rsum_to (fun m => log_coef 1 m * x ^ m) (S n))); [intros t; simpl; ring|].
  apply (is_derive_minus (fun x => ln (1 + x)) (fun x => rsum_to (fun m => log_coef 1 m * x ^ m) (S n))); assumption.
Qed.
Lemma log_rem n u : 0 <= u -> Rabs (ln (1 + u) - rsum_to (fun m => log_coef 1 m * u ^ m) (S n)) <= u ^ (S n).
Proof.
  intros Hu. destruct (Req_dec u 0) as [->|Hne].
  - replace (rsum_to (fun m => log_coef 1 m * 0 ^ m) (S n)) with 0.
    + rewrite Rplus_0_r, ln_1, Rminus_0_r, Rabs_R0. simpl. lra.
    + symmetry. clear. induction n as [|n IH]; [simpl; ring|]. change (rsum_to (fun m => log_coef 1 m * 0 ^ m) (S n) + log_coef 1 (S n) * 0 ^ (S n) = 0).
      rewrite IH. cbn [pow]. ring.
  - set (f := fun x => ln (1 + x) - rsum_to (fun m => log_coef 1 m * x ^ m) (S n)).
    destruct (MVT_gen f 0 u (fun x => (- x) ^ n / (1 + x))) as (xi & Hxi & E).
    + intros x Hx. rewrite Rmin_left, Rmax_right in Hx by lra. apply log_rem_derive. lra.
    + intros x Hx. rewrite Rmin_left, Rmax_right in Hx by lra. apply derivable_continuous_pt.
      exists ((- x) ^ n / (1 + x)). apply is_derive_Reals. apply log_rem_derive. lra.
    + rewrite Rmin_left, Rmax_right in Hxi by lra.
      assert (F0 : f 0 = 0).
      { unfold f. rewrite Rplus_0_r, ln_1.
        replace (rsum_to (fun m => log_coef 1 m * 0 ^ m) (S n)) with 0; [ring|].
        symmetry. clear. induction n as [|n IH]; [simpl; ring|]. change (rsum_to (fun m => log_coef 1 m * 0 ^ m) (S n) + log_coef 1 (S n) * 0 ^ (S n) = 0).
        rewrite IH. cbn [pow]. ring. }
      rewrite F0, Rminus_0_r in E.
      replace (ln (1 + u) - rsum_to (fun m => log_coef 1 m * u ^ m) (S n)) with (f u) by (unfold f; ring).
      rewrite E, Rminus_0_r, Rabs_mult, (Rabs_pos_eq u) by exact Hu. cbn [pow]. rewrite (Rmult_comm u).
      apply Rmult_le_compat_r; [exact Hu|]. unfold Rdiv. rewrite Rabs_mult, <- RPow_abs, Rabs_Ropp, (Rabs_pos_eq xi) by lra.
      rewrite Rabs_pos_eq by (apply Rlt_le, Rinv_0_lt_compat; lra).
      apply Rle_trans with (xi ^ n * 1).
      * apply Rmult_le_compat_l; [apply pow_le; lra|]. rewrite <- Rinv_1. apply Rinv_le_contravar; lra.
      * rewrite Rmult_1_r. apply pow_incr. lra.
Qed.
Lemma Csum_to_RtoC f n : Csum_to (fun m => RtoC (f m)) n = RtoC (rsum_to f n).
Proof. induction n as [|n IH]; cbn; [reflexivity|]. now rewrite IH, <- RtoC_plus. Qed.
Lemma sm_ln1 a : 0 < a -> smooth (fun h => RtoC (ln (1 + a * h))).
Proof.
  intros Ha n. apply (expands_ex n _ (fun m => RtoC (log_coef 1 m * a ^ m))).
  - intros eps He. exists (eps / a ^ (S n)). assert (PA : 0 < a ^ (S n)) by now apply pow_lt. split; [now apply Rdiv_lt_0_compat|].
    intros h [H1 H2]. rewrite Rplus_0_l. unfold poly.
    rewrite (Csum_to_ext _ (fun m => RtoC (log_coef 1 m * (a * h) ^ m))).
    2:{ intros m _. rewrite <- RtoC_mult. f_equal. rewrite Rpow_mult_distr. ring. }
    rewrite (Csum_to_RtoC (fun m => log_coef 1 m * (a * h) ^ m)), <- RtoC_minus, Cmod_R.
    eapply Rle_trans; [apply log_rem; nra|]. rewrite Rpow_mult_distr.
    replace (a ^ S n * h ^ S n) with (a ^ S n * h * h ^ n) by (simpl; ring).
    apply Rmult_le_compat_r; [now apply pow_le|].
    apply (Rmult_lt_compat_l (a ^ S n)) in H2; [|exact PA]. replace (a ^ S n * (eps / a ^ S n)) with eps in H2 by (field; lra). lra.
  - intros _. cbn [log_coef]. rewrite Rmult_0_r, Rplus_0_r, ln_1. f_equal. ring.
Qed.
Lemma sm_ln p q : 0 < p -> 0 < q -> smooth (fun h => RtoC (ln (p + q * h))).
Proof.
  intros Hp Hq. apply (sm_ext (fun h => RtoC (ln p) + RtoC (ln (1 + q / p * h)))%C).
  - intros h Hh. rewrite <- RtoC_plus. f_equal. assert (0 < 1 + q / p * h) by (pose proof (Rdiv_lt_0_compat q p Hq Hp); nra).
    rewrite <- ln_mult by assumption. f_equal. field. lra.
  - apply sm_plus; [apply sm_const|]. apply sm_ln1. now apply Rdiv_lt_0_compat.
Qed.

(** ** The geometry functions *)
Lemma sm_fdm_f z d r L g : fdm_regular z d r L -> smooth (fun h => fdm_f (z + h) d r L g).
Proof.
  intros (Hr & HL & Hp & H4). unfold fdm_f.
  set (l := ln (4 * L / r)). set (P := r + 4 * z + 2 * r * d) in *.
  apply (sm_ext (fun h => (g - RtoC ((r + 2 * z + r * d) / (2 * L) + / L * h)) * (RtoC (ln (4 * L)) * RtoC (/ l) - RtoC (/ l) * RtoC (ln (P + 4 * h))))%C).
  - intros h Hh. f_equal.
    + f_equal. apply f_equal. field. lra.
    + rewrite <- !RtoC_mult, <- RtoC_minus. f_equal. unfold Rdiv. fold l.
      replace (r + 4 * (z + h) + 2 * r * d) with (P + 4 * h) by (unfold P; ring).
      change (4 * L * / (P + 4 * h)) with (4 * L / (P + 4 * h)). rewrite ln_div by lra. ring.
  - apply sm_mult.
    + apply sm_minus; [apply sm_const|apply sm_aff].
    + apply sm_minus; [apply sm_const|]. apply sm_mult; [apply sm_const|]. apply sm_ln; [exact Hp|lra].
Qed.
Lemma regular_up z d r L h : fdm_regular z d r L -> 0 <= h -> fdm_regular (z + h) d r L.
Proof. intros (Hr & HL & Hp & H4) Hh. unfold fdm_regular. repeat split; try assumption. lra. Qed.

Lemma smooth_expands g z n : smooth (fun h => g (z + h)) -> exists c, expands g z n c.
Proof.
  intros H. destruct (ex_expands n _ (H n)) as [c Hc]. exists c. intros eps He. destruct (Hc eps He) as (d & Hd & HB).
  exists d. split; [exact Hd|]. intros h Hh. specialize (HB h Hh). rewrite Rplus_0_l in HB. exact HB.
Qed.

(** C64. The coefficients of an expansion are determined by the function. *)
Lemma C64_expansion_unique_proof :
  forall (f : R -> C) (z : R) (n : nat) (c c' : nat -> C),
  expands f z n c -> expands f z n c' -> forall m, (m <= n)%nat -> c m = c' m.
Proof.
  intros f z n c c' H H'.
  assert (K : forall eps, 0 < eps -> exists delta, 0 < delta /\ forall h, 0 <= h < delta -> Cmod (poly (fun m => c m - c' m)%C (S n) h) <= eps * h ^ n).
  { intros eps He. destruct (H (eps / 2) ltac:(lra)) as (d & Hd & HB). destruct (H' (eps / 2) ltac:(lra)) as (d' & Hd' & HB').
    exists (Rmin d d'). split; [now apply Rmin_pos|]. intros h Hh. pose proof (Rmin_l d d'). pose proof (Rmin_r d d').
    specialize (HB h ltac:(lra)). specialize (HB' h ltac:(lra)).
    assert (E : poly (fun m => c m - c' m)%C (S n) h = ((f (z + h)%R - poly c' (S n) h) - (f (z + h)%R - poly c (S n) h))%C).
    { assert (E0 : forall k, poly (fun m => c m - c' m)%C k h = (poly c k h - poly c' k h)%C).
      { unfold poly. induction k as [|k IH]; cbn [Csum_to]; [ring|]. rewrite IH. ring. }
      rewrite E0. ring. }
    rewrite E. unfold Cminus at 1. eapply Rle_trans; [apply Cmod_triangle|]. rewrite Cmod_opp. lra. }
  assert (Q : forall n c, (forall eps, 0 < eps -> exists delta, 0 < delta /\ forall h, 0 <= h < delta -> Cmod (poly c (S n) h) <= eps * h ^ n) ->
              forall m, (m <= n)%nat -> c m = RtoC 0).
  { clear. induction n as [|n IH]; intros c K m Hm.
    - replace m with O by lia. apply Cmod_eq_0. apply Rle_antisym; [|apply Cmod_ge_0]. apply le_epsilon. intros eps He.
      destruct (K eps He) as (d & Hd & HB). specialize (HB 0 ltac:(lra)). unfold poly in HB. cbn [Csum_to pow] in HB.
      replace (RtoC 0 + c O * RtoC 1)%C with (c O) in HB by ring. lra.
    - assert (E : forall h, poly c (S (S n)) h = (c O + RtoC h * poly (fun m => c (S m)) (S n) h)%C).
      { intros h. unfold poly. rewrite (Csum_to_shift (fun m => c m * RtoC (h ^ m))%C (S n)).
        rewrite (Cmult_comm (RtoC h)), Csum_to_mult_r. cbn [pow]. f_equal; [ring|].
        apply Csum_to_ext. intros k _. rewrite RtoC_mult. ring. }
      assert (C0 : c O = RtoC 0).
      { destruct (K 1 ltac:(lra)) as (d & Hd & HB). specialize (HB 0 ltac:(lra)). rewrite E in HB.
        replace (c O + RtoC 0 * poly (fun m => c (S m)) (S n) 0)%C with (c O) in HB by ring. cbn [pow] in HB.
        apply Cmod_eq_0. apply Rle_antisym; [lra|apply Cmod_ge_0]. }
      destruct m as [|m]; [exact C0|]. apply (IH (fun m => c (S m))); [|lia]. clear m Hm.
      assert (KP : forall eps, 0 < eps -> exists delta, 0 < delta /\ forall h, 0 < h < delta -> Cmod (poly (fun m => c (S m)) (S n) h) <= eps * h ^ n).
      { intros eps He. destruct (K eps He) as (d & Hd & HB). exists d. split; [exact Hd|]. intros h Hh. specialize (HB h ltac:(lra)).
        rewrite E, C0, Cplus_0_l, Cmod_mult, Cmod_R, Rabs_pos_eq in HB by lra. apply (Rmult_le_reg_l h); [lra|]. cbn [pow] in HB. lra. }
      (* h = 0 by continuity of the polynomial *)
      assert (P0 : forall cc k, smooth (fun h => poly cc k h)).
      { intros cc k. unfold poly. induction k as [|k IHk]; [exact (sm_const (RtoC 0))|]. cbn [Csum_to]. apply sm_plus; [exact IHk|].
        apply sm_mult; [apply sm_const|]. apply (sm_ext (fun h => RtoC ((0 + 1 * h) ^ k))); [intros h _; do 2 f_equal; ring|apply sm_pow]. }
      pose proof (sm_limit _ (P0 (fun m => c (S m)) (S n))) as L.
      intros eps He. destruct (KP eps He) as (d & Hd & HB). exists d. split; [exact Hd|]. intros h Hh.
      destruct (Req_dec h 0) as [->|Hne]; [|apply HB; lra].
      assert (Z0 : 0 <= eps * 0 ^ n) by (apply Rmult_le_pos; [lra|destruct n; simpl; lra]).
      destruct n as [|n].
      + (* constant polynomial *)
        unfold poly. cbn [Csum_to pow]. specialize (HB (d / 2) ltac:(lra)). unfold poly in HB. cbn [Csum_to pow] in HB. exact HB.
      + cbn [pow]. rewrite Rmult_0_l, Rmult_0_r. apply le_epsilon. intros e2 He2. rewrite Rplus_0_l.
        destruct (L (e2 / 2) ltac:(lra)) as [M HM]. destruct (KP 1 ltac:(lra)) as (d2 & Hd2 & HB2).
        set (h0 := Rmin (Rmin (d2 / 2) (e2 / 2)) (Rmin (/ (2 * Rmax M 1)) 1)).
        assert (PM : 0 < Rmax M 1) by (pose proof (Rmax_r M 1); lra).
        assert (PI' : 0 < / (2 * Rmax M 1)) by (apply Rinv_0_lt_compat; lra).
        assert (H0 : 0 < h0) by (unfold h0; repeat apply Rmin_pos; lra).
        assert (B1 : h0 <= d2 / 2) by (eapply Rle_trans; [apply Rmin_l|apply Rmin_l]).
        assert (B2 : h0 <= e2 / 2) by (eapply Rle_trans; [apply Rmin_l|apply Rmin_r]).
        assert (B3 : h0 <= / (2 * Rmax M 1)) by (eapply Rle_trans; [apply Rmin_r|apply Rmin_l]).
        assert (B4 : h0 <= 1) by (eapply Rle_trans; [apply Rmin_r|apply Rmin_r]).
        assert (A0 : at0 M h0).
        { split; [lra|]. pose proof (Rmax_l M 1). apply Rle_lt_trans with (Rmax M 1 * h0); [nra|].
          apply (Rmult_le_compat_l (Rmax M 1)) in B3; [|lra]. replace (Rmax M 1 * / (2 * Rmax M 1)) with (1 / 2) in B3 by (field; lra). lra. }
        specialize (HM h0 A0). specialize (HB2 h0 ltac:(lra)). set (p0 := poly _ _ 0) in *. set (p1 := poly _ _ h0) in *.
        replace p0 with (p1 - (p1 - p0))%C by ring. unfold Cminus at 1. eapply Rle_trans; [apply Cmod_triangle|]. rewrite Cmod_opp.
        assert (HP : h0 ^ S n <= h0). { cbn [pow]. assert (h0 ^ n <= 1) by (rewrite <- (pow1 n); apply pow_incr; lra). nra. }
        lra. }
  intros m Hm. pose proof (Q n _ K m Hm) as E. cbv beta in E. replace (c m) with ((c m - c' m) + c' m)%C by ring. rewrite E. ring.
Qed.

(** C64. Finite-dipole model of a bulk sample: for small tapping amplitudes the
    n-th harmonic is A^|n| times the |n|-th Taylor coefficient of the effective
    polarizability at the lowest tip position, over 2^|n|. *)
Lemma C64_fdm_bulk_proof :
  forall (laggauss : laggauss_t) (D : Defaults) (s : sample) (n : Z)
    (z_tip r_tip L_tip : option R) (g_factor : option C) (d_Q0 d_Q1 d_Qa : option R) (n_lag n_trapz : option nat)
    (method : option string) (beta : C),
  let z := given_or (d_z_tip D) z_tip in let r := given_or (d_r_tip D) r_tip in
  let L := given_or (d_L_tip D) L_tip in
  let d0 := given_or (131 / 100 * L / (L + 2 * r)) d_Q0 in
  let d1 := given_or (d_d_Q1 D) d_Q1 in
  let g := given_or (d_g_factor D) g_factor in
  let N := given_or (d_n_trapz D) n_trapz in let a := Z.abs_nat n in
  multilayer s = false -> refl_coef_qs s (rr 0) = Ok (Some beta) ->
  method = None \/ method = Some "bulk"%string ->
  fdm_regular z d0 r L -> fdm_regular z d1 r L -> (1 - beta * fdm_f z d1 r L g <> 0)%C ->
  (2 * a < N)%nat ->
  exists c, expands (fun x => 1 + beta * fdm_f x d0 r L g / (2 * (1 - beta * fdm_f x d1 r L g)))%C z a c /\
  forall eps, 0 < eps -> exists delta, 0 < delta /\ forall A, 0 < A < delta ->
  exists v, fdm_eff_pol_n laggauss D s A n z_tip n_trapz r_tip L_tip g_factor d_Q0 d_Q1 d_Qa n_lag method = Ok (Some v) /\
    Cmod (v / RtoC (A ^ a) - c a / RtoC (2 ^ a))%C <= eps.
Proof.
  intros lg D s n z_tip r_tip L_tip gf d_Q0 d_Q1 d_Qa n_lag nt method beta z r L d0 d1 g N a Hm Hb Hmeth R0 R1 Hden HN.
  set (F := fun x => (1 + beta * fdm_f x d0 r L g / (2 * (1 - beta * fdm_f x d1 r L g)))%C).
  assert (SD : smooth (fun h => 1 - beta * fdm_f (z + h) d1 r L g)%C).
  { apply sm_minus; [apply sm_const|]. apply sm_mult; [apply sm_const|]. now apply sm_fdm_f. }
  assert (SD0 : (1 - beta * fdm_f (z + 0) d1 r L g <> 0)%C) by (rewrite Rplus_0_r; exact Hden).
  assert (SF : smooth (fun h => F (z + h))).
  { unfold F. apply sm_plus; [apply sm_const|]. apply sm_div.
    - apply sm_mult; [apply sm_const|now apply sm_fdm_f].
    - apply sm_mult; [apply sm_const|exact SD].
    - apply Cmult_neq_0; [exact C2_neq_0|exact SD0]. }
  destruct (smooth_expands F z a SF) as [c Hc]. exists c. split; [exact Hc|].
  destruct (sm_away _ SD SD0) as (room & Hroom & Hne). cbv beta in Hne.
  assert (EM : forall x, fdm_eff_pol lg D s (Some x) r_tip L_tip gf d_Q0 d_Q1 d_Qa n_lag method
               = fdm_eff_pol lg D s (Some x) r_tip L_tip gf d_Q0 d_Q1 d_Qa n_lag (Some "bulk"%string)).
  { intros x. destruct Hmeth as [->| ->]; [|reflexivity]. unfold fdm_eff_pol. rewrite Hm. reflexivity. }
  intros eps He.
  destruct (C64_small_amplitude_proof D (fun x => fdm_eff_pol lg D s (Some x) r_tip L_tip gf d_Q0 d_Q1 d_Qa n_lag method) F z n nt c room HN) with (eps := eps) as (del & Hdel & HB); try assumption.
  - intros x. rewrite EM. unfold fdm_eff_pol.
    rewrite (fdm_defaults_eq D r_tip L_tip gf d_Q0 d_Q1 d_Qa) by apply R0.
    cbn [String.eqb Ascii.eqb Bool.eqb]. rewrite Hm, Hb. cbn [rbind]. eexists; reflexivity.
  - intros h Hh. rewrite EM.
    rewrite (bulk_eff_pol lg D s (Some (z + h)) r_tip L_tip gf d_Q0 d_Q1 d_Qa n_lag beta Hm Hb) by (cbn [given_or]; apply regular_up; [assumption|lra]).
    cbn [given_or]. fold r L d0 d1 g. rewrite cdiv_ok by (apply Cmult_neq_0; [exact C2_neq_0|apply Hne; exact Hh]). reflexivity.
  - exists del. split; [exact Hdel|]. intros A HA. exact (HB A HA).
Qed.

(** C64. Point-dipole model: the same. *)
Lemma C64_pdm_proof :
  forall (D : Defaults) (s : sample) (n : Z) (z_tip r_tip : option R) (eps_tip alpha_tip : option C) (n_trapz : option nat) (alpha beta : C),
  let z := given_or (d_z_tip D) z_tip in let r := given_or (d_r_tip D) r_tip in
  let N := given_or (d_n_trapz D) n_trapz in let a := Z.abs_nat n in
  refl_coef_qs s (rr 0) = Ok (Some beta) -> tip_alpha r eps_tip alpha_tip alpha ->
  0 < r + z -> (1 - alpha / RtoC (16 * PI * (r + z) ^ 3) * beta <> 0)%C ->
  (2 * a < N)%nat ->
  exists c, expands (fun x => alpha / (1 - alpha / RtoC (16 * PI * (r + x) ^ 3) * beta))%C z a c /\
  forall eps, 0 < eps -> exists delta, 0 < delta /\ forall A, 0 < A < delta ->
  exists v, pdm_eff_pol_n D s A n z_tip n_trapz r_tip eps_tip alpha_tip = Ok (Some v) /\
    Cmod (v / RtoC (A ^ a) - c a / RtoC (2 ^ a))%C <= eps.
Proof.
  intros D s n z_tip r_tip et alt nt alpha beta z r N a Hb Ha Hz Hden HN.
  set (F := fun x => (alpha / (1 - alpha / RtoC (16 * PI * (r + x) ^ 3) * beta))%C).
  assert (Sf : smooth (fun h => alpha / RtoC (16 * PI * (r + (z + h)) ^ 3))%C).
  { apply sm_div; [apply sm_const| |rewrite Rplus_0_r; apply pdm_den_neq_0; lra].
    apply (sm_ext (fun h => RtoC (16 * PI) * RtoC ((r + z + 1 * h) ^ 3))%C).
    - intros h _. rewrite <- RtoC_mult. do 3 f_equal. ring.
    - apply sm_mult; [apply sm_const|apply sm_pow]. }
  assert (SD : smooth (fun h => 1 - alpha / RtoC (16 * PI * (r + (z + h)) ^ 3) * beta)%C).
  { apply sm_minus; [apply sm_const|]. apply sm_mult; [exact Sf|apply sm_const]. }
  assert (SD0 : (1 - alpha / RtoC (16 * PI * (r + (z + 0)) ^ 3) * beta <> 0)%C) by (rewrite Rplus_0_r; exact Hden).
  assert (SF : smooth (fun h => F (z + h))) by (unfold F; apply sm_div; [apply sm_const|exact SD|exact SD0]).
  destruct (smooth_expands F z a SF) as [c Hc]. exists c. split; [exact Hc|].
  destruct (sm_away _ SD SD0) as (room & Hroom & Hne). cbv beta in Hne.
  intros eps He. pose proof (pdm_defaults_alpha D r_tip et alt alpha Ha) as PD.
  destruct (C64_small_amplitude_proof D (fun x => pdm_eff_pol D s (Some x) r_tip et alt) F z n nt c room HN) with (eps := eps) as (del & Hdel & HB); try assumption.
  - intros x. unfold pdm_eff_pol. rewrite PD. cbn [rbind]. rewrite Hb. cbn [rbind]. eexists; reflexivity.
  - intros h Hh. unfold pdm_eff_pol. rewrite PD. cbn [rbind fst snd]. rewrite Hb. cbn [rbind]. fold r.
    change (dflt (d_z_tip D) (Some (z + h))) with (z + h). rewrite pdm_geom_ok by lra.
    unfold csub, cmul, rc. cbn [olift2]. rewrite cdiv_ok by (apply Hne; exact Hh). reflexivity.
  - exists del. split; [exact Hdel|]. intros A HA. exact (HB A HA).
Qed.

(** C64. First harmonic of the point-dipole model, explicitly: half the
    amplitude times the height derivative of the effective polarizability. *)
Lemma C64_pdm_first_harmonic_proof :
  forall (D : Defaults) (s : sample) (z_tip r_tip : option R) (eps_tip alpha_tip : option C) (n_trapz : option nat) (alpha beta : C),
  let z := given_or (d_z_tip D) z_tip in let r := given_or (d_r_tip D) r_tip in
  let f := (alpha / RtoC (16 * PI * (r + z) ^ 3))%C in
  refl_coef_qs s (rr 0) = Ok (Some beta) -> tip_alpha r eps_tip alpha_tip alpha ->
  0 < r + z -> (1 - f * beta <> 0)%C ->
  (2 < given_or (d_n_trapz D) n_trapz)%nat ->
  forall eps, 0 < eps -> exists delta, 0 < delta /\ forall A, 0 < A < delta ->
  exists v, pdm_eff_pol_n D s A 1 z_tip n_trapz r_tip eps_tip alpha_tip = Ok (Some v) /\
    Cmod (v / RtoC A - (- (RtoC (3 / 2) * alpha * f * beta / (RtoC (r + z) * ((1 - f * beta) * (1 - f * beta))))))%C <= eps.
Proof.
  intros D s z_tip r_tip et alt nt alpha beta z r f Hb Ha Hz Hden HN.
  destruct (C64_pdm_proof D s 1 z_tip r_tip et alt nt alpha beta Hb Ha Hz Hden) as (c & Hc & HB).
  { change (Z.abs_nat 1) with 1%nat. lia. }
  change (Z.abs_nat 1) with 1%nat in *. fold r z in Hc.
  set (F := fun x => (alpha / (1 - alpha / RtoC (16 * PI * (r + x) ^ 3) * beta))%C) in *.
  set (q := fun h => (alpha / RtoC (16 * PI * (r + (z + h)) ^ 3))%C).
  pose proof PI_RGT_0 as HP.
  assert (Sf : smooth q).
  { apply sm_div; [apply sm_const| |rewrite Rplus_0_r; apply pdm_den_neq_0; lra].
    apply (sm_ext (fun h => RtoC (16 * PI) * RtoC ((r + z + 1 * h) ^ 3))%C).
    - intros h _. rewrite <- RtoC_mult. do 3 f_equal. ring.
    - apply sm_mult; [apply sm_const|apply sm_pow]. }
  assert (SD : smooth (fun h => 1 - q h * beta)%C).
  { apply sm_minus; [apply sm_const|]. apply sm_mult; [exact Sf|apply sm_const]. }
  assert (Q0 : q 0 = f) by (unfold q, f; now rewrite Rplus_0_r).
  assert (SD0 : (1 - q 0 * beta <> 0)%C) by (rewrite Q0; exact Hden).
  pose (G := fun h => (- (alpha * beta * f * RtoC (3 * (r + z) ^ 2 + 3 * (r + z) * h + h ^ 2) / (RtoC ((r + z + 1 * h) ^ 3) * ((1 - q h * beta) * (1 - f * beta)))))%C).
  assert (SG : smooth G).
  { unfold G. apply (sm_ext (fun h => (RtoC 0 - alpha * beta * f * (RtoC (3 * (r + z) ^ 2) + RtoC (3 * (r + z)) * RtoC h + RtoC h * RtoC h) / (RtoC ((r + z + 1 * h) ^ 3) * ((1 - q h * beta) * (1 - f * beta))))%C)).
    - intros h _. rewrite <- !RtoC_mult, <- !RtoC_plus. replace (h ^ 2) with (h * h) by ring. ring.
    - apply sm_minus; [apply sm_const|]. apply sm_div.
      + apply sm_mult; [apply sm_const|]. apply sm_plus; [apply sm_plus|]; [apply sm_const| |apply sm_mult; apply sm_id].
        apply sm_mult; [apply sm_const|apply sm_id].
      + apply sm_mult; [apply sm_pow|]. apply sm_mult; [exact SD|apply sm_const].
      + repeat apply Cmult_neq_0; [|exact SD0|exact Hden]. apply RtoC_neq_0, pow_nonzero. lra. }
  destruct (sm_away _ SD SD0) as (room & Hroom & Hne). cbv beta in Hne.
  assert (E1 : expands F z 1 (fun m => match m with O => F z | _ => G 0 end)).
  { intros eps He. destruct (sm_limit G SG eps He) as [M HM].
    assert (PM : 0 < Rmax M 1) by (pose proof (Rmax_r M 1); lra).
    exists (Rmin room (/ Rmax M 1)). split; [apply Rmin_pos; [exact Hroom|now apply Rinv_0_lt_compat]|].
    intros h [H1 H2]. pose proof (Rmin_l room (/ Rmax M 1)). pose proof (Rmin_r room (/ Rmax M 1)).
    assert (A : at0 M h).
    { split; [exact H1|]. pose proof (Rmax_l M 1). apply Rle_lt_trans with (Rmax M 1 * h); [nra|].
      assert (K : h < / Rmax M 1) by lra. apply (Rmult_lt_compat_l (Rmax M 1)) in K; [|assumption]. rewrite Rinv_r in K by lra. exact K. }
    specialize (HM h A).
    assert (EF : F (z + h) = (F z + RtoC h * G h)%C).
    { pose proof (Hne h ltac:(lra)) as N1.
      assert (Eq : (q h = f * RtoC ((r + z) ^ 3) / RtoC ((r + z + 1 * h) ^ 3))%C).
      { unfold q, f. replace (r + (z + h)) with (r + z + 1 * h) by ring. rewrite !RtoC_mult. field.
        repeat split; try (apply RtoC_neq_0; lra); apply RtoC_neq_0, pow_nonzero; lra. }
      assert (Ed : (f - q h = f * RtoC (h * (3 * (r + z) ^ 2 + 3 * (r + z) * h + h ^ 2)) / RtoC ((r + z + 1 * h) ^ 3))%C).
      { rewrite Eq. replace (h * (3 * (r + z) ^ 2 + 3 * (r + z) * h + h ^ 2)) with ((r + z + 1 * h) ^ 3 - (r + z) ^ 3) by ring.
        rewrite RtoC_minus. field. apply RtoC_neq_0, pow_nonzero. lra. }
      assert (ED : (F (z + h)%R - F z)%C = (alpha * beta * (q h - f) / ((1 - q h * beta) * (1 - f * beta)))%C).
      { unfold F. fold f. change (alpha / RtoC (16 * PI * (r + (z + h)) ^ 3))%C with (q h). field. split; assumption. }
      replace (F (z + h)) with (F z + (F (z + h)%R - F z))%C by ring. rewrite ED. f_equal.
      replace (q h - f)%C with (- (f - q h))%C by ring. rewrite Ed. unfold G. rewrite RtoC_mult. field.
      repeat split; try assumption. apply RtoC_neq_0, pow_nonzero. lra. }
    rewrite EF. unfold poly. cbn [Csum_to pow]. rewrite Rmult_1_r.
    replace (F z + RtoC h * G h - (RtoC 0 + F z * RtoC 1 + G 0 * RtoC h))%C with (RtoC h * (G h - G 0))%C by ring.
    rewrite Cmod_mult, Cmod_R, Rabs_pos_eq by exact H1. nra. }
  pose proof (C64_expansion_unique_proof F z 1 c _ Hc E1 1%nat (le_n 1)) as EC. cbv beta iota in EC.
  assert (EG : (c 1%nat / RtoC (2 ^ 1))%C = (- (RtoC (3 / 2) * alpha * f * beta / (RtoC (r + z) * ((1 - f * beta) * (1 - f * beta)))))%C).
  { rewrite EC. unfold G. rewrite Q0.
    replace (3 * (r + z) ^ 2 + 3 * (r + z) * 0 + 0 ^ 2) with (3 * ((r + z) * (r + z))) by ring.
    replace ((r + z + 1 * 0) ^ 3) with ((r + z) * ((r + z) * (r + z))) by ring.
    replace (2 ^ 1) with 2 by ring. rewrite RtoC_div by lra. rewrite !RtoC_mult. field.
    repeat split; try assumption; try exact C2_neq_0. apply RtoC_neq_0. lra. }
  intros eps He. destruct (HB eps He) as (del & Hdel & HA). exists del. split; [exact Hdel|]. intros A HA0.
  destruct (HA A HA0) as (v & Ev & Hv). exists v. split; [exact Ev|]. rewrite EG in Hv. rewrite pow_1 in Hv. exact Hv.
Qed.

(** C64, concretely: the default perfectly conducting point-dipole tip on a
    substrate of permittivity 3 in vacuum (reflection coefficient 1/2): the first
    harmonic is -(12/49) alpha / r_tip per unit of a small amplitude. *)
Example C64_example_pdm_proof :
  let s := stack [RtoC 1; RtoC 3] [] None in
  let r := 20 / 10 ^ 9 in
  forall eps, 0 < eps -> exists delta, 0 < delta /\ forall A, 0 < A < delta ->
  exists v, pdm_eff_pol_n defaults0 s A 1 None None None None None = Ok (Some v) /\
    Cmod (v / RtoC A - RtoC (- (12 / 49) * (4 * PI * r ^ 3) / r))%C <= eps.
Proof.
  intros s r. pose proof PI_RGT_0 as HP.
  assert (Hr : given_or (d_r_tip defaults0) None = r) by reflexivity.
  assert (Hz : given_or (d_z_tip defaults0) None = 0) by reflexivity.
  assert (Hb : refl_coef_qs s (rr 0) = Ok (Some (RtoC (1 / 2)))).
  { unfold s. rewrite (bulk_qs (RtoC 1) (RtoC 3) None (rr 0)).
    - do 2 f_equal. rewrite <- RtoC_minus, <- RtoC_plus, <- RtoC_div by lra. f_equal. field.
    - apply RtoC_neq_0. lra.
    - rewrite <- RtoC_plus. apply RtoC_neq_0. lra. }
  assert (Pr : 0 < r) by (unfold r; lra).
  assert (Ef : (RtoC (4 * PI * r ^ 3) / RtoC (16 * PI * (r + 0) ^ 3) = RtoC (1 / 4))%C).
  { rewrite Rplus_0_r, <- RtoC_div. f_equal. field. split; lra. pose proof (pow_lt r 3 Pr). nra. }
  pose proof (C64_pdm_first_harmonic_proof defaults0 s None None None None None (RtoC (4 * PI * r ^ 3)) (RtoC (1 / 2))) as T.
  cbv zeta in T. rewrite Hr, Hz in T. rewrite Ef in T.
  assert (E7 : (1 - RtoC (1 / 4) * RtoC (1 / 2))%C = RtoC (7 / 8)) by (rewrite <- RtoC_mult, <- RtoC_minus; f_equal; field).
  rewrite E7 in T.
  intros eps He. destruct (T Hb (tip_conductor r)) with (eps := eps) as (del & Hd & HA); try assumption.
  - lra.
  - apply RtoC_neq_0. lra.
  - vm_compute. lia.
  - exists del. split; [exact Hd|]. intros A HA0. destruct (HA A HA0) as (v & Ev & Hv). exists v. split; [exact Ev|].
    replace (RtoC (- (12 / 49) * (4 * PI * r ^ 3) / r)) with (- (RtoC (3 / 2) * RtoC (4 * PI * r ^ 3) * RtoC (1 / 4) * RtoC (1 / 2) / (RtoC (r + 0) * (RtoC (7 / 8) * RtoC (7 / 8)))))%C; [exact Hv|].
    rewrite <- !RtoC_mult, <- RtoC_div, <- RtoC_opp by (rewrite Rplus_0_r; nra). f_equal. field. lra.
Qed.

(** C64, concretely: everything at its shipped default over a polar crystal near
    its resonance (permittivity -2 + 0.1 i): second harmonic of the finite-dipole
    model. *)
Example C64_example_fdm_proof : forall laggauss,
  exists l : C, forall eps, 0 < eps -> exists delta, 0 < delta /\ forall A, 0 < A < delta ->
  exists v, fdm_eff_pol_n laggauss defaults0 (stack [RtoC 1; (-2, 1/10)%R] [] None) A 2 None None None None None None None None None None = Ok (Some v) /\
    Cmod (v / RtoC (A ^ 2) - l)%C <= eps.
Proof.
  intros lg. destruct C26_example_proof as (R0 & R1 & _).
  destruct (C14_lossy_substrate_absorbs_proof 1 [] (-2, 1/10)%R [] None 0) as (b & Hb & Ib); [reflexivity|lra|constructor|unfold Im; simpl; lra|constructor|lra|].
  destruct (C64_fdm_bulk_proof lg defaults0 (stack [RtoC 1; (-2, 1/10)%R] [] None) 2 None None None None None None None None None None b) as (c & _ & HB); auto.
  - assert (H9 : 0 < / 10 ^ 9) by (apply Rinv_0_lt_compat; lra).
    apply no_pole; [exact Ib|]. rewrite Im_fdm_f. apply Rmult_le_pos; [apply Rlt_le, default_g_Im|]. apply Rlt_le, ratio_pos;
    cbn [given_or defaults0 d_z_tip d_r_tip d_L_tip d_d_Q1]; lra.
  - vm_compute. lia.
  - exists (c 2%nat / RtoC (2 ^ 2))%C. exact HB.
Qed.
