(** Uniform approximation by polynomials on [0, 1] (Bernstein's proof, with the
    binomial distribution as a recursive expectation). *)
From Coq Require Import Reals ZArith Lra Lia List Bool.
From Coquelicot Require Import Coquelicot.
From Coq Require Import List.
From Verif Require Import Laguerre2.
Import ListNotations.
Open Scope R_scope.

Lemma INR_unbounded A : exists n, A < INR n.
Proof.
  destruct (archimed A) as [H _]. exists (Z.to_nat (up A)). rewrite INR_IZR_INZ.
  destruct (Z.le_gt_cases 0 (up A)) as [Hz|Hz]; [rewrite Z2Nat.id by exact Hz; lra|].
  apply Rlt_le_trans with (IZR (up A)); [lra|]. apply IZR_le. lia.
Qed.

(** the expectation of phi (s + number of successes in n trials), success probability u *)
Fixpoint wex (u : R) (n : nat) (phi : nat -> R) (s : nat) : R :=
  match n with O => phi s | S n => u * wex u n phi (S s) + (1 - u) * wex u n phi s end.

Lemma wex_lin u n a b f g : forall s, wex u n (fun k => a * f k + b * g k) s = a * wex u n f s + b * wex u n g s.
Proof. induction n; intros s; simpl; [reflexivity|]. rewrite !IHn. ring. Qed.
Lemma wex_ext u n f g : (forall k, f k = g k) -> forall s, wex u n f s = wex u n g s.
Proof. intros H. induction n; intros s; simpl; [apply H|]. now rewrite !IHn. Qed.
Lemma wex_const u n c : forall s, wex u n (fun _ => c) s = c.
Proof. induction n; intros s; simpl; [reflexivity|]. rewrite !IHn. ring. Qed.
Lemma wex_le u n f g : 0 <= u <= 1 -> (forall k, f k <= g k) -> forall s, wex u n f s <= wex u n g s.
Proof.
  intros Hu H. induction n; intros s; simpl; [apply H|].
  pose proof (IHn s). pose proof (IHn (S s)).
  apply Rplus_le_compat; apply Rmult_le_compat_l; lra.
Qed.
Lemma wex_var u n a : forall s,
  wex u n (fun k => (INR k - a) ^ 2) s = INR n * u * (1 - u) + (INR s + INR n * u - a) ^ 2.
Proof.
  induction n; intros s; simpl wex.
  - simpl INR. ring.
  - rewrite !IHn. rewrite !S_INR. ring.
Qed.
Fixpoint wexp (n : nat) (phi : nat -> R) (s : nat) : list R :=
  match n with
  | O => [phi s]
  | S n => padd (0 :: wexp n phi (S s)) (padd (wexp n phi s) (pscal (-1) (0 :: wexp n phi s)))
  end.
Lemma wexp_ev u n phi : forall s, ev (wexp n phi s) u = wex u n phi s.
Proof.
  induction n; intros s; [simpl; ring|]. cbn [wexp wex]. rewrite !ev_padd, ev_pscal. cbn [ev]. rewrite !IHn. ring.
Qed.

Definition clamp01 (x : R) : R := Rmax 0 (Rmin x 1).
Lemma clamp01_in x : 0 <= clamp01 x <= 1.
Proof. unfold clamp01. split; [apply Rmax_l|]. apply Rmax_lub; [lra|apply Rmin_r]. Qed.
Lemma clamp01_id x : 0 <= x <= 1 -> clamp01 x = x.
Proof. intros H. unfold clamp01. rewrite Rmin_left by lra. apply Rmax_right. lra. Qed.
Lemma clamp01_close x u : 0 <= u <= 1 -> Rabs (clamp01 x - u) <= Rabs (x - u).
Proof.
  intros H. unfold clamp01, Rmax, Rmin. repeat (destruct (Rle_dec _ _)); unfold Rabs; repeat destruct (Rcase_abs _); lra.
Qed.

Lemma weierstrass (g : R -> R) : (forall x, 0 <= x <= 1 -> continuity_pt g x) ->
  forall eps, 0 < eps -> exists p, forall u, 0 <= u <= 1 -> Rabs (g u - ev p u) <= eps.
Proof.
  intros Hc eps He.
  destruct (continuity_ab_maj g 0 1 ltac:(lra) Hc) as (xM & HM & _).
  destruct (continuity_ab_min g 0 1 ltac:(lra) Hc) as (xm & Hm & _).
  set (M := Rmax (Rabs (g xM)) (Rabs (g xm))).
  assert (HB : forall x, 0 <= x <= 1 -> Rabs (g x) <= M).
  { intros x Hx. specialize (HM x Hx). specialize (Hm x Hx). unfold M. unfold Rmax. destruct (Rle_dec _ _) as [Q|Q];
      unfold Rabs in *; repeat destruct (Rcase_abs _); lra. }
  assert (M0 : 0 <= M) by (unfold M; eapply Rle_trans; [apply Rabs_pos|apply Rmax_l]).
  destruct (@Heine_cor2 g 0 1 Hc (mkposreal (eps / 2) ltac:(lra))) as [[d Hd] Hu]. simpl in Hu.
  set (c := 2 * M / d ^ 2).
  assert (Hd2 : 0 < d ^ 2) by (apply pow_lt; exact Hd).
  assert (C0 : 0 <= c) by (unfold c; apply Rdiv_le_0_compat; lra).
  destruct (INR_unbounded (c / (2 * eps) + 1)) as [n Hn].
  assert (Hn0 : 0 < INR n). { assert (0 <= c / (2 * eps)) by (apply Rdiv_le_0_compat; lra). lra. }
  exists (wexp n (fun k => g (clamp01 (INR k / INR n))) 0). intros u Hu01. rewrite wexp_ev.
  assert (Key : forall x, Rabs (g (clamp01 x) - g u) <= eps / 2 + c * (x - u) ^ 2).
  { intros x. pose proof (clamp01_in x) as Hx. pose proof (clamp01_close x u Hu01) as Hcl.
    destruct (Rlt_le_dec (Rabs (clamp01 x - u)) d) as [Hlt|Hge].
    - specialize (Hu (clamp01 x) u Hx Hu01 Hlt). assert (0 <= c * (x - u) ^ 2) by (apply Rmult_le_pos; [exact C0|apply pow2_ge_0]). lra.
    - assert (H1 : Rabs (g (clamp01 x) - g u) <= 2 * M).
      { pose proof (HB _ Hx). pose proof (HB u Hu01). unfold Rminus. eapply Rle_trans; [apply Rabs_triang|]. rewrite Rabs_Ropp. lra. }
      assert (H2 : d ^ 2 <= (x - u) ^ 2).
      { rewrite <- (pow2_abs (x - u)). apply pow_incr. lra. }
      assert (H3 : 2 * M <= c * (x - u) ^ 2).
      { replace (2 * M) with (c * d ^ 2) by (unfold c; field; lra). apply Rmult_le_compat_l; assumption. }
      lra. }
  assert (Up : forall f : nat -> R, (forall k, f k <= eps / 2 + c * (INR k / INR n - u) ^ 2) -> wex u n f 0 <= eps).
  { intros f Hf. eapply Rle_trans; [apply (wex_le u n f _ Hu01 Hf)|].
    rewrite (wex_ext u n _ (fun k => eps / 2 * 1 + c / INR n ^ 2 * (INR k - INR n * u) ^ 2)) by (intros k; field; lra).
    rewrite (wex_lin u n (eps / 2) (c / INR n ^ 2) (fun _ => 1)), wex_const, wex_var.
    replace (eps / 2 * 1 + c / INR n ^ 2 * (INR n * u * (1 - u) + (INR 0 + INR n * u - INR n * u) ^ 2))
      with (eps / 2 + c / INR n * (u * (1 - u))) by (simpl INR; field; lra).
    assert (u * (1 - u) <= / 4).
    { pose proof (pow2_ge_0 (u - / 2)) as X. replace ((u - / 2) ^ 2) with (/ 4 - u * (1 - u)) in X by field. lra. }
    assert (0 <= c / INR n) by (apply Rdiv_le_0_compat; lra).
    assert (c / INR n * (u * (1 - u)) <= c / INR n * / 4) by (apply Rmult_le_compat_l; assumption).
    assert (c / INR n <= 2 * eps).
    { apply (Rmult_le_reg_r (INR n)); [exact Hn0|]. replace (c / INR n * INR n) with c by (field; lra).
      assert (c = c / (2 * eps) * (2 * eps)) by (field; lra).
      assert (c / (2 * eps) * (2 * eps) <= INR n * (2 * eps)) by (apply Rmult_le_compat_r; lra). lra. }
    lra. }
  set (phi := fun k => g (clamp01 (INR k / INR n))).
  pose proof (Up (fun k => 1 * phi k + (- g u) * 1)) as U1.
  pose proof (Up (fun k => (-1) * phi k + g u * 1)) as U2.
  rewrite (wex_lin u n 1 (- g u) phi (fun _ => 1)), wex_const in U1.
  rewrite (wex_lin u n (-1) (g u) phi (fun _ => 1)), wex_const in U2.
  apply Rabs_le. split.
  - assert (1 * wex u n phi 0 + - g u * 1 <= eps); [|lra]. apply U1. intros k. specialize (Key (INR k / INR n)).
    unfold phi. apply Rabs_le_between in Key. lra.
  - assert (-1 * wex u n phi 0 + g u * 1 <= eps); [|lra]. apply U2. intros k. specialize (Key (INR k / INR n)).
    unfold phi. apply Rabs_le_between in Key. lra.
Qed.
