(** Laguerre polynomials and Gauss-Laguerre quadrature: the rule documented in
    sample.py exists for every order, has positive nodes and weights, and
    integrates all polynomials of degree < 2 J exactly. *)
From Coq Require Import Reals Lra Lia List Bool.
From Coquelicot Require Import Coquelicot.
From Coq Require Import List.
From Verif Require Import SpecQuad.
Import ListNotations.
Open Scope R_scope.

(** ** Alternating binomial sums as iterated differences *)
Fixpoint diff (n : nat) (phi : nat -> R) : R :=
  match n with O => phi O | S n => diff n (fun j => phi j - phi (S j)) end.

Lemma diff_ext n : forall f g, (forall j, f j = g j) -> diff n f = diff n g.
Proof. induction n; simpl; intros f g H; [apply H|]. apply IHn. intros j. now rewrite !H. Qed.
Lemma diff_lin n : forall f g a b, diff n (fun j => a * f j + b * g j) = a * diff n f + b * diff n g.
Proof.
  induction n; simpl; intros f g a b; [reflexivity|]. rewrite <- IHn. apply diff_ext. intros j. ring.
Qed.
Lemma diff_scal n f a : diff n (fun j => a * f j) = a * diff n f.
Proof. etransitivity; [|etransitivity; [apply (diff_lin n f f a 0)|ring]]. apply diff_ext. intros; ring. Qed.
Lemma diff_minus n f g : diff n (fun j => f j - g j) = diff n f - diff n g.
Proof. etransitivity; [|etransitivity; [apply (diff_lin n f g 1 (-1))|ring]]. apply diff_ext. intros; ring. Qed.
Lemma diff_S n f : diff (S n) f = diff n f - diff n (fun j => f (S j)).
Proof. simpl. apply diff_minus. Qed.

Lemma diff_leibniz n : forall f c,
  diff (S n) (fun j => (INR j + c) * f j) = c * diff (S n) f - INR (S n) * diff n (fun j => f (S j)).
Proof.
  induction n; intros f c.
  - simpl. ring.
  - change (diff (S (S n)) (fun j => (INR j + c) * f j))
      with (diff (S n) (fun j => (INR j + c) * f j - (INR (S j) + c) * f (S j))).
    rewrite (diff_ext _ _ (fun j => 1 * ((INR j + c) * (f j - f (S j))) + (-1) * f (S j)))
      by (intros j; rewrite S_INR; ring).
    rewrite diff_lin, (IHn (fun j => f j - f (S j))).
    change (diff (S n) (fun j => f j - f (S j))) with (diff (S (S n)) f).
    rewrite (diff_minus n (fun j => f (S j)) (fun j => f (S (S j)))).
    rewrite (diff_S n (fun j => f (S j))).
    rewrite (S_INR (S n)). ring.
Qed.

Lemma diff_low n : forall f, (forall j, (j < n)%nat -> f j = 0) -> diff n f = (-1) ^ n * f n.
Proof.
  induction n; simpl; intros f H; [ring|]. rewrite IHn.
  - rewrite (H n) by lia. ring.
  - intros j Hj. rewrite !H by lia. ring.
Qed.
Lemma diff_high n : forall f, (forall j, (j <= n)%nat -> f j = 0) -> diff n f = 0.
Proof.
  induction n; simpl; intros f H; [apply H; lia|]. apply IHn. intros j Hj. rewrite !H by lia. ring.
Qed.

(** ** The Laguerre polynomials *)
Definition lag (n : nat) (x : R) : R := diff n (fun j => x ^ j / INR (fact j)).

Lemma INR_fact_pos n : 0 < INR (fact n).
Proof. apply INR_fact_lt_0. Qed.

Lemma lag_rec n x :
  INR (S (S n)) * lag (S (S n)) x = (2 * INR (S n) + 1 - x) * lag (S n) x - INR (S n) * lag n x.
Proof.
  set (psi := fun j => x ^ j / INR (fact j)).
  assert (E : forall j, (INR j + 1) * psi (S j) = x * psi j).
  { intros j. unfold psi. rewrite fact_simpl, mult_INR, S_INR. simpl.
    pose proof (INR_fact_pos j). pose proof (pos_INR j). field. lra. }
  assert (A : x * lag (S n) x = INR (S (S n)) * (lag (S n) x - lag (S (S n)) x)
                              - INR (S n) * (lag n x - lag (S n) x)).
  { unfold lag at 1. fold psi. rewrite <- diff_scal.
    rewrite <- (diff_ext _ (fun j => (INR j + 1) * psi (S j))) by exact E.
    rewrite (diff_leibniz n (fun j => psi (S j)) 1).
    unfold lag. fold psi.
    rewrite (diff_S (S n) psi), (diff_S n psi), (diff_S n (fun j => psi (S j))), (S_INR (S n)).
    ring. }
  rewrite (S_INR (S n)) in *. nra.
Qed.
Lemma lag_0 x : lag 0 x = 1.
Proof. unfold lag. simpl. field. Qed.
Lemma lag_1 x : lag 1 x = 1 - x.
Proof. unfold lag. simpl. field. Qed.
Lemma lag_at_0 n : lag n 0 = 1.
Proof.
  induction n; [apply lag_0|]. unfold lag. rewrite diff_S. fold (lag n 0). rewrite IHn.
  rewrite (diff_high n); [lra|]. intros j _. simpl. unfold Rdiv. ring.
Qed.

Lemma diff_binom n : forall f, diff n f = sum_f_R0 (fun j => Binomial.C n j * (-1) ^ j * f j) n.
Proof.
  induction n; intros f.
  - simpl. unfold Binomial.C. simpl. field.
  - simpl diff. rewrite IHn. destruct n as [|n].
    { simpl. unfold Binomial.C. simpl. field. }
    rewrite (decomp_sum _ (S (S n))) by lia. simpl pred.
    rewrite (tech5 (fun i => Binomial.C (S (S n)) (S i) * (-1) ^ S i * f (S i)) n).
    rewrite (sum_eq (fun i => Binomial.C (S (S n)) (S i) * (-1) ^ S i * f (S i))
      (fun i => Binomial.C (S n) (S i) * (-1) ^ S i * f (S i) - Binomial.C (S n) i * (-1) ^ i * f (S i)))
      by (intros i Hi; rewrite <- (pascal (S n) i) by lia; simpl; ring).
    rewrite minus_sum.
    rewrite (sum_eq (fun j => Binomial.C (S n) j * (-1) ^ j * (f j - f (S j)))
      (fun j => Binomial.C (S n) j * (-1) ^ j * f j - Binomial.C (S n) j * (-1) ^ j * f (S j)))
      by (intros; ring).
    rewrite minus_sum.
    rewrite (decomp_sum (fun j => Binomial.C (S n) j * (-1) ^ j * f j) (S n)) by lia. simpl pred.
    rewrite (tech5 (fun j => Binomial.C (S n) j * (-1) ^ j * f (S j)) n).
    assert (C0 : forall m, Binomial.C m 0 = 1).
    { intros m. unfold Binomial.C. rewrite Nat.sub_0_r. simpl. field. apply INR_fact_neq_0. }
    assert (Cn : forall m, Binomial.C m m = 1).
    { intros m. unfold Binomial.C. rewrite Nat.sub_diag. simpl. field. apply INR_fact_neq_0. }
    rewrite !C0, !Cn. simpl. ring.
Qed.
Lemma lag_laguerre n x : laguerre n x = lag n x.
Proof.
  unfold lag, laguerre. rewrite diff_binom. apply sum_eq. intros i _.
  pose proof (INR_fact_pos i). field. lra.
Qed.

(** ** The Christoffel-Darboux kernel *)
Fixpoint ker (n : nat) (x y : R) : R :=
  match n with O => 0 | S n => ker n x y + lag n x * lag n y end.
Lemma christoffel_darboux n x y :
  (x - y) * ker (S n) x y = INR (S n) * (lag n x * lag (S n) y - lag (S n) x * lag n y).
Proof.
  induction n.
  - cbn [ker]. rewrite !lag_0, !lag_1. simpl. ring.
  - change (ker (S (S n)) x y) with (ker (S n) x y + lag (S n) x * lag (S n) y).
    rewrite Rmult_plus_distr_l, IHn.
    replace (INR (S (S n)) * (lag (S n) x * lag (S (S n)) y - lag (S (S n)) x * lag (S n) y))
      with (lag (S n) x * (INR (S (S n)) * lag (S (S n)) y) - (INR (S (S n)) * lag (S (S n)) x) * lag (S n) y) by ring.
    rewrite !lag_rec. ring.
Qed.
(** minus the derivative of [lag] *)
Fixpoint slag (n : nat) (x : R) : R := match n with O => 0 | S n => slag n x + lag n x end.
Lemma slag_rel n x : x * slag (S n) x = INR (S n) * (lag n x - lag (S n) x).
Proof.
  induction n.
  - simpl. rewrite lag_0, lag_1. ring.
  - change (slag (S (S n)) x) with (slag (S n) x + lag (S n) x).
    rewrite Rmult_plus_distr_l, IHn.
    replace (INR (S (S n)) * (lag (S n) x - lag (S (S n)) x))
      with (INR (S (S n)) * lag (S n) x - INR (S (S n)) * lag (S (S n)) x) by ring.
    rewrite lag_rec, (S_INR (S n)). ring.
Qed.
Lemma ker_diag n x :
  ker (S n) x x = INR (S n) * (lag n x * slag (S n) x - lag (S n) x * slag n x).
Proof.
  induction n.
  - simpl. rewrite lag_0. ring.
  - change (ker (S (S n)) x x) with (ker (S n) x x + lag (S n) x * lag (S n) x). rewrite IHn.
    change (slag (S (S n)) x) with (slag (S n) x + lag (S n) x).
    pose proof (slag_rel n x) as H1. pose proof (lag_rec n x) as H2.
    change (slag (S n) x) with (slag n x + lag n x) in *.
    rewrite !S_INR in *. set (s := slag n x) in *. set (a := lag n x) in *. set (b := lag (S n) x) in *.
    set (c := lag (S (S n)) x) in *. set (N := INR n) in *.
    assert (H3 : (N + 1 + 1) * c = (2 * (N + 1) + 1 - x) * b - (N + 1) * a) by exact H2.
    assert (E : (N + 1 + 1) * (b * (s + a + b) - c * (s + a))
              = (N + 1 + 1) * (b * (s + a + b)) - ((2 * (N + 1) + 1 - x) * b - (N + 1) * a) * (s + a))
      by (rewrite <- H3; ring).
    rewrite E. 
    replace ((2 * (N + 1) + 1 - x) * b * (s + a)) with ((2 * (N + 1) + 1) * b * (s + a) - b * (x * (s + a))) by ring.
    replace (((2 * (N + 1) + 1 - x) * b - (N + 1) * a) * (s + a)) with
      (((2 * (N + 1) + 1) * b - (N + 1) * a) * (s + a) - b * (x * (s + a))) by ring.
    rewrite H1. ring.
Qed.
Lemma ker_pos n x : 0 < ker (S n) x x.
Proof.
  induction n; [simpl; rewrite lag_0; lra|].
  change (ker (S (S n)) x x) with (ker (S n) x x + lag (S n) x * lag (S n) x).
  pose proof (Rle_0_sqr (lag (S n) x)) as H. unfold Rsqr in H. lra.
Qed.
Lemma ker_root n x : lag (S n) x = 0 ->
  x * ker (S n) x x = (INR (S (S n)) * lag (S (S n)) x) ^ 2.
Proof.
  intros H. rewrite lag_rec, ker_diag, H.
  replace (x * (INR (S n) * (lag n x * slag (S n) x - 0 * slag n x))) with (INR (S n) * lag n x * (x * slag (S n) x)) by ring.
  rewrite slag_rel, H. ring.
Qed.
