(** Real polynomials as coefficient lists; exactness and existence of the
    Gauss-Laguerre rule. *)
From Coq Require Import Reals Lra Lia List Bool.
From Coquelicot Require Import Coquelicot.
From Coq Require Import List.
From Verif Require Import SpecQuad Laguerre.
Import ListNotations.
Open Scope R_scope.

(** ** Coefficient lists *)
Fixpoint ev (p : list R) (x : R) : R := match p with [] => 0 | a :: p => a + x * ev p x end.
(** sum of p_k (k + m)!: the integral of x^m p(x) e^-x *)
Fixpoint mom (m : nat) (p : list R) : R :=
  match p with [] => 0 | a :: p => a * INR (fact m) + mom (S m) p end.
Fixpoint padd (p q : list R) : list R :=
  match p, q with
  | [], _ => q
  | _, [] => p
  | a :: p, b :: q => (a + b) :: padd p q
  end.
Definition pscal (c : R) (p : list R) : list R := map (Rmult c) p.
Definition mono (k : nat) : list R := repeat 0 k ++ [1].

Lemma ev_padd p : forall q x, ev (padd p q) x = ev p x + ev q x.
Proof.
  induction p as [|a p IH]; intros q x; [simpl; ring|]. destruct q as [|b q]; simpl; [ring|]. rewrite IH. ring.
Qed.
Lemma ev_pscal c p x : ev (pscal c p) x = c * ev p x.
Proof. induction p as [|a p IH]; simpl; [ring|]. rewrite IH. ring. Qed.
Lemma mom_padd p : forall q m, mom m (padd p q) = mom m p + mom m q.
Proof.
  induction p as [|a p IH]; intros q m; [simpl; ring|]. destruct q as [|b q]; simpl; [ring|]. rewrite IH. ring.
Qed.
Lemma mom_pscal c p : forall m, mom m (pscal c p) = c * mom m p.
Proof. induction p as [|a p IH]; intros m; simpl; [ring|]. rewrite IH. ring. Qed.
Lemma len_padd p : forall q, length (padd p q) = Nat.max (length p) (length q).
Proof. induction p as [|a p IH]; intros [|b q]; simpl; auto. Qed.
Lemma len_pscal c p : length (pscal c p) = length p.
Proof. apply map_length. Qed.
Lemma nth_padd p : forall q k, nth k (padd p q) 0 = nth k p 0 + nth k q 0.
Proof.
  induction p as [|a p IH]; intros [|b q] [|k]; simpl; try ring. apply IH.
Qed.
Lemma nth_pscal c p k : nth k (pscal c p) 0 = c * nth k p 0.
Proof. unfold pscal. rewrite <- (Rmult_0_r c) at 1. apply map_nth. Qed.
Lemma ev_mono k x : ev (mono k) x = x ^ k.
Proof. induction k; unfold mono in *; simpl; [ring|]. rewrite IHk. ring. Qed.
Lemma mom_mono k : forall m, mom m (mono k) = INR (fact (m + k)).
Proof.
  induction k; intros m; unfold mono in *; simpl; [rewrite Nat.add_0_r; ring|].
  rewrite IHk. replace (m + S k)%nat with (S m + k)%nat by lia. ring.
Qed.
Lemma len_mono k : length (mono k) = S k.
Proof. unfold mono. rewrite app_length, repeat_length. simpl. lia. Qed.
Lemma nth_mono k j : nth j (mono k) 0 = if Nat.eqb j k then 1 else 0.
Proof.
  unfold mono. destruct (Nat.eqb_spec j k) as [->|Hn].
  - rewrite app_nth2; rewrite repeat_length; [|lia]. now rewrite Nat.sub_diag.
  - destruct (Nat.lt_ge_cases j k).
    + rewrite app_nth1 by (rewrite repeat_length; lia). apply nth_repeat.
    + apply nth_overflow. rewrite app_length, repeat_length. simpl. lia.
Qed.
Lemma ev_shift k p x : ev (repeat 0 k ++ p) x = x ^ k * ev p x.
Proof. induction k; simpl; [ring|]. rewrite IHk. ring. Qed.
Lemma mom_shift k p : forall m, mom m (repeat 0 k ++ p) = mom (k + m) p.
Proof. induction k; intros m; simpl; [reflexivity|]. rewrite IHk, Rmult_0_l, Rplus_0_l. f_equal. lia. Qed.

Definition pzero (p : list R) : Prop := Forall (fun c => c = 0) p.
Lemma mom_zero p : pzero p -> forall m, mom m p = 0.
Proof. induction 1 as [|c p -> _ IH]; intros m; simpl; [reflexivity|]. rewrite IH. ring. Qed.
Lemma ev_zero p x : pzero p -> ev p x = 0.
Proof. induction 1 as [|c p -> _ IH]; simpl; [reflexivity|]. rewrite IH. ring. Qed.

(** ** Roots *)
Fixpoint syn (a : R) (p : list R) : list R :=
  match p with [] => [] | c :: p' => match p' with [] => [] | _ => ev p' a :: syn a p' end end.
Lemma syn_ev a p x : ev p x = ev p a + (x - a) * ev (syn a p) x.
Proof.
  induction p as [|c p IH]; [simpl; ring|]. destruct p as [|d p]; [simpl; ring|].
  change (syn a (c :: d :: p)) with (ev (d :: p) a :: syn a (d :: p)).
  change (ev (c :: d :: p) x) with (c + x * ev (d :: p) x).
  change (ev (c :: d :: p) a) with (c + a * ev (d :: p) a).
  change (ev (ev (d :: p) a :: syn a (d :: p)) x) with (ev (d :: p) a + x * ev (syn a (d :: p)) x).
  rewrite IH. ring.
Qed.
Lemma syn_len a p : length (syn a p) = pred (length p).
Proof.
  induction p as [|c p IH]; [reflexivity|]. destruct p as [|d p]; [reflexivity|].
  change (syn a (c :: d :: p)) with (ev (d :: p) a :: syn a (d :: p)). 
  transitivity (S (length (syn a (d :: p)))); [reflexivity|]. rewrite IH. reflexivity.
Qed.
Lemma syn_zero a p : ev p a = 0 -> pzero (syn a p) -> pzero p.
Proof.
  induction p as [|c p IH]; intros E Z; [constructor|]. destruct p as [|d p].
  - simpl in E. constructor; [lra|constructor].
  - change (syn a (c :: d :: p)) with (ev (d :: p) a :: syn a (d :: p)) in Z. inversion Z as [|? ? Z1 Z2]; subst.
    constructor; [|apply IH; assumption].
    change (ev (c :: d :: p) a) with (c + a * ev (d :: p) a) in E.
    assert (Z1' : ev (d :: p) a = 0) by exact Z1. rewrite Z1' in E. lra.
Qed.
Lemma roots_zero xs : NoDup xs -> forall p, (length p <= length xs)%nat -> Forall (fun x => ev p x = 0) xs -> pzero p.
Proof.
  induction 1 as [|a xs Hin Hnd IH]; intros p Hl Hr.
  - destruct p; [constructor|simpl in Hl; lia].
  - inversion Hr as [|? ? Ha Hr']; subst. apply (syn_zero a); [exact Ha|]. apply IH.
    + rewrite syn_len. simpl in Hl. lia.
    + rewrite Forall_forall in *. intros x Hx. specialize (Hr' x Hx). rewrite (syn_ev a), Ha in Hr'.
      assert (x - a <> 0) by (intros E; apply Hin; replace a with x by lra; exact Hx).
      rewrite Rplus_0_l in Hr'. apply Rmult_integral in Hr'. tauto.
Qed.
Fixpoint prd (xs : list R) (y : R) : R := match xs with [] => 1 | x :: xs => (x - y) * prd xs y end.
Lemma factorised xs : NoDup xs -> forall p, (length p <= S (length xs))%nat -> Forall (fun x => ev p x = 0) xs ->
  exists c, forall y, ev p y = c * prd xs y.
Proof.
  induction 1 as [|a xs Hin Hnd IH]; intros p Hl Hr.
  - destruct p as [|c [|d p]]; simpl in Hl; [exists 0|exists c|lia]; intros y; simpl; ring.
  - inversion Hr as [|? ? Ha Hr']; subst. destruct (IH (syn a p)) as [c Hc].
    + rewrite syn_len. simpl in Hl. lia.
    + rewrite Forall_forall in *. intros x Hx. specialize (Hr' x Hx). rewrite (syn_ev a), Ha in Hr'.
      assert (x - a <> 0) by (intros E; apply Hin; replace a with x by lra; exact Hx).
      rewrite Rplus_0_l in Hr'. apply Rmult_integral in Hr'. tauto.
    + exists (- c). intros y. rewrite (syn_ev a), Ha, Hc. simpl. ring.
Qed.

(** ** Laguerre coefficient lists *)
Fixpoint pdiff (n : nat) (phi : nat -> list R) : list R :=
  match n with O => phi O | S n => pdiff n (fun j => padd (phi j) (pscal (-1) (phi (S j)))) end.
Lemma pdiff_ev n x : forall phi, ev (pdiff n phi) x = diff n (fun j => ev (phi j) x).
Proof.
  induction n; intros phi; [reflexivity|]. simpl. rewrite IHn. apply diff_ext. intros j.
  rewrite ev_padd, ev_pscal. ring.
Qed.
Lemma pdiff_mom n m : forall phi, mom m (pdiff n phi) = diff n (fun j => mom m (phi j)).
Proof.
  induction n; intros phi; [reflexivity|]. simpl. rewrite IHn. apply diff_ext. intros j.
  rewrite mom_padd, mom_pscal. ring.
Qed.
Lemma pdiff_nth n k : forall phi, nth k (pdiff n phi) 0 = diff n (fun j => nth k (phi j) 0).
Proof.
  induction n; intros phi; [reflexivity|]. simpl. rewrite IHn. apply diff_ext. intros j.
  rewrite nth_padd, nth_pscal. ring.
Qed.
Lemma pdiff_len n : forall phi L, (forall j, (j <= n)%nat -> (length (phi j) <= L)%nat) ->
  (length (pdiff n phi) <= L)%nat.
Proof.
  induction n; intros phi L H; simpl; [apply H; lia|]. apply IHn. intros j Hj. rewrite len_padd, len_pscal.
  apply Nat.max_lub; apply H; lia.
Qed.
Definition lagp (n : nat) : list R := pdiff n (fun j => pscal (/ INR (fact j)) (mono j)).
Lemma lagp_ev n x : ev (lagp n) x = lag n x.
Proof. unfold lagp, lag. rewrite pdiff_ev. apply diff_ext. intros j. rewrite ev_pscal, ev_mono. unfold Rdiv. ring. Qed.
Lemma lagp_len n : (length (lagp n) <= S n)%nat.
Proof. apply pdiff_len. intros j Hj. rewrite len_pscal, len_mono. lia. Qed.
Lemma lagp_lead n : nth n (lagp n) 0 = (-1) ^ n / INR (fact n).
Proof.
  unfold lagp. rewrite pdiff_nth, diff_low.
  - rewrite nth_pscal, nth_mono, Nat.eqb_refl. unfold Rdiv. ring.
  - intros j Hj. rewrite nth_pscal, nth_mono. destruct (Nat.eqb_spec n j); [lia|ring].
Qed.
(** orthogonality to lower powers *)
Definition rise (m : nat) (j : nat) : R := INR (fact (m + j)) / INR (fact j).
Lemma rise_step m j : rise m j - rise m (S j) = - INR m * (if m then 0 else rise (pred m) (S j)).
Proof.
  unfold rise. destruct m as [|m].
  - simpl plus. pose proof (INR_fact_neq_0 j). pose proof (INR_fact_neq_0 (S j)). simpl INR. field. split; assumption.
  - simpl pred. replace (S m + S j)%nat with (S (S m + j)) by lia. replace (m + S j)%nat with (S m + j)%nat by lia.
    rewrite (fact_simpl (S m + j)), (fact_simpl j), !mult_INR, !S_INR, plus_INR, S_INR.
    pose proof (INR_fact_neq_0 j). pose proof (pos_INR j). field. lra.
Qed.
Lemma diff_rise n : forall m s, (m < n)%nat -> diff n (fun j => rise m (j + s)) = 0.
Proof.
  induction n; intros m s H; [lia|]. simpl.
  rewrite (diff_ext _ _ (fun j => (- INR m) * (if m then 0 else rise (pred m) (j + S s)))).
  - rewrite diff_scal. destruct m as [|m]; [simpl; ring|]. simpl pred. rewrite IHn by lia. ring.
  - intros j. rewrite rise_step. replace (j + S s)%nat with (S (j + s)) by lia. reflexivity.
Qed.
Lemma lagp_orth n m : (m < n)%nat -> mom m (lagp n) = 0.
Proof.
  intros H. unfold lagp. rewrite pdiff_mom.
  rewrite (diff_ext _ _ (fun j => rise m (j + 0))); [apply diff_rise; exact H|].
  intros j. rewrite mom_pscal, mom_mono, Nat.add_0_r. unfold rise. unfold Rdiv. ring.
Qed.
Lemma lagp_0 m : mom m (lagp 0) = INR (fact m).
Proof. unfold lagp. simpl. field. Qed.

(** ** The rule with given nodes *)
Definition wt (n : nat) (x : R) : R := x / (INR (S n) * lag (S n) x) ^ 2.
Fixpoint kerp (n : nat) (y : R) : list R :=
  match n with O => [] | S n => padd (kerp n y) (pscal (lag n y) (lagp n)) end.
Lemma kerp_ev n x y : ev (kerp n y) x = ker n x y.
Proof. induction n; simpl; [reflexivity|]. rewrite ev_padd, ev_pscal, lagp_ev, IHn. ring. Qed.
Lemma kerp_len n y : (length (kerp n y) <= n)%nat.
Proof. induction n; simpl; [lia|]. rewrite len_padd, len_pscal. pose proof (lagp_len n). lia. Qed.
Lemma kerp_mom n y : mom 0 (kerp (S n) y) = 1.
Proof.
  induction n.
  - cbn [kerp]. rewrite mom_padd, mom_pscal, lagp_0, lag_0. simpl. ring.
  - change (kerp (S (S n)) y) with (padd (kerp (S n) y) (pscal (lag (S n) y) (lagp (S n)))).
    rewrite mom_padd, mom_pscal, IHn, lagp_orth by lia. ring.
Qed.
(** sum over nodes *)
Fixpoint sumx (f : R -> R) (xs : list R) : R := match xs with [] => 0 | x :: xs => f x + sumx f xs end.
Lemma sumx_ext f g xs : (forall x, In x xs -> f x = g x) -> sumx f xs = sumx g xs.
Proof.
  induction xs as [|x xs IH]; intros H; simpl; [reflexivity|]. rewrite (H x) by now left.
  rewrite IH; [reflexivity|]. intros; apply H; now right.
Qed.
Lemma sumx_lin a b f g xs : sumx (fun x => a * f x + b * g x) xs = a * sumx f xs + b * sumx g xs.
Proof. induction xs as [|x xs IH]; simpl; [ring|]. rewrite IH. ring. Qed.
Lemma sumx_zero f xs : (forall x, In x xs -> f x = 0) -> sumx f xs = 0.
Proof.
  induction xs as [|x xs IH]; intros H; simpl; [reflexivity|]. rewrite (H x), IH; [ring| |now left].
  intros; apply H; now right.
Qed.
Lemma sumx_pick f xs x0 : NoDup xs -> In x0 xs -> (forall x, In x xs -> x <> x0 -> f x = 0) -> sumx f xs = f x0.
Proof.
  induction 1 as [|a xs Hin Hnd IH]; intros Hx H; [destruct Hx|]. destruct Hx as [<-|Hx]; simpl.
  - rewrite sumx_zero; [ring|]. intros x Hx. apply H; [now right|]. intros ->. contradiction.
  - rewrite (H a), IH; [ring|exact Hx| |now left|].
    + intros; apply H; [now right|assumption].
    + intros ->. contradiction.
Qed.
Definition comb (n : nat) (p : list R) (xs : list R) : list R :=
  fold_right (fun x q => padd (pscal (- (wt (S n) x * ev p x)) (kerp (S n) x)) q) p xs.

Section Rule.
  Context (n : nat) (xs : list R).
  Context (Hlen : length xs = S n).
  Context (Hnd : NoDup xs).
  Context (Hroot : forall x, In x xs -> lag (S n) x = 0).
  Context (Hpos : forall x, In x xs -> 0 < x).

  Lemma wt_ker x : In x xs -> wt (S n) x * ker (S n) x x = 1.
  Proof.
    intros Hx. pose proof (ker_root n x (Hroot x Hx)) as E. pose proof (ker_pos n x) as K.
    pose proof (Hpos x Hx) as P. unfold wt.
    assert (0 < x * ker (S n) x x) by (apply Rmult_lt_0_compat; assumption).
    set (u := (INR (S (S n)) * lag (S (S n)) x) ^ 2) in *.
    apply Rmult_eq_reg_r with u; [|lra]. unfold Rdiv. rewrite Rmult_1_l.
    replace (x * / u * ker (S n) x x * u) with (x * ker (S n) x x * (/ u * u)) by ring. rewrite Rinv_l by lra. lra.
  Qed.
  Lemma wt_pos x : In x xs -> 0 < wt (S n) x.
  Proof.
    intros Hx. pose proof (wt_ker x Hx). pose proof (ker_pos n x).
    destruct (Rlt_le_dec 0 (wt (S n) x)); [assumption|]. nra.
  Qed.
  Lemma ker_cross x y : In x xs -> In y xs -> x <> y -> ker (S n) x y = 0.
  Proof.
    intros Hx Hy N. pose proof (christoffel_darboux n x y) as E. rewrite (Hroot x Hx), (Hroot y Hy) in E.
    assert (E' : (x - y) * ker (S n) x y = 0) by lra. apply Rmult_integral in E'. destruct E'; [lra|assumption].
  Qed.
  Lemma comb_ev p y : ev (comb n p xs) y = ev p y - sumx (fun x => wt (S n) x * ev p x * ker (S n) y x) xs.
  Proof.
    unfold comb. clear Hlen Hnd Hroot Hpos. induction xs as [|x l IH]; cbn [fold_right sumx]; [ring|].
    rewrite ev_padd, ev_pscal, kerp_ev, IH. ring.
  Qed.
  Lemma comb_mom p : mom 0 (comb n p xs) = mom 0 p - sumx (fun x => wt (S n) x * ev p x) xs.
  Proof.
    unfold comb. clear Hlen Hnd Hroot Hpos. induction xs as [|x l IH]; cbn [fold_right sumx]; [ring|].
    rewrite mom_padd, mom_pscal, kerp_mom, IH. ring.
  Qed.
  Lemma comb_len p : (length p <= S n)%nat -> (length (comb n p xs) <= S n)%nat.
  Proof.
    intros H. unfold comb. clear Hlen Hnd Hroot Hpos. induction xs as [|x l IH]; cbn [fold_right]; [exact H|].
    rewrite len_padd, len_pscal. pose proof (kerp_len (S n) x). lia.
  Qed.
  Definition good (p : list R) : Prop := mom 0 p = sumx (fun x => wt (S n) x * ev p x) xs.
  Lemma good_low p : (length p <= S n)%nat -> good p.
  Proof.
    intros H. unfold good.
    assert (Z : pzero (comb n p xs)).
    { apply (roots_zero xs Hnd); [rewrite Hlen; apply comb_len; exact H|]. apply Forall_forall. intros y Hy.
      rewrite comb_ev. rewrite (sumx_pick _ xs y Hnd Hy).
      - replace (wt (S n) y * ev p y * ker (S n) y y) with (ev p y * (wt (S n) y * ker (S n) y y)) by ring.
        rewrite (wt_ker y Hy). ring.
      - intros x Hx Hne. rewrite (ker_cross y x); auto. ring. }
    pose proof (comb_mom p) as E. rewrite (mom_zero _ Z) in E. lra.
  Qed.
  Lemma good_lin a b p q : good p -> good q -> good (padd (pscal a p) (pscal b q)).
  Proof.
    unfold good. intros Hp Hq. rewrite mom_padd, !mom_pscal, Hp, Hq, <- sumx_lin. apply sumx_ext. intros x _.
    rewrite ev_padd, !ev_pscal. ring.
  Qed.
  Lemma good_shift m : (m < S n)%nat -> good (repeat 0 m ++ lagp (S n)).
  Proof.
    intros H. unfold good. rewrite mom_shift, Nat.add_0_r, lagp_orth by exact H. symmetry. apply sumx_zero.
    intros x Hx. rewrite ev_shift, lagp_ev, (Hroot x Hx). ring.
  Qed.
  (** any polynomial is good if all powers below its length are *)
  Lemma ev_snoc p c x : ev (p ++ [c]) x = ev p x + c * x ^ length p.
  Proof. clear. induction p as [|a p IH]; simpl; [ring|]. rewrite IH. ring. Qed.
  Lemma mom_snoc p c : forall m, mom m (p ++ [c]) = mom m p + c * INR (fact (m + length p)).
  Proof.
    clear. induction p as [|a p IH]; intros m; simpl; [rewrite Nat.add_0_r; ring|].
    rewrite IH. replace (m + S (length p))%nat with (S m + length p)%nat by lia. ring.
  Qed.
  Lemma good_monos L : (forall k, (k < L)%nat -> good (mono k)) -> forall p, (length p <= L)%nat -> good p.
  Proof.
    intros H p. induction p as [|c p IH] using rev_ind; intros Hl.
    - unfold good. simpl. symmetry. apply sumx_zero. intros; ring.
    - rewrite app_length in Hl. simpl in Hl.
      assert (G1 : good p) by (apply IH; lia).
      assert (G2 : good (mono (length p))) by (apply H; lia).
      pose proof (good_lin 1 c _ _ G1 G2) as G. unfold good in *.
      rewrite mom_padd, !mom_pscal, mom_mono in G. rewrite mom_snoc. simpl plus in *. rewrite Rmult_1_l in G. rewrite G.
      apply sumx_ext. intros x _. rewrite ev_padd, !ev_pscal, ev_mono, ev_snoc. ring.
  Qed.
  Lemma good_mono k : (k < 2 * S n)%nat -> good (mono k).
  Proof.
    induction k as [k IH] using (well_founded_induction lt_wf). intros Hk.
    destruct (Nat.lt_ge_cases k (S n)) as [Hlow|Hhigh].
    - apply good_low. rewrite len_mono. lia.
    - pose (m := (k - S n)%nat). pose (q := repeat 0 m ++ lagp (S n)).
      pose (c := (-1) ^ S n / INR (fact (S n))).
      assert (Hc : c <> 0).
      { unfold c. apply Rmult_integral_contrapositive. split; [apply pow_nonzero; lra|apply Rinv_neq_0_compat, INR_fact_neq_0]. }
      assert (Lq : (length q <= S k)%nat).
      { unfold q. rewrite app_length, repeat_length. pose proof (lagp_len (S n)). unfold m. lia. }
      assert (Nq : nth k q 0 = c).
      { unfold q. rewrite app_nth2; rewrite repeat_length; [|unfold m; lia].
        replace (k - m)%nat with (S n) by (unfold m; lia). apply lagp_lead. }
      (* q = low ++ [c] *)
      pose (low := firstn k q).
      assert (Eq : q = low ++ [c]).
      { assert (length q = S k).
        { destruct (Nat.eq_dec (length q) (S k)); [assumption|]. exfalso. apply Hc. rewrite <- Nq. apply nth_overflow. lia. }
        unfold low. rewrite <- (firstn_skipn k q) at 1. f_equal.
        destruct (skipn k q) as [|d r] eqn:Es.
        { apply (f_equal (@length R)) in Es. rewrite skipn_length in Es. simpl in Es. lia. }
        assert (r = []).
        { apply (f_equal (@length R)) in Es. rewrite skipn_length in Es. simpl in Es. destruct r; [reflexivity|simpl in Es; lia]. }
        subst r. f_equal. rewrite <- Nq. rewrite <- (firstn_skipn k q), Es.
        rewrite app_nth2; rewrite firstn_length; [|lia].
        replace (k - Nat.min k (length q))%nat with O by lia. reflexivity. }
      assert (Ll : length low = k).
      { apply (f_equal (@length R)) in Eq. unfold low in *. rewrite firstn_length.
        assert (length q = S k). { destruct (Nat.eq_dec (length q) (S k)); [assumption|]. exfalso. apply Hc. rewrite <- Nq. apply nth_overflow. lia. }
        lia. }
      assert (G1 : good low) by (apply (good_monos k); [intros; apply IH; lia|lia]).
      assert (G2 : good q) by (apply good_shift; unfold m; lia).
      pose proof (good_lin (/ c) (- / c) _ _ G2 G1) as G. unfold good in *.
      rewrite mom_padd, !mom_pscal, Eq, mom_snoc, Ll in G. rewrite mom_mono. rewrite !Nat.add_0_l in *.
      replace (INR (fact k)) with (/ c * (mom 0 low + c * INR (fact k)) + - / c * mom 0 low) by (field; exact Hc).
      rewrite G. apply sumx_ext. intros x _. rewrite ev_padd, !ev_pscal, ev_mono, ev_snoc, Ll. field. exact Hc.
  Qed.
End Rule.

(** ** Existence of the nodes: the roots of consecutive Laguerre polynomials interlace *)
Fixpoint above (a : R) (xs : list R) : Prop := match xs with [] => True | x :: xs => a < x /\ above x xs end.
Fixpoint alt (s : R) (Q : R -> R) (xs : list R) : Prop :=
  match xs with [] => True | x :: xs => 0 < s * Q x /\ alt (- s) Q xs end.
Lemma above_all xs : forall a x, above a xs -> In x xs -> a < x.
Proof.
  induction xs as [|y xs IH]; intros a x H Hx; [destruct Hx|]. destruct H as [H1 H2]. destruct Hx as [<-|Hx]; [exact H1|].
  apply Rlt_trans with y; [exact H1|]. apply (IH y); assumption.
Qed.
Lemma above_nodup xs : forall a, above a xs -> NoDup xs.
Proof.
  induction xs as [|y xs IH]; intros a H; [constructor|]. destruct H as [H1 H2]. constructor; [|apply (IH y); exact H2].
  intros Hin. pose proof (above_all xs y y H2 Hin). lra.
Qed.
Lemma above_weak xs : forall a b, b <= a -> above a xs -> above b xs.
Proof. intros a b H. destruct xs as [|x xs]; [trivial|]. intros [H1 H2]. split; [lra|exact H2]. Qed.
Lemma prd_pos xs : forall a y, y < a -> above a xs -> 0 < prd xs y.
Proof.
  induction xs as [|x xs IH]; intros a y H Ha; simpl; [lra|]. destruct Ha as [H1 H2].
  apply Rmult_lt_0_compat; [lra|]. apply (IH x); [lra|exact H2].
Qed.
Lemma ivt (Q : R -> R) a b s : (forall x, continuity_pt Q x) -> a < b -> 0 < s * Q a -> 0 < - s * Q b ->
  exists y, a < y < b /\ Q y = 0.
Proof.
  intros Hc Hab Ha Hb.
  assert (Hs : s <> 0) by (intros ->; lra).
  pose (g := fun x => - s * Q x).
  assert (Hg : continuity g).
  { intros x. unfold g. apply continuity_pt_mult; [|apply Hc]. apply continuity_pt_const. intros u v; reflexivity. }
  destruct (IVT g a b Hg Hab) as [y [Hy E]]; [unfold g; lra|unfold g; lra|].
  exists y. unfold g in E. assert (E' : Q y = 0). { apply Rmult_integral in E. destruct E; [lra|assumption]. }
  split; [|exact E']. split.
  - destruct (Req_dec a y) as [->|]; [rewrite E' in Ha; lra|lra].
  - destruct (Req_dec y b) as [->|]; [rewrite E' in Hb; lra|lra].
Qed.
Lemma interlace (P Q : R -> R) : (forall x, continuity_pt Q x) ->
  forall xs s a (g : R -> R), above a xs ->
  (forall y, P y = g y * prd xs y) -> (forall y, a < y -> 0 < s * g y) ->
  0 < s * Q a -> alt (- s) Q xs ->
  (forall b, exists B, b < B /\ 0 < - s * (-1) ^ length xs * Q B) ->
  exists ys, length ys = S (length xs) /\ above a ys /\ Forall (fun y => Q y = 0) ys /\ alt s P ys.
Proof.
  intros Hc. induction xs as [|x xs IH]; intros s a g Hab HP Hg Ha Halt Hinf.
  - destruct (Hinf a) as [B [HB HQ]]. simpl in HQ.
    destruct (ivt Q a B s Hc HB Ha) as [y [Hy E]]; [lra|].
    exists [y]. split; [reflexivity|]. split; [split; [lra|exact I]|]. split; [constructor; [exact E|constructor]|].
    split; [|exact I]. rewrite HP. simpl. rewrite Rmult_1_r. apply Hg. lra.
  - destruct Hab as [Hax Hab]. destruct Halt as [Hx Halt].
    destruct (ivt Q a x s Hc Hax Ha Hx) as [y [Hy E]].
    destruct (IH (- s) x (fun y => g y * (x - y))) as (ys & L & A & Z & T).
    + exact Hab.
    + intros z. rewrite HP. simpl. ring.
    + intros z Hz. assert (0 < s * g z) by (apply Hg; lra).
      replace (- s * (g z * (x - z))) with (s * g z * (z - x)) by ring. apply Rmult_lt_0_compat; lra.
    + exact Hx.
    + exact Halt.
    + intros b. destruct (Hinf b) as [B [HB HQ]]. exists B. split; [exact HB|]. simpl in HQ. lra.
    + exists (y :: ys). split; [simpl; now rewrite L|]. split; [split; [lra|apply (above_weak _ x); [lra|exact A]]|].
      split; [constructor; assumption|]. split; [|exact T]. rewrite HP. simpl.
      replace (s * (g y * ((x - y) * prd xs y))) with (s * g y * ((x - y) * prd xs y)) by ring.
      apply Rmult_lt_0_compat; [apply Hg; lra|]. apply Rmult_lt_0_compat; [lra|]. apply (prd_pos xs x); [lra|exact Hab].
Qed.
Lemma ev_continuous p x : continuity_pt (ev p) x.
Proof.
  induction p as [|a p IH]; [apply continuity_pt_const; intros u v; reflexivity|].
  apply (continuity_pt_plus (fun _ => a) (fun x => x * ev p x)); [apply continuity_pt_const; intros u v; reflexivity|].
  apply (continuity_pt_mult (fun x => x) (ev p)); [|exact IH]. apply derivable_continuous_pt, derivable_pt_id.
Qed.
Lemma ev_large p : forall c, 0 < c -> exists B d, 0 < d /\ forall x, B <= x -> d <= ev (p ++ [c]) x.
Proof.
  induction p as [|a p IH]; intros c Hc.
  - exists 0, c. split; [exact Hc|]. intros x _. simpl. lra.
  - destruct (IH c Hc) as (B & d & Hd & H). exists (Rmax B (Rmax 0 ((1 - a) / d))), 1. split; [lra|]. intros x Hx.
    pose proof (Rmax_l B (Rmax 0 ((1 - a) / d))). pose proof (Rmax_r B (Rmax 0 ((1 - a) / d))).
    pose proof (Rmax_l 0 ((1 - a) / d)). pose proof (Rmax_r 0 ((1 - a) / d)).
    change ((a :: p) ++ [c]) with (a :: (p ++ [c])). cbn [ev].
    assert (E1 : d <= ev (p ++ [c]) x) by (apply H; lra).
    assert (E2 : 1 - a <= x * d).
    { replace (1 - a) with ((1 - a) / d * d) by (field; lra). apply Rmult_le_compat_r; lra. }
    assert (x * d <= x * ev (p ++ [c]) x) by (apply Rmult_le_compat_l; lra). lra.
Qed.
Lemma split_last (p : list R) k : (length p <= S k)%nat -> nth k p 0 <> 0 -> exists low, length low = k /\ p = low ++ [nth k p 0].
Proof.
  intros H Hn. exists (firstn k p).
  assert (E : length p = S k).
  { destruct (Nat.eq_dec (length p) (S k)); [assumption|]. exfalso. apply Hn. apply nth_overflow. lia. }
  split; [rewrite firstn_length; lia|]. rewrite <- (firstn_skipn k p) at 1. f_equal.
  destruct (skipn k p) as [|d r] eqn:Es.
  { apply (f_equal (@length R)) in Es. rewrite skipn_length in Es. simpl in Es. lia. }
  assert (r = []).
  { apply (f_equal (@length R)) in Es. rewrite skipn_length in Es. simpl in Es. destruct r; [reflexivity|simpl in Es; lia]. }
  subst r. f_equal. rewrite <- (firstn_skipn k p), Es.
  rewrite app_nth2; rewrite firstn_length; [|lia]. replace (k - Nat.min k (length p))%nat with O by lia. reflexivity.
Qed.
Lemma lag_large n : forall b, exists B, b < B /\ 0 < (-1) ^ n * lag n B.
Proof.
  intros b. pose proof (INR_fact_pos n) as Hf.
  assert (P1 : (-1) ^ n * (-1) ^ n = 1) by (rewrite <- Rpow_mult_distr; replace (-1 * -1) with 1 by ring; apply pow1).
  pose (p := pscal ((-1) ^ n) (lagp n)).
  assert (N : nth n p 0 = / INR (fact n)) by (unfold p; rewrite nth_pscal, lagp_lead; unfold Rdiv; rewrite <- Rmult_assoc, P1; ring).
  assert (0 < / INR (fact n)) by (apply Rinv_0_lt_compat; exact Hf).
  destruct (split_last p n) as (low & _ & E); [unfold p; rewrite len_pscal; apply lagp_len|rewrite N; lra|].
  rewrite N in E. destruct (ev_large low (/ INR (fact n))) as (B & d & Hd & HB); [assumption|].
  exists (Rmax B (b + 1)). pose proof (Rmax_l B (b + 1)). pose proof (Rmax_r B (b + 1)). split; [lra|].
  specialize (HB (Rmax B (b + 1)) ltac:(assumption)). rewrite <- E in HB. unfold p in HB. rewrite ev_pscal, lagp_ev in HB. lra.
Qed.
Lemma alt_ext s Q Q' xs : (forall x, In x xs -> Q x = Q' x) -> alt s Q xs -> alt s Q' xs.
Proof.
  revert s. induction xs as [|x xs IH]; intros s H Ha; [exact I|]. destruct Ha as [H1 H2]. split.
  - rewrite <- (H x) by now left. exact H1.
  - apply IH; [|exact H2]. intros; apply H; now right.
Qed.
Lemma alt_scal c s Q xs : 0 < c -> alt s Q xs -> alt (- s) (fun x => - c * Q x) xs.
Proof.
  intros Hc. revert s. induction xs as [|x xs IH]; intros s Ha; [exact I|]. destruct Ha as [H1 H2]. split.
  - replace (- s * (- c * Q x)) with (c * (s * Q x)) by ring. apply Rmult_lt_0_compat; assumption.
  - apply IH. exact H2.
Qed.
Lemma lag_nodes n : exists xs, length xs = S n /\ above 0 xs /\ Forall (fun x => lag (S n) x = 0) xs /\ alt 1 (lag n) xs.
Proof.
  induction n.
  - exists [1]. split; [reflexivity|]. split; [split; [lra|exact I]|]. split; [constructor; [rewrite lag_1; ring|constructor]|].
    split; [rewrite lag_0; lra|exact I].
  - destruct IHn as (xs & L & A & Z & T).
    destruct (factorised xs (above_nodup xs 0 A) (lagp (S n))) as [c Hc].
    { rewrite L. apply lagp_len. }
    { rewrite Forall_forall in *. intros x Hx. rewrite lagp_ev. apply Z. exact Hx. }
    assert (Hcp : 0 < c).
    { specialize (Hc 0). rewrite lagp_ev, lag_at_0 in Hc.
      assert (Hp : forall ys a, 0 <= a -> above a ys -> 0 < prd ys 0).
      { clear. induction ys as [|y ys IH]; intros a Ha H; simpl; [lra|]. destruct H as [H1 H2].
        apply Rmult_lt_0_compat; [lra|apply (IH y); [lra|exact H2]]. }
      pose proof (Hp xs 0 (Rle_refl 0) A). destruct (Rlt_le_dec 0 c); [assumption|nra]. }
    destruct (interlace (lag (S n)) (lag (S (S n)))) with (xs := xs) (s := 1) (a := 0) (g := fun _ : R => c)
      as (ys & L2 & A2 & Z2 & T2).
    + intros x. pose proof (ev_continuous (lagp (S (S n))) x) as E.
      intros eps He. destruct (E eps He) as (d & Hd & H). exists d. split; [exact Hd|]. intros y Hy.
      rewrite <- !lagp_ev. apply H. exact Hy.
    + exact A.
    + intros y. rewrite <- lagp_ev. apply Hc.
    + intros; lra.
    + rewrite lag_at_0. lra.
    + pose proof (pos_INR n) as Pn.
      assert (Hk : 0 < INR (S n) / INR (S (S n))) by (rewrite !S_INR; apply Rdiv_lt_0_compat; lra).
      apply (alt_ext _ (fun x => - (INR (S n) / INR (S (S n))) * lag n x)); [|apply alt_scal; assumption].
      intros x Hx. rewrite Forall_forall in Z. pose proof (lag_rec n x) as E. rewrite (Z x Hx) in E.
      assert (INR (S (S n)) <> 0) by (rewrite !S_INR; lra).
      apply (Rmult_eq_reg_l (INR (S (S n)))); [|assumption]. rewrite E. field. assumption.
    + intros b. destruct (lag_large (S (S n)) b) as [B [HB HQ]]. exists B. split; [exact HB|]. rewrite L.
      replace (- (1) * (-1) ^ S n) with ((-1) ^ S (S n)) by (simpl; ring). exact HQ.
    + exists ys. rewrite L in L2. auto.
Qed.

(** ** The documented rule *)
Lemma lag_pos_neg n x : x <= 0 -> 0 < lag n x.
Proof.
  intros Hx. rewrite <- lag_laguerre. unfold laguerre. destruct n as [|n].
  - simpl. unfold Binomial.C. simpl. lra.
  - rewrite decomp_sum by lia. simpl pred. apply Rplus_lt_le_0_compat.
    + unfold Binomial.C. rewrite Nat.sub_0_r. pose proof (INR_fact_pos (S n)).
      change (fact 0) with 1%nat. change (INR 1) with 1. rewrite !pow_O.
      replace (_ * _) with 1 by (field; lra). lra.
    + apply cond_pos_sum. intros j. unfold Binomial.C.
      replace (INR (fact (S n)) / (INR (fact (S j)) * INR (fact (S n - S j))) * ((-1) ^ S j / INR (fact (S j))) * x ^ S j)
        with (INR (fact (S n)) / (INR (fact (S j)) * INR (fact (S n - S j)) * INR (fact (S j))) * (- x) ^ S j).
      * apply Rmult_le_pos; [|apply pow_le; lra]. left. apply Rdiv_lt_0_compat; [apply INR_fact_pos|].
        repeat apply Rmult_lt_0_compat; apply INR_fact_pos.
      * replace (- x) with (-1 * x) by ring. rewrite Rpow_mult_distr.
        pose proof (INR_fact_pos (S j)). pose proof (INR_fact_pos (S n - S j)). field. lra.
Qed.
Definition qsum (f : R -> R) (rule : list (R * R)) : R := fold_right Rplus 0 (map (fun xw => snd xw * f (fst xw)) rule).
Lemma documented_exact J rule : (0 < J)%nat -> documented_rule J rule ->
  Forall (fun xw => 0 < fst xw /\ 0 < snd xw) rule /\
  forall k, (k < 2 * J)%nat -> qsum (fun x => x ^ k) rule = INR (fact k).
Proof.
  intros HJ (Hl & Hnd & Hr). destruct J as [|n]; [lia|].
  pose (xs := map fst rule).
  assert (Hlen : length xs = S n) by (unfold xs; rewrite map_length; exact Hl).
  assert (Hroot : forall x, In x xs -> lag (S n) x = 0).
  { intros x Hx. apply in_map_iff in Hx. destruct Hx as (xw & <- & Hin). rewrite Forall_forall in Hr.
    rewrite <- lag_laguerre. apply Hr. exact Hin. }
  assert (Hpos : forall x, In x xs -> 0 < x).
  { intros x Hx. destruct (Rlt_le_dec 0 x) as [H|H]; [exact H|]. pose proof (lag_pos_neg (S n) x H). rewrite (Hroot x Hx) in *. lra. }
  assert (Hw : forall xw, In xw rule -> snd xw = wt (S n) (fst xw)).
  { intros xw Hin. rewrite Forall_forall in Hr. destruct (Hr xw Hin) as [_ E]. rewrite E. unfold wt.
    rewrite lag_laguerre. replace (S n + 1)%nat with (S (S n)) by lia. reflexivity. }
  split.
  - apply Forall_forall. intros xw Hin. assert (Hx : In (fst xw) xs) by (apply in_map; exact Hin).
    split; [apply Hpos; exact Hx|]. rewrite (Hw xw Hin). apply (wt_pos n xs); assumption.
  - intros k Hk. pose proof (good_mono n xs Hlen Hnd Hroot Hpos k Hk) as G. unfold good in G.
    rewrite mom_mono in G. rewrite Nat.add_0_l in G. rewrite G. unfold qsum, xs. revert Hw. clear. intros Hw.
    induction rule as [|xw l IH]; [reflexivity|]. simpl. rewrite IH by (intros; apply Hw; now right).
    rewrite (Hw xw) by now left. rewrite ev_mono. reflexivity.
Qed.
Lemma documented_exists J : (0 < J)%nat -> exists rule, documented_rule J rule.
Proof.
  intros HJ. destruct J as [|n]; [lia|]. destruct (lag_nodes n) as (xs & L & A & Z & _).
  exists (map (fun x => (x, wt (S n) x)) xs). split; [rewrite map_length; exact L|].
  rewrite map_map, (map_ext _ (fun x : R => x)), map_id by reflexivity. split; [apply (above_nodup xs 0 A)|].
  apply Forall_forall. intros xw Hin. apply in_map_iff in Hin. destruct Hin as (x & <- & Hx). cbn [fst snd].
  rewrite Forall_forall in Z. split; [rewrite lag_laguerre; apply Z; exact Hx|].
  unfold wt. rewrite lag_laguerre. replace (S n + 1)%nat with (S (S n)) by lia. reflexivity.
Qed.
