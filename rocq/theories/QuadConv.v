(** Convergence of exact positive quadrature rules for the weight e^-x on [0, oo)
    to the integral. *)
From Coq Require Import Reals Lra Lia List Bool.
From Coquelicot Require Import Coquelicot.
From Coq Require Import List.
From Verif Require Import SpecQuad Laguerre Laguerre2 Weierstrass.
Import ListNotations.
Open Scope R_scope.

Definition ib (f : R -> R) (b : R) : R := RInt (fun x => f x * exp (- x)) 0 b.
Definition cont (f : R -> R) : Prop := forall x, continuous f x.

Lemma exp_opp_cont : cont (fun x => exp (- x)).
Proof. intros x. apply continuous_comp; [apply (continuous_opp (V := R_NormedModule)), continuous_id|apply continuous_exp]. Qed.
Lemma cont_mult f g : cont f -> cont g -> cont (fun x => f x * g x).
Proof. intros H1 H2 x. apply (continuous_mult (K := R_AbsRing)); auto. Qed.
Lemma cont_plus f g : cont f -> cont g -> cont (fun x => f x + g x).
Proof. intros H1 H2 x. apply (continuous_plus (V := R_NormedModule)); auto. Qed.
Lemma cont_const c : cont (fun _ => c).
Proof. intros x. apply continuous_const. Qed.
Lemma cont_id : cont (fun x => x).
Proof. intros x. apply continuous_id. Qed.
Lemma cont_pow k : cont (fun x => x ^ k).
Proof. induction k; [exact (cont_const 1)|]. exact (cont_mult (fun x => x) (fun x => x ^ k) cont_id IHk). Qed.
Lemma cont_ext f g : (forall x, f x = g x) -> cont f -> cont g.
Proof. intros H Hf x. apply (continuous_ext f); [exact H|apply Hf]. Qed.
Lemma cont_exp_scal s : cont (fun x => exp (- (s * x))).
Proof.
  intros x. apply (continuous_comp (fun x => - (s * x)) exp); [|apply continuous_exp].
  apply (continuous_opp (V := R_NormedModule)). apply (cont_mult (fun _ => s) (fun x => x) (cont_const s) cont_id).
Qed.
Lemma ib_ex f b : cont f -> ex_RInt (fun x => f x * exp (- x)) 0 b.
Proof. intros H. apply (ex_RInt_continuous (V := R_CompleteNormedModule)). intros x _. apply (cont_mult f _ H exp_opp_cont). Qed.
Lemma ib_lin f g a c b : cont f -> cont g -> ib (fun x => a * f x + c * g x) b = a * ib f b + c * ib g b.
Proof.
  intros Hf Hg. unfold ib. apply is_RInt_unique.
  apply (is_RInt_ext (fun x => plus (scal a (f x * exp (- x))) (scal c (g x * exp (- x))))).
  { intros x _. unfold plus, scal. simpl. unfold mult. simpl. ring. }
  apply (is_RInt_plus (V := R_NormedModule)); apply (is_RInt_scal (V := R_NormedModule)); apply (RInt_correct (V := R_CompleteNormedModule)); apply ib_ex; assumption.
Qed.
Lemma ib_le f g b : cont f -> cont g -> 0 <= b -> (forall x, 0 <= x -> f x <= g x) -> ib f b <= ib g b.
Proof.
  intros Hf Hg Hb H. apply RInt_le; [exact Hb|apply ib_ex; exact Hf|apply ib_ex; exact Hg|].
  intros x Hx. apply Rmult_le_compat_r; [left; apply exp_pos|apply H; lra].
Qed.
Lemma ib_abs f g h b : cont f -> cont g -> cont h -> 0 <= b -> (forall x, 0 <= x -> Rabs (f x - g x) <= h x) ->
  Rabs (ib f b - ib g b) <= ib h b.
Proof.
  intros Hf Hg Hh Hb H.
  assert (U : ib f b <= ib (fun x => 1 * g x + 1 * h x) b).
  { apply ib_le; [exact Hf| |exact Hb|].
    - apply cont_plus; apply cont_mult; try apply cont_const; assumption.
    - intros x Hx. specialize (H x Hx). apply Rabs_le_between in H. lra. }
  assert (L : ib (fun x => 1 * g x + (-1) * h x) b <= ib f b).
  { apply ib_le; [|exact Hf|exact Hb|].
    - apply cont_plus; apply cont_mult; try apply cont_const; assumption.
    - intros x Hx. specialize (H x Hx). apply Rabs_le_between in H. lra. }
  rewrite (ib_lin g h) in U by assumption. rewrite (ib_lin g h) in L by assumption. apply Rabs_le. lra.
Qed.

Lemma pow_fact_derive s m x : is_derive (fun x => (s * x) ^ S m / INR (fact (S m))) x (s * ((s * x) ^ m / INR (fact m))).
Proof.
  pose proof (INR_fact_neq_0 m). pose proof (pos_INR m).
  assert (E : INR (fact (S m)) = (INR m + 1) * INR (fact m)) by (rewrite fact_simpl, mult_INR, S_INR; reflexivity).
  rewrite E. auto_derive; [trivial|]. change (match m with 0%nat => 1 | S _ => INR m + 1 end) with (INR (S m)).
  rewrite S_INR. simpl pred. field. lra.
Qed.
Lemma pow_fact_derive1 m x : is_derive (fun x => x ^ S m / INR (fact (S m))) x (x ^ m / INR (fact m)).
Proof.
  apply (is_derive_ext (fun x => (1 * x) ^ S m / INR (fact (S m)))); [intros t; now rewrite Rmult_1_l|].
  replace (x ^ m / INR (fact m)) with (1 * ((1 * x) ^ m / INR (fact m))) by (rewrite !Rmult_1_l; reflexivity).
  apply pow_fact_derive.
Qed.

(** the integral over [0, oo) *)
Definition limI (f : R -> R) (l : R) : Prop :=
  forall eps, 0 < eps -> exists B, forall b, B <= b -> 0 <= b -> Rabs (ib f b - l) < eps.

Section Rules.
  Context (rule : nat -> list (R * R)).
  Definition exact_rules : Prop :=
    forall n, (0 < n)%nat ->
    Forall (fun xw => 0 < fst xw /\ 0 < snd xw) (rule n) /\
    forall k, (k < 2 * n)%nat -> qsum (fun x => x ^ k) (rule n) = INR (fact k).
  Context (HR : exact_rules).

  Definition limQ (f : R -> R) (l : R) : Prop :=
    forall eps, 0 < eps -> exists N, forall n, (N <= n)%nat -> (0 < n)%nat -> Rabs (qsum f (rule n) - l) < eps.
  Definition cv (f : R -> R) (l : R) : Prop := cont f /\ limI f l /\ limQ f l.

  Lemma qsum_lin f g a c r : qsum (fun x => a * f x + c * g x) r = a * qsum f r + c * qsum g r.
  Proof. clear. unfold qsum. induction r as [|[x w] r IH]; simpl; [ring|]. rewrite IH. ring. Qed.
  Lemma qsum_le f g n : (0 < n)%nat -> (forall x, 0 <= x -> f x <= g x) -> qsum f (rule n) <= qsum g (rule n).
  Proof.
    intros Hn H. destruct (HR n Hn) as [P _]. unfold qsum. induction P as [|[x w] r [Hx Hw] _ IH]; simpl in *; [lra|].
    apply Rplus_le_compat; [|exact IH]. apply Rmult_le_compat_l; [lra|apply H; lra].
  Qed.
  Lemma qsum_abs f g h n : (0 < n)%nat -> (forall x, 0 <= x -> Rabs (f x - g x) <= h x) ->
    Rabs (qsum f (rule n) - qsum g (rule n)) <= qsum h (rule n).
  Proof.
    intros Hn H.
    assert (U : qsum f (rule n) <= qsum (fun x => 1 * g x + 1 * h x) (rule n)).
    { apply qsum_le; [exact Hn|]. intros x Hx. specialize (H x Hx). apply Rabs_le_between in H. lra. }
    assert (L : qsum (fun x => 1 * g x + (-1) * h x) (rule n) <= qsum f (rule n)).
    { apply qsum_le; [exact Hn|]. intros x Hx. specialize (H x Hx). apply Rabs_le_between in H. lra. }
    rewrite (qsum_lin g h) in U, L. apply Rabs_le. lra.
  Qed.
  Lemma limI_ext f g l : (forall x, f x = g x) -> limI f l -> limI g l.
  Proof.
    intros H Hf eps He. destruct (Hf eps He) as [B HB]. exists B. intros b H1 H2.
    replace (ib g b) with (ib f b); [apply HB; assumption|]. unfold ib. apply RInt_ext. intros x _. now rewrite H.
  Qed.
  Lemma cv_ext f g l : (forall x, f x = g x) -> cv f l -> cv g l.
  Proof.
    intros H (H1 & H2 & H3). split; [apply (cont_ext f g H H1)|]. split; [apply (limI_ext f g l H H2)|].
    intros eps He. destruct (H3 eps He) as [N HN]. exists N. intros n Hn Hp.
    replace (qsum g (rule n)) with (qsum f (rule n)); [apply HN; assumption|]. unfold qsum. f_equal. apply map_ext. intros; now rewrite H.
  Qed.
  Lemma cv_lin f g a c l m : cv f l -> cv g m -> cv (fun x => a * f x + c * g x) (a * l + c * m).
  Proof.
    intros (F1 & F2 & F3) (G1 & G2 & G3).
    assert (K : forall eps, 0 < eps -> exists d, 0 < d /\ forall x y, Rabs x < d -> Rabs y < d -> Rabs (a * x + c * y) < eps).
    { intros eps He. exists (eps / (Rabs a + Rabs c + 1)). pose proof (Rabs_pos a). pose proof (Rabs_pos c).
      split; [apply Rdiv_lt_0_compat; lra|]. intros x y Hx Hy. eapply Rle_lt_trans; [apply Rabs_triang|]. rewrite !Rabs_mult.
      set (d := eps / (Rabs a + Rabs c + 1)) in *. assert (Ed : d * (Rabs a + Rabs c + 1) = eps) by (unfold d; field; lra).
      assert (0 < d) by (unfold d; apply Rdiv_lt_0_compat; lra).
      assert (Rabs a * Rabs x <= Rabs a * d) by (apply Rmult_le_compat_l; lra).
      assert (Rabs c * Rabs y <= Rabs c * d) by (apply Rmult_le_compat_l; lra). lra. }
    split; [apply cont_plus; apply cont_mult; try apply cont_const; assumption|]. split.
    - intros eps He. destruct (K eps He) as (d & Hd & Hk). destruct (F2 d Hd) as [B1 H1]. destruct (G2 d Hd) as [B2 H2].
      exists (Rmax B1 B2). intros b Hb Hb0. pose proof (Rmax_l B1 B2). pose proof (Rmax_r B1 B2).
      rewrite ib_lin by assumption. replace (a * ib f b + c * ib g b - (a * l + c * m)) with (a * (ib f b - l) + c * (ib g b - m)) by ring.
      apply Hk; [apply H1|apply H2]; lra.
    - intros eps He. destruct (K eps He) as (d & Hd & Hk). destruct (F3 d Hd) as [B1 H1]. destruct (G3 d Hd) as [B2 H2].
      exists (Nat.max B1 B2). intros n Hn Hn0.
      rewrite qsum_lin. replace (a * qsum f (rule n) + c * qsum g (rule n) - (a * l + c * m)) with (a * (qsum f (rule n) - l) + c * (qsum g (rule n) - m)) by ring.
      apply Hk; [apply H1|apply H2]; lia.
  Qed.
  Lemma cv_scal f c l : cv f l -> cv (fun x => c * f x) (c * l).
  Proof.
    intros H. replace (c * l) with (c * l + 0 * l) by ring. apply (cv_ext (fun x => c * f x + 0 * f x)); [intros; ring|].
    apply cv_lin; exact H.
  Qed.
  Lemma cv_le f g l m : cv f l -> cv g m -> (forall x, 0 <= x -> f x <= g x) -> l <= m.
  Proof.
    intros (F1 & F2 & _) (G1 & G2 & _) H. destruct (Rle_lt_dec l m) as [Hle|Hlt]; [exact Hle|exfalso].
    destruct (F2 ((l - m) / 2) ltac:(lra)) as [B1 H1]. destruct (G2 ((l - m) / 2) ltac:(lra)) as [B2 H2].
    set (b := Rmax 0 (Rmax B1 B2)). pose proof (Rmax_l 0 (Rmax B1 B2)). pose proof (Rmax_r 0 (Rmax B1 B2)).
    pose proof (Rmax_l B1 B2). pose proof (Rmax_r B1 B2).
    specialize (H1 b ltac:(unfold b; lra) ltac:(unfold b; lra)). specialize (H2 b ltac:(unfold b; lra) ltac:(unfold b; lra)).
    pose proof (ib_le f g b F1 G1 ltac:(unfold b; lra) H).
    apply Rabs_lt_between in H1. apply Rabs_lt_between in H2. lra.
  Qed.
  (** closure under approximation *)
  Lemma cv_closure f : cont f ->
    (forall eps, 0 < eps -> exists g lg h lh, cv g lg /\ cv h lh /\ (forall x, 0 <= x -> Rabs (f x - g x) <= h x) /\ lh <= eps) ->
    exists l, cv f l.
  Proof.
    intros Hf H.
    assert (Cauchy : forall eps, 0 < eps -> exists B, forall u v, B <= u -> B <= v -> 0 <= u -> 0 <= v -> Rabs (ib f u - ib f v) < eps).
    { intros eps He. destruct (H (eps / 8) ltac:(lra)) as (g & lg & h & lh & (G1 & G2 & _) & (H1 & H2 & _) & Hc & Hlh).
      destruct (G2 (eps / 8) ltac:(lra)) as [B1 HB1]. destruct (H2 (eps / 8) ltac:(lra)) as [B2 HB2].
      exists (Rmax B1 B2). pose proof (Rmax_l B1 B2). pose proof (Rmax_r B1 B2). intros u v Hu Hv Hu0 Hv0.
      pose proof (ib_abs f g h u Hf G1 H1 Hu0 Hc) as Eu. pose proof (ib_abs f g h v Hf G1 H1 Hv0 Hc) as Ev.
      pose proof (HB1 u ltac:(lra) Hu0) as Gu. pose proof (HB1 v ltac:(lra) Hv0) as Gv.
      pose proof (HB2 u ltac:(lra) Hu0) as Hu'. pose proof (HB2 v ltac:(lra) Hv0) as Hv'.
      apply Rabs_le_between in Eu. apply Rabs_le_between in Ev.
      apply Rabs_lt_between in Gu. apply Rabs_lt_between in Gv. apply Rabs_lt_between in Hu'. apply Rabs_lt_between in Hv'.
      apply Rabs_lt_between. lra. }
    destruct (Rcomplete.R_complete (fun n => ib f (INR n))) as [l Hl].
    { intros eps He. destruct (Cauchy eps He) as [B HB]. destruct (INR_unbounded B) as [N HN]. exists N. intros n m Hn Hm.
      apply le_INR in Hn. apply le_INR in Hm. apply HB; try apply pos_INR; lra. }
    assert (LI : limI f l).
    { intros eps He. destruct (Cauchy (eps / 2) ltac:(lra)) as [B HB]. exists B. intros b Hb Hb0.
      destruct (Hl (eps / 2) ltac:(lra)) as [N HN]. destruct (INR_unbounded B) as [N' HN'].
      set (n := Nat.max N N'). specialize (HN n ltac:(unfold n; lia)). unfold R_dist in HN.
      assert (B <= INR n). { assert (INR N' <= INR n) by (apply le_INR; unfold n; lia). lra. }
      pose proof (HB b (INR n) Hb ltac:(assumption) Hb0 (pos_INR n)) as E.
      apply Rabs_lt_between in E. apply Rabs_lt_between in HN. apply Rabs_lt_between. lra. }
    exists l. split; [exact Hf|]. split; [exact LI|].
    intros eps He. destruct (H (eps / 8) ltac:(lra)) as (g & lg & h & lh & (G1 & G2 & G3) & (H1 & H2 & H3) & Hc & Hlh).
    assert (D : Rabs (l - lg) <= lh + 3 * (eps / 8)).
    { destruct (LI (eps / 8) ltac:(lra)) as [B0 HB0]. destruct (G2 (eps / 8) ltac:(lra)) as [B1 HB1].
      destruct (H2 (eps / 8) ltac:(lra)) as [B2 HB2].
      set (b := Rmax 0 (Rmax B0 (Rmax B1 B2))).
      assert (Hb : 0 <= b /\ B0 <= b /\ B1 <= b /\ B2 <= b).
      { unfold b. pose proof (Rmax_l 0 (Rmax B0 (Rmax B1 B2))). pose proof (Rmax_r 0 (Rmax B0 (Rmax B1 B2))).
        pose proof (Rmax_l B0 (Rmax B1 B2)). pose proof (Rmax_r B0 (Rmax B1 B2)). pose proof (Rmax_l B1 B2). pose proof (Rmax_r B1 B2). lra. }
      destruct Hb as (Hb0 & Hb1 & Hb2 & Hb3).
      pose proof (ib_abs f g h b Hf G1 H1 Hb0 Hc) as E. pose proof (HB0 b Hb1 Hb0) as E0. pose proof (HB1 b Hb2 Hb0) as E1.
      pose proof (HB2 b Hb3 Hb0) as E2.
      apply Rabs_le_between in E. apply Rabs_lt_between in E0. apply Rabs_lt_between in E1. apply Rabs_lt_between in E2.
      apply Rabs_le. lra. }
    destruct (G3 (eps / 8) ltac:(lra)) as [N1 HN1]. destruct (H3 (eps / 8) ltac:(lra)) as [N2 HN2].
    exists (Nat.max N1 N2). intros n Hn Hn0.
    pose proof (qsum_abs f g h n Hn0 Hc) as E. pose proof (HN1 n ltac:(lia) Hn0) as E1. pose proof (HN2 n ltac:(lia) Hn0) as E2.
    apply Rabs_le_between in E. apply Rabs_lt_between in E1. apply Rabs_lt_between in E2. apply Rabs_le_between in D.
    apply Rabs_lt_between. lra.
  Qed.

  (** *** Powers *)
  Lemma exp_ge_pow k b : 0 <= b -> b ^ k / INR (fact k) <= exp b.
  Proof.
    clear. revert b. induction k; intros b Hb.
    - simpl. pose proof (exp_ineq1_le b). lra.
    - set (g := fun x => exp x - x ^ S k / INR (fact (S k))).
      assert (D : forall x, is_derive g x (exp x - x ^ k / INR (fact k))).
      { intros x. unfold g. apply (is_derive_minus (V := R_NormedModule)); [apply is_derive_exp|apply pow_fact_derive1]. }
      assert (M : g 0 <= g b).
      { destruct (MVT_gen g 0 b (fun x => exp x - x ^ k / INR (fact k))) as (c & Hc & E).
        - intros x _. apply D.
        - intros x _. apply continuity_pt_filterlim. apply (ex_derive_continuous g). eexists. apply D.
        - rewrite Rmin_left, Rmax_right in Hc by exact Hb. specialize (IHk c ltac:(lra)).
          assert (0 <= (exp c - c ^ k / INR (fact k)) * (b - 0)) by (apply Rmult_le_pos; lra). lra. }
      unfold g in M. rewrite exp_0 in M. simpl pow in M at 1. unfold Rdiv in M at 1. rewrite !Rmult_0_l in M. unfold Rdiv in *. lra.
  Qed.
  Lemma pow_exp_small k : forall eps, 0 < eps -> exists B, 0 < B /\ forall b, B <= b -> b ^ k * exp (- b) < eps.
  Proof.
    clear. intros eps He. pose proof (INR_fact_pos (S k)) as Hf. exists (INR (fact (S k)) / eps + 1).
    assert (0 < INR (fact (S k)) / eps) by (apply Rdiv_lt_0_compat; assumption). split; [lra|]. intros b Hb.
    pose proof (exp_ge_pow (S k) b ltac:(lra)) as E. rewrite exp_Ropp. pose proof (exp_pos b) as P.
    apply (Rmult_lt_reg_r (exp b)); [exact P|]. rewrite Rmult_assoc, Rinv_l, Rmult_1_r by lra.
    assert (0 < b ^ k) by (apply pow_lt; lra).
    apply Rlt_le_trans with (eps * (b ^ S k / INR (fact (S k)))); [|apply Rmult_le_compat_l; lra].
    simpl pow. replace (eps * (b * b ^ k / INR (fact (S k)))) with (b ^ k * (b / (INR (fact (S k)) / eps))) by (field; lra).
    rewrite <- (Rmult_1_r (b ^ k)) at 1. apply Rmult_lt_compat_l; [assumption|].
    apply (Rmult_lt_reg_r (INR (fact (S k)) / eps)); [assumption|].
    replace (b / (INR (fact (S k)) / eps) * (INR (fact (S k)) / eps)) with b by (field; lra). lra.
  Qed.
  Lemma ib_pow_S k b : ib (fun x => x ^ S k) b = - (b ^ S k * exp (- b)) + INR (S k) * ib (fun x => x ^ k) b.
  Proof.
    clear.
    assert (E : is_RInt (fun x => INR (S k) * (x ^ k * exp (- x)) - x ^ S k * exp (- x)) 0 b (b ^ S k * exp (- b) - 0 ^ S k * exp (- 0))).
    { apply (is_RInt_derive (V := R_CompleteNormedModule) (fun x => x ^ S k * exp (- x))).
      - intros x _. auto_derive; [trivial|]. change (match k with 0%nat => 1 | S _ => INR k + 1 end) with (INR (S k)). simpl. ring.
      - intros x _. apply (cont_plus (fun x => INR (S k) * (x ^ k * exp (- x))) (fun x => - (x ^ S k * exp (- x)))).
        + apply cont_mult; [apply cont_const|]. apply cont_mult; [apply cont_pow|apply exp_opp_cont].
        + apply (cont_ext (fun x => (-1) * (x ^ S k * exp (- x)))); [intros; ring|].
          apply cont_mult; [apply cont_const|]. apply cont_mult; [apply cont_pow|apply exp_opp_cont]. }
    apply (is_RInt_unique (V := R_CompleteNormedModule)) in E.
    pose proof (ib_lin (fun x => x ^ k) (fun x => x ^ S k) (INR (S k)) (-1) b (cont_pow k) (cont_pow (S k))) as L.
    assert (X : RInt (fun x => INR (S k) * (x ^ k * exp (- x)) - x ^ S k * exp (- x)) 0 b
              = ib (fun x => INR (S k) * x ^ k + -1 * x ^ S k) b).
    { unfold ib. apply RInt_ext. intros x _. match goal with |- ?a = ?b => change (@eq R a b) end. ring. }
    rewrite X, L in E. simpl (0 ^ S k) in E. lra.
  Qed.
  Lemma limI_pow k : limI (fun x => x ^ k) (INR (fact k)).
  Proof.
    clear. induction k.
    - intros eps He. destruct (pow_exp_small 0 eps He) as [B [B0 HB]]. exists B. intros b Hb Hb0.
      assert (E : ib (fun x => x ^ 0) b = 1 - exp (- b)).
      { unfold ib. apply is_RInt_unique. apply (is_RInt_ext (fun x => exp (- x))); [intros; simpl; ring|].
        replace (1 - exp (- b)) with (- exp (- b) - - exp (- 0)) by (rewrite Ropp_0, exp_0; ring).
        apply (is_RInt_derive (V := R_CompleteNormedModule) (fun x => - exp (- x))).
        - intros x _. auto_derive; [trivial|ring].
        - intros x _. apply exp_opp_cont. }
      rewrite E. specialize (HB b Hb). simpl in HB. simpl INR. pose proof (exp_pos (- b)).
      replace (1 - exp (- b) - 1) with (- exp (- b)) by ring. rewrite Rabs_Ropp, Rabs_pos_eq by lra. lra.
    - intros eps He. pose proof (pos_INR (S k)) as PS.
      destruct (pow_exp_small (S k) (eps / 2) ltac:(lra)) as [B1 [B10 HB1]].
      destruct (IHk (eps / 2 / (INR (S k) + 1))) as [B2 HB2]; [apply Rdiv_lt_0_compat; lra|].
      exists (Rmax B1 B2). pose proof (Rmax_l B1 B2). pose proof (Rmax_r B1 B2). intros b Hb Hb0.
      specialize (HB1 b ltac:(lra)). specialize (HB2 b ltac:(lra) Hb0). rewrite ib_pow_S, fact_simpl, mult_INR.
      set (u := ib (fun x => x ^ k) b - INR (fact k)) in *.
      replace (- (b ^ S k * exp (- b)) + INR (S k) * ib (fun x => x ^ k) b - INR (S k) * INR (fact k))
        with (- (b ^ S k * exp (- b)) + INR (S k) * u) by (unfold u; ring).
      assert (0 <= b ^ S k * exp (- b)) by (apply Rmult_le_pos; [apply pow_le; exact Hb0|left; apply exp_pos]).
      eapply Rle_lt_trans; [apply Rabs_triang|]. rewrite Rabs_Ropp, Rabs_pos_eq, Rabs_mult, (Rabs_pos_eq (INR (S k))) by assumption.
      assert (INR (S k) * Rabs u <= eps / 2); [|lra].
      apply Rle_trans with ((INR (S k) + 1) * (eps / 2 / (INR (S k) + 1))); [|right; field; lra].
      pose proof (Rabs_pos u). apply Rmult_le_compat; lra.
  Qed.
  Lemma cv_pow k : cv (fun x => x ^ k) (INR (fact k)).
  Proof.
    split; [apply cont_pow|]. split; [apply limI_pow|]. intros eps He. exists (S k). intros n Hn Hn0.
    destruct (HR n Hn0) as [_ E]. rewrite E by lia. rewrite Rminus_diag_eq by reflexivity. rewrite Rabs_R0. exact He.
  Qed.

  (** *** Exponentials *)
  Fixpoint texp (m : nat) (y : R) : R := match m with O => 0 | S m => texp m y + (- y) ^ m / INR (fact m) end.
  Lemma texp_derive m y : is_derive (texp (S m)) y (- texp m y).
  Proof.
    clear. induction m.
    - apply (is_derive_ext (fun _ => 1)); [intros t; simpl; field|]. simpl. rewrite Ropp_0. apply (is_derive_const (V := R_NormedModule)).
    - apply (is_derive_ext (fun y => texp (S m) y + (- y) ^ S m / INR (fact (S m)))); [reflexivity|].
      replace (- texp (S m) y) with (- texp m y + - ((- y) ^ m / INR (fact m))) by (simpl; ring).
      apply (is_derive_plus (V := R_NormedModule)); [exact IHm|].
      apply (is_derive_ext (fun y => (-1 * y) ^ S m / INR (fact (S m)))); [intros t; do 2 f_equal; ring|].
      replace (- ((- y) ^ m / INR (fact m))) with (-1 * ((-1 * y) ^ m / INR (fact m))) by (replace (-1 * y) with (- y) by ring; ring).
      apply pow_fact_derive.
  Qed.
  Lemma texp_0 m : texp (S m) 0 = 1.
  Proof.
    clear. induction m; [simpl; field|]. change (texp (S (S m)) 0) with (texp (S m) 0 + (- 0) ^ S m / INR (fact (S m))).
    rewrite IHm. rewrite Ropp_0, pow_i by lia. unfold Rdiv. ring.
  Qed.
  Lemma texp_bound m : forall y, 0 <= y -> Rabs (exp (- y) - texp m y) <= y ^ m / INR (fact m).
  Proof.
    clear. induction m; intros y Hy.
    - simpl. rewrite Rminus_0_r, Rabs_pos_eq by (left; apply exp_pos).
      assert (exp (- y) <= exp 0). { destruct Hy as [Hy| <-]; [left; apply exp_increasing; lra|rewrite Ropp_0; lra]. }
      rewrite exp_0 in H. lra.
    - assert (P : forall s, s = 1 \/ s = -1 -> s * (exp (- y) - texp (S m) y) <= y ^ S m / INR (fact (S m))).
      { intros s Hs. set (g := fun x => x ^ S m / INR (fact (S m)) - s * (exp (- x) - texp (S m) x)).
        pose (g' := fun x => x ^ m / INR (fact m) + s * (exp (- x) - texp m x)).
        assert (D : forall x, is_derive g x (g' x)).
        { intros x. unfold g, g'.
          replace (x ^ m / INR (fact m) + s * (exp (- x) - texp m x))
            with (minus (x ^ m / INR (fact m)) (scal s (minus (- exp (- x)) (- texp m x))))
            by (unfold minus, plus, opp, scal; simpl; unfold mult; simpl; ring).
          apply (is_derive_minus (V := R_NormedModule)).
          - apply pow_fact_derive1.
          - apply (is_derive_ext (fun x => scal s (minus (exp (- x)) (texp (S m) x)))); [reflexivity|].
            apply (is_derive_scal (fun x => minus (exp (- x)) (texp (S m) x))).
            apply (is_derive_minus (V := R_NormedModule)); [auto_derive; [trivial|ring]|apply texp_derive]. }
        assert (M : g 0 <= g y).
        { destruct (MVT_gen g 0 y g') as (c & Hc & E).
          - intros x _. apply D.
          - intros x _. apply continuity_pt_filterlim. apply (ex_derive_continuous g). eexists. apply D.
          - rewrite Rmin_left, Rmax_right in Hc by exact Hy. specialize (IHm c ltac:(lra)). apply Rabs_le_between in IHm.
            assert (0 <= g' c) by (unfold g'; destruct Hs; subst s; lra).
            assert (0 <= g' c * (y - 0)) by (apply Rmult_le_pos; lra). lra. }
        unfold g in M. rewrite texp_0, Ropp_0, exp_0, pow_i in M by lia. unfold Rdiv in M at 1. lra. }
      apply Rabs_le. pose proof (P 1 ltac:(lra)). pose proof (P (-1) ltac:(lra)). lra.
  Qed.
  Lemma fact_bound : forall n k m, (k + m = n)%nat -> (fact n <= fact k * fact m * 2 ^ n)%nat.
  Proof.
    clear. induction n; intros k m H.
    - assert (k = 0%nat) by lia. assert (m = 0%nat) by lia. subst. simpl. lia.
    - assert (E : fact (S n) = (k * fact n + m * fact n)%nat) by (rewrite fact_simpl, <- H; ring). rewrite E.
      replace (fact k * fact m * 2 ^ S n)%nat with (fact k * fact m * 2 ^ n + fact k * fact m * 2 ^ n)%nat by (simpl; ring).
      apply Nat.add_le_mono.
      + destruct k as [|k]; [simpl; lia|]. rewrite (fact_simpl k). specialize (IHn k m ltac:(lia)).
        apply Nat.le_trans with (S k * (fact k * fact m * 2 ^ n))%nat; [apply Nat.mul_le_mono_l; exact IHn|]. apply Nat.eq_le_incl. ring.
      + destruct m as [|m]; [simpl; lia|]. rewrite (fact_simpl m). specialize (IHn k m ltac:(lia)).
        apply Nat.le_trans with (S m * (fact k * fact m * 2 ^ n))%nat; [apply Nat.mul_le_mono_l; exact IHn|]. apply Nat.eq_le_incl. ring.
  Qed.
  Lemma cv_texp k c d m : (forall k, exists l, cv (fun x => x ^ k * exp (- (c * x))) l) ->
    exists l, cv (fun x => x ^ k * exp (- (c * x)) * texp m (d * x)) l.
  Proof.
    intros H. induction m.
    - destruct (H k) as [l Hl]. exists (0 * l). apply (cv_ext (fun x => 0 * (x ^ k * exp (- (c * x))))); [intros; simpl; ring|].
      apply cv_scal. exact Hl.
    - destruct IHm as [l1 H1]. destruct (H (k + m)%nat) as [l2 H2].
      exists (1 * l1 + (- d) ^ m / INR (fact m) * l2).
      apply (cv_ext (fun x => 1 * (x ^ k * exp (- (c * x)) * texp m (d * x)) + (- d) ^ m / INR (fact m) * (x ^ (k + m) * exp (- (c * x))))).
      + intros x. cbn [texp]. replace (- (d * x)) with (- d * x) by ring. rewrite Rpow_mult_distr, pow_add. unfold Rdiv. ring.
      + apply cv_lin; assumption.
  Qed.
  Lemma cv_exp : forall j s k, 0 <= s <= INR j / 4 -> exists l, cv (fun x => x ^ k * exp (- (s * x))) l.
  Proof.
    induction j; intros s k Hs.
    - simpl in Hs. exists (INR (fact k)). apply (cv_ext (fun x => x ^ k)); [|apply cv_pow]. intros x.
      replace s with 0 by lra. rewrite Rmult_0_l, Ropp_0, exp_0. ring.
    - rewrite S_INR in Hs. set (c := Rmax 0 (s - / 4)). set (d := s - c).
      assert (Hc : 0 <= c <= INR j / 4 /\ 0 <= d <= / 4).
      { unfold d, c. pose proof (pos_INR j). unfold Rmax. destruct (Rle_dec 0 (s - / 4)); lra. }
      destruct Hc as [Hc Hd].
      assert (IH : forall k, exists l, cv (fun x => x ^ k * exp (- (c * x))) l) by (intros k'; apply IHj; exact Hc).
      apply cv_closure.
      { apply cont_mult; [apply cont_pow|apply cont_exp_scal]. }
      intros eps He.
      (* choose m *)
      pose (A := INR (fact k) * 2 ^ k).
      assert (A0 : 0 < A) by (apply Rmult_lt_0_compat; [apply INR_fact_pos|apply pow_lt; lra]).
      destruct (pow_lt_1_zero (/ 2) ltac:(rewrite Rabs_pos_eq; lra) (eps / A)) as [m Hm]; [apply Rdiv_lt_0_compat; assumption|].
      specialize (Hm m (Nat.le_refl m)). rewrite Rabs_pos_eq in Hm by (apply pow_le; lra).
      destruct (cv_texp k c d m IH) as [lg Hg]. destruct (IH (k + m)%nat) as [l2 H2].
      exists (fun x => x ^ k * exp (- (c * x)) * texp m (d * x)), lg.
      exists (fun x => d ^ m / INR (fact m) * (x ^ (k + m) * exp (- (c * x)))), (d ^ m / INR (fact m) * l2).
      split; [exact Hg|]. split; [apply cv_scal; exact H2|]. split.
      + intros x Hx.
        assert (E : exp (- (s * x)) = exp (- (c * x)) * exp (- (d * x))).
        { rewrite <- exp_plus. f_equal. unfold d. ring. }
        rewrite E.
        replace (x ^ k * (exp (- (c * x)) * exp (- (d * x))) - x ^ k * exp (- (c * x)) * texp m (d * x))
          with (x ^ k * exp (- (c * x)) * (exp (- (d * x)) - texp m (d * x))) by ring.
        assert (P : 0 <= x ^ k * exp (- (c * x))) by (apply Rmult_le_pos; [apply pow_le; exact Hx|left; apply exp_pos]).
        rewrite Rabs_mult, (Rabs_pos_eq _ P). pose proof (texp_bound m (d * x) ltac:(apply Rmult_le_pos; lra)) as T.
        apply Rle_trans with (x ^ k * exp (- (c * x)) * ((d * x) ^ m / INR (fact m))); [apply Rmult_le_compat_l; assumption|].
        right. rewrite Rpow_mult_distr, pow_add. unfold Rdiv. ring.
      + assert (U : d ^ m / INR (fact m) * l2 <= (/ 4) ^ m / INR (fact m) * INR (fact (k + m))).
        { apply (cv_le (fun x => d ^ m / INR (fact m) * (x ^ (k + m) * exp (- (c * x)))) (fun x => (/ 4) ^ m / INR (fact m) * x ^ (k + m)));
            [apply cv_scal; exact H2|apply cv_scal; apply cv_pow|].
          intros x Hx.
          assert (P1 : 0 <= d ^ m / INR (fact m)) by (apply Rdiv_le_0_compat; [apply pow_le; lra|apply INR_fact_pos]).
          assert (P2 : d ^ m / INR (fact m) <= (/ 4) ^ m / INR (fact m)).
          { apply Rmult_le_compat_r; [left; apply Rinv_0_lt_compat, INR_fact_pos|apply pow_incr; lra]. }
          assert (P3 : 0 <= x ^ (k + m)) by (apply pow_le; exact Hx).
          assert (P4 : exp (- (c * x)) <= 1).
          { rewrite <- exp_0. assert (0 <= c * x) by (apply Rmult_le_pos; lra).
            destruct H as [H| <-]; [left; apply exp_increasing; lra|rewrite Ropp_0; lra]. }
          pose proof (exp_pos (- (c * x))).
          apply Rmult_le_compat; [exact P1|apply Rmult_le_pos; lra|exact P2|].
          rewrite <- (Rmult_1_r (x ^ (k + m))) at 2. apply Rmult_le_compat_l; assumption. }
        eapply Rle_trans; [exact U|].
        pose proof (fact_bound (k + m) k m eq_refl) as F. apply le_INR in F. rewrite !mult_INR, pow_INR in F. change (INR 2) with 2 in F.
        pose proof (INR_fact_pos m) as Fm.
        apply Rle_trans with (A * (/ 2) ^ m).
        * apply Rle_trans with ((/ 4) ^ m / INR (fact m) * (INR (fact k) * INR (fact m) * 2 ^ (k + m))).
          { apply Rmult_le_compat_l; [|exact F]. apply Rdiv_le_0_compat; [apply pow_le; lra|exact Fm]. }
          right. unfold A. rewrite pow_add. replace (/ 2) with (/ 4 * 2) by field. rewrite Rpow_mult_distr. field. lra.
        * left. apply (Rmult_lt_reg_l (/ A)); [apply Rinv_0_lt_compat; exact A0|].
          replace (/ A * (A * (/ 2) ^ m)) with ((/ 2) ^ m) by (field; lra). replace (/ A * eps) with (eps / A) by (field; lra). exact Hm.
  Qed.
  (** polynomials in e^-x *)
  Lemma cv_poly_exp p : forall k i, exists l, cv (fun x => x ^ k * (exp (- x) ^ i * ev p (exp (- x)))) l.
  Proof.
    induction p as [|a p IH]; intros k i.
    - exists (0 * INR (fact k)). apply (cv_ext (fun x => 0 * x ^ k)); [intros; simpl; ring|]. apply cv_scal, cv_pow.
    - destruct (IH k (S i)) as [l1 H1].
      destruct (cv_exp (4 * i) (INR i) k) as [l2 H2].
      { split; [apply pos_INR|]. rewrite mult_INR. replace (INR 4) with 4 by (simpl; ring). lra. }
      exists (a * l2 + 1 * l1).
      apply (cv_ext (fun x => a * (x ^ k * exp (- (INR i * x))) + 1 * (x ^ k * (exp (- x) ^ S i * ev p (exp (- x)))))); [|apply cv_lin; assumption].
      intros x. cbn [ev]. replace (exp (- (INR i * x))) with (exp (- x) ^ i); [simpl; ring|].
      clear. induction i; [simpl; rewrite Rmult_0_l, Ropp_0, exp_0; reflexivity|].
      simpl pow. rewrite IHi, S_INR, <- exp_plus. f_equal. ring.
  Qed.
  (** bounded continuous functions with a limit *)
  Lemma cv_limit f (L : R) k : cont f -> is_lim f p_infty L -> exists l, cv (fun x => x ^ k * f x) l.
  Proof.
    intros Hf Hlim. apply cv_closure; [apply cont_mult; [apply cont_pow|exact Hf]|].
    intros eps He. pose proof (INR_fact_pos k) as Fk.
    pose (g := fun u => if Rle_dec u 0 then L else f (Rmax 0 (- ln u))).
    assert (Hg : forall u, 0 <= u <= 1 -> continuity_pt g u).
    { intros u Hu. destruct (Req_dec u 0) as [->|Hu0].
      - intros e Hep. apply is_lim_spec in Hlim. destruct (Hlim (mkposreal e Hep)) as [X HX]. simpl in HX.
        exists (exp (- (Rmax 0 X + 1))). split; [apply exp_pos|]. intros v [_ Hv]. unfold R_dist in *. simpl in *.
        unfold g. destruct (Rle_dec 0 0) as [_|Hbad]; [|lra]. destruct (Rle_dec v 0) as [Hv0|Hv0].
        { unfold R_dist. rewrite Rminus_diag_eq, Rabs_R0 by reflexivity. exact Hep. }
        unfold R_dist. apply HX. unfold R_dist in Hv. rewrite Rminus_0_r, Rabs_pos_eq in Hv by lra.
        apply ln_increasing in Hv; [|lra]. rewrite ln_exp in Hv. pose proof (Rmax_r 0 X). pose proof (Rmax_r 0 (- ln v)). lra.
      - assert (Hup : 0 < u) by lra. apply continuity_pt_filterlim.
        apply (continuous_ext_loc _ (fun u => f (Rmax 0 (- ln u)))).
        + exists (mkposreal u Hup). intros v Hv. unfold ball in Hv. simpl in Hv. unfold AbsRing_ball, abs, minus, plus, opp in Hv. simpl in Hv.
          apply Rabs_lt_between in Hv. unfold g. destruct (Rle_dec v 0); [lra|reflexivity].
        + apply (continuous_comp (fun u => Rmax 0 (- ln u)) f); [|apply Hf].
          assert (Cl : continuous (fun u => - ln u) u).
          { apply (continuous_opp (V := R_NormedModule)). apply (ex_derive_continuous ln). exists (/ u).
            apply is_derive_Reals. apply derivable_pt_lim_ln. exact Hup. }
          apply (continuous_ext (fun u => (- ln u + Rabs (- ln u)) / 2)).
          { intros v. unfold Rmax, Rabs. destruct (Rle_dec _ _), (Rcase_abs _); lra. }
          apply (continuous_ext (fun u => mult (plus (- ln u) (Rabs (- ln u))) (/ 2))); [reflexivity|].
          apply (continuous_mult (K := R_AbsRing)); [|apply continuous_const].
          apply (continuous_plus (V := R_NormedModule)); [exact Cl|].
          apply (continuous_comp (fun u => - ln u) Rabs); [exact Cl|apply continuous_Rabs]. }
    destruct (weierstrass g Hg (eps / INR (fact k))) as [p Hp]; [apply Rdiv_lt_0_compat; assumption|].
    destruct (cv_poly_exp p k 0) as [lg Hcg].
    exists (fun x => x ^ k * (exp (- x) ^ 0 * ev p (exp (- x)))), lg.
    exists (fun x => eps / INR (fact k) * x ^ k), (eps / INR (fact k) * INR (fact k)).
    split; [exact Hcg|]. split; [apply cv_scal, cv_pow|]. split; [|right; field; lra].
    intros x Hx. simpl (exp (- x) ^ 0). rewrite Rmult_1_l, <- Rmult_minus_distr_l, Rabs_mult, (Rabs_pos_eq (x ^ k)) by (apply pow_le; exact Hx).
    rewrite Rmult_comm. apply Rmult_le_compat_r; [apply pow_le; exact Hx|].
    assert (E : g (exp (- x)) = f x).
    { unfold g. pose proof (exp_pos (- x)). destruct (Rle_dec _ _); [lra|]. rewrite ln_exp, Ropp_involutive, Rmax_right by exact Hx. reflexivity. }
    rewrite <- E. apply Hp. split; [left; apply exp_pos|]. rewrite <- exp_0.
    destruct Hx as [Hx| <-]; [left; apply exp_increasing; lra|rewrite Ropp_0; lra].
  Qed.
End Rules.
