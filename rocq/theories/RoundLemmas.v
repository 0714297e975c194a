(** * Lemmas: relative errors of NumPy's complex arithmetic *)
From Coq Require Import Reals Lra Lia List Permutation.
From Coquelicot Require Import Rcomplements Complex.
From Verif Require Import SpecRound ModelRound.
Import ListNotations.
Open Scope R_scope.

Lemma near_ex e x y : 0 <= e -> near e x y -> exists d, Rabs d <= e /\ y = x * (1 + d).
Proof.
  unfold near. intros He H. destruct (Req_dec x 0) as [->|Hx].
  - exists 0. rewrite Rabs_R0, Rmult_0_r in H. assert (Z : y - 0 = 0).
    { destruct (Req_dec (y - 0) 0) as [E|E]; [exact E|]. apply Rabs_pos_lt in E. lra. }
    split; [rewrite Rabs_R0; exact He|lra].
  - exists ((y - x) / x). split; [|field; exact Hx].
    unfold Rdiv. rewrite Rabs_mult, Rabs_inv.
    apply (Rmult_le_reg_r (Rabs x)); [now apply Rabs_pos_lt|]. rewrite Rmult_assoc, Rinv_l by (now apply Rabs_no_R0). lra.
Qed.
Lemma near_abs e x y : near e x y -> Rabs y <= (1 + e) * Rabs x.
Proof.
  unfold near. intros H. replace y with ((y - x) + x) by ring. eapply Rle_trans; [apply Rabs_triang|]. lra.
Qed.
Lemma cnear_mod e x y : cnear e x y -> Cmod y <= (1 + e) * Cmod x.
Proof.
  unfold cnear. intros H. replace y with ((y - x) + x)%C by ring. eapply Rle_trans; [apply Cmod_triangle|]. lra.
Qed.
Lemma cnear_le e e' x y : e <= e' -> cnear e x y -> cnear e' x y.
Proof. unfold cnear. intros H H'. eapply Rle_trans; [exact H'|]. apply Rmult_le_compat_r; [apply Cmod_ge_0|exact H]. Qed.

(** ** Componentwise errors *)
Lemma Cmod_sq z : Cmod z ^ 2 = Re z ^ 2 + Im z ^ 2.
Proof. unfold Cmod. rewrite pow2_sqrt; [reflexivity|]. pose proof (pow2_ge_0 (fst z)). pose proof (pow2_ge_0 (snd z)). lra. Qed.
Lemma Rabs_sq x : Rabs x ^ 2 = x ^ 2.
Proof. rewrite RPow_abs. apply Rabs_pos_eq. apply pow2_ge_0. Qed.
Lemma sq_le x y : 0 <= y -> x ^ 2 <= y ^ 2 -> x <= y.
Proof.
  intros Hy H. destruct (Rle_lt_dec x y) as [L|L]; [exact L|]. assert (y ^ 2 < x ^ 2) by (simpl; nra). lra.
Qed.
Lemma Cmod_le_sq z b : 0 <= b -> Re z ^ 2 + Im z ^ 2 <= b ^ 2 -> Cmod z <= b.
Proof. intros Hb H. apply sq_le; [exact Hb|]. now rewrite Cmod_sq. Qed.
Lemma abs_sq_le x b : Rabs x <= b -> x ^ 2 <= b ^ 2.
Proof. intros H. rewrite <- Rabs_sq. apply pow_incr. split; [apply Rabs_pos|exact H]. Qed.

Lemma cnear_parts u (x y : C) : 0 <= u -> near u (Re x) (Re y) -> near u (Im x) (Im y) -> cnear u x y.
Proof.
  intros Hu H1 H2. unfold near, cnear in *. apply Cmod_le_sq; [apply Rmult_le_pos; [exact Hu|apply Cmod_ge_0]|].
  rewrite Rpow_mult_distr, Cmod_sq.
  apply abs_sq_le in H1. apply abs_sq_le in H2. rewrite Rpow_mult_distr, Rabs_sq in H1, H2.
  unfold Re, Im in *. cbn [fst snd Cminus Cplus Copp] in *. lra.
Qed.

Section Fixed.
Context (u : R) (A : arith) (Hu : 0 <= u) (Hu1 : u <= 1 / 100) (HA : rounds u A).

Lemma kadd_near x y : cnear u (x + y)%C (kadd A x y).
Proof. apply cnear_parts; [exact Hu| |]; simpl; apply (r_add _ _ HA). Qed.
Lemma ksub_near x y : cnear u (x - y)%C (ksub A x y).
Proof. apply cnear_parts; [exact Hu| |]; simpl; apply (r_sub _ _ HA). Qed.

Lemma two_rounds (s : R -> R -> R) (f : R -> R -> R) a b a' b' :
  (forall x y, near u (s x y) (f x y)) -> (s = Rplus \/ s = Rminus) ->
  near u a a' -> near u b b' -> Rabs (f a' b' - s a b) <= (2 * u + u ^ 2) * (Rabs a + Rabs b).
Proof.
  intros Hf Hs Ha Hb. pose proof (near_abs _ _ _ Ha) as Aa. pose proof (near_abs _ _ _ Hb) as Ab.
  specialize (Hf a' b'). unfold near in *.
  assert (T : Rabs (s a' b') <= Rabs a' + Rabs b').
  { destruct Hs as [->| ->]; [apply Rabs_triang|]. unfold Rminus. eapply Rle_trans; [apply Rabs_triang|]. rewrite Rabs_Ropp. lra. }
  assert (T' : Rabs (s a' b' - s a b) <= Rabs (a' - a) + Rabs (b' - b)).
  { destruct Hs as [->| ->].
    - replace (a' + b' - (a + b)) with ((a' - a) + (b' - b)) by ring. apply Rabs_triang.
    - replace (a' - b' - (a - b)) with ((a' - a) + - (b' - b)) by ring. eapply Rle_trans; [apply Rabs_triang|]. rewrite Rabs_Ropp. lra. }
  replace (f a' b' - s a b) with ((f a' b' - s a' b') + (s a' b' - s a b)) by ring.
  eapply Rle_trans; [apply Rabs_triang|].
  pose proof (Rabs_pos a). pose proof (Rabs_pos b).
  assert (M : u * Rabs (s a' b') <= u * ((1 + u) * Rabs a + (1 + u) * Rabs b)) by (apply Rmult_le_compat_l; lra).
  lra.
Qed.

(** Cauchy-Schwarz for the two components of a product *)
Lemma cs a b c d : (Rabs a * Rabs c + Rabs b * Rabs d) ^ 2 <= (a ^ 2 + b ^ 2) * (c ^ 2 + d ^ 2).
Proof.
  rewrite <- (Rabs_sq a), <- (Rabs_sq b), <- (Rabs_sq c), <- (Rabs_sq d).
  generalize (Rabs a), (Rabs b), (Rabs c), (Rabs d). intros x y z w.
  assert (0 <= (x * w - y * z) ^ 2) by apply pow2_ge_0. simpl in *. nra.
Qed.

Lemma kmul_near x y : cnear (4 * u) (x * y)%C (kmul A x y).
Proof.
  destruct x as [a b], y as [c d]. unfold cnear, kmul, Re, Im. cbn [fst snd].
  assert (G : 2 * u + u ^ 2 <= 5 / 2 * u) by (simpl; nra).
  assert (R1 : Rabs (a_sub A (a_mul A a c) (a_mul A b d) - (a * c - b * d)) <= (2 * u + u ^ 2) * (Rabs (a * c) + Rabs (b * d))).
  { apply two_rounds; [apply (r_sub _ _ HA)|now right|apply (r_mul _ _ HA)|apply (r_mul _ _ HA)]. }
  assert (R2 : Rabs (a_add A (a_mul A a d) (a_mul A b c) - (a * d + b * c)) <= (2 * u + u ^ 2) * (Rabs (a * d) + Rabs (b * c))).
  { apply two_rounds; [apply (r_add _ _ HA)|now left|apply (r_mul _ _ HA)|apply (r_mul _ _ HA)]. }
  rewrite !Rabs_mult in R1, R2.
  apply Cmod_le_sq; [apply Rmult_le_pos; [lra|apply Cmod_ge_0]|].
  rewrite (Rpow_mult_distr (4 * u)), Cmod_mult, (Rpow_mult_distr (Cmod _)), !Cmod_sq. unfold Re, Im. simpl (fst _). simpl (snd _).
  apply abs_sq_le in R1. apply abs_sq_le in R2. rewrite Rpow_mult_distr in R1, R2.
  pose proof (cs a b c d) as C1. pose proof (cs a b d c) as C2. rewrite (Rplus_comm (d ^ 2)) in C2.
  set (P := (a ^ 2 + b ^ 2) * (c ^ 2 + d ^ 2)) in *.
  assert (HP : 0 <= P) by (unfold P; apply Rmult_le_pos; pose proof (pow2_ge_0 a); pose proof (pow2_ge_0 b); pose proof (pow2_ge_0 c); pose proof (pow2_ge_0 d); lra).
  assert (HG : 0 <= (2 * u + u ^ 2) ^ 2 <= (5 / 2 * u) ^ 2).
  { split; [apply pow2_ge_0|]. apply pow_incr. split; [|exact G]. pose proof (pow2_ge_0 u). lra. }
  assert (K : forall x : R, 0 <= x -> x <= P -> (2 * u + u ^ 2) ^ 2 * x <= (5 / 2 * u) ^ 2 * P).
  { intros t Ht Hx. apply Rmult_le_compat; lra. }
  pose proof (K _ (pow2_ge_0 _) C1) as K1. pose proof (K _ (pow2_ge_0 _) C2) as K2.
  unfold Rminus in *. eapply Rle_trans; [apply Rplus_le_compat; [eapply Rle_trans; [exact R1|exact K1]|eapply Rle_trans; [exact R2|exact K2]]|].
  assert (0 <= u ^ 2) by apply pow2_ge_0.
  replace ((5 / 2 * u) ^ 2 * P + (5 / 2 * u) ^ 2 * P) with (25 / 2 * (u ^ 2 * P)) by (simpl; field).
  replace ((4 * u) ^ 2 * P) with (16 * (u ^ 2 * P)) by (simpl; ring).
  assert (0 <= u ^ 2 * P) by now apply Rmult_le_pos. lra.
Qed.

(** one half of Smith's division: the numerator a + b rat (or b - a rat) times the
    reciprocal of the denominator *)
Lemma smith_part (s : R -> R -> R) (f : R -> R -> R) a b rat den rat' den' :
  (forall x y, near u (s x y) (f x y)) -> (s = Rplus \/ s = Rminus) ->
  near u rat rat' -> near ((1 + u) ^ 3 - 1) den den' -> den <> 0 ->
  Rabs (a_mul A (f a (a_mul A b rat')) (a_div A 1 den') - s a (b * rat) / den)
  <= 9 * u * ((Rabs a + Rabs b * Rabs rat) / Rabs den) /\
  Rabs (a_mul A (f (a_mul A b rat') a) (a_div A 1 den') - s (b * rat) a / den)
  <= 9 * u * ((Rabs a + Rabs b * Rabs rat) / Rabs den).
Proof.
  intros Hf Hs Hr Hd D0.
  assert (g3 : (1 + u) ^ 3 - 1 <= 3.04 * u) by (simpl; nra).
  assert (g3' : 0 <= (1 + u) ^ 3 - 1) by (simpl; nra).
  destruct (near_ex _ _ _ g3' Hd) as (eta & He & ->).
  assert (He' : Rabs eta <= 3.04 * u) by lra. assert (He2 : Rabs eta <= 0.0304) by lra.
  apply Rabs_le_between in He2.
  assert (D1 : den * (1 + eta) <> 0) by (apply Rmult_integral_contrapositive_currified; lra).
  destruct (near_ex _ _ _ Hu (r_div _ _ HA 1 _ D1)) as (d4 & H4 & ->).
  set (m := a_mul A b rat').
  assert (Hm : near ((1 + u) ^ 2 - 1) (b * rat) m).
  { destruct (near_ex _ _ _ Hu Hr) as (d1 & H1 & ->). unfold m. destruct (near_ex _ _ _ Hu (r_mul _ _ HA b (rat * (1 + d1)))) as (d2 & H2 & ->).
    unfold near. replace (b * (rat * (1 + d1)) * (1 + d2) - b * rat) with (b * rat * (d1 + d2 + d1 * d2)) by ring.
    rewrite Rabs_mult, Rmult_comm. apply Rmult_le_compat_r; [apply Rabs_pos|].
    eapply Rle_trans; [apply Rabs_triang|]. eapply Rle_trans; [apply Rplus_le_compat_r, Rabs_triang|]. rewrite Rabs_mult.
    pose proof (Rabs_pos d1). pose proof (Rabs_pos d2). simpl. nra. }
  pose proof (near_abs _ _ _ Hm) as Am. unfold near in Hm. rewrite Rabs_mult in Hm, Am.
  set (W := Rabs a + Rabs b * Rabs rat).
  assert (HW : 0 <= W) by (unfold W; pose proof (Rabs_pos a); assert (0 <= Rabs b * Rabs rat) by (apply Rmult_le_pos; apply Rabs_pos); lra).
  assert (HD : 0 < Rabs den) by now apply Rabs_pos_lt.
  assert (GO : forall num num', Rabs num <= W -> Rabs (num' - num) <= ((1 + u) ^ 3 - 1) * W ->
    Rabs (a_mul A num' (1 / (den * (1 + eta)) * (1 + d4)) - num / den) <= 9 * u * (W / Rabs den)).
  { intros num num' Hn Hn'. destruct (near_ex _ _ _ Hu (r_mul _ _ HA num' (1 / (den * (1 + eta)) * (1 + d4)))) as (d5 & H5 & ->).
    replace (num' * (1 / (den * (1 + eta)) * (1 + d4)) * (1 + d5) - num / den) with
      (((num' - num) * ((1 + d4) * (1 + d5)) + num * (d4 + d5 + d4 * d5 - eta)) / (1 + eta) / den) by (field; lra).
    replace (9 * u * (W / Rabs den)) with (9 * u * W * / Rabs den) by (unfold Rdiv; ring).
    unfold Rdiv at 1. rewrite Rabs_mult, Rabs_inv. apply Rmult_le_compat_r; [apply Rlt_le, Rinv_0_lt_compat, HD|].
    unfold Rdiv. rewrite Rabs_mult, Rabs_inv.
    assert (B1 : / Rabs (1 + eta) <= / 0.9696).
    { apply Rinv_le_contravar; [lra|]. rewrite Rabs_pos_eq; lra. }
    assert (B2 : Rabs ((num' - num) * ((1 + d4) * (1 + d5)) + num * (d4 + d5 + d4 * d5 - eta)) <= 8.3 * u * W).
    { eapply Rle_trans; [apply Rabs_triang|]. rewrite !Rabs_mult.
      apply Rabs_le_between in H4 as H4'. apply Rabs_le_between in H5 as H5'.
      assert (X1 : Rabs (1 + d4) * Rabs (1 + d5) <= 1.0201).
      { rewrite !Rabs_pos_eq by lra. nra. }
      assert (X2 : Rabs (d4 + d5 + d4 * d5 - eta) <= 5.06 * u).
      { apply Rabs_le_between in He'. apply Rabs_le_between. assert (Rabs (d4 * d5) <= u * u) by (rewrite Rabs_mult; apply Rmult_le_compat; auto using Rabs_pos).
        apply Rabs_le_between in H. split; nra. }
      assert (X3 : Rabs (num' - num) * (Rabs (1 + d4) * Rabs (1 + d5)) <= (3.04 * u * W) * 1.0201).
      { apply Rmult_le_compat; auto using Rabs_pos. apply Rmult_le_pos; apply Rabs_pos.
        eapply Rle_trans; [exact Hn'|]. apply Rmult_le_compat_r; lra. }
      assert (X4 : Rabs num * Rabs (d4 + d5 + d4 * d5 - eta) <= W * (5.06 * u)) by (apply Rmult_le_compat; auto using Rabs_pos).
      assert (0 <= u * W) by now apply Rmult_le_pos. lra. }
    assert (0 <= 8.3 * u * W) by (apply Rmult_le_pos; lra).
    eapply Rle_trans; [apply Rmult_le_compat; [apply Rabs_pos|apply Rlt_le, Rinv_0_lt_compat; rewrite Rabs_pos_eq; lra|exact B2|exact B1]|].
    assert (0 <= u * W) by now apply Rmult_le_pos. lra. }
  assert (S1 : forall x y, Rabs (s x y) <= Rabs x + Rabs y).
  { intros x y. destruct Hs as [->| ->]; [apply Rabs_triang|]. unfold Rminus. eapply Rle_trans; [apply Rabs_triang|]. rewrite Rabs_Ropp. lra. }
  assert (S2 : forall x y x' y', Rabs (s x' y' - s x y) <= Rabs (x' - x) + Rabs (y' - y)).
  { intros x y x' y'. destruct Hs as [->| ->].
    - replace (x' + y' - (x + y)) with ((x' - x) + (y' - y)) by ring. apply Rabs_triang.
    - replace (x' - y' - (x - y)) with ((x' - x) + - (y' - y)) by ring. eapply Rle_trans; [apply Rabs_triang|]. rewrite Rabs_Ropp. lra. }
  assert (Bm : 0 <= Rabs b * Rabs rat) by (apply Rmult_le_pos; apply Rabs_pos). pose proof (Rabs_pos a) as Ba.
  assert (E3 : (1 + u) ^ 3 - 1 = (1 + u) ^ 2 - 1 + u * (1 + u) ^ 2) by (simpl; ring).
  assert (F1 : u * Rabs a <= ((1 + u) ^ 3 - 1) * Rabs a) by (apply Rmult_le_compat_r; [lra|simpl; nra]).
  assert (F2 : u * Rabs m <= u * ((1 + ((1 + u) ^ 2 - 1)) * (Rabs b * Rabs rat))) by (apply Rmult_le_compat_l; lra).
  split; apply GO.
  - eapply Rle_trans; [apply S1|]. rewrite Rabs_mult. unfold W. lra.
  - specialize (Hf a m). unfold near in Hf. pose proof (S1 a m). pose proof (S2 a (b * rat) a m) as Q.
    replace (a - a) with 0 in Q by ring. rewrite Rabs_R0 in Q.
    replace (f a m - s a (b * rat)) with ((f a m - s a m) + (s a m - s a (b * rat))) by ring.
    eapply Rle_trans; [apply Rabs_triang|].
    assert (u * Rabs (s a m) <= u * (Rabs a + Rabs m)) by (apply Rmult_le_compat_l; lra).
    unfold W. rewrite E3 in *. lra.
  - eapply Rle_trans; [apply S1|]. rewrite Rabs_mult. unfold W. lra.
  - specialize (Hf m a). unfold near in Hf. pose proof (S1 m a). pose proof (S2 (b * rat) a m a) as Q.
    replace (a - a) with 0 in Q by ring. rewrite Rabs_R0 in Q.
    replace (f m a - s (b * rat) a) with ((f m a - s m a) + (s m a - s (b * rat) a)) by ring.
    eapply Rle_trans; [apply Rabs_triang|].
    assert (u * Rabs (s m a) <= u * (Rabs m + Rabs a)) by (apply Rmult_le_compat_l; lra).
    unfold W. rewrite E3 in *. lra.
Qed.

(** the denominator of Smith's division has no cancellation *)
Lemma smith_den c d rat' : c <> 0 -> Rabs d <= Rabs c -> near u (d / c) rat' ->
  near ((1 + u) ^ 3 - 1) (c + d * (d / c)) (a_add A c (a_mul A d rat')).
Proof.
  intros Hc Hdc Hr. destruct (near_ex _ _ _ Hu Hr) as (d1 & H1 & ->).
  destruct (near_ex _ _ _ Hu (r_mul _ _ HA d (d / c * (1 + d1)))) as (d2 & H2 & ->).
  destruct (near_ex _ _ _ Hu (r_add _ _ HA c (d * (d / c * (1 + d1)) * (1 + d2)))) as (d3 & H3 & ->).
  unfold near.
  set (w := (d / c) ^ 2). assert (Hw : 0 <= w) by apply pow2_ge_0.
  replace (c + d * (d / c)) with (c * (1 + w)) by (unfold w; field; exact Hc).
  replace ((c + d * (d / c * (1 + d1)) * (1 + d2)) * (1 + d3)) with (c * ((1 + w * ((1 + d1) * (1 + d2))) * (1 + d3))) by (unfold w; field; exact Hc).
  replace (c * ((1 + w * ((1 + d1) * (1 + d2))) * (1 + d3)) - c * (1 + w)) with (c * ((1 + w) * d3 + w * (d1 + d2 + d1 * d2) * (1 + d3))) by ring.
  rewrite !Rabs_mult. rewrite (Rabs_pos_eq (1 + w)) by lra.
  replace (((1 + u) ^ 3 - 1) * (Rabs c * (1 + w))) with (Rabs c * ((1 + w) * ((1 + u) ^ 3 - 1))) by ring.
  apply Rmult_le_compat_l; [apply Rabs_pos|].
  eapply Rle_trans; [apply Rabs_triang|]. rewrite !Rabs_mult, (Rabs_pos_eq (1 + w)), (Rabs_pos_eq w) by lra.
  assert (X : Rabs (d1 + d2 + d1 * d2) <= 2 * u + u * u).
  { eapply Rle_trans; [apply Rabs_triang|]. eapply Rle_trans; [apply Rplus_le_compat_r, Rabs_triang|]. rewrite Rabs_mult.
    assert (Rabs d1 * Rabs d2 <= u * u) by (apply Rmult_le_compat; auto using Rabs_pos). lra. }
  assert (Y : Rabs (1 + d3) <= 1 + u) by (eapply Rle_trans; [apply Rabs_triang|]; rewrite Rabs_R1; lra).
  assert (Z : w * Rabs (d1 + d2 + d1 * d2) * Rabs (1 + d3) <= w * (2 * u + u * u) * (1 + u)).
  { apply Rmult_le_compat; auto using Rabs_pos. apply Rmult_le_pos; [lra|apply Rabs_pos]. apply Rmult_le_compat_l; lra. }
  assert (V : (1 + w) * Rabs d3 <= (1 + w) * u) by (apply Rmult_le_compat_l; lra).
  assert (T : (1 + w) * u + w * (2 * u + u * u) * (1 + u) <= (1 + w) * ((1 + u) ^ 3 - 1)).
  { replace ((1 + w) * ((1 + u) ^ 3 - 1)) with ((1 + w) * u + (1 + w) * ((2 * u + u * u) * (1 + u))) by (simpl; ring).
    assert (0 <= (2 * u + u * u) * (1 + u)) by nra. nra. }
  lra.
Qed.

Lemma sum_sq_bound a b r : (Rabs a + Rabs b * Rabs r) ^ 2 <= (a ^ 2 + b ^ 2) * (1 + r ^ 2).
Proof.
  pose proof (cs a b 1 r) as H. rewrite Rabs_R1, Rmult_1_r in H. replace (1 ^ 2) with 1 in H by ring. exact H.
Qed.

Lemma kdiv_near x y : y <> RtoC 0 -> cnear (13 * u) (x / y)%C (kdiv A x y).
Proof.
  intros Hy. destruct x as [a b], y as [c d].
  assert (CASE : forall c d a b s1 s2, c <> 0 -> Rabs d <= Rabs c ->
    Rabs (s1 - (a + b * (d / c)) / (c + d * (d / c))) <= 9 * u * ((Rabs a + Rabs b * Rabs (d / c)) / Rabs (c + d * (d / c))) ->
    Rabs (s2 - (b - a * (d / c)) / (c + d * (d / c))) <= 9 * u * ((Rabs b + Rabs a * Rabs (d / c)) / Rabs (c + d * (d / c))) ->
    (s1 - (a * c + b * d) / (c ^ 2 + d ^ 2)) ^ 2 + (s2 - (b * c - a * d) / (c ^ 2 + d ^ 2)) ^ 2
    <= (13 * u) ^ 2 * ((a ^ 2 + b ^ 2) / (c ^ 2 + d ^ 2))).
  { clear a b c d Hy. intros c d a b s1 s2 Hc Hdc R1 R2.
    assert (Hcd : 0 < c ^ 2 + d ^ 2) by (assert (0 < c ^ 2) by (now apply pow2_gt_0); pose proof (pow2_ge_0 d); lra).
    set (r := d / c) in *.
    assert (ED : c + d * r = c * (1 + r ^ 2)) by (unfold r; field; exact Hc).
    assert (Hr : 0 <= r ^ 2) by apply pow2_ge_0.
    rewrite ED in R1, R2.
    assert (E1 : (a + b * r) / (c * (1 + r ^ 2)) = (a * c + b * d) / (c ^ 2 + d ^ 2)).
    { unfold r. field. repeat split; first [exact Hc | lra | idtac]. }
    assert (E2 : (b - a * r) / (c * (1 + r ^ 2)) = (b * c - a * d) / (c ^ 2 + d ^ 2)).
    { unfold r. field. repeat split; first [exact Hc | lra | idtac]. }
    rewrite E1 in R1. rewrite E2 in R2.
    assert (Q : forall x y, 0 <= Rabs x + Rabs y * Rabs r) by (intros; pose proof (Rabs_pos x); assert (0 <= Rabs y * Rabs r) by (apply Rmult_le_pos; apply Rabs_pos); lra).
    assert (HDp : 0 < Rabs (c * (1 + r ^ 2))) by (apply Rabs_pos_lt, Rmult_integral_contrapositive_currified; lra).
    assert (K : forall x y, (9 * u * ((Rabs x + Rabs y * Rabs r) / Rabs (c * (1 + r ^ 2)))) ^ 2 <= 81 * (u ^ 2 * ((x ^ 2 + y ^ 2) / (c ^ 2 + d ^ 2)))).
    { intros x y. replace ((9 * u * ((Rabs x + Rabs y * Rabs r) / Rabs (c * (1 + r ^ 2)))) ^ 2) with
        (81 * (u ^ 2 * ((Rabs x + Rabs y * Rabs r) ^ 2 / Rabs (c * (1 + r ^ 2)) ^ 2))) by (field; lra).
      rewrite Rabs_sq. apply Rmult_le_compat_l; [lra|]. apply Rmult_le_compat_l; [apply pow2_ge_0|].
      pose proof (sum_sq_bound x y r) as SB.
      replace ((x ^ 2 + y ^ 2) / (c ^ 2 + d ^ 2)) with ((x ^ 2 + y ^ 2) * (1 + r ^ 2) / (c * (1 + r ^ 2)) ^ 2).
      - apply Rmult_le_compat_r; [|exact SB]. apply Rlt_le, Rinv_0_lt_compat. apply pow2_gt_0. apply Rmult_integral_contrapositive_currified; lra.
      - unfold r. field. repeat split; first [exact Hc | lra | idtac]. }
    pose proof (abs_sq_le _ _ R1) as S1. pose proof (abs_sq_le _ _ R2) as S2.
    pose proof (K a b) as K1. pose proof (K b a) as K2. rewrite (Rplus_comm (b ^ 2)) in K2.
    assert (0 <= u ^ 2 * ((a ^ 2 + b ^ 2) / (c ^ 2 + d ^ 2))).
    { apply Rmult_le_pos; [apply pow2_ge_0|]. apply Rmult_le_pos; [pose proof (pow2_ge_0 a); pose proof (pow2_ge_0 b); lra|]. now apply Rlt_le, Rinv_0_lt_compat. }
    replace ((13 * u) ^ 2 * ((a ^ 2 + b ^ 2) / (c ^ 2 + d ^ 2))) with (169 * (u ^ 2 * ((a ^ 2 + b ^ 2) / (c ^ 2 + d ^ 2)))) by (simpl; ring).
    lra. }
  assert (N2 : 0 < c ^ 2 + d ^ 2).
  { pose proof (pow2_ge_0 c). pose proof (pow2_ge_0 d). destruct (Req_dec c 0) as [->|Hc].
    - destruct (Req_dec d 0) as [->|Hd]; [exfalso; now apply Hy|]. assert (0 < d ^ 2) by now apply pow2_gt_0. lra.
    - assert (0 < c ^ 2) by now apply pow2_gt_0. lra. }
  unfold cnear. apply Cmod_le_sq; [apply Rmult_le_pos; [lra|apply Cmod_ge_0]|].
  rewrite Rpow_mult_distr, Cmod_div, <- Rmult_1_r, Rmult_1_r by exact Hy.
  replace ((Cmod (a, b) / Cmod (c, d)) ^ 2) with ((a ^ 2 + b ^ 2) / (c ^ 2 + d ^ 2)).
  2:{ unfold Rdiv. rewrite Rpow_mult_distr, pow_inv, !Cmod_sq by (apply Rgt_not_eq, Cmod_gt_0, Hy). reflexivity. }
  unfold kdiv, Re, Im. cbn [fst snd].
  assert (RE : (a * (c / (c ^ 2 + d ^ 2)) - b * (- d / (c ^ 2 + d ^ 2))) = (a * c + b * d) / (c ^ 2 + d ^ 2)) by (field; lra).
  assert (IM : (a * (- d / (c ^ 2 + d ^ 2)) + b * (c / (c ^ 2 + d ^ 2))) = (b * c - a * d) / (c ^ 2 + d ^ 2)) by (field; lra).
  destruct (Rle_dec (Rabs d) (Rabs c)) as [L|L]; cbn [fst snd Cminus Cplus Copp Cdiv Cmult Cinv]; rewrite RE, IM.
  - assert (Hc : c <> 0). { intros ->. rewrite Rabs_R0 in L. assert (d = 0) by (destruct (Req_dec d 0) as [E|E]; [exact E|apply Rabs_pos_lt in E; lra]). subst d. now apply Hy. }
    pose proof (smith_den c d _ Hc L (r_div _ _ HA d c Hc)) as HD.
    assert (ED : c + d * (d / c) <> 0).
    { replace (c + d * (d / c)) with (c * (1 + (d / c) ^ 2)) by (field; exact Hc). pose proof (pow2_ge_0 (d / c)). apply Rmult_integral_contrapositive_currified; lra. }
    apply (CASE c d a b); auto.
    + apply (smith_part Rplus (a_add A) a b (d / c) _ (a_div A d c) _ (r_add _ _ HA) (or_introl eq_refl) (r_div _ _ HA d c Hc) HD ED).
    + apply (smith_part Rminus (a_sub A) b a (d / c) _ (a_div A d c) _ (r_sub _ _ HA) (or_intror eq_refl) (r_div _ _ HA d c Hc) HD ED).
  - assert (L' : Rabs c <= Rabs d) by lra.
    assert (Hd : d <> 0). { intros ->. rewrite Rabs_R0 in L'. assert (c = 0) by (destruct (Req_dec c 0) as [E|E]; [exact E|apply Rabs_pos_lt in E; lra]). subst c. now apply Hy. }
    pose proof (smith_den d c _ Hd L' (r_div _ _ HA c d Hd)) as HD.
    assert (ED : d + c * (c / d) <> 0).
    { replace (d + c * (c / d)) with (d * (1 + (c / d) ^ 2)) by (field; exact Hd). pose proof (pow2_ge_0 (c / d)). apply Rmult_integral_contrapositive_currified; lra. }
    destruct (smith_part Rplus (a_add A) b a (c / d) _ (a_div A c d) _ (r_add _ _ HA) (or_introl eq_refl) (r_div _ _ HA c d Hd) HD ED) as [_ P1].
    destruct (smith_part Rminus (a_sub A) a b (c / d) _ (a_div A c d) _ (r_sub _ _ HA) (or_intror eq_refl) (r_div _ _ HA c d Hd) HD ED) as [_ P2].
    rewrite (Rplus_comm (a * (c / d)) b) in P1.
    set (X := a_mul A (a_add A (a_mul A a (a_div A c d)) b) _) in *.
    set (Y := a_mul A (a_sub A (a_mul A b (a_div A c d)) a) _) in *.
    assert (P2' : Rabs (- Y - (a - b * (c / d)) / (d + c * (c / d))) <= 9 * u * ((Rabs a + Rabs b * Rabs (c / d)) / Rabs (d + c * (c / d)))).
    { rewrite <- Rabs_Ropp. replace (- (- Y - (a - b * (c / d)) / (d + c * (c / d)))) with (Y - (b * (c / d) - a) / (d + c * (c / d))); [exact P2|].
      unfold Rdiv. ring. }
    pose proof (CASE d c b a X (- Y) Hd L' P1 P2') as Q.
    rewrite (Rplus_comm (d ^ 2)), (Rplus_comm (b ^ 2)) in Q.
    replace (X + - ((a * c + b * d) / (c ^ 2 + d ^ 2))) with (X - (b * d + a * c) / (c ^ 2 + d ^ 2)) by (field; lra).
    replace ((Y + - ((b * c - a * d) / (c ^ 2 + d ^ 2))) ^ 2) with ((- Y - (a * d - b * c) / (c ^ 2 + d ^ 2)) ^ 2) by (field; lra).
    exact Q.
Qed.
End Fixed.
