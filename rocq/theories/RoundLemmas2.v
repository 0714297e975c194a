(** * Lemmas: propagation of rounding errors *)
From Coq Require Import Reals Lra Lia List Permutation ZArith.
From Coquelicot Require Import Rcomplements Complex.
From Verif Require Import Num NumLemmas SpecRound ModelRound RoundLemmas DemodLemmas.
Import ListNotations.
Open Scope R_scope.

(** [x] approximates [x0]; [x0] is bounded by [B] and the error by [M - B].
    Operations act on [B] and [M] as they act on the numbers. *)
Definition ap (x0 x : C) (B M : R) : Prop := Cmod x0 <= B /\ Cmod (x - x0)%C <= M - B.
Definition rap (x0 x : R) (B M : R) : Prop := Rabs x0 <= B /\ Rabs (x - x0) <= M - B.

Lemma ap_mod x0 x B M : ap x0 x B M -> Cmod x <= M.
Proof. intros [H1 H2]. replace x with ((x - x0) + x0)%C by ring. eapply Rle_trans; [apply Cmod_triangle|]. lra. Qed.
Lemma rap_abs x0 x B M : rap x0 x B M -> Rabs x <= M.
Proof. intros [H1 H2]. replace x with ((x - x0) + x0) by ring. eapply Rle_trans; [apply Rabs_triang|]. lra. Qed.
Lemma ap_BM x0 x B M : ap x0 x B M -> 0 <= B <= M.
Proof. intros [H1 H2]. pose proof (Cmod_ge_0 x0). pose proof (Cmod_ge_0 (x - x0)%C). lra. Qed.
Lemma rap_BM x0 x B M : rap x0 x B M -> 0 <= B <= M.
Proof. intros [H1 H2]. pose proof (Rabs_pos x0). pose proof (Rabs_pos (x - x0)). lra. Qed.
Lemma ap_refl x B : Cmod x <= B -> ap x x B B.
Proof. intros H. split; [exact H|]. replace (x - x)%C with (RtoC 0) by ring. rewrite Cmod_0. lra. Qed.
Lemma rap_refl x B : Rabs x <= B -> rap x x B B.
Proof. intros H. split; [exact H|]. replace (x - x) with 0 by ring. rewrite Rabs_R0. lra. Qed.
Lemma ap_round e x0 x y B M : 0 <= e -> ap x0 x B M -> cnear e x y -> ap x0 y B ((1 + e) * M).
Proof.
  intros He H Hy. pose proof (ap_mod _ _ _ _ H) as HM. destruct H as [H1 H2]. split; [exact H1|]. unfold cnear in Hy.
  replace (y - x0)%C with ((y - x) + (x - x0))%C by ring. eapply Rle_trans; [apply Cmod_triangle|].
  assert (e * Cmod x <= e * M) by (apply Rmult_le_compat_l; lra). lra.
Qed.
Lemma rap_round e x0 x y B M : 0 <= e -> rap x0 x B M -> near e x y -> rap x0 y B ((1 + e) * M).
Proof.
  intros He H Hy. pose proof (rap_abs _ _ _ _ H) as HM. destruct H as [H1 H2]. split; [exact H1|]. unfold near in Hy.
  replace (y - x0) with ((y - x) + (x - x0)) by ring. eapply Rle_trans; [apply Rabs_triang|].
  assert (e * Rabs x <= e * M) by (apply Rmult_le_compat_l; lra). lra.
Qed.
Lemma ap_add x0 x B M y0 y B' M' : ap x0 x B M -> ap y0 y B' M' -> ap (x0 + y0)%C (x + y)%C (B + B') (M + M').
Proof.
  intros [H1 H2] [H3 H4]. split; [eapply Rle_trans; [apply Cmod_triangle|]; lra|].
  replace (x + y - (x0 + y0))%C with ((x - x0) + (y - y0))%C by ring. eapply Rle_trans; [apply Cmod_triangle|]. lra.
Qed.
Lemma ap_opp x0 x B M : ap x0 x B M -> ap (- x0)%C (- x)%C B M.
Proof. intros [H1 H2]. split; [now rewrite Cmod_opp|]. replace (- x - - x0)%C with (- (x - x0))%C by ring. now rewrite Cmod_opp. Qed.
Lemma ap_sub x0 x B M y0 y B' M' : ap x0 x B M -> ap y0 y B' M' -> ap (x0 - y0)%C (x - y)%C (B + B') (M + M').
Proof. intros H1 H2. apply ap_opp in H2. exact (ap_add _ _ _ _ _ _ _ _ H1 H2). Qed.
Lemma rap_add x0 x B M y0 y B' M' : rap x0 x B M -> rap y0 y B' M' -> rap (x0 + y0) (x + y) (B + B') (M + M').
Proof.
  intros [H1 H2] [H3 H4]. split; [eapply Rle_trans; [apply Rabs_triang|]; lra|].
  replace (x + y - (x0 + y0)) with ((x - x0) + (y - y0)) by ring. eapply Rle_trans; [apply Rabs_triang|]. lra.
Qed.
Lemma rap_opp x0 x B M : rap x0 x B M -> rap (- x0) (- x) B M.
Proof. intros [H1 H2]. split; [now rewrite Rabs_Ropp|]. replace (- x - - x0) with (- (x - x0)) by ring. now rewrite Rabs_Ropp. Qed.
Lemma ap_mul x0 x B M y0 y B' M' : ap x0 x B M -> ap y0 y B' M' -> ap (x0 * y0)%C (x * y)%C (B * B') (M * M').
Proof.
  intros H1 H2. pose proof (ap_mod _ _ _ _ H2) as Y. pose proof (ap_BM _ _ _ _ H1) as BM. destruct H1 as [H1 H3], H2 as [H2 H4]. split.
  - rewrite Cmod_mult. apply Rmult_le_compat; auto using Cmod_ge_0.
  - replace (x * y - x0 * y0)%C with ((x - x0) * y + x0 * (y - y0))%C by ring. eapply Rle_trans; [apply Cmod_triangle|].
    rewrite !Cmod_mult.
    assert (Cmod (x - x0)%C * Cmod y <= (M - B) * M') by (apply Rmult_le_compat; auto using Cmod_ge_0).
    assert (Cmod x0 * Cmod (y - y0)%C <= B * (M' - B')) by (apply Rmult_le_compat; auto using Cmod_ge_0). lra.
Qed.
Lemma rap_mul x0 x B M y0 y B' M' : rap x0 x B M -> rap y0 y B' M' -> rap (x0 * y0) (x * y) (B * B') (M * M').
Proof.
  intros H1 H2. pose proof (rap_abs _ _ _ _ H2) as Y. pose proof (rap_BM _ _ _ _ H1) as BM. destruct H1 as [H1 H3], H2 as [H2 H4]. split.
  - rewrite Rabs_mult. apply Rmult_le_compat; auto using Rabs_pos.
  - replace (x * y - x0 * y0) with ((x - x0) * y + x0 * (y - y0)) by ring. eapply Rle_trans; [apply Rabs_triang|].
    rewrite !Rabs_mult.
    assert (Rabs (x - x0) * Rabs y <= (M - B) * M') by (apply Rmult_le_compat; auto using Rabs_pos).
    assert (Rabs x0 * Rabs (y - y0) <= B * (M' - B')) by (apply Rmult_le_compat; auto using Rabs_pos). lra.
Qed.
(** a weaker bound: the error bound only grows *)
Lemma ap_weaken x0 x B M B' M' : ap x0 x B M -> B <= B' -> M - B <= M' - B' -> ap x0 x B' M'.
Proof. intros [H1 H2] H3 H4. split; lra. Qed.
Lemma rap_weaken x0 x B M B' M' : rap x0 x B M -> B <= B' -> M - B <= M' - B' -> rap x0 x B' M'.
Proof. intros [H1 H2] H3 H4. split; lra. Qed.

(** ** Sums in any order *)
Definition Sl (v : nat -> C) (l : list nat) : C := Csum (map v l).
Lemma Csum_app l l' : Csum (l ++ l') = (Csum l + Csum l')%C.
Proof. unfold Csum. induction l as [|a l IH]; cbn [app fold_right]; [ring|]. rewrite IH. ring. Qed.
Lemma Csum_perm l l' : Permutation l l' -> Csum l = Csum l'.
Proof. unfold Csum. induction 1; cbn [fold_right]; try congruence. ring. Qed.
Lemma leaves_nonempty t : exists k, In k (leaves t).
Proof. induction t as [k|l [k Hk] r _]; exists k; cbn [leaves]; [now left|]. apply in_or_app. now left. Qed.
Lemma ksum_ap u A t v0 v B M : 0 <= u -> rounds u A ->
  (forall k, In k (leaves t) -> ap (v0 k) (v k) B M) ->
  ap (Sl v0 (leaves t)) (ksum A t v) (INR (length (leaves t)) * B) (INR (length (leaves t)) * ((1 + u) ^ order_height t * M)).
Proof.
  intros Hu HA. induction t as [k|l IHl r IHr]; intros H; cbn [leaves ksum order_height] in *.
  - specialize (H k (or_introl eq_refl)). unfold Sl, Csum. cbn [map fold_right length INR]. simpl pow. rewrite Cplus_0_r, ?Rmult_1_l. exact H.
  - assert (Hl := IHl (fun k Hk => H k (in_or_app _ _ _ (or_introl Hk)))).
    assert (Hr := IHr (fun k Hk => H k (in_or_app _ _ _ (or_intror Hk)))).
    pose proof (ap_add _ _ _ _ _ _ _ _ Hl Hr) as Ha.
    unfold Sl in *. rewrite map_app, Csum_app, app_length, plus_INR.
    pose proof (ap_round u _ _ _ _ _ Hu Ha (kadd_near u A Hu HA _ _)) as Hb.
    apply (ap_weaken _ _ _ _ _ _ Hb); [lra|].
    set (nl := INR (length (leaves l))) in *. set (nr := INR (length (leaves r))) in *.
    assert (Pl : 0 <= nl) by apply pos_INR. assert (Pr : 0 <= nr) by apply pos_INR.
    assert (HM : 0 <= M).
    { destruct (leaves_nonempty l) as [k Hk]. specialize (H k (in_or_app _ _ _ (or_introl Hk))). apply ap_BM in H. lra. }
    assert (P1 : 1 <= 1 + u) by lra.
    assert (X : (1 + u) ^ order_height l <= (1 + u) ^ Nat.max (order_height l) (order_height r)) by (apply Rle_pow; [exact P1|lia]).
    assert (Y : (1 + u) ^ order_height r <= (1 + u) ^ Nat.max (order_height l) (order_height r)) by (apply Rle_pow; [exact P1|lia]).
    cbn [pow]. set (m := (1 + u) ^ Nat.max _ _) in *.
    assert (X' : nl * ((1 + u) ^ order_height l * M) <= nl * (m * M)) by (apply Rmult_le_compat_l; [exact Pl|]; apply Rmult_le_compat_r; lra).
    assert (Y' : nr * ((1 + u) ^ order_height r * M) <= nr * (m * M)) by (apply Rmult_le_compat_l; [exact Pr|]; apply Rmult_le_compat_r; lra).
    assert (Z : (1 + u) * (nl * ((1 + u) ^ order_height l * M) + nr * ((1 + u) ^ order_height r * M)) <= (1 + u) * (nl * (m * M) + nr * (m * M))) by (apply Rmult_le_compat_l; lra).
    lra.
Qed.

(** ** The circle *)
Lemma abs_sin_le x : Rabs (sin x) <= Rabs x.
Proof.
  destruct (Rtotal_order x 0) as [H|[->|H]].
  - destruct (Rle_lt_dec (-1) x) as [L|L].
    + assert (S := sin_lt_x (- x)). rewrite sin_neg in S. specialize (S ltac:(lra)).
      assert (P := sin_ge_0 (- x)). rewrite sin_neg in P. pose proof PI2_1. specialize (P ltac:(lra) ltac:(lra)).
      rewrite (Rabs_left1 x), (Rabs_left1 (sin x)); lra.
    + pose proof (SIN_bound x). rewrite (Rabs_left1 x) by lra. apply Rabs_le. lra.
  - rewrite sin_0. lra.
  - destruct (Rle_lt_dec x 1) as [L|L].
    + assert (S := sin_lt_x x H). assert (P := sin_ge_0 x). pose proof PI2_1. specialize (P ltac:(lra) ltac:(lra)).
      rewrite !Rabs_pos_eq; lra.
    + pose proof (SIN_bound x). rewrite (Rabs_pos_eq x) by lra. apply Rabs_le. lra.
Qed.
Lemma circle_lip a b : Cmod ((cos a, sin a) - (cos b, sin b))%C <= Rabs (a - b).
Proof.
  apply Cmod_le_sq; [apply Rabs_pos|]. rewrite Rabs_sq. unfold Re, Im. cbn [fst snd Cminus Cplus Copp].
  assert (E : (cos a + - cos b) ^ 2 + (sin a + - sin b) ^ 2 = 4 * sin ((a - b) / 2) ^ 2).
  { pose proof (sin2_cos2 a) as A1. pose proof (sin2_cos2 b) as B1. unfold Rsqr in *.
    assert (C1 : cos (a - b) = 1 - 2 * sin ((a - b) / 2) * sin ((a - b) / 2)).
    { rewrite <- cos_2a_sin. f_equal. field. }
    rewrite cos_minus in C1. simpl. nra. }
  rewrite E. pose proof (abs_sin_le ((a - b) / 2)) as L. apply abs_sq_le in L.
  rewrite Rabs_sq in L. replace (((a - b) / 2) ^ 2) with ((a - b) ^ 2 / 4) in L by field. lra.
Qed.
Lemma cos_lip a b : Rabs (cos a - cos b) <= Rabs (a - b).
Proof.
  eapply Rle_trans; [|apply circle_lip]. eapply Rle_trans; [|apply Rmax_Cmod]. simpl. apply Rmax_l.
Qed.

Section Fixed.
Context (u : R) (A : arith) (Hu : 0 <= u) (Hu1 : u <= 1 / 100) (HA : rounds u A).

Lemma pow_bound k : (k <= 5)%nat -> (1 + u) ^ k - 1 <= 5.11 * u.
Proof.
  intros Hk. assert (H : (1 + u) ^ k <= (1 + u) ^ 5) by (apply Rle_pow; [lra|exact Hk]).
  assert ((1 + u) ^ 5 - 1 <= 5.11 * u).
  { replace ((1 + u) ^ 5 - 1) with (u * (5 + u * (10 + u * (10 + u * (5 + u))))) by (simpl; ring). 
    rewrite (Rmult_comm 5.11). apply Rmult_le_compat_l; [exact Hu|].
    assert (u * (10 + u * (10 + u * (5 + u))) <= 0.01 * 11).
    { apply Rmult_le_compat; [exact Hu| |lra|].
      - assert (0 <= u * (10 + u * (5 + u))) by (apply Rmult_le_pos; [exact Hu|]; assert (0 <= u * (5 + u)) by (apply Rmult_le_pos; lra); lra). lra.
      - assert (u * (10 + u * (5 + u)) <= 0.01 * 11); [|lra].
        apply Rmult_le_compat; [exact Hu| |lra|]; assert (0 <= u * (5 + u)) by (apply Rmult_le_pos; lra); nra. }
    lra. }
  lra.
Qed.

(** demodulate.py:106: the angles *)
Lemma theta_near N k : N <> O -> (k <= N)%nat -> Rabs (k_theta A N k - node N k) <= 62 * u.
Proof.
  intros HN Hk. assert (PN : 0 < INR N) by (apply lt_0_INR; lia).
  pose proof PI_4 as P4. pose proof PI_RGT_0 as P0. unfold k_theta.
  assert (L : rap PI (a_lit A PI) PI ((1 + u) * PI)).
  { apply (rap_round u _ PI); [exact Hu|apply rap_refl; rewrite Rabs_pos_eq; lra|apply (r_lit _ _ HA)]. }
  destruct (Nat.eqb_spec N 0) as [Z|_]; [contradiction|]. destruct (Nat.eqb_spec k N) as [->|Hne].
  - rewrite node_N by exact HN. destruct L as [_ L]. eapply Rle_trans; [exact L|]. 
    replace ((1 + u) * PI - PI) with (u * PI) by ring. rewrite (Rmult_comm 62). apply Rmult_le_compat_l; lra.
  - set (p := a_lit A PI) in *.
    assert (S1 : rap (PI - - PI) (p - - p) (PI + PI) ((1 + u) * PI + (1 + u) * PI)) by (apply (rap_add _ _ _ _ _ _ _ _ L), rap_opp, rap_opp, L).
    pose proof (rap_round u _ _ _ _ _ Hu S1 (r_sub _ _ HA p (- p))) as S2.
    assert (IN : rap (/ INR N) (/ INR N) (/ INR N) (/ INR N)) by (apply rap_refl; rewrite Rabs_pos_eq; [lra|apply Rlt_le, Rinv_0_lt_compat, PN]).
    pose proof (rap_mul _ _ _ _ _ _ _ _ S2 IN) as S3.
    pose proof (rap_round u _ _ _ _ _ Hu S3 (r_div _ _ HA _ _ (Rgt_not_eq _ _ PN))) as S4.
    assert (IK : rap (INR k) (INR k) (INR k) (INR k)) by (apply rap_refl; rewrite Rabs_pos_eq; [lra|apply pos_INR]).
    pose proof (rap_mul _ _ _ _ _ _ _ _ IK S4) as S5.
    pose proof (rap_round u _ _ _ _ _ Hu S5 (r_mul _ _ HA _ _)) as S6.
    pose proof (rap_add _ _ _ _ _ _ _ _ S6 (rap_opp _ _ _ _ L)) as S7.
    pose proof (rap_round u _ _ _ _ _ Hu S7 (r_add _ _ HA _ _)) as [_ S8].
    replace (node N k) with (INR k * ((PI - - PI) * / INR N) + - PI) by (unfold node, Rdiv; ring).
    eapply Rle_trans; [exact S8|].
    set (x := INR k * (2 * PI * / INR N)).
    assert (Hx : 0 <= x <= 2 * PI).
    { assert (Q : 0 <= INR k <= INR N) by (split; [apply pos_INR|apply le_INR; exact Hk]).
      unfold x. replace (INR k * (2 * PI * / INR N)) with (2 * PI * (INR k * / INR N)) by ring.
      assert (0 <= INR k * / INR N <= 1).
      { split; [apply Rmult_le_pos; [lra|apply Rlt_le, Rinv_0_lt_compat, PN]|].
        apply (Rmult_le_reg_r (INR N)); [exact PN|]. rewrite Rmult_assoc, Rinv_l by lra. lra. }
      split; [apply Rmult_le_pos; lra|]. rewrite <- (Rmult_1_r (2 * PI)) at 2. apply Rmult_le_compat_l; lra. }
    match goal with |- ?a <= _ => replace a with (((1 + u) ^ 5 - 1) * x + ((1 + u) ^ 2 - 1) * PI) by (unfold x; simpl; ring) end.
    pose proof (pow_bound 5 ltac:(lia)) as B5. pose proof (pow_bound 2 ltac:(lia)) as B2.
    assert (Z5 : ((1 + u) ^ 5 - 1) * x <= 5.11 * u * 8).
    { apply Rmult_le_compat; try lra. assert (1 <= (1 + u) ^ 5) by (apply pow_R1_Rle; lra). lra. }
    assert (Z2 : ((1 + u) ^ 2 - 1) * PI <= 5.11 * u * 4).
    { apply Rmult_le_compat; try lra. assert (1 <= (1 + u) ^ 2) by (apply pow_R1_Rle; lra). lra. }
    lra.
Qed.

(** demodulate.py:109: the positions *)
Lemma position_near x_0 a N k : N <> O -> (k <= N)%nat ->
  Rabs (k_position A x_0 a (k_theta A N k) - height x_0 a N k) <= u * (Rabs x_0 + 67 * Rabs a).
Proof.
  intros HN Hk. unfold k_position, height. pose proof (theta_near N k HN Hk) as HT. set (th := k_theta A N k) in *. set (t0 := node N k) in *.
  assert (C1 : rap (cos t0) (cos th) 1 (1 + 62 * u)).
  { split; [apply Rabs_le; apply COS_bound|]. eapply Rle_trans; [apply cos_lip|]. lra. }
  pose proof (near_abs _ _ _ (r_cos _ _ HA th)) as _.
  assert (C2 : rap (cos t0) (a_cos A th) 1 (1 + 63 * u)).
  { destruct C1 as [B1 B2]. split; [exact B1|]. pose proof (r_cos _ _ HA th) as Q. unfold near in Q.
    assert (Rabs (cos th) <= 1) by (apply Rabs_le; apply COS_bound).
    assert (u * Rabs (cos th) <= u * 1) by (apply Rmult_le_compat_l; lra).
    replace (a_cos A th - cos t0) with ((a_cos A th - cos th) + (cos th - cos t0)) by ring. eapply Rle_trans; [apply Rabs_triang|]. lra. }
  assert (IA : rap a a (Rabs a) (Rabs a)) by (apply rap_refl; lra).
  assert (IX : rap x_0 x_0 (Rabs x_0) (Rabs x_0)) by (apply rap_refl; lra).
  pose proof (rap_round u _ _ _ _ _ Hu (rap_mul _ _ _ _ _ _ _ _ C2 IA) (r_mul _ _ HA _ _)) as C3.
  pose proof (rap_round u _ _ _ _ _ Hu (rap_add _ _ _ _ _ _ _ _ IX C3) (r_add _ _ HA _ _)) as [_ C4].
  eapply Rle_trans; [exact C4|]. pose proof (Rabs_pos a) as Pa. pose proof (Rabs_pos x_0) as Px.
  replace ((1 + u) * (Rabs x_0 + (1 + u) * ((1 + 63 * u) * Rabs a)) - (Rabs x_0 + 1 * Rabs a)) with
    (u * Rabs x_0 + u * Rabs a * (65 + u * (127 + 63 * u))) by ring.
  assert (u * (127 + 63 * u) <= 0.01 * 128) by (apply Rmult_le_compat; nra).
  assert (u * Rabs a * (65 + u * (127 + 63 * u)) <= u * Rabs a * 67) by (apply Rmult_le_compat_l; [apply Rmult_le_pos; lra|lra]).
  lra.
Qed.

(** demodulate.py:109-111: the phase factor *)
Lemma phase_near n N k : N <> O -> (k <= N)%nat ->
  let y := a_mul A (- IZR n) (k_theta A N k) in
  Cmod ((a_cos A y, a_sin A y) - ph n (node N k))%C <= u * (1 + 67 * Rabs (IZR n)).
Proof.
  intros HN Hk y. pose proof (theta_near N k HN Hk) as HT. set (th := k_theta A N k) in *. set (t0 := node N k) in *.
  assert (P0 : Rabs t0 <= 4).
  { unfold t0, node. pose proof PI_4. pose proof PI_RGT_0. apply Rabs_le. assert (PN : 0 < INR N) by (apply lt_0_INR; lia).
    assert (Q : 0 <= INR k <= INR N) by (split; [apply pos_INR|apply le_INR; exact Hk]).
    assert (0 <= INR k * / INR N <= 1).
    { split; [apply Rmult_le_pos; [lra|apply Rlt_le, Rinv_0_lt_compat, PN]|].
      apply (Rmult_le_reg_r (INR N)); [exact PN|]. rewrite Rmult_assoc, Rinv_l by lra. lra. }
    replace (INR k * (2 * PI / INR N)) with (2 * PI * (INR k * / INR N)) by (unfold Rdiv; ring). nra. }
  assert (Hth : Rabs th <= 5).
  { replace th with ((th - t0) + t0) by ring. eapply Rle_trans; [apply Rabs_triang|]. lra. }
  assert (E : ph n t0 = (cos (- IZR n * t0), sin (- IZR n * t0))).
  { rewrite ph_cos. replace (- IZR n * t0) with (- (IZR n * t0)) by ring. rewrite cos_neg, sin_neg. reflexivity. }
  rewrite E. pose proof (Rabs_pos (IZR n)) as Pn.
  assert (Hy : Rabs (y - - IZR n * t0) <= 67 * u * Rabs (IZR n)).
  { pose proof (r_mul _ _ HA (- IZR n) th) as Q. fold y in Q. unfold near in Q. rewrite Rabs_mult, Rabs_Ropp in Q.
    replace (y - - IZR n * t0) with ((y - - IZR n * th) + - IZR n * (th - t0)) by ring. eapply Rle_trans; [apply Rabs_triang|].
    rewrite (Rabs_mult (- IZR n)), Rabs_Ropp.
    assert (Rabs (IZR n) * Rabs (th - t0) <= Rabs (IZR n) * (62 * u)) by (apply Rmult_le_compat_l; lra).
    assert (u * (Rabs (IZR n) * Rabs th) <= u * (Rabs (IZR n) * 5)) by (apply Rmult_le_compat_l; [lra|apply Rmult_le_compat_l; lra]).
    lra. }
  replace ((a_cos A y, a_sin A y) - (cos (- IZR n * t0), sin (- IZR n * t0)))%C with
    (((a_cos A y, a_sin A y) - (cos y, sin y)) + ((cos y, sin y) - (cos (- IZR n * t0), sin (- IZR n * t0))))%C by ring.
  eapply Rle_trans; [apply Cmod_triangle|]. pose proof (circle_lip y (- IZR n * t0)) as L.
  assert (Q : cnear u (cos y, sin y) (a_cos A y, a_sin A y)) by (apply cnear_parts; [exact Hu|apply (r_cos _ _ HA)|apply (r_sin _ _ HA)]).
  unfold cnear in Q. assert (M1 : Cmod (cos y, sin y) = 1).
  { unfold Cmod. cbn [fst snd]. replace (cos y ^ 2 + sin y ^ 2) with (Rsqr (sin y) + Rsqr (cos y)) by (unfold Rsqr; ring). rewrite sin2_cos2. apply sqrt_1. }
  rewrite M1 in Q. lra.
Qed.
End Fixed.
