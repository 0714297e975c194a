(** * The fundamental theorem of algebra, for Coquelicot's complex numbers

    Shows that the contract assumed of the polynomial root finder in the
    inversion theorems is met by some function of the coefficients, for all
    coefficients. *)
From Coq Require Import Reals Lra Lia ZArith List Bool Ring.
From Coquelicot Require Import Coquelicot.
From Verif Require Import Num NumLemmas SpecPoly.
Import ListNotations.
Open Scope R_scope.
#[local] Arguments Cmod _%C_scope.
#[local] Arguments Cmod_ge_0 _%C_scope.
#[local] Arguments Cmod_triangle _%C_scope _%C_scope.
#[local] Arguments Cpown _%C_scope _%nat_scope.
#[local] Arguments peval _ _%C_scope.

(** ** Division by [x - a] *)
Lemma synth : forall p a, exists q,
  length q = pred (length p) /\ (2 <= length p -> last q (RtoC 0) = last p (RtoC 0))%nat /\
  forall x, peval p x = (peval p a + (x - a) * peval q x)%C.
Proof.
  induction p as [|c p IH]; intro a.
  - exists []. split; [reflexivity|split; [simpl; lia|]]. intro x. simpl. ring.
  - destruct (IH a) as (q & L & La & H). destruct p as [|c' p'].
    + exists []. split; [reflexivity|split; [simpl; lia|]]. intro x. simpl. ring.
    + exists (peval (c' :: p') a :: q). split; [|split].
      * simpl in *. lia.
      * intros _. destruct p' as [|c'' p''].
        { destruct q; [|simpl in L; discriminate]. simpl. ring. }
        { destruct q; [simpl in L; discriminate|].
          rewrite <- La in * by (simpl; lia). simpl in La |- *. rewrite La by lia. reflexivity. }
      * intro x. change (peval (c :: c' :: p') x) with (c + x * peval (c' :: p') x)%C.
        change (peval (c :: c' :: p') a) with (c + a * peval (c' :: p') a)%C.
        change (peval (peval (c' :: p') a :: q) x) with (peval (c' :: p') a + x * peval q x)%C.
        rewrite (H x). ring.
Qed.

(** a polynomial with a non-zero leading coefficient is [(x-a)^k s(x)], [s(a) <> 0] *)
Lemma take_out : forall n p a, (length p <= n)%nat -> p <> [] -> last p (RtoC 0) <> RtoC 0 ->
  exists k s, peval s a <> RtoC 0 /\ forall x, peval p x = (Cpown (x - a) k * peval s x)%C.
Proof.
  induction n; intros p a Ln Hp Hl.
  - destruct p; [congruence|simpl in Ln; lia].
  - destruct (Ceq_dec (peval p a) 0) as [E|E].
    + destruct p as [|c [|c' p']]; [congruence| |].
      * exfalso. apply Hl. simpl in E |- *. rewrite <- E. ring.
      * destruct (synth (c :: c' :: p') a) as (q & L & La & H).
        destruct (IHn q a) as (k & s & Hs & Hk).
        { simpl in *. lia. }
        { intros ->. discriminate. }
        { rewrite La by (simpl; lia). exact Hl. }
        exists (S k), s. split; [exact Hs|]. intro x. rewrite H, E, Hk. cbn [Cpown]. ring.
    + exists 0%nat, p. split; [exact E|]. intro x. cbn [Cpown]. ring.
Qed.

(** ** Bounds *)
Lemma peval_bound : forall p M, 0 <= M -> exists B, 0 <= B /\ forall x, Cmod x <= M -> Cmod (peval p x) <= B.
Proof.
  induction p as [|c p IH]; intros M HM.
  - exists 0. split; [lra|]. intros x _. simpl. rewrite Cmod_0. lra.
  - destruct (IH M HM) as (B & HB & H). exists (Cmod c + M * B). split.
    { pose proof (Cmod_ge_0 c). nra. }
    intros x Hx. simpl. eapply Rle_trans; [apply Cmod_triangle|]. rewrite Cmod_mult.
    specialize (H x Hx). pose proof (Cmod_ge_0 x). pose proof (Cmod_ge_0 (peval p x)). nra.
Qed.
Lemma peval_lip : forall p M, 0 <= M -> exists K, 0 <= K /\ forall x y, Cmod x <= M -> Cmod y <= M ->
  Cmod (peval p x - peval p y) <= K * Cmod (x - y).
Proof.
  induction p as [|c p IH]; intros M HM.
  - exists 0. split; [lra|]. intros x y _ _. simpl. replace (RtoC 0 - RtoC 0)%C with (RtoC 0) by ring.
    rewrite Cmod_0. lra.
  - destruct (IH M HM) as (K & HK & H). destruct (peval_bound p M HM) as (B & HB & Hb).
    exists (M * K + B). split; [nra|]. intros x y Hx Hy. simpl.
    replace (c + x * peval p x - (c + y * peval p y))%C
      with (x * (peval p x - peval p y) + (x - y) * peval p y)%C by ring.
    eapply Rle_trans; [apply Cmod_triangle|]. rewrite !Cmod_mult.
    specialize (H x y Hx Hy). specialize (Hb y Hy).
    pose proof (Cmod_ge_0 x). pose proof (Cmod_ge_0 (x - y)). pose proof (Cmod_ge_0 (peval p y)).
    pose proof (Cmod_ge_0 (peval p x - peval p y)). nra.
Qed.
Lemma Cmod_minus_ge : forall a b : C, Cmod a - Cmod b <= Cmod (a + b).
Proof.
  intros a b. pose proof (Cmod_triangle (a + b) (- b)) as H. rewrite Cmod_opp in H.
  replace (a + b + - b)%C with a in H by ring. lra.
Qed.
#[local] Arguments Cmod_minus_ge _%C_scope _%C_scope.
Lemma peval_grows : forall p M, (2 <= length p)%nat -> last p (RtoC 0) <> RtoC 0 ->
  exists r, 0 <= r /\ forall x, r <= Cmod x -> M <= Cmod (peval p x).
Proof.
  induction p as [|c p IH]; intros M L Hl; [simpl in L; lia|].
  destruct p as [|c' [|c'' p']]; [simpl in L; lia| |].
  - simpl in Hl. pose proof (proj1 (Cmod_gt_0 c') Hl) as Hc.
    exists ((Rabs M + Cmod c) / Cmod c'). split.
    { apply Rcomplements.Rdiv_le_0_compat; [|lra]. pose proof (Rabs_pos M). pose proof (Cmod_ge_0 c). lra. }
    intros x Hx. simpl.
    replace (c + x * (c' + x * RtoC 0))%C with (x * c' + c)%C by ring.
    eapply Rle_trans; [|apply Cmod_minus_ge]. rewrite Cmod_mult.
    apply (Rmult_le_compat_r (Cmod c')) in Hx; [|lra]. unfold Rdiv in Hx.
    rewrite Rmult_assoc, Rinv_l, Rmult_1_r in Hx by lra. pose proof (Rle_abs M). lra.
  - destruct (IH 1) as (r & Hr & H); [simpl; lia|exact Hl|].
    exists (Rmax r (Rabs M + Cmod c)). split; [eapply Rle_trans; [exact Hr|apply Rmax_l]|].
    intros x Hx. change (peval (c :: c' :: c'' :: p') x) with (c + x * peval (c' :: c'' :: p') x)%C.
    pose proof (H x (Rle_trans _ _ _ (Rmax_l _ _) Hx)) as H1.
    pose proof (Rle_trans _ _ _ (Rmax_r _ _) Hx) as H2.
    rewrite Cplus_comm. eapply Rle_trans; [|apply Cmod_minus_ge]. rewrite Cmod_mult.
    pose proof (Rle_abs M). pose proof (Cmod_ge_0 x). nra.
Qed.

(** ** Roots of complex numbers *)
Lemma unit_angle : forall x y, x * x + y * y = 1 -> exists t, x = cos t /\ y = sin t.
Proof.
  intros x y H.
  assert (Hx : -1 <= x <= 1) by (split; nra).
  assert (E : sin (acos x) = Rabs y).
  { rewrite sin_acos by lra. replace (1 - x²) with (y²) by (unfold Rsqr; lra). apply sqrt_Rsqr_abs. }
  destruct (Rle_dec 0 y) as [Hy|Hy].
  - exists (acos x). rewrite cos_acos, E, Rabs_pos_eq by lra. auto.
  - exists (- acos x). rewrite cos_neg, sin_neg, cos_acos, E, Rabs_left by lra. split; [reflexivity|ring].
Qed.
Lemma Cpown_expi : forall k t, Cpown (cos t, sin t) k = (cos (INR k * t), sin (INR k * t)).
Proof.
  induction k; intro t.
  - simpl. rewrite Rmult_0_l, cos_0, sin_0. reflexivity.
  - cbn [Cpown]. rewrite IHk, S_INR. unfold Cmult. simpl.
    replace ((INR k + 1) * t) with (t + INR k * t) by ring. rewrite cos_plus, sin_plus. f_equal; ring.
Qed.
Lemma Cpown_mult : forall a b k, Cpown (a * b) k = (Cpown a k * Cpown b k)%C.
Proof. induction k; cbn [Cpown]; [ring|]. rewrite IHk. ring. Qed.
Lemma Cpown_R : forall x k, Cpown (RtoC x) k = RtoC (x ^ k).
Proof. induction k; cbn [Cpown pow]; [reflexivity|]. rewrite IHk, RtoC_mult. reflexivity. Qed.
Lemma Cmod_Cpown : forall a k, Cmod (Cpown a k) = Cmod a ^ k.
Proof. induction k; cbn [Cpown pow]; [apply Cmod_1|]. rewrite Cmod_mult, IHk. reflexivity. Qed.
Lemma kth_root : forall (k : nat) (c : C), (1 <= k)%nat -> exists u, Cpown u k = c.
Proof.
  intros k c Hk. destruct (Ceq_dec c 0) as [->|Hc].
  - exists (RtoC 0). destruct k; [lia|]. cbn [Cpown]. ring.
  - pose proof (proj1 (Cmod_gt_0 c) Hc) as Hm.
    destruct c as [a b]. set (m := Cmod (a, b)) in *.
    pose proof (Cmod_sqr (a, b)) as Hs. fold m in Hs. unfold Re, Im in Hs. simpl in Hs.
    destruct (unit_angle (a / m) (b / m)) as (t & Ea & Eb).
    { replace (a / m * (a / m) + b / m * (b / m)) with ((a * a + b * b) / (m * m)) by (field; lra).
      replace (a * a + b * b) with (m * m) by lra. field. lra. }
    assert (HI : 0 < INR k) by (apply lt_0_INR; lia).
    exists (RtoC (exp (ln m / INR k)) * (cos (t / INR k), sin (t / INR k)))%C.
    rewrite Cpown_mult, Cpown_expi, Cpown_R.
    replace (INR k * (t / INR k)) with t by (field; lra).
    rewrite <- Ea, <- Eb.
    replace (exp (ln m / INR k) ^ k) with m.
    + unfold Cmult, RtoC. simpl. f_equal; field; lra.
    + rewrite <- exp_INR_pow || idtac.
      assert (Hexp : forall x n, exp x ^ n = exp (INR n * x)).
      { intros x n. induction n; [simpl; rewrite Rmult_0_l, exp_0; reflexivity|].
        cbn [pow]. rewrite IHn, <- exp_plus, S_INR. f_equal. ring. }
      rewrite Hexp. replace (INR k * (ln m / INR k)) with (ln m) by (field; lra).
      symmetry. apply exp_ln. exact Hm.
Qed.

(** ** The modulus attains its minimum *)
Lemma lip_continuity : forall f K, 0 <= K -> (forall x y, Rabs (f x - f y) <= K * Rabs (x - y)) -> continuity f.
Proof.
  intros f K HK H x e He. exists (e / (K + 1)). split.
  - apply Rlt_gt, Rdiv_lt_0_compat; lra.
  - intros y [_ Hy]. simpl in *. unfold R_dist in *. eapply Rle_lt_trans; [apply H|].
    apply (Rmult_lt_compat_l (K + 1)) in Hy; [|lra].
    replace ((K + 1) * (e / (K + 1))) with e in Hy by (field; lra).
    pose proof (Rabs_pos (y - x)). nra.
Qed.
Definition clamp (m x : R) : R := Rmax (- m) (Rmin m x).
Lemma clamp_bound : forall m x, 0 <= m -> - m <= clamp m x <= m.
Proof. intros. unfold clamp, Rmax, Rmin. repeat destruct Rle_dec; lra. Qed.
Lemma clamp_id : forall m x, - m <= x <= m -> clamp m x = x.
Proof. intros. unfold clamp, Rmax, Rmin. repeat destruct Rle_dec; lra. Qed.
Lemma clamp_lip : forall m x y, Rabs (clamp m x - clamp m y) <= Rabs (x - y).
Proof.
  intros. unfold clamp, Rmax, Rmin. repeat destruct Rle_dec; unfold Rabs; repeat destruct Rcase_abs; lra.
Qed.
Lemma Cmod_le_sum : forall x y, Cmod (x, y) <= Rabs x + Rabs y.
Proof.
  intros. pose proof (Cmod_sqr (x, y)) as H. unfold Re, Im in H. simpl fst in H. simpl snd in H.
  pose proof (Cmod_ge_0 (x, y)). pose proof (Rabs_pos x). pose proof (Rabs_pos y).
  pose proof (pow2_abs x). pose proof (pow2_abs y). nra.
Qed.
Lemma lip_dist : forall (g : R -> R -> R) K m, 0 <= m ->
  (forall x x' y y', Rabs (g x y - g x' y') <= K * (Rabs (x - x') + Rabs (y - y'))) -> 0 <= K ->
  exists x0 y0, forall x y, - m <= x <= m -> - m <= y <= m -> g x0 y0 <= g x y.
Proof.
  intros g K m Hm HL HK.
  set (E x v := exists y, - m <= y <= m /\ v = g x y).
  set (phi x := real (Glb_Rbar (E x))).
  assert (Hmin : forall x, exists y0, - m <= y0 <= m /\ phi x = g x y0 /\ forall y, - m <= y <= m -> g x y0 <= g x y).
  { intro x. destruct (continuity_ab_min (g x) (- m) m) as (y0 & Hy0 & Hb).
    - lra.
    - intros c _. apply (lip_continuity (g x) K HK). intros a b. eapply Rle_trans; [apply HL|].
      rewrite Rminus_eq_0, Rabs_R0. lra.
    - exists y0. repeat split; try apply Hb; [|exact Hy0]. unfold phi.
      rewrite (is_glb_Rbar_unique (E x) (Finite (g x y0))); [reflexivity|]. split.
      + intros v (y & Hy & ->). simpl. apply Hy0, Hy.
      + intros b Hbb. apply Hbb. exists y0. auto. }
  destruct (continuity_ab_min phi (- m) m) as (x0 & Hx0 & _).
  - lra.
  - intros c _. apply (lip_continuity phi K HK). intros a b.
    destruct (Hmin a) as (ya & Hya & Ea & Ma). destruct (Hmin b) as (yb & Hyb & Eb & Mb).
    rewrite Ea, Eb. pose proof (Ma yb Hyb) as H1. pose proof (Mb ya Hya) as H2.
    pose proof (HL a b yb yb) as H3. pose proof (HL a b ya ya) as H4.
    rewrite Rminus_eq_0, Rabs_R0, Rplus_0_r in H3, H4.
    apply Rabs_le_between in H3. apply Rabs_le_between in H4. apply Rabs_le_between. lra.
  - destruct (Hmin x0) as (y0 & _ & E0 & _). exists x0, y0. intros x y Hx Hy.
    rewrite <- E0. eapply Rle_trans; [apply Hx0, Hx|].
    destruct (Hmin x) as (yx & _ & -> & Hxm). apply Hxm, Hy.
Qed.
Lemma min_modulus : forall p, (2 <= length p)%nat -> last p (RtoC 0) <> RtoC 0 ->
  exists z0, forall z, Cmod (peval p z0) <= Cmod (peval p z).
Proof.
  intros p L Hl.
  destruct (peval_grows p (Cmod (peval p 0)) L Hl) as (m & Hm & Hg).
  destruct (peval_lip p (2 * m)) as (K & HK & HL); [lra|].
  set (g x y := Cmod (peval p (clamp m x, clamp m y))).
  assert (Hcl : forall x y, Cmod (clamp m x, clamp m y) <= 2 * m).
  { intros. eapply Rle_trans; [apply Cmod_le_sum|].
    pose proof (clamp_bound m x Hm). pose proof (clamp_bound m y Hm).
    assert (Rabs (clamp m x) <= m) by (apply Rabs_le_between; lra).
    assert (Rabs (clamp m y) <= m) by (apply Rabs_le_between; lra). lra. }
  destruct (lip_dist g K m Hm) as (x0 & y0 & H0).
  - intros x x' y y'. unfold g.
    assert (Ht : forall a b : C, Rabs (Cmod a - Cmod b) <= Cmod (a - b)).
    { intros a b. apply Rabs_le_between. split.
      - pose proof (Cmod_triangle a (- (a - b))%C) as H2.
        rewrite Cmod_opp in H2. replace (a + - (a - b))%C with b in H2 by ring. lra.
      - pose proof (Cmod_triangle b (a - b)) as H2. replace (b + (a - b))%C with a in H2 by ring. lra. }
    eapply Rle_trans; [apply Ht|]. eapply Rle_trans; [apply HL; apply Hcl|].
    apply Rmult_le_compat_l; [exact HK|].
    replace ((clamp m x, clamp m y) - (clamp m x', clamp m y'))%C
      with (clamp m x - clamp m x', clamp m y - clamp m y') by reflexivity.
    eapply Rle_trans; [apply Cmod_le_sum|]. pose proof (clamp_lip m x x'). pose proof (clamp_lip m y y'). lra.
  - exact HK.
  - exists (clamp m x0, clamp m y0). intro z. change (Cmod (peval p (clamp m x0, clamp m y0))) with (g x0 y0).
    assert (H00 : g x0 y0 <= Cmod (peval p 0)).
    { eapply Rle_trans; [apply (H0 0 0); lra|]. unfold g. rewrite clamp_id by lra. apply Rle_refl. }
    destruct (Rle_dec m (Cmod z)) as [Hz|Hz].
    + eapply Rle_trans; [exact H00|]. apply Hg, Hz.
    + destruct z as [x y]. pose proof (Rmax_Cmod (x, y)) as Hx. simpl in Hx.
      assert (Hx1 : Rabs x <= m) by (pose proof (Rmax_l (Rabs x) (Rabs y)); lra).
      assert (Hy1 : Rabs y <= m) by (pose proof (Rmax_r (Rabs x) (Rabs y)); lra).
      apply Rabs_le_between in Hx1. apply Rabs_le_between in Hy1.
      eapply Rle_trans; [apply (H0 x y); lra|]. unfold g. rewrite !clamp_id by lra. apply Rle_refl.
Qed.

(** ** Existence of a root *)
Lemma Cpown_neq_0 : forall a k, a <> RtoC 0 -> Cpown a k <> RtoC 0.
Proof. intros a k H. induction k; cbn [Cpown]; auto. Qed.
Theorem fta : forall p, (2 <= length p)%nat -> last p (RtoC 0) <> RtoC 0 -> exists z, peval p z = RtoC 0.
Proof.
  intros p L Hl. destruct (min_modulus p L Hl) as (z0 & Hmin).
  exists z0. destruct (Ceq_dec (peval p z0) 0) as [E|E]; [exact E|exfalso].
  destruct (synth p z0) as (q & Lq & Laq & Hq).
  destruct (take_out (length q) q z0) as (k & s & Hs & Hk).
  { lia. } { intros ->. simpl in Lq. lia. } { rewrite Laq by exact L. exact Hl. }
  set (c0 := peval p z0) in *.
  destruct (kth_root (S k) (- c0 / peval s z0)%C) as (u & Hu); [lia|].
  assert (Hu0 : u <> RtoC 0).
  { intros ->. cbn [Cpown] in Hu. apply E.
    replace c0 with (- ((- c0 / peval s z0) * peval s z0))%C by (field; exact Hs).
    rewrite <- Hu. ring. }
  pose proof (proj1 (Cmod_gt_0 u) Hu0) as Hum.
  destruct (peval_lip s (Cmod z0 + Cmod u)) as (B & HB & Hlip).
  { pose proof (Cmod_ge_0 z0). lra. }
  pose proof (proj1 (Cmod_gt_0 c0) E) as Hc0.
  set (W := Cmod u ^ S k * (B * Cmod u)).
  assert (HW : 0 <= W) by (unfold W; apply Rmult_le_pos; [apply pow_le; lra|nra]).
  set (t := Rmin 1 (Cmod c0 / (2 * (W + 1)))).
  assert (Ht1 : t <= 1) by apply Rmin_l.
  assert (Ht2 : t <= Cmod c0 / (2 * (W + 1))) by apply Rmin_r.
  assert (Ht0 : 0 < t).
  { unfold t. apply Rmin_pos; [lra|]. apply Rdiv_lt_0_compat; lra. }
  assert (HtW : t * W <= Cmod c0 / 2).
  { apply (Rmult_le_compat_r (W + 1)) in Ht2; [|lra].
    replace (Cmod c0 / (2 * (W + 1)) * (W + 1)) with (Cmod c0 / 2) in Ht2 by (field; lra). nra. }
  set (w := (RtoC t * u)%C).
  assert (HP : peval p (z0 + w) = (c0 * RtoC (1 - t ^ S k) + RtoC (t ^ S k) * (Cpown u (S k) * (peval s (z0 + w) - peval s z0)))%C).
  { rewrite Hq. fold c0. rewrite Hk.
    replace (z0 + w - z0)%C with w by ring.
    replace (w * (Cpown w k * peval s (z0 + w)))%C with (Cpown w (S k) * peval s (z0 + w))%C by (cbn [Cpown]; ring).
    unfold w at 1. rewrite Cpown_mult, Cpown_R, RtoC_minus.
    assert (Hc : (Cpown u (S k) * peval s z0 = - c0)%C) by (rewrite Hu; field; exact Hs).
    transitivity (c0 + RtoC (t ^ S k) * (Cpown u (S k) * (peval s (z0 + w) - peval s z0)
                    + Cpown u (S k) * peval s z0))%C; [ring|]. rewrite Hc. ring. }
  pose proof (Hmin (z0 + w)%C) as H. rewrite HP in H.
  assert (Htk : 0 < t ^ S k <= 1).
  { split; [apply pow_lt, Ht0|]. rewrite <- (pow1 (S k)). apply pow_incr. lra. }
  assert (Hb1 : Cmod (c0 * RtoC (1 - t ^ S k)) = Cmod c0 * (1 - t ^ S k)).
  { rewrite Cmod_mult, Cmod_R, Rabs_pos_eq by lra. reflexivity. }
  assert (Hb2 : Cmod (RtoC (t ^ S k) * (Cpown u (S k) * (peval s (z0 + w) - peval s z0)))%C <= t ^ S k * (Cmod c0 / 2)).
  { rewrite !Cmod_mult, Cmod_R, Rabs_pos_eq, Cmod_Cpown by lra.
    apply Rmult_le_compat_l; [lra|]. eapply Rle_trans; [|exact HtW].
    assert (Hwm : Cmod w = t * Cmod u) by (unfold w; rewrite Cmod_mult, Cmod_R, Rabs_pos_eq by lra; reflexivity).
    assert (Hd : Cmod (peval s (z0 + w) - peval s z0) <= B * (t * Cmod u)).
    { rewrite <- Hwm. replace w with (z0 + w - z0)%C at 2 by ring. apply Hlip.
      - eapply Rle_trans; [apply Cmod_triangle|]. rewrite Hwm. nra.
      - lra. }
    unfold W. pose proof (pow_lt (Cmod u) (S k) Hum).
    apply Rle_trans with (Cmod u ^ S k * (B * (t * Cmod u))); [|right; ring].
    apply Rmult_le_compat_l; lra. }
  pose proof (Cmod_triangle (c0 * RtoC (1 - t ^ S k))%C (RtoC (t ^ S k) * (Cpown u (S k) * (peval s (z0 + w) - peval s z0)))%C) as H3.
  unfold c0 in H at 1. fold c0 in H. change (peval p z0) with c0 in H. nra.
Qed.

(** ** All the roots *)
Theorem roots_exist : forall n p, length p = S n -> last p (RtoC 0) <> RtoC 0 ->
  exists rs, length rs = n /\ forall x, peval p x = (last p (RtoC 0) * prod_minus rs x)%C.
Proof.
  induction n; intros p L Hl.
  - destruct p as [|c [|]]; try discriminate. exists []. split; [reflexivity|]. intro x. simpl. ring.
  - destruct (fta p) as (z & Hz); [lia|exact Hl|].
    destruct (synth p z) as (q & Lq & Laq & Hq).
    assert (Laq' := Laq ltac:(lia)).
    destruct (IHn q) as (rs & Lr & Hr).
    { lia. } { rewrite Laq'. exact Hl. }
    exists (z :: rs). split; [simpl; lia|]. intro x. rewrite Hq, Hz, Hr, Laq'. cbn [prod_minus]. ring.
Qed.

(** ** A root finder

    Of the roots the one with the smallest real part, and of those the one with
    the smallest imaginary part, is determined by the polynomial, so no choice
    principle is needed. *)
Fixpoint quot (p : list C) (a : C) : list C :=
  match p with
  | [] => []
  | _ :: p' => match p' with [] => [] | _ => peval p' a :: quot p' a end
  end.
Lemma quot_spec : forall p a,
  length (quot p a) = pred (length p) /\ (2 <= length p -> last (quot p a) (RtoC 0) = last p (RtoC 0))%nat /\
  forall x, peval p x = (peval p a + (x - a) * peval (quot p a) x)%C.
Proof.
  induction p as [|c p IH]; intro a.
  - split; [reflexivity|split; [simpl; lia|]]. intro x. simpl. ring.
  - destruct (IH a) as (L & La & H). destruct p as [|c' p'].
    + split; [reflexivity|split; [simpl; lia|]]. intro x. simpl. ring.
    + change (quot (c :: c' :: p') a) with (peval (c' :: p') a :: quot (c' :: p') a).
      set (q := quot (c' :: p') a) in *. clearbody q. split; [|split].
      * simpl in *. lia.
      * intros _. destruct p' as [|c'' p''].
        { destruct q; [|simpl in L; discriminate]. simpl. ring. }
        { destruct q; [simpl in L; discriminate|].
          rewrite <- La in * by (simpl; lia). simpl in La |- *. rewrite La by lia. reflexivity. }
      * intro x. change (peval (c :: c' :: p') x) with (c + x * peval (c' :: p') x)%C.
        change (peval (c :: c' :: p') a) with (c + a * peval (c' :: p') a)%C.
        change (peval (peval (c' :: p') a :: q) x) with (peval (c' :: p') a + x * peval q x)%C.
        rewrite (H x). ring.
Qed.
Lemma prod_minus_0 : forall rs x, prod_minus rs x = RtoC 0 <-> In x rs.
Proof.
  induction rs as [|r rs IH]; intro x; cbn [prod_minus].
  - split; [intro H; exfalso; exact (C1_neq_0 H)|intros []].
  - split.
    + intro H. apply Cmult_integral in H. destruct H as [H|H].
      * left. symmetry. apply Csub_eq0, H.
      * right. apply IH, H.
    + intros [<-|H]; [ring|]. apply IH in H. rewrite H. ring.
Qed.
Definition min_root (p : list C) : C :=
  let re := real (Glb_Rbar (fun v => exists z, peval p z = RtoC 0 /\ v = Re z)) in
  (re, real (Glb_Rbar (fun v => exists z, peval p z = RtoC 0 /\ Re z = re /\ v = Im z))).
Lemma lex_min : forall rs : list C, rs <> [] ->
  exists z, In z rs /\ forall y, In y rs -> Re z < Re y \/ (Re z = Re y /\ Im z <= Im y).
Proof.
  induction rs as [|r rs IH]; intro H; [congruence|]. destruct rs as [|r' rs'].
  - exists r. split; [left; reflexivity|]. intros y [<-|[]]. right. split; [reflexivity|lra].
  - destruct IH as (z & Hz & Hm); [discriminate|].
    destruct (Rlt_dec (Re r) (Re z)) as [L|L]; [|destruct (Rlt_dec (Re z) (Re r)) as [L'|L'];
      [|destruct (Rle_dec (Im r) (Im z)) as [L2|L2]]].
    + exists r. split; [left; reflexivity|]. intros y [<-|Hy]; [lra|]. specialize (Hm y Hy). lra.
    + exists z. split; [right; exact Hz|]. intros y [<-|Hy]; [lra|]. exact (Hm y Hy).
    + exists r. split; [left; reflexivity|]. intros y [<-|Hy]; [lra|]. specialize (Hm y Hy). lra.
    + exists z. split; [right; exact Hz|]. intros y [<-|Hy]; [lra|]. exact (Hm y Hy).
Qed.
Lemma min_root_spec : forall p, (2 <= length p)%nat -> last p (RtoC 0) <> RtoC 0 -> peval p (min_root p) = RtoC 0.
Proof.
  intros p L Hl. destruct (roots_exist (pred (length p)) p) as (rs & Lr & Hr); [lia|exact Hl|].
  assert (HR : forall z, peval p z = RtoC 0 <-> In z rs).
  { intro z. rewrite Hr, <- prod_minus_0. split; intro H; [|rewrite H; ring].
    apply Cmult_integral in H. destruct H; [contradiction|assumption]. }
  destruct (lex_min rs) as (z & Hz & Hm). { intros ->. simpl in Lr. lia. }
  assert (E : min_root p = z).
  { unfold min_root. cbn zeta.
    assert (E1 : real (Glb_Rbar (fun v => exists y, peval p y = RtoC 0 /\ v = Re y)) = Re z).
    { rewrite (is_glb_Rbar_unique _ (Finite (Re z))); [reflexivity|]. split.
      - intros v (y & Hy & ->). simpl. apply HR, Hm in Hy. lra.
      - intros b Hb. apply Hb. exists z. split; [apply HR, Hz|reflexivity]. }
    rewrite E1.
    rewrite (is_glb_Rbar_unique _ (Finite (Im z))); [destruct z; reflexivity|]. split.
    - intros v (y & Hy & Hre & ->). simpl. apply HR, Hm in Hy. lra.
    - intros b Hb. apply Hb. exists z. split; [apply HR, Hz|]. split; reflexivity. }
  rewrite E. apply HR, Hz.
Qed.
Fixpoint roots_of (n : nat) (p : list C) : list C :=
  match n with O => [] | S n' => min_root p :: roots_of n' (quot p (min_root p)) end.
Theorem roots_of_spec : forall n p, length p = S n -> last p (RtoC 0) <> RtoC 0 -> all_roots_of p (roots_of n p).
Proof.
  unfold all_roots_of. induction n; intros p L Hl.
  - destruct p as [|c [|]]; try discriminate. split; [reflexivity|]. intro x. simpl. ring.
  - destruct (quot_spec p (min_root p)) as (Lq & La & H).
    rewrite min_root_spec in H by (lia || exact Hl). assert (La' := La ltac:(lia)).
    destruct (IHn (quot p (min_root p))) as [IL IE]. { lia. } { rewrite La'. exact Hl. }
    split; [cbn [roots_of length]; lia|]. intro x. rewrite H, IE, La'. cbn [roots_of prod_minus]. ring.
Qed.
