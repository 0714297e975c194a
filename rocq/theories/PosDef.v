(** * Positive-definite functions on the N-th roots of unity

    A real sequence h on 0..N-1 is read as a function of the angle
    phi_k = 2 pi k / N.  [pd] says that all its discrete cosine coefficients are
    non-negative, [mult] that multiplication by h preserves this.  [mult] is
    closed under sums, products and pointwise limits and contains the cosine. *)
From Coq Require Import Reals Lra Lia ZArith.
From Coquelicot Require Import Rcomplements.
Open Scope R_scope.

Fixpoint Sm (f : nat -> R) (N : nat) : R := match N with O => 0 | S m => Sm f m + f m end.
Definition phi (N k : nat) : R := 2 * PI * INR k / INR N.
Definition harm (N : nat) (n : Z) (h : nat -> R) : R := Sm (fun k => h k * cos (IZR n * phi N k)) N / INR N.
Definition pd (N : nat) (h : nat -> R) : Prop := forall n, 0 <= harm N n h.
Definition mult (N : nat) (h : nat -> R) : Prop := forall p, pd N p -> pd N (fun k => h k * p k).
Definition cs (N k : nat) : R := cos (phi N k).

Lemma Sm_ext f g N : (forall k, (k < N)%nat -> f k = g k) -> Sm f N = Sm g N.
Proof. induction N as [|N IH]; intros H; cbn [Sm]; [reflexivity|]. rewrite IH by (intros; apply H; lia). now rewrite H by lia. Qed.
Lemma Sm_plus f g N : Sm (fun k => f k + g k) N = Sm f N + Sm g N.
Proof. induction N as [|N IH]; cbn [Sm]; [ring|]. rewrite IH. ring. Qed.
Lemma Sm_scal c f N : Sm (fun k => c * f k) N = c * Sm f N.
Proof. induction N as [|N IH]; cbn [Sm]; [ring|]. rewrite IH. ring. Qed.
Lemma Sm_const c N : Sm (fun _ => c) N = INR N * c.
Proof. induction N as [|N IH]; cbn [Sm]; [simpl; ring|]. rewrite IH, S_INR. ring. Qed.

Section PD.
Context (N : nat) (HN : N <> O).

Lemma INR_N : 0 < INR N.
Proof using HN. apply lt_0_INR. lia. Qed.
Lemma harm_ext n g h : (forall k, (k < N)%nat -> g k = h k) -> harm N n g = harm N n h.
Proof. intros H. unfold harm. f_equal. apply Sm_ext. intros k Hk. now rewrite H. Qed.
Lemma harm_plus n g h : harm N n (fun k => g k + h k) = harm N n g + harm N n h.
Proof. unfold harm. rewrite <- Rdiv_plus_distr, <- Sm_plus. f_equal. apply Sm_ext. intros; ring. Qed.
Lemma harm_scal n c h : harm N n (fun k => c * h k) = c * harm N n h.
Proof. unfold harm, Rdiv. rewrite <- Rmult_assoc, <- Sm_scal. f_equal. apply Sm_ext. intros; ring. Qed.
Lemma harm_cs n h : harm N n (fun k => cs N k * h k) = (harm N (n + 1) h + harm N (n - 1) h) / 2.
Proof.
  unfold harm. replace ((Sm (fun k => h k * cos (IZR (n + 1) * phi N k)) N / INR N + Sm (fun k => h k * cos (IZR (n - 1) * phi N k)) N / INR N) / 2)
    with (/ 2 * (Sm (fun k => h k * cos (IZR (n + 1) * phi N k)) N + Sm (fun k => h k * cos (IZR (n - 1) * phi N k)) N) / INR N) by (unfold Rdiv; ring).
  rewrite <- Sm_plus, <- Sm_scal. f_equal. apply Sm_ext. intros k _. unfold cs.
  rewrite plus_IZR, minus_IZR. rewrite Rmult_plus_distr_r, Rmult_minus_distr_r, Rmult_1_l, cos_plus, cos_minus. field.
Qed.
Lemma harm_opp n h : harm N (- n) h = harm N n h.
Proof. unfold harm. f_equal. apply Sm_ext. intros k _. rewrite opp_IZR, Ropp_mult_distr_l_reverse, cos_neg. reflexivity. Qed.
Lemma harm_0_1 : harm N 0 (fun _ => 1) = 1.
Proof using HN.
  unfold harm. rewrite (Sm_ext _ (fun _ => 1)) by (intros; rewrite Rmult_0_l, cos_0; ring). rewrite Sm_const.
  pose proof INR_N. field. lra.
Qed.

Lemma pd_ext g h : (forall k, (k < N)%nat -> g k = h k) -> pd N g -> pd N h.
Proof. intros H P n. rewrite <- (harm_ext n g h H). apply P. Qed.
Lemma pd_plus g h : pd N g -> pd N h -> pd N (fun k => g k + h k).
Proof. intros P Q n. rewrite harm_plus. specialize (P n). specialize (Q n). lra. Qed.
Lemma pd_scal c h : 0 <= c -> pd N h -> pd N (fun k => c * h k).
Proof. intros Hc P n. rewrite harm_scal. apply Rmult_le_pos; [exact Hc|apply P]. Qed.

(** the constant function: an alias count, 0 or 1; shown through the geometric sum *)
Lemma dirichlet x m : 2 * sin (x / 2) * Sm (fun k => cos (INR k * x)) m = sin ((INR m - / 2) * x) + sin (x / 2).
Proof.
  induction m as [|m IH].
  - cbn [Sm INR]. replace ((0 - / 2) * x) with (- (x / 2)) by field. rewrite sin_neg. ring.
  - cbn [Sm]. rewrite Rmult_plus_distr_l, IH, S_INR.
    replace ((INR m + 1 - / 2) * x) with (INR m * x + x / 2) by field.
    replace ((INR m - / 2) * x) with (INR m * x - x / 2) by field. rewrite sin_plus, sin_minus. ring.
Qed.
Lemma pd_1 : pd N (fun _ => 1).
Proof using HN.
  intros n. unfold harm. pose proof INR_N as P. pose proof PI_RGT_0 as HP.
  set (x := 2 * PI * IZR n / INR N).
  rewrite (Sm_ext _ (fun k => cos (INR k * x))).
  2:{ intros k _. rewrite Rmult_1_l. f_equal. unfold phi, x. field. lra. }
  destruct (Req_dec (sin (x / 2)) 0) as [E|E].
  - apply Rmult_le_pos; [|apply Rlt_le, Rinv_0_lt_compat; exact P].
    assert (C1 : forall k, cos (INR k * x) = 1).
    { intros k. apply sin_eq_0_0 in E. destruct E as [m E].
      replace (INR k * x) with (0 + 2 * IZR (Z.of_nat k * m) * PI) by (rewrite mult_IZR, <- INR_IZR_INZ; replace x with (2 * (x / 2)) by field; rewrite E; ring).
      destruct (Z.le_gt_cases 0 (Z.of_nat k * m)) as [Hm|Hm].
      - rewrite <- (Z2Nat.id (Z.of_nat k * m)) by exact Hm. rewrite <- INR_IZR_INZ, cos_period. apply cos_0.
      - replace (0 + 2 * IZR (Z.of_nat k * m) * PI) with (- (0 + 2 * INR (Z.to_nat (- (Z.of_nat k * m))) * PI)).
        + rewrite cos_neg, cos_period. apply cos_0.
        + rewrite INR_IZR_INZ, Z2Nat.id by lia. rewrite opp_IZR. ring. }
    rewrite (Sm_ext _ (fun _ => 1)) by (intros; apply C1). rewrite Sm_const. lra.
  - assert (D := dirichlet x N). replace ((INR N - / 2) * x) with (2 * PI * IZR n - x / 2) in D by (unfold x; field; lra).
    assert (S0 : sin (2 * PI * IZR n - x / 2) = - sin (x / 2)).
    { rewrite sin_minus. assert (Z : forall m : nat, sin (0 + 2 * INR m * PI) = 0 /\ cos (0 + 2 * INR m * PI) = 1) by (intros; rewrite sin_period, cos_period, sin_0, cos_0; auto).
      assert (K : sin (2 * PI * IZR n) = 0 /\ cos (2 * PI * IZR n) = 1).
      { destruct (Z.le_gt_cases 0 n) as [Hm|Hm].
        - specialize (Z (Z.to_nat n)). rewrite INR_IZR_INZ, Z2Nat.id in Z by lia. replace (2 * PI * IZR n) with (0 + 2 * IZR n * PI) by ring. exact Z.
        - specialize (Z (Z.to_nat (- n))). rewrite INR_IZR_INZ, Z2Nat.id in Z by lia. rewrite opp_IZR in Z.
          replace (2 * PI * IZR n) with (- (0 + 2 * - IZR n * PI)) by ring. rewrite sin_neg, cos_neg. destruct Z as [-> ->]. split; ring. }
      destruct K as [-> ->]. ring. }
    rewrite S0 in D. assert (E0 : Sm (fun k => cos (INR k * x)) N = 0).
    { apply (Rmult_eq_reg_l (2 * sin (x / 2))); [lra|]. apply Rmult_integral_contrapositive_currified; lra. }
    rewrite E0. unfold Rdiv. rewrite Rmult_0_l. lra.
Qed.

(** pointwise limits *)
Definition conv (u : nat -> nat -> R) (h : nat -> R) : Prop :=
  forall k, (k < N)%nat -> forall eps, 0 < eps -> exists J0, forall J, (J0 <= J)%nat -> Rabs (u J k - h k) <= eps.
Lemma Sm_close f g M eps : (forall k, (k < M)%nat -> Rabs (f k - g k) <= eps) -> Rabs (Sm f M - Sm g M) <= INR M * eps.
Proof.
  induction M as [|M IH]; intros H.
  - cbn [Sm]. rewrite Rminus_0_r, Rabs_R0. simpl. lra.
  - cbn [Sm]. rewrite S_INR. replace (Sm f M + f M - (Sm g M + g M)) with ((Sm f M - Sm g M) + (f M - g M)) by ring.
    eapply Rle_trans; [apply Rabs_triang|]. assert (A := IH (fun k Hk => H k (Nat.lt_lt_succ_r _ _ Hk))). assert (B := H M (Nat.lt_succ_diag_r M)). lra.
Qed.
Lemma conv_unif u h : conv u h -> forall eps, 0 < eps -> exists J0, forall J, (J0 <= J)%nat -> forall k, (k < N)%nat -> Rabs (u J k - h k) <= eps.
Proof.
  intros H eps He. unfold conv in H. assert (G : forall M, (M <= N)%nat -> exists J0, forall J, (J0 <= J)%nat -> forall k, (k < M)%nat -> Rabs (u J k - h k) <= eps).
  { induction M as [|M IH]; intros HM; [exists O; intros; lia|].
    destruct IH as [J1 H1]; [lia|]. destruct (H M ltac:(lia) eps He) as [J2 H2]. exists (max J1 J2). intros J HJ k Hk.
    destruct (Nat.eq_dec k M) as [->|]; [apply H2; lia|apply H1; lia]. }
  apply (G N). lia.
Qed.
Lemma pd_lim u h : conv u h -> (forall J, pd N (u J)) -> pd N h.
Proof using HN.
  intros Hc Hp n. apply Rnot_lt_le. intros Hlt. pose proof INR_N as P.
  destruct (conv_unif u h Hc (- harm N n h / 2) ltac:(lra)) as [J0 H0]. specialize (H0 J0 (le_n _)).
  assert (E : Rabs (harm N n (u J0) - harm N n h) <= - harm N n h / 2).
  { unfold harm at 1 2. unfold Rdiv at 1 2. rewrite <- Rmult_minus_distr_r. rewrite Rabs_mult, (Rabs_pos_eq (/ INR N)) by (apply Rlt_le, Rinv_0_lt_compat; exact P).
    apply (Rmult_le_reg_r (INR N)); [exact P|]. rewrite Rmult_assoc, Rinv_l, Rmult_1_r, (Rmult_comm (_ / 2)) by lra.
    apply Sm_close. intros k Hk. rewrite <- Rmult_minus_distr_r, Rabs_mult.
    eapply Rle_trans; [apply Rmult_le_compat; [apply Rabs_pos|apply Rabs_pos|apply (H0 k Hk)|apply Rabs_le, COS_bound]|]. rewrite Rmult_1_r. apply Rle_refl. }
  specialize (Hp J0 n). apply Rabs_le_between in E. lra.
Qed.

(** multipliers *)
Lemma mult_ext g h : (forall k, (k < N)%nat -> g k = h k) -> mult N g -> mult N h.
Proof. intros H P p Hp. apply (pd_ext (fun k => g k * p k)); [intros k Hk; now rewrite H|apply P; exact Hp]. Qed.
Lemma mult_pd h : mult N h -> pd N h.
Proof using HN. intros H. apply (pd_ext (fun k => h k * 1)); [intros; ring|]. apply (H (fun _ => 1)). exact pd_1. Qed.
Lemma mult_const c : 0 <= c -> mult N (fun _ => c).
Proof. intros Hc p Hp. apply pd_scal; assumption. Qed.
Lemma mult_cs : mult N (cs N).
Proof. intros p Hp n. rewrite harm_cs. pose proof (Hp (n + 1)%Z). pose proof (Hp (n - 1)%Z). lra. Qed.
Lemma mult_plus g h : mult N g -> mult N h -> mult N (fun k => g k + h k).
Proof. intros P Q p Hp. apply (pd_ext (fun k => g k * p k + h k * p k)); [intros; ring|]. apply pd_plus; auto. Qed.
Lemma mult_mult g h : mult N g -> mult N h -> mult N (fun k => g k * h k).
Proof. intros P Q p Hp. apply (pd_ext (fun k => g k * (h k * p k))); [intros; ring|]. apply P, Q, Hp. Qed.
Lemma mult_scal c h : 0 <= c -> mult N h -> mult N (fun k => c * h k).
Proof. intros Hc H. apply (mult_mult (fun _ => c)); [now apply mult_const|exact H]. Qed.
Lemma mult_pow h j : mult N h -> mult N (fun k => h k ^ j).
Proof. intros H. induction j as [|j IH]; cbn [pow]; [apply mult_const; lra|]. now apply mult_mult. Qed.
Lemma mult_Sm (g : nat -> nat -> R) J : (forall j, (j < J)%nat -> mult N (g j)) -> mult N (fun k => Sm (fun j => g j k) J).
Proof.
  induction J as [|J IH]; intros H; cbn [Sm]; [apply mult_const; lra|].
  apply (mult_plus (fun k => Sm (fun j => g j k) J) (g J)); [apply IH; intros; apply H; lia|apply H; lia].
Qed.
Lemma mult_lim u h : conv u h -> (forall J, mult N (u J)) -> mult N h.
Proof using HN.
  intros Hc Hm p Hp. apply (pd_lim (fun J k => u J k * p k)); [|intros J; apply Hm; exact Hp].
  intros k Hk eps He. assert (Pp : 0 < Rabs (p k) + 1) by (pose proof (Rabs_pos (p k)); lra).
  destruct (Hc k Hk (eps / (Rabs (p k) + 1)) ltac:(apply Rdiv_lt_0_compat; lra)) as [J0 H0]. exists J0. intros J HJ.
  rewrite <- Rmult_minus_distr_r, Rabs_mult. specialize (H0 J HJ).
  apply Rle_trans with (eps / (Rabs (p k) + 1) * (Rabs (p k) + 1)); [|right; field; lra].
  apply Rmult_le_compat; try apply Rabs_pos; [exact H0|lra].
Qed.

(** geometric series and logarithm *)
Lemma geo_rem x J : x <> 1 -> / (1 - x) - Sm (fun j => x ^ j) J = x ^ J / (1 - x).
Proof.
  intros H. induction J as [|J IH]; cbn [Sm pow]; [field; lra|].
  replace (/ (1 - x) - (Sm (fun j => x ^ j) J + x ^ J)) with ((/ (1 - x) - Sm (fun j => x ^ j) J) - x ^ J) by ring. rewrite IH. field. lra.
Qed.
Lemma pow_small x eps : Rabs x < 1 -> 0 < eps -> exists J0, forall J, (J0 <= J)%nat -> Rabs x ^ J <= eps.
Proof.
  intros Hx He. destruct (pow_lt_1_zero x Hx eps He) as [J0 H]. exists J0. intros J HJ. rewrite RPow_abs. apply Rlt_le, H. exact HJ.
Qed.
Lemma mult_geo h : mult N h -> (forall k, (k < N)%nat -> Rabs (h k) < 1) -> mult N (fun k => / (1 - h k)).
Proof using HN.
  intros H Hb. apply (mult_lim (fun J k => Sm (fun j => h k ^ j) J)).
  - intros k Hk eps He. specialize (Hb k Hk). assert (D : 0 < 1 - h k) by (apply Rabs_lt_between in Hb; lra).
    destruct (pow_small (h k) (eps * (1 - h k)) Hb ltac:(apply Rmult_lt_0_compat; lra)) as [J0 H0]. exists J0. intros J HJ.
    rewrite Rabs_minus_sym, geo_rem by lra. unfold Rdiv. rewrite Rabs_mult, <- RPow_abs, (Rabs_pos_eq (/ (1 - h k))) by (apply Rlt_le, Rinv_0_lt_compat; exact D).
    apply (Rmult_le_reg_r (1 - h k)); [exact D|]. rewrite Rmult_assoc, Rinv_l, Rmult_1_r by lra. apply H0. exact HJ.
  - intros J. apply mult_Sm. intros j _. now apply mult_pow.
Qed.
Lemma log_rem x J : Rabs x < 1 -> Rabs (- ln (1 - x) - Sm (fun j => x ^ S j / INR (S j)) J) <= Rabs x ^ J * (Rabs x / (1 - Rabs x)).
Proof.
  intros Hx. pose proof (Rabs_pos x) as Px.
  set (F := fun t => - ln (1 - t) - Sm (fun j => t ^ S j / INR (S j)) J).
  assert (DS : forall M t, derivable_pt_lim (fun t => Sm (fun j => t ^ S j / INR (S j)) M) t (Sm (fun j => t ^ j) M)).
  { induction M as [|M IH]; intros t; cbn [Sm]; [apply derivable_pt_lim_const|].
    apply (derivable_pt_lim_plus (fun t => Sm (fun j => t ^ S j / INR (S j)) M) (fun t => t ^ S M / INR (S M))); [apply IH|].
    replace (t ^ M) with (/ INR (S M) * (INR (S M) * t ^ pred (S M))) by (cbn [pred]; field; apply not_0_INR; lia).
    apply (derivable_pt_lim_ext (fun t => / INR (S M) * t ^ S M)); [intros; unfold Rdiv; ring|].
    apply (derivable_pt_lim_scal (fun t => t ^ S M)). apply derivable_pt_lim_pow. }
  assert (DF : forall t, Rabs t < 1 -> derivable_pt_lim F t (/ (1 - t) - Sm (fun j => t ^ j) J)).
  { intros t Ht. assert (P : 0 < 1 - t) by (apply Rabs_lt_between in Ht; lra).
    apply (derivable_pt_lim_minus (fun t => - ln (1 - t)) (fun t => Sm (fun j => t ^ S j / INR (S j)) J)); [|apply DS].
    replace (/ (1 - t)) with (- (/ (1 - t) * (0 - 1))) by ring.
    apply (derivable_pt_lim_opp (fun t => ln (1 - t))). apply (derivable_pt_lim_comp (fun t => 1 - t) ln).
    - apply derivable_pt_lim_minus; [apply derivable_pt_lim_const|apply derivable_pt_lim_id].
    - apply derivable_pt_lim_ln. exact P. }
  assert (F0 : F 0 = 0).
  { unfold F. rewrite Rminus_0_r, ln_1. assert (Z : forall M, Sm (fun j => 0 ^ S j / INR (S j)) M = 0).
    { induction M as [|M IH]; cbn [Sm]; [reflexivity|]. rewrite IH. cbn [pow]. unfold Rdiv. ring. }
    rewrite Z. ring. }
  destruct (Req_dec x 0) as [->|Nx].
  { fold (F 0). rewrite F0, Rabs_R0. unfold Rdiv. rewrite Rmult_0_l, Rmult_0_r. lra. }
  fold (F x). replace (F x) with (F x - F 0) by (rewrite F0; ring).
  assert (M : exists c, F x - F 0 = (/ (1 - c) - Sm (fun j => c ^ j) J) * (x - 0) /\ Rabs c <= Rabs x).
  { destruct (Rlt_dec 0 x) as [P|P].
    - assert (H : forall c, 0 <= c <= x -> derivable_pt_lim F c (/ (1 - c) - Sm (fun j => c ^ j) J)).
      { intros c Hc. apply DF. rewrite Rabs_pos_eq by lra. rewrite Rabs_pos_eq in Hx by lra. lra. }
      destruct (MVT_cor2 F _ 0 x P H) as (c & E & Hc). exists c. split; [exact E|]. rewrite !Rabs_pos_eq by lra. lra.
    - assert (P' : x < 0) by lra.
      assert (H : forall c, x <= c <= 0 -> derivable_pt_lim F c (/ (1 - c) - Sm (fun j => c ^ j) J)).
      { intros c Hc. apply DF. rewrite Rabs_left1 by lra. rewrite Rabs_left1 in Hx by lra. lra. }
      destruct (MVT_cor2 F _ x 0 P' H) as (c & E & Hc). exists c. split; [|rewrite !Rabs_left1 by lra; lra].
      replace (F x - F 0) with (- (F 0 - F x)) by ring. rewrite E. ring. }
  destruct M as (c & E & Hc). rewrite E, Rminus_0_r.
  assert (D : 0 < 1 - Rabs x) by lra. assert (Dc : 0 < 1 - Rabs c) by lra. assert (D' : 1 - Rabs c <= 1 - c) by (pose proof (Rle_abs c); lra).
  rewrite geo_rem by (pose proof (Rle_abs c); lra). rewrite Rabs_mult. unfold Rdiv. rewrite Rabs_mult, <- RPow_abs, (Rabs_pos_eq (/ (1 - c))) by (apply Rlt_le, Rinv_0_lt_compat; lra).
  rewrite (Rmult_comm (Rabs x) (/ _)), <- Rmult_assoc. apply Rmult_le_compat_r; [apply Rabs_pos|].
  pose proof (Rabs_pos c). apply Rmult_le_compat; [apply pow_le; lra|apply Rlt_le, Rinv_0_lt_compat; lra|apply pow_incr; lra|apply Rinv_le_contravar; lra].
Qed.
Lemma conv_log h : (forall k, (k < N)%nat -> Rabs (h k) < 1) ->
  conv (fun J k => Sm (fun j => h k ^ S j / INR (S j)) J) (fun k => - ln (1 - h k)).
Proof.
  intros Hb k Hk eps He. specialize (Hb k Hk). pose proof (Rabs_pos (h k)).
  assert (Q : 0 <= Rabs (h k) / (1 - Rabs (h k))) by (apply Rmult_le_pos; [lra|apply Rlt_le, Rinv_0_lt_compat; lra]).
  set (B := Rabs (h k) / (1 - Rabs (h k))) in *.
  destruct (pow_small (h k) (eps / (B + 1)) Hb ltac:(apply Rdiv_lt_0_compat; lra)) as [J0 H0]. exists J0. intros J HJ.
  rewrite Rabs_minus_sym. eapply Rle_trans; [apply log_rem; exact Hb|]. fold B. specialize (H0 J HJ).
  apply Rle_trans with (eps / (B + 1) * (B + 1)); [|right; field; lra].
  apply Rmult_le_compat; [apply pow_le; lra|exact Q|exact H0|lra].
Qed.
Lemma mult_term h j : mult N h -> mult N (fun k => h k ^ S j / INR (S j)).
Proof.
  intros H. apply (mult_ext (fun k => / INR (S j) * h k ^ S j)); [intros; unfold Rdiv; ring|].
  apply mult_scal; [apply Rlt_le, Rinv_0_lt_compat, lt_0_INR; lia|now apply mult_pow].
Qed.
(** the logarithm minus any one of its terms *)
Lemma mult_log_minus h j : mult N h -> (forall k, (k < N)%nat -> Rabs (h k) < 1) ->
  mult N (fun k => - ln (1 - h k) - h k ^ S j / INR (S j)).
Proof using HN.
  intros H Hb. apply (mult_lim (fun J k => Sm (fun i => h k ^ S i / INR (S i)) (S j + J) - h k ^ S j / INR (S j))).
  - intros k Hk eps He. destruct (conv_log h Hb k Hk eps He) as [J0 H0]. exists J0. intros J HJ.
    replace (Sm (fun i => h k ^ S i / INR (S i)) (S j + J) - h k ^ S j / INR (S j) - (- ln (1 - h k) - h k ^ S j / INR (S j)))
      with (Sm (fun i => h k ^ S i / INR (S i)) (S j + J) - - ln (1 - h k)) by ring. apply H0. lia.
  - intros J. assert (E : forall M k, Sm (fun i => h k ^ S i / INR (S i)) (S j + M) - h k ^ S j / INR (S j)
       = Sm (fun i => h k ^ S i / INR (S i)) j + Sm (fun i => h k ^ S (S j + i) / INR (S (S j + i))) M).
    { induction M as [|M IH]; intros k; [rewrite Nat.add_0_r; cbn [Sm]; ring|].
      rewrite Nat.add_succ_r. change (Sm (fun i => h k ^ S i / INR (S i)) (S (S j + M))) with (Sm (fun i => h k ^ S i / INR (S i)) (S j + M) + h k ^ S (S j + M) / INR (S (S j + M))).
      change (Sm (fun i => h k ^ S (S j + i) / INR (S (S j + i))) (S M)) with (Sm (fun i => h k ^ S (S j + i) / INR (S (S j + i))) M + h k ^ S (S j + M) / INR (S (S j + M))).
      specialize (IH k). lra. }
    apply (mult_ext (fun k => Sm (fun i => h k ^ S i / INR (S i)) j + Sm (fun i => h k ^ S (S j + i) / INR (S (S j + i))) J)); [intros; symmetry; apply E|].
    apply (mult_plus (fun k => Sm (fun i => h k ^ S i / INR (S i)) j)).
    + apply (mult_Sm (fun i k => h k ^ S i / INR (S i))). intros; now apply mult_term.
    + apply (mult_Sm (fun i k => h k ^ S (S j + i) / INR (S (S j + i)))). intros; now apply mult_term.
Qed.
Lemma mult_log h : mult N h -> (forall k, (k < N)%nat -> Rabs (h k) < 1) -> mult N (fun k => - ln (1 - h k)).
Proof using HN.
  intros H Hb. apply (mult_ext (fun k => (- ln (1 - h k) - h k ^ 1 / INR 1) + h k ^ 1 / INR 1)); [intros; ring|].
  apply mult_plus; [now apply mult_log_minus|now apply mult_term].
Qed.

(** ** Strict positivity of one harmonic: [dom j h] says that h minus some
    positive multiple of cos^j is a multiplier *)
Definition dom (j : nat) (h : nat -> R) : Prop := exists c, 0 < c /\ mult N (fun k => h k - c * cs N k ^ j).
Lemma mult_csj j : mult N (fun k => cs N k ^ j).
Proof. apply mult_pow, mult_cs. Qed.
Lemma dom_mult j h : dom j h -> mult N h.
Proof.
  intros (c & Hc & H). apply (mult_ext (fun k => (h k - c * cs N k ^ j) + c * cs N k ^ j)); [intros; ring|].
  apply mult_plus; [exact H|]. apply mult_scal; [lra|apply mult_csj].
Qed.
Lemma dom_ext j g h : (forall k, (k < N)%nat -> g k = h k) -> dom j g -> dom j h.
Proof. intros E (c & Hc & H). exists c. split; [exact Hc|]. apply (mult_ext (fun k => g k - c * cs N k ^ j)); [intros; now rewrite E|exact H]. Qed.
Lemma dom_plus j g h : dom j g -> mult N h -> dom j (fun k => g k + h k).
Proof.
  intros (c & Hc & H) M. exists c. split; [exact Hc|].
  apply (mult_ext (fun k => (g k - c * cs N k ^ j) + h k)); [intros; ring|]. now apply mult_plus.
Qed.
Lemma dom_prod j g h : dom O g -> dom j h -> dom j (fun k => g k * h k).
Proof.
  intros (c & Hc & H) D. assert (M := dom_mult j h D). destruct D as (c' & Hc' & H'). exists (c * c'). split; [now apply Rmult_lt_0_compat|].
  apply (mult_ext (fun k => (g k - c * cs N k ^ 0) * h k + c * (h k - c' * cs N k ^ j))); [intros; cbn [pow]; ring|].
  apply mult_plus; [now apply mult_mult|apply mult_scal; [lra|exact H']].
Qed.
Lemma dom_scal j c h : 0 < c -> dom j h -> dom j (fun k => c * h k).
Proof.
  intros Hc (c' & Hc' & H). exists (c * c'). split; [now apply Rmult_lt_0_compat|].
  apply (mult_ext (fun k => c * (h k - c' * cs N k ^ j))); [intros; ring|]. apply mult_scal; [lra|exact H].
Qed.
Lemma dom_const c : 0 < c -> dom O (fun _ => c).
Proof. intros Hc. exists c. split; [exact Hc|]. apply (mult_ext (fun _ => 0)); [intros; cbn [pow]; ring|]. apply mult_const. lra. Qed.
Lemma dom_geo0 h : mult N h -> (forall k, (k < N)%nat -> Rabs (h k) < 1) -> dom O (fun k => / (1 - h k)).
Proof using HN.
  intros H Hb. exists 1. split; [lra|].
  apply (mult_ext (fun k => h k * / (1 - h k))).
  { intros k Hk. cbn [pow]. specialize (Hb k Hk). apply Rabs_lt_between in Hb. field. lra. }
  apply mult_mult; [exact H|now apply mult_geo].
Qed.
(** 1/(c - a cos phi), 0 < a < c *)
Definition res1 (c a : R) (k : nat) : R := / (c - a * cs N k).
Lemma cs_bound k : -1 <= cs N k <= 1.
Proof. apply COS_bound. Qed.
Lemma cs_le a k : 0 <= a -> Rabs (a * cs N k) <= a.
Proof. intros Ha. rewrite Rabs_mult, (Rabs_pos_eq a) by exact Ha. pose proof (Rabs_le (cs N k) 1 (cs_bound k)). rewrite <- (Rmult_1_r a) at 2. apply Rmult_le_compat_l; assumption. Qed.
Lemma scaled_lt c a k : 0 <= a < c -> Rabs (a / c * cs N k) < 1.
Proof.
  intros H. eapply Rle_lt_trans; [apply cs_le; apply Rmult_le_pos; [lra|apply Rlt_le, Rinv_0_lt_compat; lra]|].
  apply (Rmult_lt_reg_r c); [lra|]. unfold Rdiv. rewrite Rmult_assoc, Rinv_l; lra.
Qed.
Lemma scaled_mult c a : 0 <= a < c -> mult N (fun k => a / c * cs N k).
Proof. intros H. apply mult_scal; [apply Rmult_le_pos; [lra|apply Rlt_le, Rinv_0_lt_compat; lra]|apply mult_cs]. Qed.
Lemma res1_pos c a k : 0 <= a < c -> 0 < c - a * cs N k.
Proof. intros H. pose proof (cs_le a k (proj1 H)) as B. apply Rabs_le_between in B. lra. Qed.
Lemma res1_eq c a k : 0 <= a < c -> res1 c a k = / c * / (1 - a / c * cs N k).
Proof. intros H. unfold res1. pose proof (res1_pos c a k H). field. split; lra. Qed.
Lemma res1_mult c a : 0 <= a < c -> mult N (res1 c a).
Proof using HN.
  intros H. apply (mult_ext (fun k => / c * / (1 - a / c * cs N k))); [intros; now rewrite res1_eq|].
  apply mult_scal; [apply Rlt_le, Rinv_0_lt_compat; lra|]. apply mult_geo; [now apply scaled_mult|intros; now apply scaled_lt].
Qed.
Lemma res1_dom c a j : 0 < a < c -> dom j (res1 c a).
Proof using HN.
  intros H. assert (H' : 0 <= a < c) by lra. induction j as [|j IH].
  - apply (dom_ext 0 (fun k => / c * / (1 - a / c * cs N k))); [intros; symmetry; now apply res1_eq|].
    apply dom_scal; [apply Rinv_0_lt_compat; lra|]. apply dom_geo0; [now apply scaled_mult|intros; now apply scaled_lt].
  - destruct IH as (c0 & Hc0 & M). exists (a / c * c0). split; [apply Rmult_lt_0_compat; [apply Rdiv_lt_0_compat; lra|exact Hc0]|].
    apply (mult_ext (fun k => / c + a / c * cs N k * (res1 c a k - c0 * cs N k ^ j))).
    + intros k Hk. cbn [pow]. unfold res1. pose proof (res1_pos c a k H'). field. split; lra.
    + apply mult_plus; [apply mult_const; apply Rlt_le, Rinv_0_lt_compat; lra|].
      apply (mult_mult (fun k => a / c * cs N k)); [now apply scaled_mult|exact M].
Qed.

(** harmonic n of a function dominating cos^|n| is positive *)
Lemma harm_csj j : 0 < harm N (Z.of_nat j) (fun k => cs N k ^ j).
Proof using HN.
  induction j as [|j IH].
  - cbn [pow]. change (Z.of_nat 0) with 0%Z. rewrite harm_0_1. lra.
  - change (fun k => cs N k ^ S j) with (fun k => cs N k * cs N k ^ j). rewrite harm_cs.
    replace (Z.of_nat (S j) - 1)%Z with (Z.of_nat j) by lia.
    pose proof (mult_pd _ (mult_csj j) (Z.of_nat (S j) + 1)%Z). lra.
Qed.
Lemma dom_harm n h : dom (Z.abs_nat n) h -> 0 < harm N n h.
Proof using HN.
  intros (c & Hc & M). assert (P := mult_pd _ M n).
  rewrite (harm_ext n _ (fun k => h k + - c * cs N k ^ Z.abs_nat n)) in P by (intros; ring).
  rewrite harm_plus, harm_scal in P. assert (Q := harm_csj (Z.abs_nat n)).
  assert (E : harm N n (fun k => cs N k ^ Z.abs_nat n) = harm N (Z.of_nat (Z.abs_nat n)) (fun k => cs N k ^ Z.abs_nat n)).
  { rewrite Zabs2Nat.id_abs. destruct (Z.abs_eq_or_opp n) as [->| ->]; [reflexivity|now rewrite harm_opp]. }
  rewrite <- E in Q. pose proof (Rmult_lt_0_compat _ _ Hc Q). lra.
Qed.
Lemma dom_harm_lt n g h : dom (Z.abs_nat n) (fun k => h k - g k) -> harm N n g < harm N n h.
Proof using HN.
  intros D. apply dom_harm in D. rewrite (harm_ext n _ (fun k => h k + -1 * g k)) in D by (intros; ring).
  rewrite harm_plus, harm_scal in D. lra.
Qed.
End PD.
