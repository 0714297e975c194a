(** * Functions on the N-th roots of unity whose cosine coefficients decrease

    The same construction as in PosDef.v for another cone.  [um] says that the
    discrete cosine coefficients of a sequence do not increase from 0 up to N/2,
    [mm] that multiplication by h preserves this.  [mm] is closed under sums,
    products and pointwise limits and contains 1 + cos. *)
From Coq Require Import Reals Lra Lia ZArith.
From Coquelicot Require Import Rcomplements.
From Verif Require Import PosDef.
Open Scope R_scope.

Section UM.
Context (N : nat) (HN : N <> O).
Definition um (p : nat -> R) : Prop := forall n, (0 <= n)%Z -> (2 * (n + 1) <= Z.of_nat N)%Z -> harm N (n + 1) p <= harm N n p.
Definition mm (h : nat -> R) : Prop := forall p, um p -> um (fun k => h k * p k).
Definition B (k : nat) : R := 1 + cs N k.

Lemma harm_mirror n h : harm N (Z.of_nat N - n) h = harm N n h.
Proof using HN.
  pose proof (INR_N N HN) as P. unfold harm. f_equal. apply Sm_ext. intros k _. f_equal. rewrite minus_IZR, <- INR_IZR_INZ.
  replace ((INR N - IZR n) * phi N k) with (- (IZR n * phi N k) + 2 * INR k * PI) by (unfold phi; field; lra).
  now rewrite cos_period, cos_neg.
Qed.
Lemma harm_B n p : harm N n (fun k => B k * p k) = harm N n p + (harm N (n + 1) p + harm N (n - 1) p) / 2.
Proof. rewrite <- harm_cs, <- harm_plus. apply harm_ext. intros. unfold B. ring. Qed.
(** one step outside the range: equal, or reflected *)
Lemma um_next p n : um p -> (0 <= n)%Z -> (2 * (n + 1) <= Z.of_nat N)%Z ->
  harm N (n + 1) p - harm N (n + 2) p >= - (harm N n p - harm N (n + 1) p).
Proof using HN.
  intros U H0 H1. pose proof (U n H0 H1).
  destruct (Z.le_gt_cases (2 * (n + 2)) (Z.of_nat N)) as [H2|H2].
  - pose proof (U (n + 1)%Z ltac:(lia) ltac:(lia)) as Q. replace (n + 1 + 1)%Z with (n + 2)%Z in Q by ring. lra.
  - rewrite <- (harm_mirror (n + 2)). destruct (Z.eq_dec (2 * (n + 1)) (Z.of_nat N)) as [E|E].
    + replace (Z.of_nat N - (n + 2))%Z with n by lia. lra.
    + replace (Z.of_nat N - (n + 2))%Z with (n + 1)%Z by lia. lra.
Qed.
Lemma B_step p n : um p -> (0 <= n)%Z -> (2 * (n + 1) <= Z.of_nat N)%Z ->
  0 <= harm N n (fun k => B k * p k) - harm N (n + 1) (fun k => B k * p k) /\
  ((1 <= n)%Z -> (harm N (n - 1) p - harm N n p) / 2 <= harm N n (fun k => B k * p k) - harm N (n + 1) (fun k => B k * p k)).
Proof using HN.
  intros U H0 H1. rewrite !harm_B. replace (n + 1 + 1)%Z with (n + 2)%Z by ring. replace (n + 1 - 1)%Z with n by ring.
  pose proof (U n H0 H1). pose proof (um_next p n U H0 H1).
  destruct (Z.eq_dec n 0) as [->|Nz].
  - split; [|lia]. replace (harm N (0 - 1) p) with (harm N (0 + 1) p) by (rewrite <- (harm_opp N 1); reflexivity).
    lra.
  - pose proof (U (n - 1)%Z ltac:(lia) ltac:(lia)) as Q. replace (n - 1 + 1)%Z with n in Q by ring. split; intros; lra.
Qed.

Lemma um_ext g h : (forall k, (k < N)%nat -> g k = h k) -> um g -> um h.
Proof. intros H P n H0 H1. rewrite <- !(harm_ext N _ g h H). now apply P. Qed.
Lemma um_plus g h : um g -> um h -> um (fun k => g k + h k).
Proof. intros P Q n H0 H1. rewrite !harm_plus. specialize (P n H0 H1). specialize (Q n H0 H1). lra. Qed.
Lemma um_scal c h : 0 <= c -> um h -> um (fun k => c * h k).
Proof. intros Hc P n H0 H1. rewrite !harm_scal. apply Rmult_le_compat_l; [exact Hc|now apply P]. Qed.
Lemma one_other n : (0 < n < Z.of_nat N)%Z -> harm N n (fun _ => 1) = 0.
Proof using HN.
  intros Hn. pose proof (INR_N N HN) as P. pose proof PI_RGT_0 as HP. unfold harm.
  set (x := 2 * PI * IZR n / INR N).
  assert (Hx : 0 < x / 2 < PI).
  { assert (E : IZR (Z.of_nat N) = INR N) by (symmetry; apply INR_IZR_INZ). destruct Hn as [H1 H2]. apply IZR_lt in H1. apply IZR_lt in H2. rewrite E in H2.
    replace (x / 2) with (PI * IZR n / INR N) by (unfold x; field; lra). split.
    - apply Rdiv_lt_0_compat; [apply Rmult_lt_0_compat; lra|lra].
    - apply Rlt_div_l; [lra|]. apply Rmult_lt_compat_l; lra. }
  assert (S1 : 0 < sin (x / 2)) by (apply sin_gt_0; lra).
  rewrite (Sm_ext _ (fun k => cos (INR k * x))) by (intros k _; rewrite Rmult_1_l; f_equal; unfold phi, x; field; lra).
  assert (D := dirichlet x N). replace ((INR N - / 2) * x) with (- (x / 2) + 2 * PI * IZR n) in D by (unfold x; field; lra).
  replace (2 * PI * IZR n) with (2 * INR (Z.to_nat n) * PI) in D by (rewrite INR_IZR_INZ, Z2Nat.id by lia; ring).
  rewrite sin_period, sin_neg in D.
  assert (E0 : Sm (fun k => cos (INR k * x)) N = 0) by nra. rewrite E0. unfold Rdiv. ring.
Qed.
Lemma um_1 : um (fun _ => 1).
Proof using HN.
  intros n H0 H1. rewrite (one_other (n + 1)) by lia. apply (pd_1 N HN).
Qed.
Lemma um_lim u h : conv N u h -> (forall J, um (u J)) -> um h.
Proof using HN.
  intros Hc Hp n H0 H1. apply Rnot_lt_le. intros Hlt. pose proof (INR_N N HN) as P.
  set (e := (harm N (n + 1) h - harm N n h) / 3).
  destruct (conv_unif N HN u h Hc e ltac:(unfold e; lra)) as [J0 H2]. specialize (H2 J0 (le_n _)).
  assert (E : forall m, Rabs (harm N m (u J0) - harm N m h) <= e).
  { intros m. unfold harm, Rdiv. rewrite <- Rmult_minus_distr_r. rewrite Rabs_mult, (Rabs_pos_eq (/ INR N)) by (apply Rlt_le, Rinv_0_lt_compat; exact P).
    apply (Rmult_le_reg_r (INR N)); [exact P|]. rewrite Rmult_assoc, Rinv_l, Rmult_1_r, (Rmult_comm e) by lra.
    apply Sm_close. intros k Hk. rewrite <- Rmult_minus_distr_r, Rabs_mult.
    eapply Rle_trans; [apply Rmult_le_compat; [apply Rabs_pos|apply Rabs_pos|apply (H2 k Hk)|apply Rabs_le, COS_bound]|]. rewrite Rmult_1_r. apply Rle_refl. }
  specialize (Hp J0 n H0 H1). pose proof (E n) as E0. pose proof (E (n + 1)%Z) as E1. apply Rabs_le_between in E0. apply Rabs_le_between in E1. unfold e in *. lra.
Qed.

(** multipliers *)
Lemma mm_ext g h : (forall k, (k < N)%nat -> g k = h k) -> mm g -> mm h.
Proof. intros H P p Hp. apply (um_ext (fun k => g k * p k)); [intros k Hk; now rewrite H|apply P; exact Hp]. Qed.
Lemma mm_um h : mm h -> um h.
Proof using HN. intros H. apply (um_ext (fun k => h k * 1)); [intros; ring|]. apply (H (fun _ => 1)). exact um_1. Qed.
Lemma mm_const c : 0 <= c -> mm (fun _ => c).
Proof. intros Hc p Hp. apply um_scal; assumption. Qed.
Lemma mm_B : mm B.
Proof using HN. intros p Hp n H0 H1. pose proof (proj1 (B_step p n Hp H0 H1)). lra. Qed.
Lemma mm_plus g h : mm g -> mm h -> mm (fun k => g k + h k).
Proof. intros P Q p Hp. apply (um_ext (fun k => g k * p k + h k * p k)); [intros; ring|]. apply um_plus; auto. Qed.
Lemma mm_mult g h : mm g -> mm h -> mm (fun k => g k * h k).
Proof. intros P Q p Hp. apply (um_ext (fun k => g k * (h k * p k))); [intros; ring|]. apply P, Q, Hp. Qed.
Lemma mm_scal c h : 0 <= c -> mm h -> mm (fun k => c * h k).
Proof. intros Hc H. apply (mm_mult (fun _ => c)); [now apply mm_const|exact H]. Qed.
Lemma mm_pow h j : mm h -> mm (fun k => h k ^ j).
Proof. intros H. induction j as [|j IH]; cbn [pow]; [apply mm_const; lra|]. now apply mm_mult. Qed.
Lemma mm_Sm (g : nat -> nat -> R) J : (forall j, (j < J)%nat -> mm (g j)) -> mm (fun k => Sm (fun j => g j k) J).
Proof.
  induction J as [|J IH]; intros H; cbn [Sm]; [apply mm_const; lra|].
  apply (mm_plus (fun k => Sm (fun j => g j k) J) (g J)); [apply IH; intros; apply H; lia|apply H; lia].
Qed.
Lemma mm_lim u h : conv N u h -> (forall J, mm (u J)) -> mm h.
Proof using HN.
  intros Hc Hm p Hp. apply (um_lim (fun J k => u J k * p k)); [|intros J; apply Hm; exact Hp].
  intros k Hk eps He. assert (Pp : 0 < Rabs (p k) + 1) by (pose proof (Rabs_pos (p k)); lra).
  destruct (Hc k Hk (eps / (Rabs (p k) + 1)) ltac:(apply Rdiv_lt_0_compat; lra)) as [J0 H0]. exists J0. intros J HJ.
  rewrite <- Rmult_minus_distr_r, Rabs_mult. specialize (H0 J HJ).
  apply Rle_trans with (eps / (Rabs (p k) + 1) * (Rabs (p k) + 1)); [|right; field; lra].
  apply Rmult_le_compat; try apply Rabs_pos; [exact H0|lra].
Qed.
Lemma mm_geo h : mm h -> (forall k, (k < N)%nat -> Rabs (h k) < 1) -> mm (fun k => / (1 - h k)).
Proof using HN.
  intros H Hb. apply (mm_lim (fun J k => Sm (fun j => h k ^ j) J)).
  - intros k Hk eps He. specialize (Hb k Hk). assert (D : 0 < 1 - h k) by (apply Rabs_lt_between in Hb; lra).
    destruct (pow_small (h k) (eps * (1 - h k)) Hb ltac:(apply Rmult_lt_0_compat; lra)) as [J0 H0]. exists J0. intros J HJ.
    rewrite Rabs_minus_sym, geo_rem by lra. unfold Rdiv. rewrite Rabs_mult, <- RPow_abs, (Rabs_pos_eq (/ (1 - h k))) by (apply Rlt_le, Rinv_0_lt_compat; exact D).
    apply (Rmult_le_reg_r (1 - h k)); [exact D|]. rewrite Rmult_assoc, Rinv_l, Rmult_1_r by lra. apply H0. exact HJ.
  - intros J. apply (mm_Sm (fun j k => h k ^ j)). intros j _. now apply mm_pow.
Qed.
Lemma mm_term h j : mm h -> mm (fun k => h k ^ S j / INR (S j)).
Proof.
  intros H. apply (mm_ext (fun k => / INR (S j) * h k ^ S j)); [intros; unfold Rdiv; ring|].
  apply mm_scal; [apply Rlt_le, Rinv_0_lt_compat, lt_0_INR; lia|now apply mm_pow].
Qed.
Lemma mm_log_minus h j : mm h -> (forall k, (k < N)%nat -> Rabs (h k) < 1) ->
  mm (fun k => - ln (1 - h k) - h k ^ S j / INR (S j)).
Proof using HN.
  intros H Hb. apply (mm_lim (fun J k => Sm (fun i => h k ^ S i / INR (S i)) (S j + J) - h k ^ S j / INR (S j))).
  - intros k Hk eps He. destruct (conv_log N HN h Hb k Hk eps He) as [J0 H0]. exists J0. intros J HJ.
    replace (Sm (fun i => h k ^ S i / INR (S i)) (S j + J) - h k ^ S j / INR (S j) - (- ln (1 - h k) - h k ^ S j / INR (S j)))
      with (Sm (fun i => h k ^ S i / INR (S i)) (S j + J) - - ln (1 - h k)) by ring. apply H0. lia.
  - intros J. assert (E : forall M k, Sm (fun i => h k ^ S i / INR (S i)) (S j + M) - h k ^ S j / INR (S j)
       = Sm (fun i => h k ^ S i / INR (S i)) j + Sm (fun i => h k ^ S (S j + i) / INR (S (S j + i))) M).
    { induction M as [|M IH]; intros k; [rewrite Nat.add_0_r; cbn [Sm]; ring|].
      rewrite Nat.add_succ_r. change (Sm (fun i => h k ^ S i / INR (S i)) (S (S j + M))) with (Sm (fun i => h k ^ S i / INR (S i)) (S j + M) + h k ^ S (S j + M) / INR (S (S j + M))).
      change (Sm (fun i => h k ^ S (S j + i) / INR (S (S j + i))) (S M)) with (Sm (fun i => h k ^ S (S j + i) / INR (S (S j + i))) M + h k ^ S (S j + M) / INR (S (S j + M))).
      specialize (IH k). lra. }
    apply (mm_ext (fun k => Sm (fun i => h k ^ S i / INR (S i)) j + Sm (fun i => h k ^ S (S j + i) / INR (S (S j + i))) J)); [intros; symmetry; apply E|].
    apply (mm_plus (fun k => Sm (fun i => h k ^ S i / INR (S i)) j)).
    + apply (mm_Sm (fun i k => h k ^ S i / INR (S i))). intros; now apply mm_term.
    + apply (mm_Sm (fun i k => h k ^ S (S j + i) / INR (S (S j + i)))). intros; now apply mm_term.
Qed.
Lemma mm_log h : mm h -> (forall k, (k < N)%nat -> Rabs (h k) < 1) -> mm (fun k => - ln (1 - h k)).
Proof using HN.
  intros H Hb. apply (mm_ext (fun k => (- ln (1 - h k) - h k ^ 1 / INR 1) + h k ^ 1 / INR 1)); [intros; ring|].
  apply mm_plus; [now apply mm_log_minus|now apply mm_term].
Qed.

(** ** Strict decrease at one step: [dm j h] says that h minus some positive
    multiple of (1 + cos)^j is a multiplier *)
Definition dm (j : nat) (h : nat -> R) : Prop := exists c, 0 < c /\ mm (fun k => h k - c * B k ^ j).
Lemma mm_Bj j : mm (fun k => B k ^ j).
Proof using HN. apply mm_pow, mm_B. Qed.
Lemma dm_mm j h : dm j h -> mm h.
Proof using HN.
  intros (c & Hc & H). apply (mm_ext (fun k => (h k - c * B k ^ j) + c * B k ^ j)); [intros; ring|].
  apply mm_plus; [exact H|]. apply mm_scal; [lra|apply mm_Bj].
Qed.
Lemma dm_ext j g h : (forall k, (k < N)%nat -> g k = h k) -> dm j g -> dm j h.
Proof. intros E (c & Hc & H). exists c. split; [exact Hc|]. apply (mm_ext (fun k => g k - c * B k ^ j)); [intros; now rewrite E|exact H]. Qed.
Lemma dm_plus j g h : dm j g -> mm h -> dm j (fun k => g k + h k).
Proof.
  intros (c & Hc & H) M. exists c. split; [exact Hc|].
  apply (mm_ext (fun k => (g k - c * B k ^ j) + h k)); [intros; ring|]. now apply mm_plus.
Qed.
Lemma dm_prod j g h : dm O g -> dm j h -> dm j (fun k => g k * h k).
Proof using HN.
  intros (c & Hc & H) D. assert (M := dm_mm j h D). destruct D as (c' & Hc' & H'). exists (c * c'). split; [now apply Rmult_lt_0_compat|].
  apply (mm_ext (fun k => (g k - c * B k ^ 0) * h k + c * (h k - c' * B k ^ j))); [intros; cbn [pow]; ring|].
  apply mm_plus; [now apply mm_mult|apply mm_scal; [lra|exact H']].
Qed.
Lemma dm_scal j c h : 0 < c -> dm j h -> dm j (fun k => c * h k).
Proof.
  intros Hc (c' & Hc' & H). exists (c * c'). split; [now apply Rmult_lt_0_compat|].
  apply (mm_ext (fun k => c * (h k - c' * B k ^ j))); [intros; ring|]. apply mm_scal; [lra|exact H].
Qed.
Lemma dm_const c : 0 < c -> dm O (fun _ => c).
Proof. intros Hc. exists c. split; [exact Hc|]. apply (mm_ext (fun _ => 0)); [intros; cbn [pow]; ring|]. apply mm_const. lra. Qed.
Lemma dm_geo0 h : mm h -> (forall k, (k < N)%nat -> Rabs (h k) < 1) -> dm O (fun k => / (1 - h k)).
Proof using HN.
  intros H Hb. exists 1. split; [lra|].
  apply (mm_ext (fun k => h k * / (1 - h k))).
  { intros k Hk. cbn [pow]. specialize (Hb k Hk). apply Rabs_lt_between in Hb. field. lra. }
  apply mm_mult; [exact H|now apply mm_geo].
Qed.
(** ... and of the loop at any step, if h dominates there *)
Lemma dm_geo j h : dm j h -> (forall k, (k < N)%nat -> Rabs (h k) < 1) -> dm j (fun k => / (1 - h k)).
Proof using HN.
  intros H Hb. assert (M := dm_mm j h H).
  apply (dm_ext j (fun k => / (1 - h k) * h k + 1)).
  { intros k Hk. specialize (Hb k Hk). apply Rabs_lt_between in Hb. field. lra. }
  apply dm_plus; [|apply mm_const; lra]. apply dm_prod; [now apply dm_geo0|exact H].
Qed.
(** a (1 + cos) / (c + a), 0 < a < c *)
Lemma B_lt c a k : 0 < a < c -> Rabs (a / (c + a) * B k) < 1.
Proof.
  intros H. pose proof (cs_bound N k) as [C1 C2]. unfold B.
  assert (0 < a / (c + a)) by (apply Rdiv_lt_0_compat; lra).
  rewrite Rabs_pos_eq by (apply Rmult_le_pos; lra).
  apply Rle_lt_trans with (a / (c + a) * 2); [apply Rmult_le_compat_l; lra|].
  replace (a / (c + a) * 2) with (2 * a / (c + a)) by (field; lra). apply Rlt_div_l; lra.
Qed.
Lemma B_mm c a : 0 < a < c -> mm (fun k => a / (c + a) * B k).
Proof using HN. intros H. apply mm_scal; [apply Rlt_le, Rdiv_lt_0_compat; lra|apply mm_B]. Qed.
Lemma res1_B c a k : 0 < a < c -> res1 N c a k = / (c + a) * / (1 - a / (c + a) * B k).
Proof. intros H. unfold res1, B. pose proof (res1_pos N c a k ltac:(lra)). field. split; lra. Qed.
Lemma res1_dm c a j : 0 < a < c -> dm j (res1 N c a).
Proof using HN.
  intros H. induction j as [|j IH].
  - apply (dm_ext 0 (fun k => / (c + a) * / (1 - a / (c + a) * B k))); [intros; symmetry; now apply res1_B|].
    apply dm_scal; [apply Rinv_0_lt_compat; lra|]. apply dm_geo0; [now apply B_mm|intros; now apply B_lt].
  - destruct IH as (c0 & Hc0 & M). exists (a / (c + a) * c0). split; [apply Rmult_lt_0_compat; [apply Rdiv_lt_0_compat; lra|exact Hc0]|].
    apply (mm_ext (fun k => / (c + a) + a / (c + a) * B k * (res1 N c a k - c0 * B k ^ j))).
    + intros k Hk. cbn [pow]. unfold res1, B. pose proof (res1_pos N c a k ltac:(lra)). field. split; lra.
    + apply mm_plus; [apply mm_const; apply Rlt_le, Rinv_0_lt_compat; lra|].
      apply (mm_mult (fun k => a / (c + a) * B k)); [now apply B_mm|exact M].
Qed.

(** (1 + cos)^j decreases strictly from j to j + 1 *)
Lemma harm_Bj j : (2 * (Z.of_nat j + 1) <= Z.of_nat N)%Z ->
  harm N (Z.of_nat j + 1) (fun k => B k ^ j) < harm N (Z.of_nat j) (fun k => B k ^ j).
Proof using HN.
  induction j as [|j IH]; intros Hj.
  - cbn [pow]. change (Z.of_nat 0) with 0%Z in *. rewrite harm_0_1 by exact HN. rewrite one_other by lia. lra.
  - change (fun k => B k ^ S j) with (fun k => B k * B k ^ j).
    pose proof (proj2 (B_step (fun k => B k ^ j) (Z.of_nat (S j)) (mm_um _ (mm_Bj j)) ltac:(lia) Hj) ltac:(lia)) as Q.
    specialize (IH ltac:(lia)). replace (Z.of_nat (S j)) with (Z.of_nat j + 1)%Z in * by lia.
    replace (Z.of_nat j + 1 - 1)%Z with (Z.of_nat j) in Q by lia. lra.
Qed.
Lemma dm_step j h : (2 * (Z.of_nat j + 1) <= Z.of_nat N)%Z -> dm j h -> harm N (Z.of_nat j + 1) h < harm N (Z.of_nat j) h.
Proof using HN.
  intros Hj (c & Hc & M). assert (P := mm_um _ M (Z.of_nat j) ltac:(lia) Hj).
  rewrite !(harm_ext N _ (fun k => h k - c * B k ^ j) (fun k => h k + - c * B k ^ j)) in P by (intros; ring).
  rewrite !harm_plus, !harm_scal in P. pose proof (harm_Bj j Hj) as Q. pose proof (Rmult_lt_compat_l c _ _ Hc Q). lra.
Qed.
Lemma dm_lt h n m : (forall j, dm j h) -> (Z.abs n < Z.abs m)%Z -> (2 * Z.abs m <= Z.of_nat N)%Z -> harm N m h < harm N n h.
Proof using HN.
  intros D Hl Hm.
  assert (A : forall i, harm N i h = harm N (Z.of_nat (Z.abs_nat i)) h).
  { intros i. rewrite Zabs2Nat.id_abs. destruct (Z.abs_eq_or_opp i) as [->| ->]; [reflexivity|now rewrite harm_opp]. }
  rewrite (A n), (A m). set (a := Z.abs_nat n) in *. set (b := Z.abs_nat m) in *.
  assert (Hab : (a < b)%nat) by (unfold a, b; lia). assert (Hb : (2 * Z.of_nat b <= Z.of_nat N)%Z) by (unfold b; lia).
  clearbody a b. clear A Hl Hm n m. induction b as [|b IH]; [lia|].
  assert (S1 := dm_step b h ltac:(lia) (D b)). replace (Z.of_nat (S b)) with (Z.of_nat b + 1)%Z by lia.
  destruct (Nat.eq_dec a b) as [->|Ne]; [exact S1|]. specialize (IH ltac:(lia) ltac:(lia)). lra.
Qed.
End UM.
