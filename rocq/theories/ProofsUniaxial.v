(** * Proofs: complex hyperbolic functions and products of thin layers (C96) *)
From Coq Require Import String Reals Lra Lia ZArith List Bool.
From Coquelicot Require Import Coquelicot.
From Coq Require Import List.
From Verif Require Import Num NumLemmas ModelBase ModelSample ModelTip StackLemmas Spec SpecWave WaveLemmas.
Import ListNotations.
Open Scope R_scope.

(** ** Domination of complex functions by real ones *)
Lemma mono01 (g dg : R -> R) : (forall t, is_derive g t (dg t)) -> (forall t, 0 <= t <= 1 -> 0 <= dg t) -> g 0 <= g 1.
Proof.
  intros D P. destruct (MVT_gen g 0 1 dg) as (c & Hc & E).
  - intros x _. apply D.
  - intros x _. apply continuity_pt_filterlim. apply (ex_derive_continuous g x). eexists. apply D.
  - rewrite Rmin_left, Rmax_right in Hc by lra. specialize (P c Hc). lra.
Qed.
Lemma Cmod_sq z : Cmod z ^ 2 = Re z ^ 2 + Im z ^ 2.
Proof. unfold Cmod. rewrite pow2_sqrt by (assert (0 <= fst z ^ 2) by apply pow2_ge_0; assert (0 <= snd z ^ 2) by apply pow2_ge_0; lra). reflexivity. Qed.
Lemma along a b (W : C) : a ^ 2 + b ^ 2 = 1 -> a * Re W + b * Im W <= Cmod W.
Proof.
  intros H. apply Rnot_lt_le. intros Q. pose proof (Cmod_ge_0 W) as P. pose proof (Cmod_sq W) as E.
  assert (Cmod W ^ 2 < (a * Re W + b * Im W) ^ 2) by (simpl; nra).
  assert (0 <= (a * Im W - b * Re W) ^ 2) by apply pow2_ge_0.
  assert ((a * Re W + b * Im W) ^ 2 + (a * Im W - b * Re W) ^ 2 = (a ^ 2 + b ^ 2) * (Re W ^ 2 + Im W ^ 2)) by ring.
  rewrite H in *. lra.
Qed.
Lemma by_directions (W : C) B : (forall a b, a ^ 2 + b ^ 2 = 1 -> a * Re W + b * Im W <= B) -> Cmod W <= B.
Proof.
  intros H. destruct (Req_dec (Cmod W) 0) as [Z|NZ].
  - rewrite Z. pose proof (Cmod_sq W) as E. rewrite Z in E. assert (0 <= Re W ^ 2) by apply pow2_ge_0. assert (0 <= Im W ^ 2) by apply pow2_ge_0.
    assert (R0 : Re W = 0) by (apply Rsqr_0_uniq; rewrite Rsqr_pow2; simpl in *; lra).
    specialize (H 1 0 ltac:(ring)). rewrite R0 in H. lra.
  - pose proof (Cmod_ge_0 W). pose proof (Cmod_sq W) as E.
    specialize (H (Re W / Cmod W) (Im W / Cmod W)).
    replace (Re W / Cmod W * Re W + Im W / Cmod W * Im W) with ((Re W ^ 2 + Im W ^ 2) / Cmod W) in H by (field; lra).
    rewrite <- E in H. replace (Cmod W ^ 2 / Cmod W) with (Cmod W) in H by (field; lra). apply H.
    replace ((Re W / Cmod W) ^ 2 + (Im W / Cmod W) ^ 2) with ((Re W ^ 2 + Im W ^ 2) / Cmod W ^ 2) by (field; lra). rewrite <- E. field. lra.
Qed.
Lemma dom (W dW : R -> C) (B dB : R -> R) :
  (forall t, field_derive W t (dW t)) -> (forall t, is_derive B t (dB t)) -> W 0 = RtoC 0 -> B 0 = 0 ->
  (forall t, 0 <= t <= 1 -> Cmod (dW t) <= dB t) -> Cmod (W 1) <= B 1.
Proof.
  intros HW HB W0 B0 H. apply by_directions. intros a b Hab.
  assert (M := mono01 (fun t => B t - (a * Re (W t) + b * Im (W t))) (fun t => dB t - (a * Re (dW t) + b * Im (dW t)))).
  cbv beta in M. rewrite W0, B0 in M. change (Re (RtoC 0)) with 0 in M. change (Im (RtoC 0)) with 0 in M.
  enough (0 - (a * 0 + b * 0) <= B 1 - (a * Re (W 1) + b * Im (W 1))) by lra. apply M.
  - intros t. destruct (HW t) as [H1 H2].
    apply (is_derive_minus B (fun t => a * Re (W t) + b * Im (W t)) t (dB t) (a * Re (dW t) + b * Im (dW t)) (HB t)).
    apply (is_derive_plus (fun t => a * Re (W t)) (fun t => b * Im (W t)) t (a * Re (dW t)) (b * Im (dW t))).
    + apply (is_derive_scal (fun t => Re (W t)) t a (Re (dW t)) H1).
    + apply (is_derive_scal (fun t => Im (W t)) t b (Im (dW t)) H2).
  - intros t Ht. specialize (H t Ht). pose proof (along a b (dW t) Hab). lra.
Qed.

(** ** Complex hyperbolic functions *)
Definition Cch (z : C) : C := ((Cexp z + Cexp (- z)) / 2)%C.
Definition Csh (z : C) : C := ((Cexp z - Cexp (- z)) / 2)%C.
Definition Cshc (z : C) : C := if Ceq_dec z (RtoC 0) then RtoC 1 else (Csh z / z)%C.
Lemma Cch_0 : Cch 0 = RtoC 1.
Proof. unfold Cch. replace (- RtoC 0)%C with (RtoC 0) by ring. rewrite Cexp_0. field. auto. Qed.
Lemma Csh_0 : Csh 0 = RtoC 0.
Proof. unfold Csh. replace (- RtoC 0)%C with (RtoC 0) by ring. rewrite Cexp_0. field. auto. Qed.
Lemma Cshc_mul z : (z * Cshc z = Csh z)%C.
Proof. unfold Cshc. destruct (Ceq_dec z 0) as [->|N]; [rewrite Csh_0; ring|field; exact N]. Qed.
Lemma Cch_R x : Cch (RtoC x) = RtoC (cosh x).
Proof. unfold Cch, cosh. rewrite <- RtoC_opp, !Cexp_R, <- RtoC_plus, <- RtoC_div by lra. reflexivity. Qed.
Lemma Csh_R x : Csh (RtoC x) = RtoC (sinh x).
Proof. unfold Csh, sinh. rewrite <- RtoC_opp, !Cexp_R, <- RtoC_minus, <- RtoC_div by lra. reflexivity. Qed.
Lemma Cch_plus x y : Cch (x + y)%C = (Cch x * Cch y + Csh x * Csh y)%C.
Proof. unfold Cch, Csh. replace (- (x + y))%C with (- x + - y)%C by ring. rewrite !Cexp_plus. field. auto. Qed.
Lemma Csh_plus x y : Csh (x + y)%C = (Csh x * Cch y + Cch x * Csh y)%C.
Proof. unfold Cch, Csh. replace (- (x + y))%C with (- x + - y)%C by ring. rewrite !Cexp_plus. field. auto. Qed.
Lemma Cch_opp z : Cch (- z)%C = Cch z.
Proof. unfold Cch. replace (- - z)%C with z by ring. field. auto. Qed.
Lemma Cshc_opp z : Cshc (- z)%C = Cshc z.
Proof.
  unfold Cshc. destruct (Ceq_dec z 0) as [->|N]; destruct (Ceq_dec (- _) 0) as [E|N'].
  - reflexivity.
  - destruct N'. ring.
  - destruct N. replace z with (- - z)%C by ring. rewrite E. ring.
  - unfold Csh. replace (- - z)%C with z by ring. field. repeat split; auto.
Qed.
Lemma fd_ch z t : field_derive (fun x => Cch (z * RtoC x)%C) t (z * Csh (z * RtoC t))%C.
Proof.
  apply (fd_ext (fun x => / 2 * (Cexp (z * RtoC x) + Cexp (- z * RtoC x)))%C _ t (/ 2 * (z * Cexp (z * RtoC t) + - z * Cexp (- z * RtoC t)))%C).
  - intros x. unfold Cch. replace (- (z * RtoC x))%C with (- z * RtoC x)%C by ring. field. auto.
  - unfold Csh. replace (- (z * RtoC t))%C with (- z * RtoC t)%C by ring. field. auto.
  - apply fd_scal, fd_plus; apply fd_exp.
Qed.
Lemma fd_sh z t : field_derive (fun x => Csh (z * RtoC x)%C) t (z * Cch (z * RtoC t))%C.
Proof.
  apply (fd_ext (fun x => / 2 * (Cexp (z * RtoC x) + - (1) * Cexp (- z * RtoC x)))%C _ t (/ 2 * (z * Cexp (z * RtoC t) + - (1) * (- z * Cexp (- z * RtoC t))))%C).
  - intros x. unfold Csh. replace (- (z * RtoC x))%C with (- z * RtoC x)%C by ring. field. auto.
  - unfold Cch. replace (- (z * RtoC t))%C with (- z * RtoC t)%C by ring. field. auto.
  - apply fd_scal, fd_plus; [apply fd_exp|apply fd_scal, fd_exp].
Qed.
Lemma d_cosh m t : is_derive (fun t => cosh (m * t)) t (m * sinh (m * t)).
Proof. unfold cosh, sinh. auto_derive; [trivial|]. field. Qed.
Lemma d_sinh m t : is_derive (fun t => sinh (m * t)) t (m * cosh (m * t)).
Proof. unfold cosh, sinh. auto_derive; [trivial|]. field. Qed.
Lemma cosh_le x y : 0 <= x <= y -> cosh x <= cosh y.
Proof.
  intros [H1 H2]. assert (M := mono01 (fun t => cosh (x + t * (y - x))) (fun t => (y - x) * sinh (x + t * (y - x)))).
  cbv beta in M. replace (x + 0 * (y - x)) with x in M by ring. replace (x + 1 * (y - x)) with y in M by ring. apply M.
  - intros t. unfold cosh, sinh. auto_derive; [trivial|]. field.
  - intros t Ht. apply Rmult_le_pos; [lra|]. assert (P : 0 <= x + t * (y - x)) by nra.
    unfold sinh. destruct (Req_dec (x + t * (y - x)) 0) as [->|N]; [rewrite Ropp_0; lra|].
    assert (exp (- (x + t * (y - x))) < exp (x + t * (y - x))) by (apply exp_increasing; lra). lra.
Qed.
Lemma cosh_even x : cosh (- x) = cosh x.
Proof. unfold cosh. rewrite Ropp_involutive. f_equal. ring. Qed.
Lemma cosh_ge_1 x : 1 <= cosh x.
Proof. rewrite <- cosh_0. destruct (Rle_dec 0 x); [apply cosh_le; lra|]. rewrite <- (cosh_even x). apply cosh_le. lra. Qed.

Lemma Cch_mod z : Cmod (Cch z) <= cosh (Cmod z).
Proof.
  apply Rle_trans with (cosh (Re z)).
  - unfold Cch. rewrite Cmod_div by auto. apply Rle_div_l; [rewrite Cmod_R, Rabs_pos_eq; lra|].
    eapply Rle_trans; [apply Cmod_triangle|]. rewrite !Cexp_mod, Cmod_R, Rabs_pos_eq by lra.
    replace (Re (- z)%C) with (- Re z) by (destruct z; reflexivity). unfold cosh. lra.
  - assert (B : Rabs (Re z) <= Cmod z) by (apply Cmod_ge_Re).
    destruct (Rle_dec 0 (Re z)).
    + apply cosh_le. rewrite Rabs_pos_eq in B; lra.
    + rewrite <- cosh_even. apply cosh_le. rewrite Rabs_left in B; lra.
Qed.
Lemma mod_scaled z t : 0 <= t -> Cmod (z * RtoC t)%C = Cmod z * t.
Proof. intros H. rewrite Cmod_mult, Cmod_R, Rabs_pos_eq; lra. Qed.
Lemma Csh_mod z : Cmod (Csh z) <= sinh (Cmod z).
Proof.
  pose proof (dom (fun t => Csh (z * RtoC t)%C) (fun t => z * Cch (z * RtoC t))%C (fun t => sinh (Cmod z * t)) (fun t => Cmod z * cosh (Cmod z * t))) as H.
  cbv beta in H. rewrite Cmult_1_r, Rmult_1_r, Cmult_0_r, Rmult_0_r in H. apply H; clear H.
  - intros t. apply fd_sh.
  - intros t. apply d_sinh.
  - apply Csh_0.
  - apply sinh_0.
  - intros t Ht. rewrite Cmod_mult. apply Rmult_le_compat_l; [apply Cmod_ge_0|]. rewrite <- mod_scaled by lra. apply Cch_mod.
Qed.
Lemma Cch_rem z : Cmod (Cch z - 1)%C <= cosh (Cmod z) - 1.
Proof.
  pose proof (dom (fun t => Cch (z * RtoC t) - 1)%C (fun t => z * Csh (z * RtoC t))%C (fun t => cosh (Cmod z * t) - 1) (fun t => Cmod z * sinh (Cmod z * t))) as H.
  cbv beta in H. rewrite Cmult_1_r, Rmult_1_r, Cmult_0_r, Rmult_0_r in H. apply H; clear H.
  - intros t. apply (fd_ext (fun x => Cch (z * RtoC x) + - (1))%C _ t (z * Csh (z * RtoC t) + 0)%C); [intros; ring|ring|].
    apply fd_plus; [apply fd_ch|apply fd_const].
  - intros t. apply (is_derive_ext (fun t => cosh (Cmod z * t) + - (1))); [intros; reflexivity|].
    replace (Cmod z * sinh (Cmod z * t)) with (Cmod z * sinh (Cmod z * t) + 0) by ring.
    apply (is_derive_plus (fun t => cosh (Cmod z * t)) (fun _ => - (1))); [apply d_cosh|apply (is_derive_const (K := R_AbsRing) (V := R_NormedModule))].
  - rewrite Cch_0. ring.
  - rewrite cosh_0. ring.
  - intros t Ht. rewrite Cmod_mult. apply Rmult_le_compat_l; [apply Cmod_ge_0|]. rewrite <- mod_scaled by lra. apply Csh_mod.
Qed.
Lemma Csh_rem z : Cmod (Csh z - z)%C <= sinh (Cmod z) - Cmod z.
Proof.
  pose proof (dom (fun t => Csh (z * RtoC t) + - z * RtoC t)%C (fun t => z * (Cch (z * RtoC t) - 1))%C (fun t => sinh (Cmod z * t) - Cmod z * t) (fun t => Cmod z * (cosh (Cmod z * t) - 1))) as H.
  cbv beta in H. rewrite !Cmult_1_r, !Rmult_1_r, !Cmult_0_r, !Rmult_0_r in H.
  replace (Csh z - z)%C with (Csh z + - z)%C by ring. apply H; clear H.
  - intros t. apply (fd_ext (fun x => Csh (z * RtoC x) + - z * RtoC x)%C _ t (z * Cch (z * RtoC t) + - z * 1)%C); [intros; ring|ring|].
    apply fd_plus; [apply fd_sh|]. apply fd_scal. split; [change (is_derive (fun x : R => x) t 1); apply (is_derive_id (K := R_AbsRing))|change (is_derive (fun x : R => 0) t 0); apply (is_derive_const (K := R_AbsRing) (V := R_NormedModule))].
  - intros t. unfold sinh, cosh. auto_derive; [trivial|]. field.
  - rewrite Csh_0. ring.
  - rewrite sinh_0. ring.
  - intros t Ht. rewrite Cmod_mult. apply Rmult_le_compat_l; [apply Cmod_ge_0|]. rewrite <- mod_scaled by lra. apply Cch_rem.
Qed.
(** sinh x / x - 1 grows *)
Lemma sinh_ratio x y : 0 <= x <= y -> y * (sinh x - x) <= x * (sinh y - y).
Proof.
  intros [H1 H2]. assert (M := mono01 (fun t => x * sinh (y * t) - y * sinh (x * t)) (fun t => x * (y * cosh (y * t)) - y * (x * cosh (x * t)))).
  cbv beta in M. rewrite !Rmult_1_r, !Rmult_0_r, sinh_0, !Rmult_0_r in M.
  enough (0 - 0 <= x * sinh y - y * sinh x) by lra. apply M.
  - intros t. unfold sinh, cosh. auto_derive; [trivial|]. field.
  - intros t Ht. assert (cosh (x * t) <= cosh (y * t)) by (apply cosh_le; split; nra).
    assert (0 <= x * y) by (apply Rmult_le_pos; lra). nra.
Qed.
Lemma sinh_ge x : 0 <= x -> x <= sinh x.
Proof.
  intros H. assert (M := mono01 (fun t => sinh (x * t) - x * t) (fun t => x * (cosh (x * t) - 1))).
  cbv beta in M. rewrite !Rmult_1_r, !Rmult_0_r, sinh_0 in M. enough (0 - 0 <= sinh x - x) by lra. apply M.
  - intros t. unfold sinh, cosh. auto_derive; [trivial|]. field.
  - intros t Ht. apply Rmult_le_pos; [lra|]. pose proof (cosh_ge_1 (x * t)). lra.
Qed.
Lemma Cshc_rem z k : Cmod z <= k -> k * Cmod (Cshc z - 1)%C <= sinh k - k.
Proof.
  intros H. pose proof (Cmod_ge_0 z) as P. unfold Cshc. destruct (Ceq_dec z 0) as [E|N].
  - replace (RtoC 1 - 1)%C with (RtoC 0) by ring. rewrite Cmod_0, Rmult_0_r. pose proof (sinh_ge k). lra.
  - assert (MP : 0 < Cmod z) by (apply Cmod_gt_0; exact N).
    replace (Csh z / z - 1)%C with ((Csh z - z) / z)%C by (field; exact N). rewrite Cmod_div by exact N.
    pose proof (Csh_rem z) as R1. pose proof (sinh_ratio (Cmod z) k) as R2.
    apply Rmult_le_reg_r with (Cmod z); [exact MP|].
    replace (k * (Cmod (Csh z - z)%C / Cmod z) * Cmod z) with (k * Cmod (Csh z - z)%C) by (field; lra).
    assert (k * Cmod (Csh z - z)%C <= k * (sinh (Cmod z) - Cmod z)) by (apply Rmult_le_compat_l; lra). lra.
Qed.
Lemma Cch_rem_le z k : Cmod z <= k -> Cmod (Cch z - 1)%C <= cosh k - 1.
Proof. intros H. pose proof (Cch_rem z). pose proof (cosh_le (Cmod z) k (conj (Cmod_ge_0 z) H)). lra. Qed.

(** ** Vectors and matrices *)
Definition rem (k : R) : R := exp k - 1 - k.
Lemma rem_pos k : 0 <= rem k.
Proof. unfold rem. pose proof (exp_ineq1_le k). lra. Qed.
Lemma rem_sinh k : cosh k - 1 + (sinh k - k) = rem k.
Proof. unfold rem, cosh, sinh. field. Qed.
Lemma rem_quad k : 0 <= k -> 2 * rem k <= k ^ 2 * exp k.
Proof.
  intros H. assert (M := mono01 (fun t => (k * t) ^ 2 * exp (k * t) - 2 * (exp (k * t) - 1 - k * t)) (fun t => k * (2 * (k * t) * exp (k * t) + (k * t) ^ 2 * exp (k * t) - 2 * exp (k * t) + 2))).
  cbv beta in M. rewrite !Rmult_1_r, !Rmult_0_r, exp_0 in M. unfold rem.
  enough (0 ^ 2 * 1 - 2 * (1 - 1 - 0) <= k ^ 2 * exp k - 2 * (exp k - 1 - k)) by (simpl in *; lra). apply M.
  - intros t. auto_derive; [trivial|]. ring.
  - intros t Ht. apply Rmult_le_pos; [exact H|]. assert (P : 0 <= k * t) by (apply Rmult_le_pos; lra). set (x := k * t) in *.
    (* 2 x e^x - 2 e^x + 2 >= 0 : e^{-x} >= 1 - x *)
    pose proof (exp_pos x) as PE. pose proof (exp_ineq1_le (- x)) as I.
    assert (E : exp x * exp (- x) = 1) by (rewrite <- exp_plus; replace (x + - x) with 0 by ring; apply exp_0).
    assert (exp x * (1 + - x) <= exp x * exp (- x)) by (apply Rmult_le_compat_l; lra).
    assert (0 <= x ^ 2 * exp x) by (apply Rmult_le_pos; [apply pow2_ge_0|lra]). lra.
Qed.

Definition vec := (C * C)%type.
Definition vsub (x y : vec) : vec := (fst x - fst y, snd x - snd y)%C.
Definition mv (M : cmat) (x : vec) : vec := (c00 M * fst x + c01 M * snd x, c10 M * fst x + c11 M * snd x)%C.
Definition nrm (p : R) (x : vec) : R := Cmod (fst x) + p * Cmod (snd x).
(** identity plus generator *)
Definition first (a b : C) (x : vec) : vec := (fst x + a * snd x, snd x + b * fst x)%C.

Lemma mv_mul A B x : mv (pmul A B) x = mv A (mv B x).
Proof. unfold mv. destruct x as [u v]; simpl. f_equal; ring. Qed.
Lemma mv_I x : mv pI x = x.
Proof. unfold mv. destruct x as [u v]; simpl. f_equal; ring. Qed.
Lemma nrm_pos p x : 0 < p -> 0 <= nrm p x.
Proof. intros Hp. unfold nrm. pose proof (Cmod_ge_0 (fst x)). pose proof (Cmod_ge_0 (snd x)). nra. Qed.
Lemma nrm_tri p x y z : 0 < p -> nrm p (vsub x z) <= nrm p (vsub x y) + nrm p (vsub y z).
Proof.
  intros Hp. unfold nrm, vsub; cbn [fst snd].
  assert (T : forall a b c : C, Cmod (a - c)%C <= Cmod (a - b)%C + Cmod (b - c)%C).
  { intros a b c. replace (a - c)%C with ((a - b) + (b - c))%C by ring. apply Cmod_triangle. }
  pose proof (T (fst x) (fst y) (fst z)). pose proof (T (snd x) (snd y) (snd z)). nra.
Qed.
Lemma nrm_sub_le p x y : 0 < p -> nrm p x <= nrm p (vsub x y) + nrm p y.
Proof.
  intros Hp. unfold nrm, vsub; cbn [fst snd].
  assert (T : forall a b : C, Cmod a <= Cmod (a - b)%C + Cmod b).
  { intros a b. eapply Rle_trans; [|apply Cmod_triangle]. right. f_equal. ring. }
  pose proof (T (fst x) (fst y)). pose proof (T (snd x) (snd y)). nra.
Qed.
Lemma vsub_sym p x y : nrm p (vsub x y) = nrm p (vsub y x).
Proof.
  unfold nrm, vsub; cbn [fst snd]. rewrite <- (Cmod_opp (fst x - fst y)%C), <- (Cmod_opp (snd x - snd y)%C). f_equal; [|f_equal]; f_equal; ring.
Qed.
Lemma mv_vsub M x y : mv M (vsub x y) = vsub (mv M x) (mv M y).
Proof. unfold mv, vsub; cbn [fst snd]. f_equal; ring. Qed.

(** [M] is the identity plus the generator (0 a; b 0) up to second order in [k] *)
Definition small (p k : R) (a b : C) (M : cmat) : Prop :=
  0 <= k /\ Cmod a <= p * k /\ p * Cmod b <= k /\ forall x, nrm p (vsub (mv M x) (first a b x)) <= rem k * nrm p x.

Section Small.
Variable p : R.
Hypothesis Hp : 0 < p.
Lemma gen_bound k a b x : Cmod a <= p * k -> p * Cmod b <= k -> nrm p (vsub (first a b x) x) <= k * nrm p x.
Proof using Hp.
  intros Ha Hb. unfold nrm, vsub, first; cbn [fst snd].
  replace (fst x + a * snd x - fst x)%C with (a * snd x)%C by ring. replace (snd x + b * fst x - snd x)%C with (b * fst x)%C by ring.
  rewrite !Cmod_mult. pose proof (Cmod_ge_0 (fst x)). pose proof (Cmod_ge_0 (snd x)).
  assert (Cmod a * Cmod (snd x) <= p * k * Cmod (snd x)) by (apply Rmult_le_compat_r; assumption).
  assert (p * Cmod b * Cmod (fst x) <= k * Cmod (fst x)) by (apply Rmult_le_compat_r; assumption). nra.
Qed.
Lemma small_grow k a b M x : small p k a b M -> nrm p (vsub (mv M x) x) <= (exp k - 1) * nrm p x.
Proof using Hp.
  intros (Hk & Ha & Hb & H). pose proof (nrm_tri p (mv M x) (first a b x) x Hp). pose proof (gen_bound k a b x Ha Hb). specialize (H x).
  unfold rem in H. lra.
Qed.
Lemma small_norm k a b M x : small p k a b M -> nrm p (mv M x) <= exp k * nrm p x.
Proof using Hp. intros H. pose proof (small_grow k a b M x H). pose proof (nrm_sub_le p (mv M x) x Hp). lra. Qed.

Lemma small_I : small p 0 0 0 pI.
Proof using Hp.
  split; [lra|]. rewrite Cmod_0. split; [lra|]. split; [lra|]. intros x. rewrite mv_I. unfold first, vsub, nrm; cbn [fst snd].
  replace (fst x - (fst x + 0 * snd x))%C with (RtoC 0) by ring. replace (snd x - (snd x + 0 * fst x))%C with (RtoC 0) by ring.
  rewrite Cmod_0. unfold rem. rewrite exp_0. lra.
Qed.
Lemma small_mul k a b M k' a' b' M' : small p k a b M -> small p k' a' b' M' -> small p (k + k') (a + a')%C (b + b')%C (pmul M M').
Proof using Hp.
  intros HM HM'. pose proof HM as (Hk & Ha & Hb & H). pose proof HM' as (Hk' & Ha' & Hb' & H').
  split; [lra|]. split; [pose proof (Cmod_triangle a a'); lra|]. split; [pose proof (Cmod_triangle b b'); nra|].
  intros x. rewrite mv_mul.
  (* M M' x - M (first' x), M (first' x) - (first x + (first' x - x)) *)
  pose proof (nrm_tri p (mv M (mv M' x)) (mv M (first a' b' x)) (first (a + a')%C (b + b')%C x) Hp) as T.
  assert (B1 : nrm p (vsub (mv M (mv M' x)) (mv M (first a' b' x))) <= exp k * (rem k' * nrm p x)).
  { rewrite <- mv_vsub. eapply Rle_trans; [apply (small_norm k a b M _ HM)|]. apply Rmult_le_compat_l; [left; apply exp_pos|apply H']. }
  set (d := vsub (first a' b' x) x).
  assert (B2 : nrm p (vsub (mv M (first a' b' x)) (first (a + a')%C (b + b')%C x)) <= nrm p (vsub (mv M x) (first a b x)) + nrm p (vsub (mv M d) d)).
  { replace (vsub (mv M (first a' b' x)) (first (a + a')%C (b + b')%C x))
      with (vsub (vsub (mv M x) (first a b x)) (vsub d (mv M d))).
    - eapply Rle_trans with (nrm p (vsub (mv M x) (first a b x)) + nrm p (vsub d (mv M d))).
      + unfold nrm, vsub; cbn [fst snd]. assert (TT : forall u v : C, Cmod (u - v)%C <= Cmod u + Cmod v).
        { intros u v. unfold Cminus. eapply Rle_trans; [apply Cmod_triangle|]. rewrite Cmod_opp. lra. }
        match goal with |- Cmod (?A - ?B)%C + p * Cmod (?E - ?F)%C <= _ => pose proof (TT A B); pose proof (TT E F) end. nra.
      + rewrite (vsub_sym p d). lra.
    - unfold d, vsub, mv, first; cbn [fst snd]. f_equal; ring. }
  assert (B3 : nrm p (vsub (mv M d) d) <= (exp k - 1) * (k' * nrm p x)).
  { eapply Rle_trans; [apply (small_grow k a b M _ HM)|]. apply Rmult_le_compat_l; [pose proof (exp_ineq1_le k); lra|]. apply gen_bound; assumption. }
  specialize (H x). unfold rem in *. rewrite exp_plus. set (n := nrm p x) in *. set (E := exp k) in *. set (E' := exp k') in *.
  replace ((E * E' - 1 - (k + k')) * n) with (E * ((E' - 1 - k') * n) + (E - 1 - k) * n + (E - 1) * (k' * n)) by ring. lra.
Qed.

(** one homogeneous layer, isotropic or not *)
Definition slab_of (a b z : C) : cmat := mkC (Cch z) (a * Cshc z)%C (b * Cshc z)%C (Cch z).
Lemma slab_small k a b z : (z * z = a * b)%C -> 0 <= k -> Cmod a <= p * k -> p * Cmod b <= k -> small p k a b (slab_of a b z).
Proof using Hp.
  intros Hz Hk Ha Hb. split; [exact Hk|]. split; [exact Ha|]. split; [exact Hb|]. intros x.
  assert (Z : Cmod z <= k).
  { apply Rsqr_incr_0_var; [|exact Hk]. unfold Rsqr. rewrite <- Cmod_mult, Hz, Cmod_mult.
    pose proof (Cmod_ge_0 a). pose proof (Cmod_ge_0 b). 
    apply Rmult_le_reg_l with p; [exact Hp|]. assert (Cmod a * (p * Cmod b) <= (p * k) * k) by (apply Rmult_le_compat; nra). nra. }
  pose proof (Cch_rem_le z k Z) as RC. pose proof (Cshc_rem z k Z) as RS.
  pose proof (gen_bound k a b x Ha Hb) as G.
  assert (E : nrm p (vsub (mv (slab_of a b z) x) (first a b x)) <= Cmod (Cch z - 1)%C * nrm p x + Cmod (Cshc z - 1)%C * nrm p (vsub (first a b x) x)).
  { unfold nrm, vsub, mv, first, slab_of; cbn [fst snd c00 c01 c10 c11].
    replace (Cch z * fst x + a * Cshc z * snd x - (fst x + a * snd x))%C with ((Cch z - 1) * fst x + (Cshc z - 1) * (fst x + a * snd x - fst x))%C by ring.
    replace (b * Cshc z * fst x + Cch z * snd x - (snd x + b * fst x))%C with ((Cch z - 1) * snd x + (Cshc z - 1) * (snd x + b * fst x - snd x))%C by ring.
    assert (T : forall u v s t : C, Cmod (u * v + s * t)%C <= Cmod u * Cmod v + Cmod s * Cmod t).
    { intros u v s t. eapply Rle_trans; [apply Cmod_triangle|]. rewrite !Cmod_mult. lra. }
    pose proof (T (Cch z - 1)%C (fst x) (Cshc z - 1)%C (fst x + a * snd x - fst x)%C).
    pose proof (T (Cch z - 1)%C (snd x) (Cshc z - 1)%C (snd x + b * fst x - snd x)%C). nra. }
  eapply Rle_trans; [exact E|]. rewrite <- rem_sinh.
  pose proof (nrm_pos p x Hp) as N. pose proof (Cmod_ge_0 (Cshc z - 1)%C) as S0.
  assert (Cmod (Cch z - 1)%C * nrm p x <= (cosh k - 1) * nrm p x) by (apply Rmult_le_compat_r; lra).
  assert (Cmod (Cshc z - 1)%C * nrm p (vsub (first a b x) x) <= Cmod (Cshc z - 1)%C * (k * nrm p x)) by (apply Rmult_le_compat_l; lra).
  assert (k * Cmod (Cshc z - 1)%C * nrm p x <= (sinh k - k) * nrm p x) by (apply Rmult_le_compat_r; lra). lra.
Qed.

Fixpoint mpow (M : cmat) (n : nat) : cmat := match n with O => pI | S m => pmul M (mpow M m) end.
Lemma power_close h a b X Y : small p h a b X -> small p h a b Y -> forall n x,
  nrm p (mv (mpow Y n) x) <= exp (INR n * h) * nrm p x /\
  nrm p (vsub (mv (mpow X n) x) (mv (mpow Y n) x)) <= INR n * (2 * rem h) * exp (INR n * h) * exp (- h) * nrm p x.
Proof using Hp.
  intros HX HY. induction n as [|n IH]; intros x.
  - cbn [mpow]. rewrite mv_I. change (INR 0) with 0. rewrite Rmult_0_l, exp_0. split; [lra|].
    unfold vsub, nrm; cbn [fst snd]. replace (fst x - fst x)%C with (RtoC 0) by ring. replace (snd x - snd x)%C with (RtoC 0) by ring. rewrite Cmod_0. lra.
  - destruct (IH x) as [I1 I2]. cbn [mpow]. rewrite !mv_mul, S_INR.
    set (u := mv (mpow X n) x) in *. set (v := mv (mpow Y n) x) in *. set (N := nrm p x) in *.
    assert (EP : exp ((INR n + 1) * h) = exp (INR n * h) * exp h) by (rewrite <- exp_plus; f_equal; ring).
    assert (E1 : exp h * exp (- h) = 1) by (rewrite <- exp_plus; replace (h + - h) with 0 by ring; apply exp_0).
    pose proof (exp_pos h) as P1. pose proof (exp_pos (INR n * h)) as P2.
    split.
    + eapply Rle_trans; [apply (small_norm h a b Y _ HY)|]. rewrite EP.
      replace (exp (INR n * h) * exp h * N) with (exp h * (exp (INR n * h) * N)) by ring. apply Rmult_le_compat_l; lra.
    + pose proof (nrm_tri p (mv X u) (mv X v) (mv Y v) Hp) as T.
      assert (A1 : nrm p (vsub (mv X u) (mv X v)) <= exp h * (INR n * (2 * rem h) * exp (INR n * h) * exp (- h) * N)).
      { rewrite <- mv_vsub. eapply Rle_trans; [apply (small_norm h a b X _ HX)|]. apply Rmult_le_compat_l; lra. }
      assert (A2 : nrm p (vsub (mv X v) (mv Y v)) <= 2 * rem h * (exp (INR n * h) * N)).
      { pose proof (nrm_tri p (mv X v) (first a b v) (mv Y v) Hp) as T2. rewrite (vsub_sym p (first a b v)) in T2.
        destruct HX as (_ & _ & _ & HX). destruct HY as (_ & _ & _ & HY). specialize (HX v). specialize (HY v).
        pose proof (rem_pos h). assert (rem h * nrm p v <= rem h * (exp (INR n * h) * N)) by (apply Rmult_le_compat_l; lra). lra. }
      rewrite EP. replace ((INR n + 1) * (2 * rem h) * (exp (INR n * h) * exp h) * exp (- h) * N)
        with (exp h * (INR n * (2 * rem h) * exp (INR n * h) * exp (- h) * N) + 2 * rem h * (exp (INR n * h) * N) * (exp h * exp (- h))) by ring.
      rewrite E1. lra.
Qed.
End Small.
