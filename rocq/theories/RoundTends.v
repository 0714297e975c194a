(** * Lemmas: errors of order u, for every operation *)
From Coq Require Import String Reals Lra Lia List Permutation ZArith Bool.
From Coquelicot Require Import Rcomplements Complex.
From Verif Require Import Num NumLemmas ModelBase ModelSample ModelTip SpecRound ModelRound ModelRound2 RoundLemmas DemodLemmas RoundLemmas2.
Import ListNotations.
Open Scope R_scope.

(** what is known of a machine beside its relative error [u]; the plain case is nothing *)
Class gauge := fine : R -> machine -> Prop.
Ltac all_m := let u := fresh "u" in exists (1 / 100); split; [lra|]; intros u ? [? ?] [? ?] _ _.

Section Gauge.
Context {gauge_ : gauge}.

(** true on every machine that rounds finely enough *)
Definition ev (P : R -> machine -> Prop) : Prop :=
  exists u1, 0 < u1 /\ forall u m, 0 <= u <= u1 -> rounding u m -> fine u m -> P u m.
Lemma ev_and P Q : ev P -> ev Q -> ev (fun u m => P u m /\ Q u m).
Proof.
  intros (u1 & H1 & HP) (u2 & H2 & HQ). exists (Rmin u1 u2). split; [now apply Rmin_pos|].
  intros u m Hu Hm Hf. pose proof (Rmin_l u1 u2). pose proof (Rmin_r u1 u2). split; [apply HP|apply HQ]; auto; lra.
Qed.
Lemma ev_imp (P Q : R -> machine -> Prop) : ev P -> (forall u m, 0 <= u -> rounding u m -> P u m -> Q u m) -> ev Q.
Proof. intros (u1 & H1 & HP) H. exists u1. split; [exact H1|]. intros u m Hu Hm Hf. apply H; [lra|exact Hm|now apply HP]. Qed.
Lemma ev_le u1 : 0 < u1 -> ev (fun u m => u <= u1).
Proof. intros H. exists u1. split; [exact H|]. intros u m [_ Hu] _ _. exact Hu. Qed.

Definition small (e : machine -> R) : Prop := exists K, 0 <= K /\ ev (fun u m => Rabs (e m) <= K * u).
Lemma small_below e d : 0 < d -> small e -> ev (fun u m => Rabs (e m) <= d).
Proof.
  intros Hd (K & HK & H). assert (P : 0 < d / (K + 1)) by (apply Rdiv_lt_0_compat; lra).
  apply (ev_imp _ _ (ev_and _ _ H (ev_le _ P))). intros u m Hu _ [H1 H2]. eapply Rle_trans; [exact H1|].
  apply (Rmult_le_compat_l K) in H2; [|exact HK]. eapply Rle_trans; [exact H2|].
  apply (Rmult_le_reg_r (K + 1)); [lra|]. replace (K * (d / (K + 1)) * (K + 1)) with (K * d) by (field; lra). nra.
Qed.
Lemma small_lin (e e1 e2 : machine -> R) a b : 0 <= a -> 0 <= b -> small e1 -> small e2 ->
  ev (fun u m => Rabs (e m) <= a * Rabs (e1 m) + b * Rabs (e2 m)) -> small e.
Proof.
  intros Ha Hb (K1 & P1 & H1) (K2 & P2 & H2) H. exists (a * K1 + b * K2). split.
  { apply Rplus_le_le_0_compat; apply Rmult_le_pos; assumption. }
  apply (ev_imp _ _ (ev_and _ _ H (ev_and _ _ H1 H2))). intros u m Hu _ (Q & Q1 & Q2).
  apply (Rmult_le_compat_l a) in Q1; [|exact Ha]. apply (Rmult_le_compat_l b) in Q2; [|exact Hb]. lra.
Qed.
Lemma small_dom (e e1 : machine -> R) a : 0 <= a -> small e1 -> ev (fun u m => Rabs (e m) <= a * Rabs (e1 m)) -> small e.
Proof.
  intros Ha H1 H. apply (small_lin e e1 e1 a 0); [exact Ha|lra|exact H1|exact H1|].
  apply (ev_imp _ _ H). intros. lra.
Qed.

(** ** Real and complex numbers computed with an error of order u *)
Definition rt (v : RV) (x : machine -> R) : Prop := forall a, v = Some a -> small (fun m => x m - a).
Definition ct (v : CV) (x : machine -> C) : Prop := forall a, v = Some a -> small (fun m => Cmod (x m - a)%C).
Lemma small_0 : small (fun _ => 0).
Proof. exists 0. split; [lra|]. apply (ev_imp _ _ (ev_le 1 ltac:(lra))). intros. rewrite Rabs_R0. lra. Qed.
Lemma rt_ext v x y : (forall m, x m = y m) -> rt v x -> rt v y.
Proof. intros E H a Ha. specialize (H a Ha). destruct H as (K & HK & H). exists K. split; [exact HK|]. apply (ev_imp _ _ H). intros u m _ _. rewrite E. auto. Qed.
Lemma ct_ext v x y : (forall m, x m = y m) -> ct v x -> ct v y.
Proof. intros E H a Ha. specialize (H a Ha). destruct H as (K & HK & H). exists K. split; [exact HK|]. apply (ev_imp _ _ H). intros u m _ _. rewrite E. auto. Qed.
Lemma rt_const a : rt (rr a) (fun _ => a).
Proof. intros b Hb. injection Hb as <-. replace (a - a) with 0 by ring. apply small_0. Qed.
Lemma ct_const a : ct (Some a) (fun _ => a).
Proof. intros b Hb. injection Hb as <-. replace (a - a)%C with (RtoC 0) by ring. rewrite Cmod_0. apply small_0. Qed.
Lemma ct_None x : ct None x. Proof. intros a H. discriminate. Qed.
Lemma rt_None x : rt None x. Proof. intros a H. discriminate. Qed.
Lemma ct_val0 v : ct v (fun _ => val0 v).
Proof. destruct v; [apply ct_const|apply ct_None]. Qed.
Lemma ct_ofR v x : rt v x -> ct (ofR v) (fun m => RtoC (x m)).
Proof.
  intros H a Ha. destruct v as [b|]; [|discriminate]. injection Ha as <-. apply (small_dom _ _ 1 ltac:(lra) (H b eq_refl)).
  apply (ev_imp _ _ (ev_le 1 ltac:(lra))). intros. rewrite <- RtoC_minus, Cmod_R, Rabs_Rabsolu. lra.
Qed.

(** one more rounding *)
Lemma rt_round v x y : rt v x -> ev (fun u m => v <> None -> near u (x m) (y m)) -> rt v y.
Proof.
  intros H Hn a Ha. specialize (H a Ha). destruct H as (K & HK & H). exists (K + (Rabs a + K)). pose proof (Rabs_pos a) as Pa. split; [lra|].
  apply (ev_imp _ _ (ev_and _ _ (ev_and _ _ H Hn) (ev_le 1 ltac:(lra)))). intros u m Hu _ [[H1 H2] H3].
  specialize (H2 ltac:(rewrite Ha; discriminate)). unfold near in H2.
  replace (y m - a) with ((y m - x m) + (x m - a)) by ring. eapply Rle_trans; [apply Rabs_triang|].
  assert (Rabs (x m) <= Rabs a + K).
  { replace (x m) with ((x m - a) + a) by ring. eapply Rle_trans; [apply Rabs_triang|]. nra. }
  assert (u * Rabs (x m) <= u * (Rabs a + K)) by (apply Rmult_le_compat_l; lra). lra.
Qed.
Lemma ct_round c v x y : 0 <= c -> ct v x -> ev (fun u m => v <> None -> cnear (c * u) (x m) (y m)) -> ct v y.
Proof.
  intros Hc H Hn a Ha. specialize (H a Ha). destruct H as (K & HK & H). exists (K + c * (Cmod a + K)). pose proof (Cmod_ge_0 a) as Pa. split.
  { apply Rplus_le_le_0_compat; [exact HK|apply Rmult_le_pos; lra]. }
  apply (ev_imp _ _ (ev_and _ _ (ev_and _ _ H Hn) (ev_le 1 ltac:(lra)))). intros u m Hu _ [[H1 H2] H3].
  specialize (H2 ltac:(rewrite Ha; discriminate)). unfold cnear in H2. rewrite Rabs_pos_eq in H1 |- * by apply Cmod_ge_0.
  replace (y m - a)%C with ((y m - x m) + (x m - a))%C by ring. eapply Rle_trans; [apply Cmod_triangle|].
  assert (Cmod (x m) <= Cmod a + K).
  { replace (x m) with ((x m - a) + a)%C by ring. eapply Rle_trans; [apply Cmod_triangle|]. nra. }
  assert (c * u * Cmod (x m) <= c * u * (Cmod a + K)) by (apply Rmult_le_compat_l; [apply Rmult_le_pos; lra|lra]). lra.
Qed.


(** ** Exact operations *)
Lemma rt_plus v x w y : rt v x -> rt w y -> rt (v + w)%rv (fun m => x m + y m).
Proof.
  intros H1 H2 a Ha. destruct v as [b|], w as [c|]; try discriminate. injection Ha as <-.
  apply (small_lin _ _ _ 1 1 ltac:(lra) ltac:(lra) (H1 b eq_refl) (H2 c eq_refl)). apply (ev_imp _ _ (ev_le 1 ltac:(lra))). intros u m _ _ _.
  replace (x m + y m - (b + c)) with ((x m - b) + (y m - c)) by ring. eapply Rle_trans; [apply Rabs_triang|]. lra.
Qed.
Lemma rt_opp v x : rt v x -> rt (olift1 Ropp v) (fun m => - x m).
Proof.
  intros H a Ha. destruct v as [b|]; [|discriminate]. injection Ha as <-. apply (small_dom _ _ 1 ltac:(lra) (H b eq_refl)).
  apply (ev_imp _ _ (ev_le 1 ltac:(lra))). intros u m _ _ _. replace (- x m - - b) with (- (x m - b)) by ring. rewrite Rabs_Ropp. lra.
Qed.
Lemma rt_minus v x w y : rt v x -> rt w y -> rt (v - w)%rv (fun m => x m - y m).
Proof.
  intros H1 H2 a Ha. destruct v as [b|], w as [c|]; try discriminate. injection Ha as <-.
  apply (small_lin _ _ _ 1 1 ltac:(lra) ltac:(lra) (H1 b eq_refl) (H2 c eq_refl)). apply (ev_imp _ _ (ev_le 1 ltac:(lra))). intros u m _ _ _.
  replace (x m - y m - (b - c)) with ((x m - b) + - (y m - c)) by ring. eapply Rle_trans; [apply Rabs_triang|]. rewrite Rabs_Ropp. lra.
Qed.
Lemma rt_mult v x w y : rt v x -> rt w y -> rt (v * w)%rv (fun m => x m * y m).
Proof.
  intros H1 H2 a Ha. destruct v as [b|], w as [c|]; try discriminate. injection Ha as <-.
  specialize (H1 b eq_refl). specialize (H2 c eq_refl). pose proof (Rabs_pos c). pose proof (Rabs_pos b).
  apply (small_lin _ _ _ (Rabs c + 1) (Rabs b) ltac:(lra) ltac:(lra) H1 H2).
  apply (ev_imp _ _ (small_below _ 1 ltac:(lra) H2)). intros u m _ _ Q.
  replace (x m * y m - b * c) with ((x m - b) * y m + b * (y m - c)) by ring. eapply Rle_trans; [apply Rabs_triang|]. rewrite !Rabs_mult.
  assert (Rabs (y m) <= Rabs c + 1) by (replace (y m) with ((y m - c) + c) by ring; eapply Rle_trans; [apply Rabs_triang|]; lra).
  assert (Rabs (x m - b) * Rabs (y m) <= Rabs (x m - b) * (Rabs c + 1)) by (apply Rmult_le_compat_l; [apply Rabs_pos|lra]). lra.
Qed.
Lemma ct_plus v x w y : ct v x -> ct w y -> ct (v + w)%cv (fun m => x m + y m)%C.
Proof.
  intros H1 H2 a Ha. destruct v as [b|], w as [c|]; try discriminate. injection Ha as <-.
  apply (small_lin _ _ _ 1 1 ltac:(lra) ltac:(lra) (H1 b eq_refl) (H2 c eq_refl)). apply (ev_imp _ _ (ev_le 1 ltac:(lra))). intros u m _ _ _.
  rewrite !Rabs_pos_eq by apply Cmod_ge_0.
  replace (x m + y m - (b + c))%C with ((x m - b) + (y m - c))%C by ring. eapply Rle_trans; [apply Cmod_triangle|]. lra.
Qed.
Lemma ct_minus v x w y : ct v x -> ct w y -> ct (v - w)%cv (fun m => x m - y m)%C.
Proof.
  intros H1 H2 a Ha. destruct v as [b|], w as [c|]; try discriminate. injection Ha as <-.
  apply (small_lin _ _ _ 1 1 ltac:(lra) ltac:(lra) (H1 b eq_refl) (H2 c eq_refl)). apply (ev_imp _ _ (ev_le 1 ltac:(lra))). intros u m _ _ _.
  rewrite !Rabs_pos_eq by apply Cmod_ge_0.
  replace (x m - y m - (b - c))%C with ((x m - b) + - (y m - c))%C by ring. eapply Rle_trans; [apply Cmod_triangle|]. rewrite Cmod_opp. lra.
Qed.
Lemma ct_mult v x w y : ct v x -> ct w y -> ct (v * w)%cv (fun m => x m * y m)%C.
Proof.
  intros H1 H2 a Ha. destruct v as [b|], w as [c|]; try discriminate. injection Ha as <-.
  specialize (H1 b eq_refl). specialize (H2 c eq_refl). pose proof (Cmod_ge_0 c). pose proof (Cmod_ge_0 b).
  apply (small_lin _ _ _ (Cmod c + 1) (Cmod b) ltac:(lra) ltac:(lra) H1 H2).
  apply (ev_imp _ _ (small_below _ 1 ltac:(lra) H2)). intros u m _ _ Q. rewrite Rabs_pos_eq in Q |- * by apply Cmod_ge_0. rewrite !Rabs_pos_eq by apply Cmod_ge_0.
  replace (x m * y m - b * c)%C with ((x m - b) * y m + b * (y m - c))%C by ring. eapply Rle_trans; [apply Cmod_triangle|]. rewrite !Cmod_mult.
  assert (Cmod (y m) <= Cmod c + 1) by (replace (y m) with ((y m - c) + c)%C by ring; eapply Rle_trans; [apply Cmod_triangle|]; lra).
  assert (Cmod (x m - b)%C * Cmod (y m) <= Cmod (x m - b)%C * (Cmod c + 1)) by (apply Rmult_le_compat_l; [apply Cmod_ge_0|lra]). lra.
Qed.
(** a divisor that does not vanish exactly does not vanish on fine machines *)
Lemma ct_nonzero w y b : ct w y -> w = Some b -> b <> RtoC 0 -> ev (fun u m => Cmod b / 2 <= Cmod (y m) /\ y m <> RtoC 0).
Proof.
  intros H Hw Hb. specialize (H b Hw). assert (P : 0 < Cmod b) by (now apply Cmod_gt_0).
  apply (ev_imp _ _ (small_below _ (Cmod b / 2) ltac:(lra) H)). intros u m _ _ Q. rewrite Rabs_pos_eq in Q by apply Cmod_ge_0.
  assert (L : Cmod b / 2 <= Cmod (y m)).
  { assert (Cmod b <= Cmod (y m - b)%C + Cmod (y m)); [|lra]. rewrite <- (Cmod_opp (y m - b)%C).
    replace b with (- (y m - b) + y m)%C at 1 by ring. apply Cmod_triangle. }
  split; [exact L|]. intros E. rewrite E, Cmod_0 in L. lra.
Qed.
Lemma rt_nonzero w y b : rt w y -> w = Some b -> b <> 0 -> ev (fun u m => Rabs b / 2 <= Rabs (y m) /\ y m <> 0).
Proof.
  intros H Hw Hb. specialize (H b Hw). assert (P : 0 < Rabs b) by (now apply Rabs_pos_lt).
  apply (ev_imp _ _ (small_below _ (Rabs b / 2) ltac:(lra) H)). intros u m _ _ Q.
  assert (L : Rabs b / 2 <= Rabs (y m)).
  { assert (Rabs b <= Rabs (y m - b) + Rabs (y m)); [|lra]. rewrite <- (Rabs_Ropp (y m - b)).
    replace b with (- (y m - b) + y m) at 1 by ring. apply Rabs_triang. }
  split; [exact L|]. intros E. rewrite E, Rabs_R0 in L. lra.
Qed.
Lemma ct_inv b y : b <> RtoC 0 -> ct (Some b) y -> ct (Some (/ b)%C) (fun m => / y m)%C.
Proof.
  intros Hb H a Ha. injection Ha as <-. assert (P : 0 < Cmod b) by (now apply Cmod_gt_0).
  assert (P2 : 0 < / (Cmod b * (Cmod b / 2))) by (apply Rinv_0_lt_compat, Rmult_lt_0_compat; lra).
  apply (small_dom _ _ (/ (Cmod b * (Cmod b / 2))) ltac:(lra) (H b eq_refl)).
  apply (ev_imp _ _ (ct_nonzero _ _ b H eq_refl Hb)). intros u m _ _ [Q1 Q2]. rewrite !Rabs_pos_eq by apply Cmod_ge_0.
  replace (/ y m - / b)%C with (- (y m - b) * / (b * y m))%C by (field; auto).
  assert (Hby : (b * y m)%C <> RtoC 0) by (apply Cmult_neq_0; auto).
  rewrite Cmod_mult, Cmod_opp, Cmod_inv, Cmod_mult by exact Hby. rewrite Rmult_comm. apply Rmult_le_compat_r; [apply Cmod_ge_0|].
  apply Rinv_le_contravar; [apply Rmult_lt_0_compat; lra|]. apply Rmult_le_compat_l; lra.
Qed.
Lemma rt_inv b y : b <> 0 -> rt (Some b) y -> rt (Some (/ b)) (fun m => / y m).
Proof.
  intros Hb H a Ha. injection Ha as <-. assert (P : 0 < Rabs b) by (now apply Rabs_pos_lt).
  assert (P2 : 0 < / (Rabs b * (Rabs b / 2))) by (apply Rinv_0_lt_compat, Rmult_lt_0_compat; lra).
  apply (small_dom _ _ (/ (Rabs b * (Rabs b / 2))) ltac:(lra) (H b eq_refl)).
  apply (ev_imp _ _ (rt_nonzero _ _ b H eq_refl Hb)). intros u m _ _ [Q1 Q2].
  replace (/ y m - / b) with (- (y m - b) * / (b * y m)) by (field; auto).
  rewrite Rabs_mult, Rabs_Ropp, Rabs_inv, Rabs_mult. rewrite Rmult_comm. apply Rmult_le_compat_r; [apply Rabs_pos|].
  apply Rinv_le_contravar; [apply Rmult_lt_0_compat; lra|]. apply Rmult_le_compat_l; lra.
Qed.
Lemma rt_divide v x w y : rt v x -> rt w y -> rt (v / w)%rv (fun m => x m / y m).
Proof.
  intros H1 H2. destruct v as [b|], w as [c|]; try apply rt_None. unfold rdiv. destruct (Req_EM_T c 0) as [Z|Z]; [apply rt_None|].
  exact (rt_mult _ _ _ _ H1 (rt_inv c y Z H2)).
Qed.
Lemma ct_divide v x w y : ct v x -> ct w y -> ct (v / w)%cv (fun m => x m / y m)%C.
Proof.
  intros H1 H2. destruct v as [b|], w as [c|]; try apply ct_None. unfold cdiv. destruct (Ceq_dec c (RtoC 0)) as [Z|Z]; [apply ct_None|].
  exact (ct_mult _ _ _ _ H1 (ct_inv c y Z H2)).
Qed.

(** ** Rounded operations *)
Lemma T_lit a : rt (rr a) (fun m => a_lit m a).
Proof. apply (rt_round _ _ _ (rt_const a)). all_m. apply r_lit. assumption. Qed.
Lemma T_add v x w y : rt v x -> rt w y -> rt (v + w)%rv (fun m => a_add m (x m) (y m)).
Proof. intros H1 H2. apply (rt_round _ _ _ (rt_plus _ _ _ _ H1 H2)). all_m. apply r_add. assumption. Qed.
Lemma T_sub v x w y : rt v x -> rt w y -> rt (v - w)%rv (fun m => a_sub m (x m) (y m)).
Proof. intros H1 H2. apply (rt_round _ _ _ (rt_minus _ _ _ _ H1 H2)). all_m. apply r_sub. assumption. Qed.
Lemma T_mul v x w y : rt v x -> rt w y -> rt (v * w)%rv (fun m => a_mul m (x m) (y m)).
Proof. intros H1 H2. apply (rt_round _ _ _ (rt_mult _ _ _ _ H1 H2)). all_m. apply r_mul. assumption. Qed.
Lemma T_div v x w y : rt v x -> rt w y -> rt (v / w)%rv (fun m => a_div m (x m) (y m)).
Proof.
  intros H1 H2. apply (rt_round _ _ _ (rt_divide _ _ _ _ H1 H2)). destruct w as [c|].
  - destruct (Req_EM_T c 0) as [Z|Z].
    + exists 1. split; [lra|]. intros u m _ _ _ N. exfalso. apply N. destruct v; [|reflexivity]. unfold rdiv. now destruct (Req_EM_T c 0).
    + apply (ev_imp _ _ (rt_nonzero _ _ c H2 eq_refl Z)). intros u m _ [Hm _] [_ Q] _. now apply r_div.
  - exists 1. split; [lra|]. intros u m _ _ _ N. exfalso. apply N. now destruct v.
Qed.
Lemma rt_pow v x n : rt v x -> rt (v ^ n)%rv (fun m => x m ^ n).
Proof.
  intros H. destruct v as [b|]; [|apply rt_None]. induction n as [|n IH]; [apply rt_const|].
  exact (rt_mult _ _ _ _ H IH).
Qed.
Lemma T_pow v x n : rt v x -> rt (v ^ n)%rv (fun m => a_pow m (x m) n).
Proof. intros H. apply (rt_round _ _ _ (rt_pow _ _ n H)). all_m. apply r_pow. assumption. Qed.

Lemma rt_lip (f : R -> R) v x : (forall a b, Rabs (f a - f b) <= Rabs (a - b)) -> rt v x -> rt (olift1 f v) (fun m => f (x m)).
Proof.
  intros Hf H a Ha. destruct v as [b|]; [|discriminate]. injection Ha as <-. apply (small_dom _ _ 1 ltac:(lra) (H b eq_refl)).
  apply (ev_imp _ _ (ev_le 1 ltac:(lra))). intros u m _ _ _. specialize (Hf (x m) b). lra.
Qed.
Lemma sin_lip a b : Rabs (sin a - sin b) <= Rabs (a - b).
Proof. eapply Rle_trans; [|apply circle_lip]. eapply Rle_trans; [|apply Rmax_Cmod]. simpl. apply Rmax_r. Qed.
Lemma T_cos v x : rt v x -> rt (olift1 cos v) (fun m => a_cos m (x m)).
Proof. intros H. apply (rt_round _ _ _ (rt_lip cos _ _ cos_lip H)). all_m. apply r_cos. assumption. Qed.
Lemma T_sin v x : rt v x -> rt (olift1 sin v) (fun m => a_sin m (x m)).
Proof. intros H. apply (rt_round _ _ _ (rt_lip sin _ _ sin_lip H)). all_m. apply r_sin. assumption. Qed.
Lemma exp_bound x : Rabs x <= 1 / 2 -> Rabs (exp x - 1) <= 2 * Rabs x.
Proof.
  intros H. pose proof (exp_ineq1_le x) as L. pose proof (exp_ineq1_le (- x)) as L2. rewrite exp_Ropp in L2. pose proof (exp_pos x) as P.
  assert (Q : (1 - x) * exp x <= 1).
  { apply (Rmult_le_compat_r (exp x)) in L2; [|lra]. rewrite Rinv_l in L2 by lra. lra. }
  apply Rabs_le_between in H. destruct (Rle_lt_dec 0 x) as [S|S].
  - rewrite (Rabs_pos_eq x S). apply Rabs_le. split; [lra|]. assert (exp x <= 1 + 2 * x); [|lra].
    apply (Rmult_le_reg_l (1 - x)); [lra|]. nra.
  - rewrite (Rabs_left1 x) by lra. apply Rabs_le. split; [lra|]. nra.
Qed.
Lemma rt_exp v x : rt v x -> rt (olift1 exp v) (fun m => exp (x m)).
Proof.
  intros H a Ha. destruct v as [b|]; [|discriminate]. injection Ha as <-. specialize (H b eq_refl). pose proof (exp_pos b) as P.
  apply (small_dom _ _ (exp b * 2) ltac:(lra) H). apply (ev_imp _ _ (small_below _ (1 / 2) ltac:(lra) H)). intros u m _ _ Q.
  replace (exp (x m) - exp b) with (exp b * (exp (x m - b) - 1)).
  2: { replace (exp (x m)) with (exp (b + (x m - b))) by (f_equal; ring). rewrite exp_plus. ring. }
  rewrite Rabs_mult, (Rabs_pos_eq (exp b)) by lra. rewrite Rmult_assoc. apply Rmult_le_compat_l; [lra|]. now apply exp_bound.
Qed.
Lemma T_exp v x : rt v x -> rt (olift1 exp v) (fun m => a_exp m (x m)).
Proof. intros H. apply (rt_round _ _ _ (rt_exp _ _ H)). all_m. apply r_exp. assumption. Qed.
Lemma ln_le_sub x y : 0 < x -> 0 < y -> ln y - ln x <= (y - x) / x.
Proof.
  intros Hx Hy. pose proof (exp_ineq1_le (ln (y / x))) as L. rewrite exp_ln in L by (apply Rdiv_lt_0_compat; lra).
  unfold Rdiv in L. rewrite ln_mult, ln_Rinv in L by (try apply Rinv_0_lt_compat; lra).
  replace ((y - x) / x) with (y * / x - 1) by (field; lra). lra.
Qed.
Lemma rt_pos_ev b y : 0 < b -> rt (Some b) y -> ev (fun u m => b / 2 <= y m).
Proof.
  intros Hb H. apply (ev_imp _ _ (small_below _ (b / 2) ltac:(lra) (H b eq_refl))). intros u m _ _ Q. apply Rabs_le_between in Q. lra.
Qed.
Lemma rt_ln v x : rt v x -> rt (rln v) (fun m => ln (x m)).
Proof.
  intros H. destruct v as [b|]; [|apply rt_None]. unfold rln. destruct (Rlt_dec 0 b) as [Hb|]; [|apply rt_None].
  intros a Ha. injection Ha as <-. assert (P : 0 <= 2 / b) by (apply Rlt_le, Rdiv_lt_0_compat; lra).
  apply (small_dom _ _ (2 / b) P (H b eq_refl)). apply (ev_imp _ _ (rt_pos_ev b x Hb H)). intros u m _ _ Q.
  pose proof (ln_le_sub b (x m) Hb ltac:(lra)) as L1. pose proof (ln_le_sub (x m) b ltac:(lra) Hb) as L2.
  pose proof (Rabs_pos (x m - b)) as PA. pose proof (Rle_abs (x m - b)) as A1. pose proof (Rle_abs (- (x m - b))) as A2. rewrite Rabs_Ropp in A2.
  assert (I1 : (x m - b) / b <= 2 / b * Rabs (x m - b)).
  { unfold Rdiv. assert (0 < / b) by (now apply Rinv_0_lt_compat). nra. }
  assert (I2 : (b - x m) / x m <= 2 / b * Rabs (x m - b)).
  { apply Rle_trans with (Rabs (x m - b) / x m).
    - unfold Rdiv. apply Rmult_le_compat_r; [apply Rlt_le, Rinv_0_lt_compat; lra|lra].
    - unfold Rdiv. rewrite Rmult_comm. apply Rmult_le_compat_r; [exact PA|]. replace (2 * / b) with (/ (b / 2)) by (field; lra).
      apply Rinv_le_contravar; lra. }
  apply Rabs_le. lra.
Qed.
Lemma T_log v x : rt v x -> rt (rln v) (fun m => a_log m (x m)).
Proof.
  intros H. apply (rt_round _ _ _ (rt_ln _ _ H)). destruct v as [b|].
  - destruct (Rlt_dec 0 b) as [Hb|Hb].
    + apply (ev_imp _ _ (rt_pos_ev b x Hb H)). intros u m _ [Hm _] Q _. apply r_log; [exact Hm|lra].
    + exists 1. split; [lra|]. intros u m _ _ _ N. exfalso. apply N. unfold rln. now destruct (Rlt_dec 0 b).
  - exists 1. split; [lra|]. intros u m _ _ _ N. exfalso. now apply N.
Qed.
Lemma T_hypot v x : ct v x -> rt (cabs v) (fun m => a_hypot m (Re (x m)) (Im (x m))).
Proof.
  intros H. apply (rt_round _ (fun m => Cmod (x m))).
  - intros a Ha. destruct v as [b|]; [|discriminate]. injection Ha as <-. apply (small_dom _ _ 1 ltac:(lra) (H b eq_refl)).
    apply (ev_imp _ _ (ev_le 1 ltac:(lra))). intros u m _ _ _. rewrite (Rabs_pos_eq (Cmod _)) by apply Cmod_ge_0. rewrite Rmult_1_l. apply Rabs_le.
    assert (Cmod (x m) <= Cmod (x m - b)%C + Cmod b) by (replace (x m) with ((x m - b) + b)%C at 1 by ring; apply Cmod_triangle).
    assert (Cmod b <= Cmod (x m - b)%C + Cmod (x m)).
    { rewrite <- (Cmod_opp (x m - b)%C). replace b with (- (x m - b) + x m)%C at 1 by ring. apply Cmod_triangle. }
    lra.
  - all_m. replace (x m) with (Re (x m), Im (x m)) at 1 by (symmetry; apply surjective_pairing). apply r_hypot. assumption.
Qed.
Lemma T_pair v x y w : rt v x -> rt w y -> ct (olift2 (fun a b => (a, b)) v w) (fun m => (x m, y m)).
Proof.
  intros H1 H2 a Ha. destruct v as [b|], w as [c|]; try discriminate. injection Ha as <-.
  apply (small_lin _ _ _ 1 1 ltac:(lra) ltac:(lra) (H1 b eq_refl) (H2 c eq_refl)). apply (ev_imp _ _ (ev_le 1 ltac:(lra))). intros u m _ _ _.
  rewrite (Rabs_pos_eq (Cmod _)) by apply Cmod_ge_0. rewrite !Rmult_1_l.
  replace ((x m, y m) - (b, c))%C with (RtoC (x m - b)%R + (0%R, (y m - c)%R))%C.
  2: { unfold Cminus, Cplus, Copp, RtoC. cbn [fst snd]. apply injective_projections; cbn [fst snd]; ring. }
  eapply Rle_trans; [apply Cmod_triangle|]. rewrite Cmod_R. apply Rplus_le_compat_l. unfold Cmod. cbn [fst snd].
  replace (0 ^ 2 + (y m - c) ^ 2) with (Rsqr (y m - c)) by (unfold Rsqr; ring). rewrite sqrt_Rsqr_abs. lra.
Qed.

Lemma T_kadd v x w y : ct v x -> ct w y -> ct (v + w)%cv (fun m => kadd m (x m) (y m)).
Proof. intros H1 H2. apply (ct_round 1 _ _ _ ltac:(lra) (ct_plus _ _ _ _ H1 H2)). all_m. rewrite Rmult_1_l. now apply kadd_near. Qed.
Lemma T_ksub v x w y : ct v x -> ct w y -> ct (v - w)%cv (fun m => ksub m (x m) (y m)).
Proof. intros H1 H2. apply (ct_round 1 _ _ _ ltac:(lra) (ct_minus _ _ _ _ H1 H2)). all_m. rewrite Rmult_1_l. now apply ksub_near. Qed.
Lemma T_kmul v x w y : ct v x -> ct w y -> ct (v * w)%cv (fun m => kmul m (x m) (y m)).
Proof. intros H1 H2. apply (ct_round 4 _ _ _ ltac:(lra) (ct_mult _ _ _ _ H1 H2)). all_m. now apply kmul_near. Qed.
Lemma T_kdiv v x w y : ct v x -> ct w y -> ct (v / w)%cv (fun m => kdiv m (x m) (y m)).
Proof.
  intros H1 H2. apply (ct_round 13 _ _ _ ltac:(lra) (ct_divide _ _ _ _ H1 H2)). destruct w as [c|].
  - destruct (Ceq_dec c (RtoC 0)) as [Z|Z].
    + exists 1. split; [lra|]. intros u m _ _ _ N. exfalso. apply N. destruct v; [|reflexivity]. unfold cdiv. now destruct (Ceq_dec c (RtoC 0)).
    + apply (ev_imp _ _ (ev_and _ _ (ct_nonzero _ _ c H2 eq_refl Z) (ev_le (1 / 100) ltac:(lra)))). intros u m Hu [Hm _] [[_ Q] Q'] _. now apply kdiv_near.
  - exists 1. split; [lra|]. intros u m _ _ _ N. exfalso. apply N. now destruct v.
Qed.
Lemma T_kpow_loop n : forall va vp acc p, ct va acc -> ct vp p -> ct (va * cpown vp (Pos.to_nat n))%cv (fun m => kpow_loop m (acc m) (p m) n).
Proof.
  assert (SQ : forall (b : C) k, Cpown (b * b)%C k = Cpown b (2 * k)).
  { intros b. induction k as [|k IH]; [reflexivity|]. replace (2 * S k)%nat with (S (S (2 * k))) by lia. cbn [Cpown]. rewrite IH. ring. }
  induction n as [n IH|n IH|]; intros va vp acc p Ha Hp; cbn [kpow_loop].
  - pose proof (IH _ _ _ _ (T_kmul _ _ _ _ Ha Hp) (T_kmul _ _ _ _ Hp Hp)) as H.
    destruct va as [a|]; [|apply ct_None]. destruct vp as [b|]; [|apply ct_None]. cbn [cmul cpown olift1 olift2] in *.
    rewrite Pos2Nat.inj_xI. replace (a * Cpown b (S (2 * Pos.to_nat n)))%C with (a * b * Cpown (b * b) (Pos.to_nat n))%C by (rewrite SQ; cbn [Cpown]; ring). exact H.
  - pose proof (IH _ _ _ _ Ha (T_kmul _ _ _ _ Hp Hp)) as H.
    destruct va as [a|]; [|apply ct_None]. destruct vp as [b|]; [|apply ct_None]. cbn [cmul cpown olift1 olift2] in *.
    rewrite Pos2Nat.inj_xO, <- SQ. exact H.
  - pose proof (T_kmul _ _ _ _ Ha Hp) as H. destruct va as [a|]; [|apply ct_None]. destruct vp as [b|]; [|apply ct_None]. cbn [cmul cpown olift1 olift2] in *.
    rewrite Pos2Nat.inj_1. cbn [Cpown]. now rewrite Cmult_1_r.
Qed.
Lemma T_kpow v x n : ct v x -> ct (cpowz v n) (fun m => kpow m (x m) n).
Proof.
  intros H. assert (P : forall p, ct (cpown v (Pos.to_nat p)) (fun m => kpow_loop m (RtoC 1) (x m) p)).
  { intros p. pose proof (T_kpow_loop p _ _ _ _ (ct_const (RtoC 1)) H) as Q. destruct v as [b|]; [|apply ct_None].
    cbn [cmul cpown olift1 olift2] in *. now rewrite Cmult_1_l in Q. }
  destruct n as [|p|p]; cbn [cpowz kpow].
  - destruct v; [apply ct_const|apply ct_None].
  - apply P.
  - apply (T_kdiv _ _ _ _ (ct_const (RtoC 1)) (P p)).
Qed.
Lemma T_kpow_nat v x n : ct v x -> ct (cpown v n) (fun m => kpow m (x m) (Z.of_nat n)).
Proof.
  intros H. pose proof (T_kpow v x (Z.of_nat n) H) as Q. destruct n as [|n]; [exact Q|]. cbn [Z.of_nat cpowz] in Q |- *.
  now rewrite SuccNat2Pos.id_succ in Q.
Qed.

(** ** Lists *)
Section Lists.
Context {Y0 Y : Type} (T : Y0 -> (machine -> Y) -> Prop).
Definition lt_ (l0 : list Y0) (l : machine -> list Y) : Prop :=
  exists ys, (forall m, l m = map (fun y => y m) ys) /\ Forall2 T l0 ys.
Definition rest (r0 : res Y0) (r : machine -> res Y) : Prop :=
  match r0 with
  | Raise e => forall m, r m = Raise e
  | Ok y0 => exists y, (forall m, r m = Ok (y m)) /\ T y0 y
  end.
End Lists.
Lemma rest_Ok {Y0 Y} (T : Y0 -> (machine -> Y) -> Prop) y0 y : T y0 y -> rest T (Ok y0) (fun m => Ok (y m)).
Proof. intros H. exists y. split; [reflexivity|exact H]. Qed.
Lemma rest_bind {Y0 Y Z0 Z} (T : Y0 -> (machine -> Y) -> Prop) (T' : Z0 -> (machine -> Z) -> Prop) r0 r k0 k :
  rest T r0 r -> (forall y0 y, T y0 y -> rest T' (k0 y0) (fun m => k m (y m))) ->
  rest T' (rbind r0 k0) (fun m => rbind (r m) (k m)).
Proof.
  intros H1 H2. destruct r0 as [y0|e]; cbn [rest rbind] in *.
  - destruct H1 as (y & Hy & HT). specialize (H2 y0 y HT). destruct (k0 y0) as [z0|e]; cbn [rest] in *.
    + destruct H2 as (z & Hz & HT'). exists z. split; [|exact HT']. intros m. rewrite Hy. cbn [rbind]. apply Hz.
    + intros m. rewrite Hy. cbn [rbind]. apply H2.
  - intros m. rewrite H1. reflexivity.
Qed.
Lemma lt_map {Y0 Y Z0 Z} (T : Y0 -> (machine -> Y) -> Prop) (T' : Z0 -> (machine -> Z) -> Prop) l0 l F0 F :
  lt_ T l0 l -> (forall y0 y, T y0 y -> T' (F0 y0) (fun m => F m (y m))) -> lt_ T' (map F0 l0) (fun m => map (F m) (l m)).
Proof.
  intros (ys & E & H) HF. exists (map (fun y m => F m (y m)) ys). split.
  - intros m. rewrite E, !map_map. reflexivity.
  - clear E l. induction H; cbn [map]; constructor; auto.
Qed.
Lemma lt_const {X Z0 Z} (T' : Z0 -> (machine -> Z) -> Prop) (l : list X) F0 F :
  (forall x, In x l -> T' (F0 x) (fun m => F m x)) -> lt_ T' (map F0 l) (fun m => map (F m) l).
Proof.
  intros H. exists (map (fun x m => F m x) l). split; [intros m; now rewrite map_map|].
  induction l as [|x l IH]; cbn [map]; constructor; [apply H; now left|]. apply IH. intros. apply H. now right.
Qed.
Lemma lt_combine {Y0 Y Z0 Z} (T : Y0 -> (machine -> Y) -> Prop) (T' : Z0 -> (machine -> Z) -> Prop) l0 l k0 k :
  lt_ T l0 l -> lt_ T' k0 k ->
  lt_ (fun p0 p => T (fst p0) (fun m => fst (p m)) /\ T' (snd p0) (fun m => snd (p m))) (combine l0 k0) (fun m => combine (l m) (k m)).
Proof.
  intros (ys & E & H) (zs & E' & H'). exists (map (fun yz m => (fst yz m, snd yz m)) (combine ys zs)). split.
  - intros m. rewrite E, E', map_map. clear. revert zs. induction ys as [|y ys IH]; intros zs; [reflexivity|].
    destruct zs as [|z zs]; [reflexivity|]. cbn [map combine fst snd]. now rewrite IH.
  - clear E E' l k. revert k0 zs H'. induction H; intros k0 zs H'; [constructor|]. destruct H' as [|b z k0 zs]; [constructor|].
    cbn [combine map fst snd]. constructor; [split; cbn [fst snd]; assumption|]. now apply IHForall2.
Qed.
Lemma lt_tl {Y0 Y} (T : Y0 -> (machine -> Y) -> Prop) l0 l : lt_ T l0 l -> lt_ T (tl l0) (fun m => tl (l m)).
Proof.
  intros (ys & E & H). exists (tl ys). split; [intros m; rewrite E; now destruct ys|]. destruct H; [constructor|exact H0].
Qed.
Lemma lt_mapM {X Z0 Z} (T' : Z0 -> (machine -> Z) -> Prop) (l : list X) f0 f :
  (forall x, In x l -> rest T' (f0 x) (fun m => f m x)) -> rest (lt_ T') (mapM f0 l) (fun m => mapM (f m) l).
Proof.
  induction l as [|x l IH]; intros H; cbn [mapM].
  - exists (fun _ => []). split; [reflexivity|]. exists []. split; [reflexivity|constructor].
  - apply (rest_bind T' (lt_ T')); [apply H; now left|]. intros z0 z Hz.
    apply (rest_bind (lt_ T') (lt_ T')); [apply IH; intros; apply H; now right|]. intros zs0 zs (ys & E & F).
    exists (fun m => z m :: zs m). split; [reflexivity|]. exists (z :: ys). split; [intros m; cbn [map]; now rewrite E|now constructor].
Qed.

(** ** Sums *)
Lemma F2_length {X Y} (P : X -> Y -> Prop) l l' : Forall2 P l l' -> length l = length l'.
Proof. induction 1; cbn [length]; congruence. Qed.
Lemma order_height_lt t : (order_height t < length (leaves t))%nat.
Proof. induction t as [k|l IHl r IHr]; cbn [order_height leaves length]; [lia|]. rewrite app_length. lia. Qed.
Lemma csum_Some_inv l d : csum l = Some d -> exists gs, l = map Some gs /\ d = Csum gs.
Proof.
  revert d. unfold csum. induction l as [|a l IH]; intros d H; cbn [fold_right] in H.
  - injection H as <-. exists []. split; reflexivity.
  - destruct a as [a|]; [|discriminate]. destruct (fold_right cadd (rc 0) l) as [s|] eqn:E; [|discriminate].
    destruct (IH s eq_refl) as (gs & -> & ->). injection H as <-. exists (a :: gs). split; reflexivity.
Qed.
(** a common error bound for the terms *)
Lemma terms_bound gs ys : Forall2 ct (map Some gs) ys ->
  exists B K, 0 <= B /\ 0 <= K /\ ev (fun u m => forall k, (k < length gs)%nat -> ap (nth k gs (RtoC 0)) (nth k (map (fun y => y m) ys) (RtoC 0)) B (B + K * u)).
Proof.
  revert ys. induction gs as [|g gs IH]; intros ys H; inversion H as [|? y ? ys' H1 H2]; subst; clear H.
  - exists 0, 0. split; [lra|]. split; [lra|]. exists 1. split; [lra|]. intros u m _ _ _ k Hk. cbn [length] in Hk. lia.
  - destruct (IH ys' H2) as (B & K & HB & HK & HE). destruct (H1 g eq_refl) as (K' & HK' & HE').
    pose proof (Cmod_ge_0 g) as Pg.
    exists (B + Cmod g), (K + K'). split; [lra|]. split; [lra|]. apply (ev_imp _ _ (ev_and _ _ HE HE')). intros u m Hu _ [Q Q'] k Hk.
    rewrite Rabs_pos_eq in Q' by apply Cmod_ge_0.
    assert (0 <= K * u) by (apply Rmult_le_pos; lra). assert (0 <= K' * u) by (apply Rmult_le_pos; lra).
    destruct k as [|k]; cbn [nth map].
    + split; lra.
    + cbn [length] in Hk. apply (ap_weaken _ _ _ _ _ _ (Q k ltac:(lia))); lra.
Qed.
Lemma T_ksum l0 l : lt_ ct l0 l -> ct (csum l0) (fun m => k_sum m (l m)).
Proof.
  intros (ys & E & H) d Hd. destruct (csum_Some_inv _ _ Hd) as (gs & -> & ->). clear Hd.
  destruct (terms_bound gs ys H) as (B & K & HB & HK & HE).
  assert (Ly : length ys = length gs) by (apply F2_length in H; rewrite map_length in H; lia).
  set (n := length gs) in *. assert (Pn : 0 <= INR n) by apply pos_INR.
  exists (INR n * (2 * INR n * (B + K) + K)). split; [apply Rmult_le_pos; [lra|]; apply Rplus_le_le_0_compat; [|lra]; apply Rmult_le_pos; lra|].
  assert (PS : 0 < / (2 * (INR n + 1))) by (apply Rinv_0_lt_compat; lra).
  apply (ev_imp _ _ (ev_and _ _ HE (ev_and _ _ (ev_le 1 ltac:(lra)) (ev_le _ PS)))). intros u m Hu [Hm Ho] (Q & Q1 & Q2).
  rewrite Rabs_pos_eq by apply Cmod_ge_0. unfold k_sum. rewrite E.
  assert (Ln : length (map (fun y : machine -> C => y m) ys) = n) by (now rewrite map_length).
  destruct (map (fun y : machine -> C => y m) ys) as [|z zs] eqn:Ez.
  - cbn [length] in Ln. assert (gs = []) as -> by (apply length_zero_iff_nil; unfold n in Ln; lia).
    unfold Csum. cbn [fold_right]. replace (RtoC 0 - RtoC 0)%C with (RtoC 0) by ring. rewrite Cmod_0.
    apply Rmult_le_pos; [|exact Hu]. apply Rmult_le_pos; [lra|]. apply Rplus_le_le_0_compat; [|lra]. apply Rmult_le_pos; lra.
  - rewrite <- Ez in *. rewrite Ln. assert (N0 : n <> O) by (rewrite <- Ln, Ez; discriminate). specialize (Ho n N0).
    set (t := m_order m n) in *.
    assert (Lt : length (leaves t) = n) by (rewrite (Permutation_length Ho); apply seq_length).
    pose proof (ksum_ap u m t (fun k => nth k gs (RtoC 0)) (fun k => nth k (map (fun y : machine -> C => y m) ys) (RtoC 0)) B (B + K * u) Hu Hm) as KA.
    assert (KA' := KA (fun k Hk => Q k (proj2 (proj1 (in_seq n 0 k) (Permutation_in _ Ho Hk))))). clear KA. rename KA' into KA.
    assert (ES : Sl (fun k => nth k gs (RtoC 0)) (leaves t) = Csum gs).
    { unfold Sl. rewrite (Csum_perm _ _ (Permutation_map _ Ho)). f_equal. unfold n. clear. induction gs as [|g gs IH] using rev_ind; [reflexivity|].
      rewrite app_length. cbn [length]. rewrite Nat.add_1_r, seq_S, map_app. cbn [map]. f_equal.
      - rewrite <- IH at 2. apply map_ext_in. intros k Hk. apply in_seq in Hk. apply app_nth1. lia.
      - rewrite app_nth2 by lia. replace (0 + length gs - length gs)%nat with O by lia. reflexivity. }
    rewrite ES, Lt in KA. destruct KA as [_ KA]. eapply Rle_trans; [exact KA|].
    assert (Hh : (order_height t <= n)%nat) by (pose proof (order_height_lt t); lia).
    assert (PW : (1 + u) ^ order_height t <= 1 + 2 * (INR n * u)).
    { apply Rle_trans with ((1 + u) ^ n); [apply Rle_pow; [lra|exact Hh]|].
      assert (NU : INR n * u <= 1 / 2).
      { apply Rle_trans with ((INR n + 1) * / (2 * (INR n + 1))); [apply Rmult_le_compat; lra|]. apply Req_le. field. lra. }
      assert (PE : (1 + u) ^ n <= exp (INR n * u)).
      { clear - Hu. induction n as [|k IH].
        - simpl. rewrite Rmult_0_l, exp_0. lra.
        - rewrite S_INR. replace ((INR k + 1) * u) with (u + INR k * u) by ring. rewrite exp_plus. cbn [pow].
          apply Rmult_le_compat; [lra|apply pow_le; lra|apply exp_ineq1_le|exact IH]. }
      pose proof (exp_bound (INR n * u)) as EB. rewrite Rabs_pos_eq in EB by (apply Rmult_le_pos; lra). specialize (EB NU).
      apply Rabs_le_between in EB. lra. }
    assert (PBK : 0 <= B + K * u <= B + K) by (split; [apply Rplus_le_le_0_compat; [lra|apply Rmult_le_pos; lra]|apply Rplus_le_compat_l; nra]).
    assert (X : (1 + u) ^ order_height t * (B + K * u) <= (1 + 2 * (INR n * u)) * (B + K * u)) by (apply Rmult_le_compat_r; lra).
    assert (X2 : 2 * (INR n * u) * (B + K * u) <= 2 * (INR n * u) * (B + K)) by (apply Rmult_le_compat_l; [apply Rmult_le_pos; [lra|apply Rmult_le_pos; lra]|lra]).
    replace (INR n * ((1 + u) ^ order_height t * (B + K * u)) - INR n * B) with (INR n * ((1 + u) ^ order_height t * (B + K * u) - B)) by ring.
    rewrite Rmult_assoc. apply Rmult_le_compat_l; [exact Pn|]. lra.
Qed.
End Gauge.

Definition plain : gauge := fun _ _ => True.
(** the square of the parameter is already the relative error *)
Definition halved : gauge := fun u m => rounds (u ^ 2) m.
