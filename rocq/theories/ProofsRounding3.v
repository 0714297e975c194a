(** * C76: reflection of a bulk sample, bounds with constants *)
From Coq Require Import String Reals Lra Lia ZArith List Bool Permutation.
From Coquelicot Require Import Rcomplements Complex.
From Verif Require Import Num NumLemmas ModelBase ModelSample ModelTip StackLemmas Spec ProofsPassive ProofsTip
  SpecRound SpecAccurate ModelRound ModelRound2 RoundLemmas RoundLemmas2 RoundTends RoundTends2 ProofsRounding ProofsRounding2.
Import ListNotations.
Open Scope R_scope.

Lemma cnear_scale e x y (c : C) : cnear e x y -> cnear e (c * x)%C (c * y)%C.
Proof.
  unfold cnear. intros H. replace (c * y - c * x)%C with (c * (y - x))%C by ring. rewrite !Cmod_mult.
  replace (e * (Cmod c * Cmod x)) with (Cmod c * (e * Cmod x)) by ring. apply Rmult_le_compat_l; [apply Cmod_ge_0|exact H].
Qed.
(** quotient of two perturbed numbers *)
Lemma quotient_near u a a' b b' : 0 <= u <= 1 / 100 -> b <> RtoC 0 -> cnear u a a' -> cnear u b b' ->
  b' <> RtoC 0 /\ Cmod (a' / b' - a / b)%C <= 201 / 99 * u * Cmod (a / b)%C.
Proof.
  intros Hu Hb Ha Hb'. pose proof (Cmod_gt_0 b) as [P _]. specialize (P Hb). unfold cnear in *.
  assert (L : (99 / 100) * Cmod b <= Cmod b').
  { assert (T : Cmod b <= Cmod (b' - b)%C + Cmod b').
    { replace b with ((- (b' - b)) + b')%C at 1 by ring. eapply Rle_trans; [apply Cmod_triangle|]. rewrite Cmod_opp. lra. }
    assert (u * Cmod b <= 1 / 100 * Cmod b) by (apply Rmult_le_compat_r; lra). lra. }
  assert (N : b' <> RtoC 0) by (apply Cmod_gt_0; lra). split; [exact N|].
  assert (P' : 0 < Cmod b') by (apply Cmod_gt_0; exact N).
  replace (a' / b' - a / b)%C with (((a' - a) - (a / b) * (b' - b)) / b')%C by (field; split; assumption).
  rewrite Cmod_div by exact N. apply Rle_div_l; [lra|].
  assert (T : Cmod ((a' - a) - a / b * (b' - b))%C <= Cmod (a' - a)%C + Cmod (a / b)%C * Cmod (b' - b)%C).
  { unfold Cminus at 1. eapply Rle_trans; [apply Cmod_triangle|]. rewrite Cmod_opp, Cmod_mult. lra. }
  assert (EA : Cmod a = Cmod (a / b)%C * Cmod b) by (rewrite <- Cmod_mult; f_equal; field; exact Hb).
  rewrite EA in Ha. set (q := Cmod (a / b)%C) in *. assert (0 <= q) by apply Cmod_ge_0.
  assert (Q : q * Cmod (b' - b)%C <= q * (u * Cmod b)) by (apply Rmult_le_compat_l; assumption).
  assert (X : Cmod ((a' - a) - a / b * (b' - b))%C <= 2 * u * q * Cmod b) by lra.
  eapply Rle_trans; [exact X|].
  apply Rle_trans with (201 / 99 * u * q * ((99 / 100) * Cmod b)).
  - assert (0 <= u * q * Cmod b) by (apply Rmult_le_pos; [apply Rmult_le_pos; lra|lra]). lra.
  - apply Rmult_le_compat_l; [|exact L]. apply Rmult_le_pos; [lra|assumption].
Qed.

(** C76. refl_coef_qs_single loses at most 16 units of rounding, relative to the result, for all permittivities. *)
Lemma C76_single_proof : forall u m (e_i e_j : C),
  rounds u (m_arith m) -> 0 <= u <= 1 / 100 -> (e_i + e_j <> 0)%C ->
  let beta := ((e_j - e_i) / (e_j + e_i))%C in
  Cmod (k_refl_coef_qs_single m e_i e_j - beta)%C <= 16 * u * Cmod beta.
Proof.
  intros u m ei ej Hm Hu Hs beta. assert (Hs' : (ej + ei <> 0)%C) by (now rewrite Cplus_comm).
  unfold k_refl_coef_qs_single.
  destruct (quotient_near u _ _ _ _ Hu Hs' (ksub_near u m (proj1 Hu) Hm ej ei) (kadd_near u m (proj1 Hu) Hm ej ei)) as [N Q].
  pose proof (kdiv_near u m (proj1 Hu) (proj2 Hu) Hm (ksub m ej ei) (kadd m ej ei) N) as D. unfold cnear in D. fold beta in Q.
  set (q := (ksub m ej ei / kadd m ej ei)%C) in *. set (x := kdiv m (ksub m ej ei) (kadd m ej ei)) in *.
  assert (T : Cmod q <= Cmod (q - beta)%C + Cmod beta) by (replace q with ((q - beta) + beta)%C at 1 by ring; apply Cmod_triangle).
  replace (x - beta)%C with ((x - q) + (q - beta))%C by ring. eapply Rle_trans; [apply Cmod_triangle|].
  pose proof (Cmod_ge_0 beta) as PB.
  assert (X : u * Cmod beta <= 1 / 100 * Cmod beta) by (apply Rmult_le_compat_r; lra).
  assert (Y : 13 * u * Cmod q <= 13 * u * ((1 + 3 / 100) * Cmod beta)).
  { apply Rmult_le_compat_l; lra. }
  nra.
Qed.

(** ** Through the transfer matrix *)
Definition spread (e0 e1 : C) : R := (Cmod e0 + Cmod e1) / Cmod (e0 + e1)%C.
Lemma spread_ge_1 e0 e1 : (e0 + e1 <> 0)%C -> 1 <= spread e0 e1.
Proof. intros H. unfold spread. apply Rle_div_r; [now apply Cmod_gt_0|]. rewrite Rmult_1_l. apply Cmod_triangle. Qed.

Lemma half_sum_near u (m : machine) x0 x (sg : C) : 0 <= u <= 1 / 140 -> rounds u m -> Cmod sg = 1 -> cnear (13 * u) x0 x ->
  Cmod (kmul m (kdiv m (kadd m (RtoC 1) (kmul m sg x)) (RtoC 2)) (RtoC 1) - (1 + sg * x0) / 2)%C <= 35 * u * (1 + Cmod x0).
Proof.
  intros [Hu Hu1] Hm Hs Hx. assert (Hu2 : u <= 1 / 100) by lra. set (B := Cmod x0). assert (PB : 0 <= B) by apply Cmod_ge_0.
  pose proof (ap_round (13 * u) x0 x0 x B B ltac:(lra) (ap_refl _ _ (Rle_refl _)) Hx) as A1.
  pose proof (ap_mul _ _ _ _ _ _ _ _ (ap_refl sg 1 (Req_le _ _ Hs)) A1) as A2.
  pose proof (ap_round (4 * u) _ _ _ _ _ ltac:(lra) A2 (kmul_near u m Hu Hu2 Hm sg x)) as A3.
  assert (One : ap (RtoC 1) (RtoC 1) 1 1) by (apply ap_refl; rewrite Cmod_1; lra).
  pose proof (ap_add _ _ _ _ _ _ _ _ One A3) as A4.
  pose proof (ap_round u _ _ _ _ _ Hu A4 (kadd_near u m Hu Hm (RtoC 1) (kmul m sg x))) as A5.
  assert (Half : ap (/ RtoC 2)%C (/ RtoC 2)%C (/ 2) (/ 2)) by (apply ap_refl; rewrite Cmod_inv, Cmod_R, Rabs_pos_eq by (lra || apply C2_neq_0); lra).
  pose proof (ap_mul _ _ _ _ _ _ _ _ A5 Half) as A6.
  pose proof (ap_round (13 * u) _ _ _ _ _ ltac:(lra) A6 (kdiv_near u m Hu Hu2 Hm (kadd m (RtoC 1) (kmul m sg x)) (RtoC 2) C2_neq_0)) as A7.
  pose proof (ap_mul _ _ _ _ _ _ _ _ A7 One) as A8.
  pose proof (ap_round (4 * u) _ _ _ _ _ ltac:(lra) A8 (kmul_near u m Hu Hu2 Hm _ (RtoC 1))) as [_ A9].
  replace ((1 + sg * x0) / 2)%C with ((RtoC 1 + sg * x0) * / RtoC 2 * RtoC 1)%C by (unfold Cdiv; ring).
  eapply Rle_trans; [exact A9|]. clear A1 A2 A3 A4 A5 A6 A7 A8 A9.
  assert (F : (1 + 4 * u) * ((1 + 13 * u) * ((1 + u) * ((1 + 4 * u) * (1 + 13 * u)))) <= 1 + 2 * (35 * u)).
  { eapply Rle_trans; [|apply exp_le_1_2S; lra]. replace (35 * u) with (4 * u + (13 * u + (u + (4 * u + 13 * u)))) by ring. rewrite !exp_plus.
    assert (P1 : 0 <= (1 + 4 * u) * (1 + 13 * u)) by (apply Rmult_le_pos; lra).
    assert (P2 : 0 <= (1 + u) * ((1 + 4 * u) * (1 + 13 * u))) by (apply Rmult_le_pos; lra).
    assert (P3 : 0 <= (1 + 13 * u) * ((1 + u) * ((1 + 4 * u) * (1 + 13 * u)))) by (apply Rmult_le_pos; lra).
    apply Rmult_le_compat; [lra|assumption|apply one_plus_le_exp|]. apply Rmult_le_compat; [lra|assumption|apply one_plus_le_exp|].
    apply Rmult_le_compat; [lra|assumption|apply one_plus_le_exp|]. apply Rmult_le_compat; [lra|lra|apply one_plus_le_exp|]. apply one_plus_le_exp. }
  set (f := (1 + 4 * u) * (1 + 13 * u)) in *. assert (Pf : 1 <= f) by (unfold f; nra).
  assert (M : 1 + (1 + 4 * u) * (1 * ((1 + 13 * u) * B)) <= f * (1 + B)).
  { replace ((1 + 4 * u) * (1 * ((1 + 13 * u) * B))) with (f * B) by (unfold f; ring). lra. }
  assert (M2 : (1 + u) * (1 + (1 + 4 * u) * (1 * ((1 + 13 * u) * B))) <= (1 + u) * (f * (1 + B))) by (apply Rmult_le_compat_l; lra).
  assert (M3 : f * ((1 + u) * (1 + (1 + 4 * u) * (1 * ((1 + 13 * u) * B)))) <= f * ((1 + u) * (f * (1 + B)))) by (apply Rmult_le_compat_l; lra).
  assert (M4 : f * ((1 + u) * (f * (1 + B))) <= (1 + 2 * (35 * u)) * (1 + B)).
  { replace (f * ((1 + u) * (f * (1 + B)))) with ((1 + 4 * u) * ((1 + 13 * u) * ((1 + u) * f)) * (1 + B)) by (unfold f; ring). apply Rmult_le_compat_r; lra. }
  match goal with |- ?a <= _ => replace a with (f * ((1 + u) * (1 + (1 + 4 * u) * (1 * ((1 + 13 * u) * B)))) * / 2 - (1 + B) * / 2) by (unfold f; field) end.
  lra.
Qed.

(** C76. refl_coef_qs of a bulk sample (through the transfer matrix): absolute error 320 u kappa^2, where
    kappa = (|e0| + |e1|) / |e0 + e1| grows only near the pole e1 = - e0. *)
Lemma C76_bulk_proof : forall u m (e0 e1 : C) nu q,
  rounds u (m_arith m) -> 0 <= u -> e1 <> RtoC 0 -> (e0 + e1 <> 0)%C ->
  let kappa := ((Cmod e0 + Cmod e1) / Cmod (e0 + e1)%C)%R in
  140 * u * kappa <= 1 ->
  exists x, k_refl_coef_qs m (stack [e0; e1] [] nu) q = Ok x /\
    Cmod (x - (e1 - e0) / (e1 + e0))%C <= 320 * u * kappa ^ 2.
Proof.
  intros u m e0 e1 nu q Hm Hu H1 Hs kappa Hk. pose proof (spread_ge_1 e0 e1 Hs) as K1. unfold spread in K1. fold kappa in K1.
  assert (Hu1 : u <= 1 / 140) by nra. assert (Hu2 : u <= 1 / 100) by lra.
  set (x0 := (e0 / e1)%C). set (x := kdiv m e0 e1).
  pose proof (kdiv_near u m Hu Hu2 Hm e0 e1 H1) as Hx. fold x0 x in Hx.
  assert (C1 : Cmod (RtoC 1) = 1) by apply Cmod_1. assert (Cm1 : Cmod (RtoC (-1)) = 1) by (rewrite Cmod_R, Rabs_left; lra).
  pose proof (half_sum_near u m x0 x (RtoC 1) (conj Hu Hu1) Hm C1 Hx) as HP.
  pose proof (half_sum_near u m x0 x (RtoC (-1)) (conj Hu Hu1) Hm Cm1 Hx) as HM.
  set (P := kmul m (kdiv m (kadd m (RtoC 1) (kmul m (RtoC 1) x)) (RtoC 2)) (RtoC 1)) in *.
  set (M := kmul m (kdiv m (kadd m (RtoC 1) (kmul m (RtoC (-1)) x)) (RtoC 2)) (RtoC 1)) in *.
  exists (kdiv m M P). split; [reflexivity|].
  set (P0 := ((1 + 1 * x0) / 2)%C) in *. set (M0 := ((1 + RtoC (-1) * x0) / 2)%C) in *. set (beta := ((e1 - e0) / (e1 + e0))%C).
  assert (Hs' : (e1 + e0 <> 0)%C) by (now rewrite Cplus_comm).
  assert (S1 : P0 = ((e0 + e1) / (2 * e1))%C) by (unfold P0, x0; field; split; [exact H1|exact C2_neq_0]).
  assert (EB : M0 = (beta * P0)%C).
  { rewrite S1. unfold M0, beta, x0. replace (RtoC (-1)) with (- (1))%C by (rewrite <- RtoC_opp; f_equal; ring). field. repeat split; (exact Hs' || exact H1 || exact C2_neq_0). }
  pose proof (proj1 (Cmod_gt_0 e1) H1) as Pe1. pose proof (proj1 (Cmod_gt_0 _) Hs) as Ps.
  assert (ES : 1 + Cmod x0 = 2 * kappa * Cmod P0).
  { rewrite S1. unfold x0, kappa. rewrite !Cmod_div, Cmod_mult, Cmod_R, Rabs_pos_eq by (lra || assumption || (apply Cmult_neq_0; [apply C2_neq_0|assumption])). field. split; lra. }
  assert (PP0 : 0 < Cmod P0).
  { rewrite S1. apply Cmod_gt_0. apply Cdiv_neq_0; [exact Hs|apply Cmult_neq_0; [apply C2_neq_0|exact H1]]. }
  set (p := Cmod P0) in *. rewrite ES in HP, HM.
  assert (E70 : 35 * u * (2 * kappa * p) = 70 * u * kappa * p) by ring. rewrite E70 in *. clear E70.
  assert (Half : 70 * u * kappa * p <= p / 2) by nra.
  assert (LP : p / 2 <= Cmod P).
  { assert (T : p <= Cmod (P - P0)%C + Cmod P). { unfold p. replace P0 with ((- (P - P0)) + P)%C at 1 by ring. eapply Rle_trans; [apply Cmod_triangle|]. rewrite Cmod_opp. lra. } lra. }
  assert (NP : P <> RtoC 0) by (apply Cmod_gt_0; lra).
  assert (HB : Cmod beta <= kappa).
  { unfold beta, kappa. rewrite Cmod_div by exact Hs'. replace (e1 + e0)%C with (e0 + e1)%C by ring. apply Rmult_le_compat_r; [left; now apply Rinv_0_lt_compat|].
    unfold Cminus. eapply Rle_trans; [apply Cmod_triangle|]. rewrite Cmod_opp. lra. }
  pose proof (Cmod_ge_0 beta) as PB.
  assert (Q : Cmod (M / P - beta)%C <= 280 * u * kappa ^ 2).
  { replace (M / P - beta)%C with (((M - M0) - beta * (P - P0)) / P)%C by (rewrite EB; field; exact NP).
    rewrite Cmod_div by exact NP. apply Rle_div_l; [lra|].
    assert (T : Cmod ((M - M0) - beta * (P - P0))%C <= 70 * u * kappa * p + Cmod beta * (70 * u * kappa * p)).
    { unfold Cminus at 1. eapply Rle_trans; [apply Cmod_triangle|]. rewrite Cmod_opp, Cmod_mult. apply Rplus_le_compat; [exact HM|]. apply Rmult_le_compat_l; assumption. }
    eapply Rle_trans; [exact T|]. assert (U : 0 <= u * kappa * p) by (apply Rmult_le_pos; [apply Rmult_le_pos; lra|lra]).
    apply Rle_trans with (280 * u * kappa ^ 2 * (p / 2)); [|apply Rmult_le_compat_l; [apply Rmult_le_pos; [lra|apply pow2_ge_0]|exact LP]].
    replace (280 * u * kappa ^ 2 * (p / 2)) with (140 * kappa * (u * kappa * p)) by (simpl; field).
    replace (70 * u * kappa * p + Cmod beta * (70 * u * kappa * p)) with (70 * (1 + Cmod beta) * (u * kappa * p)) by ring.
    apply Rmult_le_compat_r; [exact U|]. lra. }
  pose proof (kdiv_near u m Hu Hu2 Hm M P NP) as D. unfold cnear in D.
  assert (MP : Cmod (M / P)%C <= kappa + 2 * kappa).
  { replace (M / P)%C with ((M / P - beta) + beta)%C by ring. eapply Rle_trans; [apply Cmod_triangle|].
    assert (280 * u * kappa ^ 2 <= 2 * kappa) by (replace (280 * u * kappa ^ 2) with (2 * (140 * u * kappa * kappa)) by ring; assert (140 * u * kappa * kappa <= 1 * kappa) by (apply Rmult_le_compat_r; lra); lra). lra. }
  replace (kdiv m M P - beta)%C with ((kdiv m M P - M / P) + (M / P - beta))%C by ring. eapply Rle_trans; [apply Cmod_triangle|].
  assert (X : 13 * u * Cmod (M / P)%C <= 13 * u * (3 * kappa)) by (apply Rmult_le_compat_l; lra).
  assert (Y : kappa <= kappa ^ 2) by (simpl; nra). assert (u * kappa <= u * kappa ^ 2) by (apply Rmult_le_compat_l; lra). assert (0 <= u * kappa) by (apply Rmult_le_pos; lra). lra.
Qed.

(** ** No bound relative to beta: exact arithmetic but for divisions, which are too large by 1 + u *)
Definition big_div (u : R) : machine :=
  Mach (Ar Rplus Rminus Rmult (fun x y => x / y * (1 + u)) pow sin cos exp ln (fun x y => Cmod (x, y)) sqrt (fun x => x)) (fun N => left_order (Nat.pred N)).
Lemma big_div_rounding u : 0 <= u -> rounding u (big_div u).
Proof.
  intros Hu. split.
  - constructor; intros; cbn [big_div m_arith a_add a_sub a_mul a_div a_pow a_sin a_cos a_exp a_log a_hypot a_sqrt a_lit]; try (apply near_refl; exact Hu).
    unfold near. replace (x / y * (1 + u) - x / y) with (x / y * u) by ring. rewrite Rabs_mult, (Rabs_pos_eq u) by exact Hu. lra.
  - intros N HN. unfold big_div. cbn [m_order]. pose proof (left_order_adds_up (Nat.pred N)) as H. now rewrite Nat.succ_pred in H.
Qed.
Lemma big_div_kdiv u a b : b <> 0 -> kdiv (big_div u) (RtoC a) (RtoC b) = RtoC (a / b * (1 + u)).
Proof.
  intros Hb. unfold kdiv, RtoC, Re, Im. cbn [fst snd big_div m_arith a_add a_sub a_mul a_div].
  destruct (Rle_dec _ _) as [?|NL]; [|exfalso; apply NL; rewrite Rabs_R0; apply Rabs_pos].
  apply injective_projections; cbn [fst snd]; field; lra.
Qed.
Lemma big_div_kmul u a b : kmul (big_div u) (RtoC a) (RtoC b) = RtoC (a * b).
Proof. unfold kmul, RtoC, Re, Im. cbn [fst snd big_div m_arith a_add a_sub a_mul]. apply injective_projections; cbn [fst snd]; ring. Qed.
Lemma big_div_kadd u a b : kadd (big_div u) (RtoC a) (RtoC b) = RtoC (a + b).
Proof. unfold kadd, RtoC, Re, Im. cbn [fst snd big_div m_arith a_add]. apply injective_projections; cbn [fst snd]; ring. Qed.
Lemma big_div_bulk u : 0 < u -> k_refl_coef_qs (big_div u) (stack [RtoC 1; RtoC (1 + u)] [] None) 0 = Ok (RtoC 0).
Proof.
  intros Hu. change (k_refl_coef_qs (big_div u) (stack [RtoC 1; RtoC (1 + u)] [] None) 0) with
    (Ok (kdiv (big_div u) (kmul (big_div u) (kdiv (big_div u) (kadd (big_div u) (RtoC 1) (kmul (big_div u) (RtoC (-1)) (kdiv (big_div u) (RtoC 1) (RtoC (1 + u))))) (RtoC 2)) (RtoC 1))
        (kmul (big_div u) (kdiv (big_div u) (kadd (big_div u) (RtoC 1) (kmul (big_div u) (RtoC 1) (kdiv (big_div u) (RtoC 1) (RtoC (1 + u))))) (RtoC 2)) (RtoC 1)))).
  rewrite (big_div_kdiv u 1 (1 + u)) by lra. rewrite !big_div_kmul, !big_div_kadd, !(big_div_kdiv u _ 2) by lra. rewrite !big_div_kmul.
  replace (1 / (1 + u) * (1 + u)) with 1 by (field; lra). rewrite big_div_kdiv by (apply Rgt_not_eq; nra). do 2 f_equal. field. lra.
Qed.
(** C76. Through the transfer matrix there is no bound relative to the result. *)
Lemma C76_bulk_relative_refuted_proof :
  ~ (exists K u0, 0 < u0 /\ forall u m (e0 e1 : C), 0 <= u <= u0 -> rounding u m -> e1 <> RtoC 0 -> (e0 + e1 <> 0)%C ->
       exists x, k_refl_coef_qs m (stack [e0; e1] [] None) 0 = Ok x /\
         Cmod (x - (e1 - e0) / (e1 + e0))%C <= K * u * Cmod ((e1 - e0) / (e1 + e0))%C).
Proof.
  intros (K & u0 & H0 & Q). set (u := Rmin u0 (/ (Rabs K + 2))). pose proof (Rabs_pos K) as PK.
  assert (P1 : 0 < / (Rabs K + 2)) by (apply Rinv_0_lt_compat; lra).
  assert (Hu : 0 < u <= u0) by (unfold u; split; [apply Rmin_pos; lra|apply Rmin_l]).
  assert (Hu1 : u <= / (Rabs K + 2)) by apply Rmin_r.
  destruct (Q u (big_div u) (RtoC 1) (RtoC (1 + u))) as (x & E & B).
  - lra.
  - apply big_div_rounding. lra.
  - apply RtoC_neq_0. lra.
  - rewrite <- RtoC_plus. apply RtoC_neq_0. lra.
  - rewrite big_div_bulk in E by lra. injection E as <-.
    assert (EB : ((RtoC (1 + u) - RtoC 1) / (RtoC (1 + u) + RtoC 1))%C = RtoC (u / (2 + u))).
    { rewrite <- RtoC_minus, <- RtoC_plus, <- RtoC_div by lra. f_equal. field. lra. }
    rewrite EB, <- RtoC_minus, !Cmod_R in B.
    assert (P : 0 < u / (2 + u)) by (apply Rdiv_lt_0_compat; lra).
    rewrite Rminus_0_l, Rabs_Ropp, Rabs_pos_eq in B by lra.
    assert (KU : K * u < 1).
    { apply Rle_lt_trans with (Rabs K * u); [apply Rmult_le_compat_r; [lra|apply Rle_abs]|].
      apply Rle_lt_trans with (Rabs K * / (Rabs K + 2)); [apply Rmult_le_compat_l; lra|]. apply Rlt_div_l; lra. }
    nra.
Qed.
(** C76. On the same machine and sample the transfer matrix can return 0 where the direct formula is
    right to 16 percent (u = 1/100) or better. *)
Lemma C76_single_vs_transfer_proof : forall u, 0 < u <= 1 / 100 ->
  exists m (e0 e1 : C), rounding u m /\ e1 <> RtoC 0 /\ (e0 + e1 <> 0)%C /\ (e1 - e0)%C <> RtoC 0 /\
    k_refl_coef_qs m (stack [e0; e1] [] None) 0 = Ok (RtoC 0) /\
    84 / 100 * Cmod ((e1 - e0) / (e1 + e0))%C <= Cmod (k_refl_coef_qs_single m e0 e1).
Proof.
  intros u Hu. exists (big_div u), (RtoC 1), (RtoC (1 + u)).
  assert (N : (RtoC 1 + RtoC (1 + u) <> 0)%C) by (rewrite <- RtoC_plus; apply RtoC_neq_0; lra).
  split; [apply big_div_rounding; lra|]. split; [apply RtoC_neq_0; lra|]. split; [exact N|].
  split; [rewrite <- RtoC_minus; apply RtoC_neq_0; lra|]. split; [apply big_div_bulk; lra|].
  pose proof (C76_single_proof u (big_div u) (RtoC 1) (RtoC (1 + u)) (proj1 (big_div_rounding u ltac:(lra))) ltac:(lra) N) as Q. cbv zeta in Q.
  set (b := ((RtoC (1 + u) - RtoC 1) / (RtoC (1 + u) + RtoC 1))%C) in *. set (x := k_refl_coef_qs_single (big_div u) (RtoC 1) (RtoC (1 + u))) in *.
  assert (T : Cmod b <= Cmod (x - b)%C + Cmod x) by (replace b with ((- (x - b)) + x)%C at 1 by ring; eapply Rle_trans; [apply Cmod_triangle|]; rewrite Cmod_opp; lra).
  pose proof (Cmod_ge_0 b). nra.
Qed.
(** C76. Example: silicon under air in double precision: kappa = 1 *)
Lemma C76_example_proof :
  exists x, k_refl_coef_qs (digits 53) (stack [RtoC 1; RtoC 12] [] None) 0 = Ok x /\ Cmod (x - RtoC (11 / 13))%C <= 320 / 2 ^ 53.
Proof.
  assert (P : 140 <= 2 ^ 53) by (apply Rle_trans with (2 ^ 8); [simpl; lra|apply Rle_pow; [lra|lia]]).
  assert (KA : (Cmod (RtoC 1) + Cmod (RtoC 12)) / Cmod (RtoC 1 + RtoC 12)%C = 1).
  { rewrite <- RtoC_plus, !Cmod_R, !Rabs_pos_eq by lra. field. }
  destruct (C76_bulk_proof (/ 2 ^ 53) (digits 53) (RtoC 1) (RtoC 12) None 0) as (x & E & B).
  - apply chop_rounds.
  - left. apply Rinv_0_lt_compat. lra.
  - apply RtoC_neq_0. lra.
  - rewrite <- RtoC_plus. apply RtoC_neq_0. lra.
  - rewrite KA, Rmult_1_r. apply Rle_div_l; lra.
  - exists x. split; [exact E|]. rewrite KA in B. replace (RtoC (11 / 13)) with ((RtoC 12 - RtoC 1) / (RtoC 12 + RtoC 1))%C.
    + rewrite pow1, Rmult_1_r in B. exact B.
    + rewrite <- RtoC_minus, <- RtoC_plus, <- RtoC_div by lra. f_equal. field.
Qed.
