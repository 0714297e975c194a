(** * Lemmas: the rounded functions follow the exact ones with an error of order u *)
From Coq Require Import String Reals Lra Lia List Permutation ZArith Bool.
From Coquelicot Require Import Rcomplements Complex.
From Verif Require Import Num NumLemmas ModelBase ModelSample ModelTip SpecRound ModelRound ModelRound2 RoundLemmas DemodLemmas RoundLemmas2 RoundTends.
Import ListNotations.
Open Scope R_scope.

Section Gauge.
Context {gauge_ : gauge}.

Definition mt (M0 : mat) (M : machine -> kmat) : Prop :=
  ct (m00 M0) (fun m : machine => k00 (M m)) /\ ct (m01 M0) (fun m : machine => k01 (M m)) /\
  ct (m10 M0) (fun m : machine => k10 (M m)) /\ ct (m11 M0) (fun m : machine => k11 (M m)).

Lemma T_mmul A0 A B0 B : mt A0 A -> mt B0 B -> mt (mmul A0 B0) (fun m : machine => kmmul m (A m) (B m)).
Proof.
  intros (A1 & A2 & A3 & A4) (B1 & B2 & B3 & B4).
  repeat split; cbn [mmul kmmul m00 m01 m10 m11 k00 k01 k10 k11]; apply T_kadd; apply T_kmul; assumption.
Qed.
Lemma T_trans_matrix x0 x : ct x0 x -> mt (trans_matrix x0) (fun m : machine => k_trans_matrix m (x m)).
Proof.
  intros H. repeat split; cbn [trans_matrix k_trans_matrix m00 m01 m10 m11 k00 k01 k10 k11];
    (apply T_kdiv; [apply T_kadd; [apply ct_const|apply T_kmul; [apply ct_const|exact H]]|apply ct_const]).
Qed.
Lemma ofR_mul v w : ofR (v * w)%rv = (ofR v * ofR w)%cv.
Proof. destruct v, w; cbn; try reflexivity. now rewrite RtoC_mult. Qed.
Lemma T_prop_matrix a0 a b0 b : rt a0 a -> rt b0 b -> mt (prop_matrix (ofR a0) (ofR b0)) (fun m : machine => k_prop_matrix m (a m) (b m)).
Proof.
  intros Ha Hb.
  assert (X : forall v x c, rt v x -> ct (ofR v * rc c)%cv (fun m : machine => RtoC (a_mul m (x m) c))).
  { intros v x c H. change (rc c) with (ofR (rr c)). rewrite <- ofR_mul. apply ct_ofR, T_mul; [exact H|apply rt_const]. }
  repeat split; cbn [prop_matrix k_prop_matrix m00 m01 m10 m11 k00 k01 k10 k11]; apply X; assumption.
Qed.
Lemma Cexp_R x : Cexp (RtoC x) = RtoC (exp x).
Proof. unfold Cexp, RtoC, Re, Im. cbn [fst snd]. rewrite cos_0, sin_0. f_equal; ring. Qed.
Lemma cexp_ofR v : cexp (ofR v) = ofR (olift1 exp v).
Proof. destruct v as [x|]; [|reflexivity]. cbn. now rewrite Cexp_R. Qed.
Lemma min_lip a b a' b' : Rabs (Rmin a b - Rmin a' b') <= Rabs (a - a') + Rabs (b - b').
Proof.
  unfold Rmin. pose proof (Rabs_pos (a - a')). pose proof (Rabs_pos (b - b')).
  pose proof (Rle_abs (a - a')). pose proof (Rle_abs (- (a - a'))). pose proof (Rle_abs (b - b')). pose proof (Rle_abs (- (b - b'))).
  rewrite !Rabs_Ropp in *. apply Rabs_le. destruct (Rle_dec a b), (Rle_dec a' b'); lra.
Qed.
Lemma max_lip a b a' b' : Rabs (Rmax a b - Rmax a' b') <= Rabs (a - a') + Rabs (b - b').
Proof.
  unfold Rmax. pose proof (Rabs_pos (a - a')). pose proof (Rabs_pos (b - b')).
  pose proof (Rle_abs (a - a')). pose proof (Rle_abs (- (a - a'))). pose proof (Rle_abs (b - b')). pose proof (Rle_abs (- (b - b'))).
  rewrite !Rabs_Ropp in *. apply Rabs_le. destruct (Rle_dec a b), (Rle_dec a' b'); lra.
Qed.
Lemma T_lip2 (f : R -> R -> R) v x w y : (forall a b a' b', Rabs (f a b - f a' b') <= Rabs (a - a') + Rabs (b - b')) ->
  rt v x -> rt w y -> rt (olift2 f v w) (fun m : machine => f (x m) (y m)).
Proof.
  intros Hf H1 H2 a Ha. destruct v as [b|], w as [c|]; try discriminate. injection Ha as <-.
  apply (small_lin _ _ _ 1 1 ltac:(lra) ltac:(lra) (H1 b eq_refl) (H2 c eq_refl)). apply (ev_imp _ _ (ev_le 1 ltac:(lra))). intros u m _ _ _.
  specialize (Hf (x m) (y m) b c). lra.
Qed.
Lemma MAXF_pos : 0 < (2 - / 2 ^ 52) * 2 ^ 1023.
Proof.
  apply Rmult_lt_0_compat; [|apply pow_lt; lra]. assert (/ 2 ^ 52 <= / 1); [|lra]. apply Rinv_le_contravar; [lra|]. apply pow_R1_Rle. lra.
Qed.
Lemma T_clip v x : rt v x -> rt (clip v) (fun m : machine => k_clip m (x m)).
Proof.
  intros H. assert (L : rt (rr MAX_EXP_ARG) (fun m : machine => a_log m ((2 - / 2 ^ 52) * 2 ^ 1023))).
  { pose proof (T_log _ _ (rt_const ((2 - / 2 ^ 52) * 2 ^ 1023))) as Q. unfold rr in Q at 1. unfold rln in Q.
    destruct (Rlt_dec _ _) as [_|N]; [exact Q|]. exfalso. apply N, MAXF_pos. }
  pose proof (T_lip2 Rmin _ _ _ _ min_lip (T_lip2 Rmax _ _ _ _ max_lip H (rt_opp _ _ L)) L) as Q.
  destruct v as [a|]; [|apply rt_None]. exact Q.
Qed.
Lemma T_chain l0 l : lt_ (fun p0 p => mt (fst p0) (fun m : machine => fst (p m)) /\ mt (snd p0) (fun m : machine => snd (p m))) l0 l ->
  forall M0 M, mt M0 M -> mt (chain M0 l0) (fun m : machine => k_chain m (M m) (l m)).
Proof.
  intros (ys & E & H). unfold chain, k_chain.
  assert (G : forall M0 M, mt M0 M -> exists M', mt (fold_left (fun M tp => mmul (mmul M (snd tp)) (fst tp)) l0 M0) M' /\
     forall m, M' m = fold_left (fun M tp => kmmul m (kmmul m M (snd tp)) (fst tp)) (map (fun y => y m) ys) (M m)).
  { clear E. induction H as [|p0 p l0' ys' [H1 H2] _ IH]; intros M0 M HM; cbn [fold_left map].
    - exists M. split; [exact HM|reflexivity].
    - apply (IH _ (fun m : machine => kmmul m (kmmul m (M m) (snd (p m))) (fst (p m)))).
      exact (T_mmul _ _ _ _ (T_mmul _ _ _ _ HM H2) H1). }
  intros M0 M HM. destruct (G M0 M HM) as (M' & (Q1 & Q2 & Q3 & Q4) & EM).
  repeat split; [apply (ct_ext _ _ _ (fun m : machine => f_equal k00 (EM m))) in Q1|apply (ct_ext _ _ _ (fun m : machine => f_equal k01 (EM m))) in Q2|apply (ct_ext _ _ _ (fun m : machine => f_equal k10 (EM m))) in Q3|apply (ct_ext _ _ _ (fun m : machine => f_equal k11 (EM m))) in Q4];
    match goal with Q : ct _ ?f |- ct _ ?g => apply (ct_ext _ f g); [intros m; rewrite E; reflexivity|exact Q] end.
Qed.

Lemma T_transfer s q x : rt q x -> rest mt (transfer_matrix_qs s q) (fun m : machine => k_transfer_matrix_qs m s (x m)).
Proof.
  intros Hq. unfold transfer_matrix_qs, k_transfer_matrix_qs.
  assert (TR : lt_ mt (trans_matrices_qs s) (fun m : machine => k_trans_matrices_qs m s)).
  { unfold trans_matrices_qs, k_trans_matrices_qs. apply lt_const. intros p _. apply T_trans_matrix. apply T_kdiv; apply ct_val0. }
  assert (PR : lt_ mt (prop_matrices_qs s q) (fun m : machine => k_prop_matrices_qs m s (x m))).
  { unfold prop_matrices_qs, k_prop_matrices_qs. apply lt_const. intros t _. cbv zeta. rewrite !cexp_ofR.
    apply T_prop_matrix; apply T_exp, T_mul; try apply rt_const; apply T_clip, T_mul; auto; apply rt_const. }
  destruct TR as (ys & E & F). destruct F as [|T0 y Ts ys' HT F].
  - cbn [rest]. intros m. rewrite E. reflexivity.
  - assert (TS : lt_ mt Ts (fun m : machine => map (fun y => y m) ys')) by (exists ys'; split; [reflexivity|exact F]).
    destruct (multilayer s).
    + exists (fun m : machine => k_chain m (y m) (combine (map (fun y => y m) ys') (k_prop_matrices_qs m s (x m)))). split.
      { intros m. rewrite E. reflexivity. }
      apply (T_chain _ (fun m : machine => combine (map (fun y => y m) ys') (k_prop_matrices_qs m s (x m)))); [|exact HT]. exact (lt_combine _ _ _ _ _ _ TS PR).
    + exists (fun m : machine => {| k00 := kmul m (k00 (y m)) (RtoC 1); k01 := kmul m (k01 (y m)) (RtoC 1);
                 k10 := kmul m (k10 (y m)) (RtoC 1); k11 := kmul m (k11 (y m)) (RtoC 1) |}). split.
      { intros m. rewrite E. reflexivity. }
      destruct HT as (H1 & H2 & H3 & H4). repeat split; cbn [m00 m01 m10 m11 k00 k01 k10 k11]; apply T_kmul; try assumption; apply ct_const.
Qed.
Lemma T_refl_coef_qs s q x : rt q x -> rest ct (refl_coef_qs s q) (fun m : machine => k_refl_coef_qs m s (x m)).
Proof.
  intros Hq. unfold refl_coef_qs, k_refl_coef_qs. apply (rest_bind mt ct _ _ _ (fun (m : machine) M => Ok (kdiv m (k10 M) (k00 M))) (T_transfer s q x Hq)).
  intros M0 M (H1 & H2 & H3 & H4). apply (rest_Ok ct _ (fun m : machine => kdiv m (k10 (M m)) (k00 (M m)))). now apply T_kdiv.
Qed.
Lemma T_trans_coef_qs s q x : rt q x -> rest ct (trans_coef_qs s q) (fun m : machine => k_trans_coef_qs m s (x m)).
Proof.
  intros Hq. unfold trans_coef_qs, k_trans_coef_qs. apply (rest_bind mt ct _ _ _ (fun (m : machine) M => Ok (kdiv m (RtoC 1) (k00 M))) (T_transfer s q x Hq)).
  intros M0 M (H1 & H2 & H3 & H4). apply (rest_Ok ct _ (fun m : machine => kdiv m (RtoC 1) (k00 (M m)))). apply T_kdiv; [apply ct_const|exact H1].
Qed.

Definition bt (p0 : R * R * CV) (p : machine -> R * R * C) : Prop :=
  (forall m, fst (p m) = fst p0) /\ ct (snd p0) (fun m : machine => snd (p m)).
Lemma T_sampled lag s zq x n : rt zq x -> rest (lt_ bt) (sampled_beta lag s zq n) (fun m : machine => k_sampled_beta m lag s (x m) n).
Proof.
  intros Hz. unfold sampled_beta, k_sampled_beta. destruct (Nat.eqb n 0); [intros m; reflexivity|].
  apply (rest_bind ct (lt_ bt) _ _ _ (fun (m : machine) _ => mapM (fun xw => let! b := k_refl_coef_qs m s (a_div m (fst xw) (a_mul m 2 (x m))) in Ok (fst xw, snd xw, b)) (lag n)) (T_refl_coef_qs s zq x Hz)).
  intros _ _ _. apply (lt_mapM bt). intros [a w] _. cbn [fst snd].
  apply (rest_bind ct bt _ _ _ (fun (m : machine) b => Ok (a, w, b)) (T_refl_coef_qs s _ _ (T_div _ _ _ _ (rt_const a) (T_mul _ _ _ _ (rt_const 2) Hz)))).
  intros b0 b Hb. apply (rest_Ok bt _ (fun m : machine => (a, w, b m))). split; [reflexivity|exact Hb].
Qed.
Lemma T_wsum (c : R -> R -> RV) (cm : machine -> R -> R -> R) l0 l :
  (forall a w, rt (c a w) (fun m : machine => cm m a w)) -> lt_ bt l0 l ->
  ct (csum (map (fun p => match p with (x, w, b) => ofR (c x w) * b end)%cv l0))
     (fun m : machine => k_sum m (map (fun p => match p with (x, w, b) => kmul m (RtoC (cm m x w)) b end) (l m))).
Proof.
  intros Hc Hl. apply (T_ksum _ (fun m : machine => map (fun p => match p with (x, w, b) => kmul m (RtoC (cm m x w)) b end) (l m))). apply (lt_map bt ct _ _ _ (fun (m : machine) p => match p with (x, w, b) => kmul m (RtoC (cm m x w)) b end) Hl). intros [[a w] b0] p [H1 H2]. cbn [fst snd] in *.
  apply (ct_ext _ (fun m : machine => kmul m (RtoC (cm m a w)) (snd (p m)))).
  - intros m. specialize (H1 m). destruct (p m) as [[a' w'] b']. cbn [fst snd] in *. injection H1 as <- <-. reflexivity.
  - apply T_kmul; [apply ct_ofR, Hc|exact H2].
Qed.
Lemma T_above lag D s zq x n : rt zq x ->
  rest ct (refl_coef_qs_above_surf lag D s zq n) (fun m : machine => k_refl_coef_qs_above_surf m lag D s (x m) n).
Proof.
  intros Hz. unfold refl_coef_qs_above_surf, k_refl_coef_qs_above_surf.
  apply (rest_bind (lt_ bt) ct _ _ _ (fun (m : machine) bs => Ok (k_sum m (map (fun p => match p with (x, w, b) => kmul m (RtoC (a_mul m w x)) b end) bs))) (T_sampled lag s zq x _ Hz)).
  intros l0 l Hl. apply (rest_Ok ct _ (fun m : machine => k_sum m (map (fun p => match p with (x, w, b) => kmul m (RtoC (a_mul m w x)) b end) (l m)))).
  apply (T_wsum (fun a w => rr w * rr a)%rv (fun (m : machine) a w => a_mul m w a)); [|exact Hl]. intros a w. apply T_mul; apply rt_const.
Qed.
Lemma T_surf lag D s zq x n : rt zq x ->
  rest (fun p0 p => ct (fst p0) (fun m : machine => fst (p m)) /\ ct (snd p0) (fun m : machine => snd (p m)))
    (surf_pot_and_field lag D s zq n) (fun m : machine => k_surf_pot_and_field m lag D s (x m) n).
Proof.
  intros Hz. unfold surf_pot_and_field, k_surf_pot_and_field. set (n' := dflt (d_n_lag D) n).
  apply (rest_bind (lt_ bt) _ _ _ _ (fun (m : machine) bs => Ok (kdiv m (k_sum m (map (fun p => match p with (x, w, b) => kmul m (RtoC w) b end) bs)) (RtoC (a_mul m 2 (x m))),
    kdiv m (k_sum m (map (fun p => match p with (x, w, b) => kmul m (RtoC (a_mul m w x)) b end) bs)) (RtoC (a_mul m 4 (a_pow m (x m) 2))))) (T_sampled lag s zq x n' Hz)).
  intros l0 l Hl. apply (rest_Ok _ _ (fun m : machine => (kdiv m (k_sum m (map (fun p => match p with (x, w, b) => kmul m (RtoC w) b end) (l m))) (RtoC (a_mul m 2 (x m))),
    kdiv m (k_sum m (map (fun p => match p with (x, w, b) => kmul m (RtoC (a_mul m w x)) b end) (l m))) (RtoC (a_mul m 4 (a_pow m (x m) 2)))))).
  cbn [fst snd]. split; apply T_kdiv.
  - apply (T_wsum (fun a w => rr w) (fun (m : machine) a w => w)); [|exact Hl]. intros a w. apply rt_const.
  - apply ct_ofR, T_mul; [apply rt_const|exact Hz].
  - apply (T_wsum (fun a w => rr w * rr a)%rv (fun (m : machine) a w => a_mul m w a)); [|exact Hl]. intros a w. apply T_mul; apply rt_const.
  - apply ct_ofR, T_mul; [apply rt_const|]. now apply T_pow.
Qed.
Lemma T_image lag D s zq x n : rt zq x ->
  rest (fun p0 p => rt (fst p0) (fun m : machine => fst (p m)) /\ ct (snd p0) (fun m : machine => snd (p m)))
    (image_depth_and_charge lag D s zq n) (fun m : machine => k_image_depth_and_charge m lag D s (x m) n).
Proof.
  intros Hz. unfold image_depth_and_charge, k_image_depth_and_charge.
  apply (rest_bind _ _ _ _ _ (fun (m : machine) pE => Ok (a_sub m (a_hypot m (Re (kdiv m (fst pE) (snd pE))) (Im (kdiv m (fst pE) (snd pE)))) (x m), kdiv m (kmul m (fst pE) (fst pE)) (snd pE))) (T_surf lag D s zq x n Hz)).
  intros [phi0 E0] pE [H1 H2]. cbn [fst snd] in *.
  apply (rest_Ok _ _ (fun m : machine => (a_sub m (a_hypot m (Re (kdiv m (fst (pE m)) (snd (pE m)))) (Im (kdiv m (fst (pE m)) (snd (pE m))))) (x m), kdiv m (kmul m (fst (pE m)) (fst (pE m))) (snd (pE m))))). cbn [fst snd]. split.
  - apply T_sub; [|exact Hz]. exact (T_hypot _ _ (T_kdiv _ _ _ _ H1 H2)).
  - apply T_kdiv; [|exact H2]. pose proof (T_kmul _ _ _ _ H1 H1) as Q. destruct phi0 as [a|]; [|apply ct_None].
    replace (Some a ^ 2)%cv with (Some a * Some a)%cv; [exact Q|]. cbn. now rewrite Cmult_1_r.
Qed.

(** ** demodulate.py *)
Lemma mapM_map {X Y Z} (f : Y -> res Z) (g : X -> Y) l : mapM f (map g l) = mapM (fun x => f (g x)) l.
Proof. induction l as [|x l IH]; [reflexivity|]. cbn [map mapM]. now rewrite IH. Qed.
Lemma T_theta N k : (k <= N)%nat -> rt (rr (node N k)) (fun m : machine => k_theta m N k).
Proof.
  intros Hk. unfold k_theta. pose proof (T_lit PI) as L. pose proof (rt_opp _ _ L) as L'. cbn [olift1 rr] in L'.
  destruct (Nat.eqb_spec N 0) as [->|HN].
  - assert (k = O) as -> by lia.
    pose proof (T_add _ _ _ _ (T_mul _ _ _ _ (rt_const (INR 0)) (T_sub _ _ _ _ L L')) L') as Q.
    replace (rr (node 0 0)) with (rr (INR 0) * (rr PI - Some (- PI)) + Some (- PI))%rv; [exact Q|].
    unfold rr, rmul, radd, rsub. cbn [olift2]. f_equal. unfold node. cbn [INR]. ring.
  - assert (PN : INR N <> 0) by (now apply not_0_INR). destruct (Nat.eqb_spec k N) as [->|Hne].
    + rewrite node_N by exact HN. exact L.
    + pose proof (T_add _ _ _ _ (T_mul _ _ _ _ (rt_const (INR k)) (T_div _ _ _ _ (T_sub _ _ _ _ L L') (rt_const (INR N)))) L') as Q.
      replace (rr (node N k)) with (rr (INR k) * ((rr PI - Some (- PI)) / rr (INR N)) + Some (- PI))%rv; [exact Q|].
      unfold rr, rmul, radd, rsub, rdiv. cbn [olift2]. destruct (Req_EM_T (INR N) 0) as [Z|_]; [contradiction|]. cbn [olift2]. f_equal. unfold node. field. exact PN.
Qed.
Lemma T_position v x amp N k : rt (rr v) x -> (k <= N)%nat ->
  rt (rr (v + cos (node N k) * amp)) (fun m : machine => k_position m (x m) amp (k_theta m N k)).
Proof.
  intros H Hk. unfold k_position. exact (T_add _ _ _ _ H (T_mul _ _ _ _ (T_cos _ _ (T_theta N k Hk)) (rt_const amp))).
Qed.
Lemma T_phase n N k : (k <= N)%nat -> ct (cexp (Some (0, - (IZR n * node N k))%R)) (fun m : machine => k_phase m n (k_theta m N k)).
Proof.
  intros Hk. unfold k_phase. pose proof (T_mul _ _ _ _ (rt_const (- IZR n)) (T_theta N k Hk)) as Y.
  pose proof (T_pair _ _ _ _ (T_cos _ _ Y) (T_sin _ _ Y)) as Q. cbn in Q.
  replace (cexp (Some (0, - (IZR n * node N k))%R)) with (Some (cos (- IZR n * node N k), sin (- IZR n * node N k))); [exact Q|].
  cbn. unfold Cexp, Re, Im. cbn [fst snd]. rewrite exp_0, !Rmult_1_l. f_equal. f_equal; f_equal; ring.
Qed.
Lemma T_trapezoid l0 l : lt_ ct l0 l -> ct (trapezoid l0) (fun m : machine => k_trapezoid m (l m)).
Proof.
  intros H. unfold trapezoid, k_trapezoid.
  apply (T_ksum _ (fun m : machine => map (fun p => kdiv m (kmul m (RtoC 1) (kadd m (fst p) (snd p))) (RtoC 2)) (combine (tl (l m)) (l m)))).
  apply (lt_map _ ct _ _ _ (fun (m : machine) p => kdiv m (kmul m (RtoC 1) (kadd m (fst p) (snd p))) (RtoC 2)) (lt_combine ct ct _ _ _ _ (lt_tl _ _ _ H) H)).
  intros [a b] p [H1 H2]. cbn [fst snd] in *. apply T_kdiv; [|apply ct_const].
  pose proof (T_kmul _ _ _ _ (ct_const (RtoC 1)) (T_kadd _ _ _ _ H1 H2)) as Q.
  replace (a + b)%cv with (Some (RtoC 1) * (a + b))%cv; [exact Q|]. destruct a, b; cbn; try reflexivity. now rewrite Cmult_1_l.
Qed.
Lemma T_demod D f0 f v x amp n nt :
  (forall w y, rt (rr w) y -> rest ct (f0 w) (fun m : machine => f m (y m))) -> rt (rr v) x ->
  rest ct (demod D f0 v amp n nt) (fun m : machine => k_demod_res m D (f m) (x m) amp n nt).
Proof.
  intros Hf Hx. unfold demod, k_demod_res. set (N := dflt (d_n_trapz D) nt).
  apply (rest_bind ct ct _ _ _ (fun (m : machine) _ => let! fs := mapM (fun k => f m (k_position m (x m) amp (k_theta m N k))) (seq 0 (N + 1)) in
    Ok (kdiv m (k_trapezoid m (map (fun p => kmul m (fst p) (k_phase m n (k_theta m N (snd p)))) (combine fs (seq 0 (N + 1))))) (RtoC (INR N))))
    (Hf _ _ (T_add _ _ _ _ Hx (T_mul _ _ _ _ (rt_const 0) (rt_const amp))))).
  intros _ _ _. unfold thetas. rewrite mapM_map.
  apply (rest_bind (lt_ ct) ct _ _ _ (fun (m : machine) fs =>
    Ok (kdiv m (k_trapezoid m (map (fun p => kmul m (fst p) (k_phase m n (k_theta m N (snd p)))) (combine fs (seq 0 (N + 1))))) (RtoC (INR N))))).
  - apply (lt_mapM ct). intros k Hk. apply in_seq in Hk. apply (Hf _ (fun m : machine => k_position m (x m) amp (k_theta m N k))). apply T_position; [exact Hx|lia].
  - intros l0 l Hl. apply (rest_Ok ct _ (fun m : machine => kdiv m (k_trapezoid m (map (fun p => kmul m (fst p) (k_phase m n (k_theta m N (snd p)))) (combine (l m) (seq 0 (N + 1))))) (RtoC (INR N)))).
    apply T_kdiv; [|apply ct_const].
    apply (T_trapezoid _ (fun m : machine => map (fun p => kmul m (fst p) (k_phase m n (k_theta m N (snd p)))) (combine (l m) (seq 0 (N + 1))))).
    set (TH := fun (t : R) (kf : machine -> nat) => exists k, (k <= N)%nat /\ t = node N k /\ forall m, kf m = k).
    assert (HS : lt_ TH (map (fun k => (- PI + INR k * (2 * PI / INR N))%R) (seq 0 (N + 1))) (fun m : machine => map (fun k => k) (seq 0 (N + 1)))).
    { apply (lt_const TH _ _ (fun _ k => k)). intros k Hk. apply in_seq in Hk. exists k. split; [lia|]. split; reflexivity. }
    pose proof (lt_combine ct TH _ _ _ _ Hl HS) as HC.
    pose proof (lt_map _ ct _ _ (fun p => demod_integrand n (fst p) (snd p)) (fun (m : machine) p => kmul m (fst p) (k_phase m n (k_theta m N (snd p)))) HC) as Q.
    cbv beta in Q. rewrite map_id in Q. apply Q.
    intros [a t] p [H1 (k & Hk & Et & Ek)]. cbn [fst snd] in *. subst t. unfold demod_integrand.
    apply (ct_ext _ (fun m : machine => kmul m (fst (p m)) (k_phase m n (k_theta m N k)))); [intros m; now rewrite Ek|].
    apply T_kmul; [exact H1|now apply T_phase].
Qed.

(** ** fdm.py *)
Lemma T_geom z z' d d' r L g : rt z z' -> rt d d' ->
  ct (fdm_geom_func z d (rr r) (rr L) (Some g)) (fun m : machine => k_fdm_geom_func m (z' m) (d' m) r L g).
Proof.
  intros Hz Hd. unfold fdm_geom_func, k_fdm_geom_func.
  repeat first [apply T_kdiv | apply T_kmul | apply T_ksub | apply ct_const | apply ct_ofR | apply T_log | apply T_div | apply T_add | apply T_mul | exact Hz | exact Hd | apply rt_const].
Qed.
Lemma T_geom_multi z z' d d' r L g : rt z z' -> rt d d' ->
  ct (fdm_geom_func_multi z d (rr r) (rr L) (Some g)) (fun m : machine => k_fdm_geom_func_multi m (z' m) (d' m) r L g).
Proof.
  intros Hz Hd. unfold fdm_geom_func_multi, k_fdm_geom_func_multi.
  repeat first [apply T_kdiv | apply T_kmul | apply T_ksub | apply ct_const | apply ct_ofR | apply T_log | apply T_div | apply T_add | apply T_mul | exact Hz | exact Hd | apply rt_const].
Qed.
Lemma T_alpha b0 b0' b1 b1' f0 f0' f1 f1' : ct b0 b0' -> ct b1 b1' -> ct f0 f0' -> ct f1 f1' ->
  ct (rc 1 + (b0 * f0) / (rc 2 * (rc 1 - b1 * f1)))%cv (fun m : machine => k_fdm_alpha m (b0' m) (b1' m) (f0' m) (f1' m)).
Proof.
  intros. unfold k_fdm_alpha. repeat first [apply T_kdiv | apply T_kmul | apply T_ksub | apply T_kadd | apply ct_const | assumption].
Qed.
(** the default of d_Q0 *)
Definition dq0 (D : Defaults) (r L d : option R) : RV :=
  match d with
  | None => (rr (131 / 100) * rr (dflt (d_L_tip D) L) / (rr (dflt (d_L_tip D) L) + rr 2 * rr (dflt (d_r_tip D) r)))%rv
  | Some d => rr d
  end.
Definition k_dq0 (m : machine) (D : Defaults) (r L d : option R) : R :=
  match d with
  | None => a_div m (a_mul m (a_lit m (131 / 100)) (dflt (d_L_tip D) L)) (a_add m (dflt (d_L_tip D) L) (a_mul m 2 (dflt (d_r_tip D) r)))
  | Some d => d
  end.
Lemma T_dq0 D r L d : rt (dq0 D r L d) (fun m : machine => k_dq0 m D r L d).
Proof.
  unfold dq0, k_dq0. destruct d as [d|]; [apply rt_const|].
  apply T_div; [apply T_mul; [apply T_lit|apply rt_const]|apply T_add; [apply rt_const|apply T_mul; apply rt_const]].
Qed.
Lemma T_fdm_eff_pol lag D s z z' r L g d0 d1 da nl me : rt (rr z) z' ->
  rest ct (fdm_eff_pol lag D s (Some z) r L g d0 d1 da nl me) (fun m : machine => k_fdm_eff_pol m lag D s (z' m) r L g d0 d1 da nl me).
Proof.
  intros Hz. unfold fdm_eff_pol, k_fdm_eff_pol, fdm_defaults, k_fdm_defaults. cbv zeta. cbn [dflt]. fold (dq0 D r L d0).
  change (fun m : machine => _) with (fun m : machine => 
    let d_Q0 := k_dq0 m D r L d0 in
    let method := match me with None => if multilayer s then "multi"%string else "bulk"%string | Some m => m end in
    if String.eqb method "bulk" then
      if multilayer s then Raise (ValueError msg_bulk_multi) else
      let! beta := k_refl_coef_qs m s 0 in
      Ok (k_fdm_alpha m beta beta (k_fdm_geom_func m (z' m) d_Q0 (dflt (d_r_tip D) r) (dflt (d_L_tip D) L) (dflt (d_g_factor D) g))
                                  (k_fdm_geom_func m (z' m) (dflt (d_d_Q1 D) d1) (dflt (d_r_tip D) r) (dflt (d_L_tip D) L) (dflt (d_g_factor D) g)))
    else if String.eqb method "multi" then
      let! i0 := k_image_depth_and_charge m lag D s (a_add m (z' m) (a_mul m (dflt (d_r_tip D) r) d_Q0)) nl in
      let! i1 := k_image_depth_and_charge m lag D s (a_add m (z' m) (a_mul m (dflt (d_r_tip D) r) (dflt (d_d_Q1 D) d1))) nl in
      Ok (k_fdm_alpha m (snd i0) (snd i1) (k_fdm_geom_func_multi m (z' m) (fst i0) (dflt (d_r_tip D) r) (dflt (d_L_tip D) L) (dflt (d_g_factor D) g))
                                          (k_fdm_geom_func_multi m (z' m) (fst i1) (dflt (d_r_tip D) r) (dflt (d_L_tip D) L) (dflt (d_g_factor D) g)))
    else if String.eqb method "Q_ave" then
      let! beta := k_refl_coef_qs_above_surf m lag D s (a_add m (z' m) (a_mul m (dflt (d_r_tip D) r) (dflt (d_d_Qa D) da))) nl in
      Ok (k_fdm_alpha m beta beta (k_fdm_geom_func m (z' m) d_Q0 (dflt (d_r_tip D) r) (dflt (d_L_tip D) L) (dflt (d_g_factor D) g))
                                  (k_fdm_geom_func m (z' m) (dflt (d_d_Q1 D) d1) (dflt (d_r_tip D) r) (dflt (d_L_tip D) L) (dflt (d_g_factor D) g)))
    else Raise (ValueError msg_method)). cbv zeta.
  set (method := match me with None => if multilayer s then "multi"%string else "bulk"%string | Some m => m end).
  set (rt_ := dflt (d_r_tip D) r). set (Lt := dflt (d_L_tip D) L). set (gt := dflt (d_g_factor D) g). set (q1 := dflt (d_d_Q1 D) d1). set (qa := dflt (d_d_Qa D) da).
  pose proof (T_dq0 D r L d0) as HQ.
  pose proof (T_geom _ _ _ _ rt_ Lt gt Hz HQ) as F0. pose proof (T_geom _ _ _ _ rt_ Lt gt Hz (rt_const q1)) as F1.
  destruct (String.eqb method "bulk").
  { destruct (multilayer s); [intros m; reflexivity|].
    pose proof (T_refl_coef_qs s (rr 0) (fun _ => 0) (rt_const 0)) as HB.
    destruct (refl_coef_qs s (rr 0)) as [b0|e]; cbn [rbind rest] in *.
    - destruct HB as (b & Eb & Hb). exists (fun m : machine => k_fdm_alpha m (b m) (b m) (k_fdm_geom_func m (z' m) (k_dq0 m D r L d0) rt_ Lt gt) (k_fdm_geom_func m (z' m) q1 rt_ Lt gt)).
      split; [intros m; rewrite Eb; reflexivity|]. now apply T_alpha.
    - intros m. rewrite HB. reflexivity. }
  destruct (String.eqb method "multi").
  { pose proof (T_image lag D s _ _ nl (T_add _ _ _ _ Hz (T_mul _ _ _ _ (rt_const rt_) HQ))) as I0.
    pose proof (T_image lag D s _ _ nl (T_add _ _ _ _ Hz (T_mul _ _ _ _ (rt_const rt_) (rt_const q1)))) as I1.
    destruct (image_depth_and_charge lag D s (rr z + rr rt_ * dq0 D r L d0)%rv nl) as [i0|e]; cbn [rbind rest] in *; [|intros m; rewrite I0; reflexivity].
    destruct I0 as (j0 & E0 & P0 & Q0).
    destruct (image_depth_and_charge lag D s (rr z + rr rt_ * rr q1)%rv nl) as [i1|e]; cbn [rbind rest] in *; [|intros m; rewrite E0; cbn [rbind]; rewrite I1; reflexivity].
    destruct I1 as (j1 & E1 & P1 & Q1).
    exists (fun m : machine => k_fdm_alpha m (snd (j0 m)) (snd (j1 m)) (k_fdm_geom_func_multi m (z' m) (fst (j0 m)) rt_ Lt gt) (k_fdm_geom_func_multi m (z' m) (fst (j1 m)) rt_ Lt gt)).
    split; [intros m; rewrite E0; cbn [rbind]; rewrite E1; reflexivity|]. apply T_alpha; try assumption; now apply T_geom_multi. }
  destruct (String.eqb method "Q_ave"); [|intros m; reflexivity].
  pose proof (T_above lag D s _ _ nl (T_add _ _ _ _ Hz (T_mul _ _ _ _ (rt_const rt_) (rt_const qa)))) as HB.
  destruct (refl_coef_qs_above_surf lag D s (rr z + rr rt_ * rr qa)%rv nl) as [b0|e]; cbn [rbind rest] in *.
  - destruct HB as (b & Eb & Hb). exists (fun m : machine => k_fdm_alpha m (b m) (b m) (k_fdm_geom_func m (z' m) (k_dq0 m D r L d0) rt_ Lt gt) (k_fdm_geom_func m (z' m) q1 rt_ Lt gt)).
    split; [intros m; rewrite Eb; reflexivity|]. now apply T_alpha.
  - intros m. rewrite HB. reflexivity.
Qed.
Lemma T_fdm_eff_pol_n lag D s A n z nt r L g d0 d1 da nl me :
  rest ct (fdm_eff_pol_n lag D s A n z nt r L g d0 d1 da nl me) (fun m : machine => k_fdm_eff_pol_n m lag D s A n z nt r L g d0 d1 da nl me).
Proof.
  unfold fdm_eff_pol_n, k_fdm_eff_pol_n. cbv zeta.
  apply (T_demod D _ (fun (m : machine) x => k_fdm_eff_pol m lag D s x r L g d0 d1 da nl me) _ (fun m : machine => a_add m (dflt (d_z_tip D) z) A)).
  - intros w y Hy. now apply T_fdm_eff_pol.
  - exact (T_add _ _ _ _ (rt_const _) (rt_const A)).
Qed.
Lemma T_geom_taylor z z' j d d' e r L g : rt z z' -> rt d d' ->
  ct (fdm_geom_func_taylor z j (rr r) (rr L) (Some g) d (rr e)) (fun m : machine => k_fdm_geom_func_taylor m (z' m) j r L g (d' m) e).
Proof.
  intros Hz Hd. unfold fdm_geom_func_taylor, k_fdm_geom_func_taylor. cbv zeta.
  apply T_kmul; [now apply T_geom|]. apply T_kpow. apply (T_geom _ _ _ (fun _ => e)); [exact Hz|apply rt_const].
Qed.
Lemma T_taylor_coef D z j A n r L g d d' e nt : rt d d' ->
  rest ct (fdm_taylor_coef D z j A n (rr r) (rr L) (Some g) d (rr e) nt) (fun m : machine => k_fdm_taylor_coef m D z j A n r L g (d' m) e nt).
Proof.
  intros Hd. unfold fdm_taylor_coef, k_fdm_taylor_coef. cbv zeta.
  apply (rest_bind ct ct _ _ _ (fun (m : machine) x => Ok (if Nat.eqb j 0 then (if Z.eqb n 0 then RtoC 1 else RtoC 0) else kdiv m x (RtoC 2)))).
  - apply (T_demod D _ (fun (m : machine) x => Ok (k_fdm_geom_func_taylor m x j r L g (d' m) e)) _ (fun m : machine => a_add m z A)).
    + intros w y Hy. apply (rest_Ok ct _ (fun m : machine => k_fdm_geom_func_taylor m (y m) j r L g (d' m) e)). now apply T_geom_taylor.
    + exact (T_add _ _ _ _ (rt_const _) (rt_const A)).
  - intros y0 y Hy. apply (rest_Ok ct _ (fun m : machine => if Nat.eqb j 0 then (if Z.eqb n 0 then RtoC 1 else RtoC 0) else kdiv m (y m) (RtoC 2))).
    destruct (Nat.eqb j 0); [destruct (Z.eqb n 0); apply ct_const|]. apply T_kdiv; [exact Hy|apply ct_const].
Qed.
Lemma T_fdm_taylor lag D s A n z r L g d0 d1 da nl me nt ny :
  rest ct (fdm_eff_pol_n_taylor lag D s A n z r L g d0 d1 da nl me nt ny) (fun m : machine => k_fdm_eff_pol_n_taylor m lag D s A n z r L g d0 d1 da nl me nt ny).
Proof.
  unfold fdm_eff_pol_n_taylor, k_fdm_eff_pol_n_taylor, fdm_defaults, k_fdm_defaults. cbv zeta. fold (dq0 D r L d0).
  set (method := match me with None => if multilayer s then "Q_ave"%string else "bulk"%string | Some m => m end).
  set (rt_ := dflt (d_r_tip D) r). set (Lt := dflt (d_L_tip D) L). set (gt := dflt (d_g_factor D) g). set (q1 := dflt (d_d_Q1 D) d1). set (qa := dflt (d_d_Qa D) da). set (zt := dflt (d_z_tip D) z).
  pose proof (T_dq0 D r L d0) as HQ.
  apply (rest_bind ct ct _ (fun m : machine => if String.eqb method "bulk" then if multilayer s then Raise (ValueError msg_bulk_multi) else k_refl_coef_qs m s 0
       else if String.eqb method "Q_ave" then k_refl_coef_qs_above_surf m lag D s (a_add m zt (a_mul m rt_ qa)) nl else Raise (ValueError msg_method_taylor)) _
    (fun (m : machine) beta => let! terms := mapM (fun j => let! a := k_fdm_taylor_coef m D zt j A n rt_ Lt gt (k_dq0 m D r L d0) q1 nt in
        Ok (kmul m a (kpow m beta (Z.of_nat j)))) (seq 0 (dflt (d_n_tayl D) ny)) in Ok (k_sum m terms))).
  - destruct (String.eqb method "bulk"); [destruct (multilayer s); [intros m; reflexivity|apply (T_refl_coef_qs s (rr 0) (fun _ => 0)), rt_const]|].
    destruct (String.eqb method "Q_ave"); [|intros m; reflexivity].
    apply (T_above lag D s _ (fun m : machine => a_add m zt (a_mul m rt_ qa))). apply T_add; [apply rt_const|apply T_mul; apply rt_const].
  - intros b0 b Hb.
    apply (rest_bind (lt_ ct) ct _ (fun m : machine => mapM (fun j => let! a := k_fdm_taylor_coef m D zt j A n rt_ Lt gt (k_dq0 m D r L d0) q1 nt in
        Ok (kmul m a (kpow m (b m) (Z.of_nat j)))) (seq 0 (dflt (d_n_tayl D) ny))) _ (fun (m : machine) terms => Ok (k_sum m terms))).
    + apply (lt_mapM ct _ _ (fun (m : machine) j => let! a := k_fdm_taylor_coef m D zt j A n rt_ Lt gt (k_dq0 m D r L d0) q1 nt in
        Ok (kmul m a (kpow m (b m) (Z.of_nat j))))). intros j _.
      apply (rest_bind ct ct _ (fun m : machine => k_fdm_taylor_coef m D zt j A n rt_ Lt gt (k_dq0 m D r L d0) q1 nt) _ (fun (m : machine) a => Ok (kmul m a (kpow m (b m) (Z.of_nat j))))).
      * now apply T_taylor_coef.
      * intros a0 a Ha. apply (rest_Ok ct _ (fun m : machine => kmul m (a m) (kpow m (b m) (Z.of_nat j)))). apply T_kmul; [exact Ha|now apply T_kpow_nat].
    + intros l0 l Hl. apply (rest_Ok ct _ (fun m : machine => k_sum m (l m))). now apply T_ksum.
Qed.
Lemma T_fdm_inverse D a a' z r L g d0 d1 : ct a a' ->
  ct (fdm_refl_coef_qs_from_eff_pol D a z r L g d0 d1) (fun m : machine => k_fdm_refl_coef_qs_from_eff_pol m D (a' m) z r L g d0 d1).
Proof.
  intros Ha.
  unfold fdm_refl_coef_qs_from_eff_pol, k_fdm_refl_coef_qs_from_eff_pol, fdm_defaults, k_fdm_defaults. cbv zeta. fold (dq0 D r L d0).
  pose proof (T_dq0 D r L d0) as HQ.
  pose proof (T_geom _ _ _ _ (dflt (d_r_tip D) r) (dflt (d_L_tip D) L) (dflt (d_g_factor D) g) (rt_const (dflt (d_z_tip D) z)) HQ) as F0.
  pose proof (T_geom _ _ _ _ (dflt (d_r_tip D) r) (dflt (d_L_tip D) L) (dflt (d_g_factor D) g) (rt_const (dflt (d_z_tip D) z)) (rt_const (dflt (d_d_Q1 D) d1))) as F1.
  pose proof (T_ksub _ _ _ _ Ha (ct_const (RtoC 1))) as G.
  exact (T_kdiv _ _ _ _ (T_kmul _ _ _ _ (ct_const (RtoC 2)) G) (T_kadd _ _ _ _ F0 (T_kmul _ _ _ _ (T_kmul _ _ _ _ (ct_const (RtoC 2)) F1) G))).
Qed.

(** ** pdm.py *)
Lemma T_pdm_geom z z' r a a' : rt z z' -> ct a a' -> ct (pdm_geom_func z (rr r) a) (fun m : machine => k_pdm_geom_func m (z' m) r (a' m)).
Proof.
  intros Hz Ha. unfold pdm_geom_func, k_pdm_geom_func. apply T_kdiv; [exact Ha|]. apply ct_ofR, T_mul; [apply T_mul; [apply rt_const|apply T_lit]|].
  apply T_pow, T_add; [apply rt_const|exact Hz].
Qed.
Definition pt (p0 : R * CV) (p : machine -> R * C) : Prop := (forall m, fst (p m) = fst p0) /\ ct (snd p0) (fun m => snd (p m)).
Lemma T_pdm_defaults D r e a : rest pt (pdm_defaults D r e a) (fun m : machine => k_pdm_defaults m D r e a).
Proof.
  unfold pdm_defaults, k_pdm_defaults. cbv zeta. set (rt_ := dflt (d_r_tip D) r).
  assert (HA : ct (ofR (rr 4 * rr PI * rr rt_ ^ 3)%rv) (fun m : machine => RtoC (a_mul m (a_mul m 4 (a_lit m PI)) (a_pow m rt_ 3)))).
  { apply ct_ofR, T_mul; [apply T_mul; [apply rt_const|apply T_lit]|]. apply T_pow, rt_const. }
  destruct e as [eps|], a as [al|].
  - intros m. reflexivity.
  - apply (rest_Ok pt _ (fun m : machine => (rt_, kdiv m (kmul m (RtoC (a_mul m (a_mul m 4 (a_lit m PI)) (a_pow m rt_ 3))) (ksub m eps (RtoC 1))) (kadd m eps (RtoC 2))))).
    split; [reflexivity|]. cbn [fst snd]. apply T_kdiv; [apply T_kmul; [exact HA|apply T_ksub; apply ct_const]|apply T_kadd; apply ct_const].
  - apply (rest_Ok pt _ (fun m : machine => (rt_, al))). split; [reflexivity|]. apply ct_const.
  - apply (rest_Ok pt _ (fun m : machine => (rt_, RtoC (a_mul m (a_mul m 4 (a_lit m PI)) (a_pow m rt_ 3))))). split; [reflexivity|]. exact HA.
Qed.
Lemma T_pdm_eff_pol D s z z' r e a : rt (rr z) z' ->
  rest ct (pdm_eff_pol D s (Some z) r e a) (fun m : machine => k_pdm_eff_pol m D s (z' m) r e a).
Proof.
  intros Hz. unfold pdm_eff_pol, k_pdm_eff_pol. cbn [dflt].
  apply (rest_bind pt ct _ _ _ (fun (m : machine) ra => let! beta := k_refl_coef_qs m s 0 in
    Ok (kdiv m (snd ra) (ksub m (RtoC 1) (kmul m (k_pdm_geom_func m (z' m) (fst ra) (snd ra)) beta)))) (T_pdm_defaults D r e a)).
  intros [r0 a0] p [H1 H2]. cbn [fst snd] in *.
  apply (rest_bind ct ct _ (fun m : machine => k_refl_coef_qs m s 0) _ (fun (m : machine) beta =>
    Ok (kdiv m (snd (p m)) (ksub m (RtoC 1) (kmul m (k_pdm_geom_func m (z' m) (fst (p m)) (snd (p m))) beta))))).
  - apply (T_refl_coef_qs s (rr 0) (fun _ => 0)), rt_const.
  - intros b0 b Hb. apply (rest_Ok ct _ (fun m : machine => kdiv m (snd (p m)) (ksub m (RtoC 1) (kmul m (k_pdm_geom_func m (z' m) (fst (p m)) (snd (p m))) (b m))))).
    apply T_kdiv; [exact H2|]. apply T_ksub; [apply ct_const|]. apply T_kmul; [|exact Hb].
    apply (ct_ext _ (fun m : machine => k_pdm_geom_func m (z' m) r0 (snd (p m)))); [intros m; now rewrite H1|]. now apply T_pdm_geom.
Qed.
Lemma T_pdm_eff_pol_n D s A n z nt r e a :
  rest ct (pdm_eff_pol_n D s A n z nt r e a) (fun m : machine => k_pdm_eff_pol_n m D s A n z nt r e a).
Proof.
  unfold pdm_eff_pol_n, k_pdm_eff_pol_n. cbv zeta.
  apply (T_demod D _ (fun (m : machine) x => k_pdm_eff_pol m D s x r e a) _ (fun m : machine => a_add m (dflt (d_z_tip D) z) A)).
  - intros w y Hy. now apply T_pdm_eff_pol.
  - exact (T_add _ _ _ _ (rt_const _) (rt_const A)).
Qed.
Lemma T_pdm_taylor_coef D z j A n r a a' nt : ct a a' ->
  rest ct (pdm_taylor_coef D z j A n (rr r) a nt) (fun m : machine => k_pdm_taylor_coef m D z j A n r (a' m) nt).
Proof.
  intros Ha. unfold pdm_taylor_coef, k_pdm_taylor_coef. cbv zeta.
  apply (T_demod D _ (fun (m : machine) x => Ok (kpow m (k_pdm_geom_func m x r (a' m)) (Z.of_nat j))) _ (fun m : machine => a_add m z A)).
  - intros w y Hy. apply (rest_Ok ct _ (fun m : machine => kpow m (k_pdm_geom_func m (y m) r (a' m)) (Z.of_nat j))).
    apply (T_kpow_nat _ (fun m : machine => k_pdm_geom_func m (y m) r (a' m))). now apply T_pdm_geom.
  - exact (T_add _ _ _ _ (rt_const _) (rt_const A)).
Qed.
Lemma T_pdm_taylor D s A n z r e a nt ny :
  rest ct (pdm_eff_pol_n_taylor D s A n z r e a nt ny) (fun m : machine => k_pdm_eff_pol_n_taylor m D s A n z r e a nt ny).
Proof.
  unfold pdm_eff_pol_n_taylor, k_pdm_eff_pol_n_taylor. cbv zeta. set (zt := dflt (d_z_tip D) z). set (N := dflt (d_n_tayl D) ny).
  apply (rest_bind pt ct _ _ _ (fun (m : machine) ra => let! beta := k_refl_coef_qs m s 0 in
    let! terms := mapM (fun j => let! c := k_pdm_taylor_coef m D zt j A n (fst ra) (snd ra) nt in
       Ok (kmul m c (kpow m beta (Z.of_nat j)))) (seq 0 N) in Ok (k_sum m terms)) (T_pdm_defaults D r e a)).
  intros [r0 a0] p [H1 H2]. cbn [fst snd] in *.
  apply (rest_bind ct ct _ (fun m : machine => k_refl_coef_qs m s 0) _ (fun (m : machine) beta =>
    let! terms := mapM (fun j => let! c := k_pdm_taylor_coef m D zt j A n (fst (p m)) (snd (p m)) nt in
       Ok (kmul m c (kpow m beta (Z.of_nat j)))) (seq 0 N) in Ok (k_sum m terms))).
  - apply (T_refl_coef_qs s (rr 0) (fun _ => 0)), rt_const.
  - intros b0 b Hb.
    apply (rest_bind (lt_ ct) ct _ (fun m : machine => mapM (fun j => let! c := k_pdm_taylor_coef m D zt j A n (fst (p m)) (snd (p m)) nt in
       Ok (kmul m c (kpow m (b m) (Z.of_nat j)))) (seq 0 N)) _ (fun (m : machine) terms => Ok (k_sum m terms))).
    + apply (lt_mapM ct _ _ (fun (m : machine) j => let! c := k_pdm_taylor_coef m D zt j A n (fst (p m)) (snd (p m)) nt in
        Ok (kmul m c (kpow m (b m) (Z.of_nat j))))). intros j _.
      apply (rest_bind ct ct _ (fun m : machine => k_pdm_taylor_coef m D zt j A n (fst (p m)) (snd (p m)) nt) _ (fun (m : machine) c => Ok (kmul m c (kpow m (b m) (Z.of_nat j))))).
      * pose proof (T_pdm_taylor_coef D zt j A n r0 _ _ nt H2) as Q. destruct (pdm_taylor_coef D zt j A n (rr r0) a0 nt) as [y0|ex]; cbn [rest] in *.
        -- destruct Q as (y & Ey & Hy). exists y. split; [intros m; rewrite H1; apply Ey|exact Hy].
        -- intros m. rewrite H1. apply Q.
      * intros c0 c Hc. apply (rest_Ok ct _ (fun m : machine => kmul m (c m) (kpow m (b m) (Z.of_nat j)))). apply T_kmul; [exact Hc|now apply T_kpow_nat].
    + intros l0 l Hl. apply (rest_Ok ct _ (fun m : machine => k_sum m (l m))). now apply T_ksum.
Qed.
Lemma T_pdm_inverse D al al' z r e a : ct al al' ->
  rest ct (pdm_refl_coef_qs_from_eff_pol D al z r e a) (fun m : machine => k_pdm_refl_coef_qs_from_eff_pol m D (al' m) z r e a).
Proof.
  intros HA. unfold pdm_refl_coef_qs_from_eff_pol, k_pdm_refl_coef_qs_from_eff_pol. cbv zeta. set (zt := dflt (d_z_tip D) z).
  apply (rest_bind pt ct _ _ _ (fun (m : machine) ra => Ok (kdiv m (ksub m (al' m) (snd ra)) (kmul m (k_pdm_geom_func m zt (fst ra) (snd ra)) (al' m)))) (T_pdm_defaults D r e a)).
  intros [r0 a0] p [H1 H2]. cbn [fst snd] in *.
  apply (rest_Ok ct _ (fun m : machine => kdiv m (ksub m (al' m) (snd (p m))) (kmul m (k_pdm_geom_func m zt (fst (p m)) (snd (p m))) (al' m)))).
  apply T_kdiv; [apply T_ksub; [exact HA|exact H2]|]. apply T_kmul; [|exact HA].
  apply (ct_ext _ (fun m : machine => k_pdm_geom_func m zt r0 (snd (p m)))); [intros m; now rewrite H1|]. apply (T_pdm_geom _ (fun _ => zt)); [apply rt_const|exact H2].
Qed.

(** ** Permittivities *)
Lemma T_lorentz nu nuj ga A p f e :
  rest ct (lorentz_perm nu nuj ga A p f e) (fun m : machine => k_lorentz_perm m nu nuj ga A p f e).
Proof.
  unfold lorentz_perm, k_lorentz_perm. cbv zeta. set (f' := dflt 1 f). set (e' := dflt 1 e).
  assert (G : forall a0 (a : machine -> R), rt (rr a0) a ->
    ct (rc e' + rc a0 / (ofR (rr nuj ^ 2 - rr nu ^ 2)%rv - Some (0, 1)%R * rc ga * rc nu))%cv
       (fun m : machine => kadd m (RtoC e') (kdiv m (RtoC (a m)) (ksub m (RtoC (a_sub m (a_pow m nuj 2) (a_pow m nu 2))) (kmul m (kmul m (0, 1) (RtoC ga)) (RtoC nu)))))).
  { intros a0 a Ha. apply T_kadd; [apply ct_const|]. apply T_kdiv; [exact (ct_ofR _ _ Ha)|].
    apply T_ksub; [|apply T_kmul; [apply T_kmul; apply ct_const|apply ct_const]].
    apply ct_ofR, T_sub; apply T_pow, rt_const. }
  destruct A as [a|], p as [q|]; cbn [rbind].
  - intros m. reflexivity.
  - apply (rest_Ok ct _ (fun m : machine => kadd m (RtoC e') (kdiv m (RtoC a) (ksub m (RtoC (a_sub m (a_pow m nuj 2) (a_pow m nu 2))) (kmul m (kmul m (0, 1) (RtoC ga)) (RtoC nu)))))).
    apply (G a (fun _ => a)), rt_const.
  - apply (rest_Ok ct _ (fun m : machine => kadd m (RtoC e') (kdiv m (RtoC (a_mul m f' (a_pow m q 2))) (ksub m (RtoC (a_sub m (a_pow m nuj 2) (a_pow m nu 2))) (kmul m (kmul m (0, 1) (RtoC ga)) (RtoC nu)))))).
    apply (G (f' * q ^ 2) (fun m : machine => a_mul m f' (a_pow m q 2))). exact (T_mul _ _ _ _ (rt_const f') (T_pow _ _ 2 (rt_const q))).
  - intros m. reflexivity.
Qed.
Lemma T_permitivitty b b' e : ct b b' -> ct (permitivitty b (Some e)) (fun m : machine => k_permitivitty m (b' m) e).
Proof.
  intros Hb. unfold permitivitty, k_permitivitty. apply T_kdiv; [apply T_kmul; [apply ct_const|apply T_kadd; [apply ct_const|exact Hb]]|apply T_ksub; [apply ct_const|exact Hb]].
Qed.
Lemma T_single a b : ct (refl_coef_qs_single (Some a) (Some b)) (fun m : machine => k_refl_coef_qs_single m a b).
Proof. unfold refl_coef_qs_single, k_refl_coef_qs_single. apply T_kdiv; [apply T_ksub|apply T_kadd]; apply ct_const. Qed.
End Gauge.
