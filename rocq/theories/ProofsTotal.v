(** * C98: how far a computed signal is from the documented integral (point dipole model) *)
From Coq Require Import String Reals Lra Lia ZArith List Bool Permutation.
From Coquelicot Require Import Coquelicot.
From Coq Require Import List.
From Verif Require Import Num NumLemmas ModelBase ModelSample ModelTip StackLemmas Spec SpecSampling DemodLemmas ProofsTip ProofsTip3 ProofsTip5
  SpecRound ModelRound ModelRound2 RoundLemmas RoundLemmas2 ProofsPassive ProofsRounding ProofsRounding2 ProofsRounding3 ProofsSampling3.
Import ListNotations.
Open Scope R_scope.

(** ** Relative errors of real numbers *)
Lemma near_trans a b x y z : 0 <= b -> near a x y -> near b y z -> near (a + b + a * b) x z.
Proof.
  unfold near. intros Hb H1 H2. pose proof (near_abs _ _ _ H1) as H3.
  replace (z - x) with ((z - y) + (y - x)) by ring. eapply Rle_trans; [apply Rabs_triang|].
  assert (b * Rabs y <= b * ((1 + a) * Rabs x)) by (apply Rmult_le_compat_l; assumption). lra.
Qed.
Lemma near_le a b x y : a <= b -> near a x y -> near b x y.
Proof. unfold near. intros H1 H2. eapply Rle_trans; [exact H2|]. apply Rmult_le_compat_r; [apply Rabs_pos|exact H1]. Qed.
Lemma near_mul a b x x' y y' : 0 <= a -> 0 <= b -> near a x x' -> near b y y' -> near (a + b + a * b) (x * y) (x' * y').
Proof.
  intros Ha Hb H1 H2. destruct (near_ex _ _ _ Ha H1) as (d & D1 & ->). destruct (near_ex _ _ _ Hb H2) as (e & E1 & ->).
  unfold near. replace (x * (1 + d) * (y * (1 + e)) - x * y) with ((d + e + d * e) * (x * y)) by ring. rewrite Rabs_mult.
  apply Rmult_le_compat_r; [apply Rabs_pos|]. eapply Rle_trans; [apply Rabs_triang|]. rewrite Rabs_mult.
  pose proof (Rabs_triang d e). assert (Rabs d * Rabs e <= a * b) by (apply Rmult_le_compat; (apply Rabs_pos || assumption)). lra.
Qed.
Lemma near_cube a x x' : 0 <= a <= 1 / 50 -> near a x x' -> near (307 / 100 * a) (x ^ 3) (x' ^ 3).
Proof.
  intros Ha H. destruct (near_ex _ _ _ (proj1 Ha) H) as (d & D1 & ->). unfold near.
  replace ((x * (1 + d)) ^ 3 - x ^ 3) with ((d * (3 + 3 * d + d ^ 2)) * x ^ 3) by ring. rewrite Rabs_mult.
  apply Rmult_le_compat_r; [apply Rabs_pos|]. rewrite Rabs_mult.
  assert (B : Rabs (3 + 3 * d + d ^ 2) <= 307 / 100).
  { assert (- a <= d <= a) by (apply Rabs_le_between; lra). apply Rabs_le. nra. }
  rewrite Rmult_comm. apply Rmult_le_compat; (apply Rabs_pos || assumption).
Qed.
Lemma near_pos a x y : a < 1 -> 0 < x -> near a x y -> 0 < y.
Proof.
  unfold near. intros Ha Hx H. rewrite (Rabs_pos_eq x) in H by lra. apply Rabs_le_between in H.
  assert (a * x < 1 * x) by (apply Rmult_lt_compat_r; lra). lra.
Qed.
Lemma near_C a x y : near a x y -> cnear a (RtoC x) (RtoC y).
Proof. unfold near, cnear. intros H. now rewrite <- RtoC_minus, !Cmod_R. Qed.
Lemma near_c a b x y u : near (a * u) x y -> forall z, near u y z -> 0 <= u -> a * u <= b -> near ((a + 1 + b) * u) x z.
Proof.
  intros H1 z H2 Hu Hb. eapply near_le; [|eapply near_trans; [exact Hu|exact H1|exact H2]].
  assert (a * u * u <= b * u) by (apply Rmult_le_compat_r; assumption). lra.
Qed.
(** quotient of perturbed positive numbers *)
Lemma near_div a b x x' y y' : 0 <= a -> 0 <= b <= 1 / 10 -> 0 < y -> near a x x' -> near b y y' ->
  near (10 / 9 * (a + b)) (x / y) (x' / y').
Proof.
  intros Ha Hb Hy H1 H2. destruct (near_ex _ _ _ Ha H1) as (d & D1 & ->). destruct (near_ex _ _ _ (proj1 Hb) H2) as (e & E1 & ->).
  assert (- b <= e <= b) by (apply Rabs_le_between; lra). unfold near.
  replace (x * (1 + d) / (y * (1 + e)) - x / y) with ((d - e) * / (1 + e) * (x / y)) by (field; lra).
  rewrite Rabs_mult. apply Rmult_le_compat_r; [apply Rabs_pos|]. rewrite Rabs_mult, (Rabs_pos_eq (/ (1 + e))) by (left; apply Rinv_0_lt_compat; lra).
  assert (I : / (1 + e) <= 10 / 9) by (apply Rle_trans with (/ (9 / 10)); [apply Rinv_le_contravar; lra|lra]).
  assert (Rabs (d - e) <= a + b) by (unfold Rminus; eapply Rle_trans; [apply Rabs_triang|]; rewrite Rabs_Ropp; lra).
  rewrite Rmult_comm. apply Rmult_le_compat; [left; apply Rinv_0_lt_compat; lra|apply Rabs_pos|exact I|assumption].
Qed.

(** ** A summation tree is no higher than it has leaves *)
Lemma order_height_lt t : (order_height t < length (leaves t))%nat.
Proof. induction t as [k|l IHl r IHr]; cbn [order_height leaves length]; [lia|]. rewrite app_length. lia. Qed.
Lemma height_of_sum t N : adds_up t N -> (order_height t < N)%nat.
Proof. intros H. pose proof (order_height_lt t) as P. rewrite (Permutation_length H), seq_length in P. exact P. Qed.

(** ** Demodulation about the tapping centre z + A, which is itself computed *)
Lemma demod_shift D f x0 s A n nt : demod D (fun x => f (x + s)) x0 A n nt = demod D f (x0 + s) A n nt.
Proof.
  unfold demod. replace (x0 + 0 * A + s) with (x0 + s + 0 * A) by ring.
  assert (E : forall l, mapM (fun theta => f (x0 + cos theta * A + s)) l = mapM (fun theta => f (x0 + s + cos theta * A)) l).
  { induction l as [|t l IH]; [reflexivity|]. cbn [mapM]. rewrite IH. now replace (x0 + cos t * A + s) with (x0 + s + cos t * A) by ring. }
  now rewrite E.
Qed.
Lemma demod_within D u m f g (kf : R -> res C) fk z A n B F :
  rounding u m -> 0 <= u <= / 10 ^ 4 -> d_n_trapz D = 32%nat -> (Z.abs n <= 4)%Z -> 0 <= z -> 0 < A ->
  (forall x, z <= x <= z + 2 * A -> f x = Ok (Some (g x)) /\ Cmod (g x) <= B) ->
  (forall x, kf x = Ok (fk x)) ->
  (forall x x', z <= x <= z + 2 * A -> Rabs (x' - x) <= u * (201 / 100 * (z + A) + 67 * A) -> Cmod (fk x' - g x)%C <= F) ->
  exists v w, k_demod_res m D kf (a_add m z A) A n None = Ok w /\ demod D f (z + A) A n None = Ok (Some v) /\
    Cmod (w - v)%C <= 2 * F + 670 * u * B.
Proof.
  intros [Hm Ho] Hu HD Hn Hz HA Hf Hkf Hfk.
  set (z0 := a_add m z A). set (s := z + A - z0).
  assert (Hs : Rabs s <= u * (z + A)).
  { unfold s. rewrite Rabs_minus_sym. pose proof (r_add u m Hm z A) as X. unfold near in X. rewrite (Rabs_pos_eq (z + A)) in X by lra. exact X. }
  assert (O32 : adds_up (m_order m 32) 32) by (apply Ho; lia).
  assert (Hz0 : Rabs z0 <= (1 + u) * (z + A)).
  { replace z0 with (z + A + - s) by (unfold s; ring). eapply Rle_trans; [apply Rabs_triang|]. rewrite Rabs_Ropp, (Rabs_pos_eq (z + A)) by lra. lra. }
  pose proof (height_of_sum _ _ O32) as HH.
  assert (HN : Rabs (IZR n) <= 4) by (rewrite <- abs_IZR; apply IZR_le; exact Hn).
  assert (HI : INR (order_height (m_order m 32)) <= 31) by (replace 31 with (INR 31) by (cbn; lra); apply le_INR; lia).
  pose proof (pos_INR (order_height (m_order m 32))) as HI0. pose proof (Rabs_pos (IZR n)) as HN0.
  assert (SB : (INR (order_height (m_order m 32)) + 36 + 67 * Rabs (IZR n)) * u <= 335 * u) by (apply Rmult_le_compat_r; lra).
  destruct (C73_demod_error_proof D m u (m_order m 32) (fun x => f (x + s)) (fun x => g (x + s)) fk z0 A n 32 B F) as (d & Ed & Bd); auto.
  - lra.
  - intros x Hx. rewrite (Rabs_pos_eq A) in Hx by lra. apply Rabs_le_between in Hx. apply Hf. unfold s. lra.
  - intros x x' Hx Hx'. rewrite (Rabs_pos_eq A) in * by lra. apply Rabs_le_between in Hx. apply Hfk; [unfold s; lra|].
    replace (x' - (x + s)) with ((x' - x) + - s) by ring. eapply Rle_trans; [apply Rabs_triang|]. rewrite Rabs_Ropp.
    assert (u * Rabs z0 <= u * ((1 + u) * (z + A))) by (apply Rmult_le_compat_l; lra).
    assert (u * ((1 + u) * (z + A)) <= u * ((101 / 100) * (z + A))) by (apply Rmult_le_compat_l; [lra|apply Rmult_le_compat_r; lra]). lra.
  - lra.
  - exists d. eexists. split; [|split].
    + assert (EN : given_or (d_n_trapz D) None = 32%nat) by exact HD.
      pose proof (demod_res_demod m D kf fk z0 A n None) as Q. cbv zeta in Q. rewrite EN in Q.
      apply Q; [lia|exact O32|eexists; apply Hkf|intros; apply Hkf].
    + rewrite (demod_shift D f z0 s A n (Some 32%nat)) in Ed. replace (z0 + s) with (z + A) in Ed by (unfold s; ring).
      rewrite <- Ed. unfold demod. cbn [dflt]. now rewrite HD.
    + eapply Rle_trans; [exact Bd|]. assert (B0 : 0 <= B) by (destruct (Hf z ltac:(lra)) as [_ X]; pose proof (Cmod_ge_0 (g z)); lra).
      apply Rplus_le_compat_l. apply Rmult_le_compat_r; [exact B0|]. lra.
Qed.

(** ** The point dipole model *)
Lemma pdm_alpha_near u (m : machine) r : rounds u m -> 0 <= u <= / 10 ^ 4 -> near (401 / 100 * u) (4 * PI * r ^ 3) (a_mul m (a_mul m 4 (a_lit m PI)) (a_pow m r 3)).
Proof.
  intros Hm [Hu Hu1]. assert (U2 : 0 <= u * u <= / 10 ^ 4 * u) by (split; [apply Rmult_le_pos; lra|apply Rmult_le_compat_r; lra]).
  assert (N0 : near 0 4 4) by (unfold near; rewrite Rminus_eq_0, Rabs_R0; lra).
  pose proof (near_mul 0 u 4 4 PI (a_lit m PI) (Rle_refl 0) Hu N0 (r_lit u m Hm PI)) as N1.
  pose proof (near_trans _ _ _ _ _ Hu N1 (r_mul u m Hm 4 (a_lit m PI))) as N2.
  assert (N2' : near (2001 / 1000 * u) (4 * PI) (a_mul m 4 (a_lit m PI))) by (eapply near_le; [|exact N2]; lra).
  pose proof (near_mul (2001 / 1000 * u) _ _ _ _ _ ltac:(lra) Hu N2' (r_pow u m Hm r 3)) as N3.
  assert (N3' : near (3002 / 1000 * u) (4 * PI * r ^ 3) (a_mul m 4 (a_lit m PI) * a_pow m r 3)) by (eapply near_le; [|exact N3]; lra).
  pose proof (near_trans _ _ _ _ _ Hu N3' (r_mul u m Hm _ _)) as N4.
  eapply near_le; [|exact N4]. lra.
Qed.

Lemma Cmod_near_lower (x y : C) e : Cmod (y - x)%C <= e -> Cmod x - e <= Cmod y.
Proof.
  intros H. assert (T : Cmod x <= Cmod (y - x)%C + Cmod y); [|lra].
  replace x with (- (y - x) + y)%C at 1 by ring. eapply Rle_trans; [apply Cmod_triangle|]. rewrite Cmod_opp. lra.
Qed.
Lemma Cmod_near_upper (x y : C) e : Cmod (y - x)%C <= e -> Cmod y <= Cmod x + e.
Proof.
  intros H. replace y with ((y - x) + x)%C at 1 by ring. eapply Rle_trans; [apply Cmod_triangle|]. lra.
Qed.
Lemma Cmod_chain (x y w : C) a b : Cmod (y - x)%C <= a -> Cmod (w - y)%C <= b -> Cmod (w - x)%C <= a + b.
Proof.
  intros H1 H2. replace (w - x)%C with ((w - y) + (y - x))%C by ring. eapply Rle_trans; [apply Cmod_triangle|]. lra.
Qed.
(** products and quotients of perturbed numbers, absolute errors *)
Lemma prod_err (x x' y y' : C) a b Bx By : Cmod (x' - x)%C <= a -> Cmod (y' - y)%C <= b -> Cmod x' <= Bx -> Cmod y <= By ->
  Cmod (x' * y' - x * y)%C <= a * By + Bx * b.
Proof.
  intros H1 H2 H3 H4. replace (x' * y' - x * y)%C with ((x' - x) * y + x' * (y' - y))%C by ring.
  eapply Rle_trans; [apply Cmod_triangle|]. rewrite !Cmod_mult.
  apply Rplus_le_compat; apply Rmult_le_compat; (apply Cmod_ge_0 || assumption).
Qed.
Lemma quot_err (x x' y y' : C) a b m m' M : Cmod (x' - x)%C <= a -> Cmod (y' - y)%C <= b -> 0 < m -> m <= Cmod y -> 0 < m' -> m' <= Cmod y' -> Cmod x <= M ->
  y' <> RtoC 0 /\ Cmod (x' / y' - x / y)%C <= a / m' + M * b / (m * m').
Proof.
  intros H1 H2 Hm H3 Hm' H4 H5.
  assert (N : y <> RtoC 0) by (apply Cmod_gt_0; lra). assert (N' : y' <> RtoC 0) by (apply Cmod_gt_0; lra). split; [exact N'|].
  replace (x' / y' - x / y)%C with ((x' - x) / y' + - (x * (y' - y) / (y * y')))%C by (field; split; assumption).
  eapply Rle_trans; [apply Cmod_triangle|]. rewrite Cmod_opp, !Cmod_div, !Cmod_mult by (assumption || now apply Cmult_neq_0).
  apply Rplus_le_compat.
  - apply Rmult_le_compat; [apply Cmod_ge_0|left; apply Rinv_0_lt_compat; lra|exact H1|apply Rinv_le_contravar; assumption].
  - apply Rmult_le_compat; [apply Rmult_le_pos; apply Cmod_ge_0|left; apply Rinv_0_lt_compat; apply Rmult_lt_0_compat; lra| |].
    + apply Rmult_le_compat; (apply Cmod_ge_0 || assumption).
    + apply Rinv_le_contravar; [now apply Rmult_lt_0_compat|]. apply Rmult_le_compat; lra.
Qed.

Lemma pdm_geom_near u (m : machine) r x x' alpha' : rounds u m -> 0 <= u <= / 10 ^ 4 -> 0 < r -> 0 <= x -> Rabs (x' - x) <= 104 * u * (r + x) ->
  near (401 / 100 * u) (4 * PI * r ^ 3) alpha' ->
  cnear (383 * u) (RtoC (4 * PI * r ^ 3 / (16 * PI * (r + x) ^ 3))) (k_pdm_geom_func m x' r (RtoC alpha')).
Proof.
  intros Hm [Hu Hu1] Hr Hx Hx' Ha. pose proof PI_RGT_0 as PP.
  assert (U2 : 0 <= u * u <= / 10 ^ 4 * u) by (split; [apply Rmult_le_pos; lra|apply Rmult_le_compat_r; lra]).
  set (p := r + x) in *. assert (Hp : 0 < p) by (unfold p; lra).
  assert (N1 : near (104 * u) p (r + x')).
  { unfold near. replace (r + x' - p) with (x' - x) by (unfold p; ring). rewrite (Rabs_pos_eq p) by lra. exact Hx'. }
  assert (N2 : near (1051 / 10 * u) p (a_add m r x')).
  { eapply near_le; [|eapply near_trans; [exact Hu|exact N1|apply (r_add u m Hm)]]. lra. }
  pose proof (near_cube (1051 / 10 * u) _ _ ltac:(split; lra) N2) as N3.
  assert (N4 : near (324 * u) (p ^ 3) (a_pow m (a_add m r x') 3)).
  { eapply near_le; [|eapply near_trans; [exact Hu|exact N3|apply (r_pow u m Hm)]]. lra. }
  assert (N0 : near 0 16 16) by (unfold near; rewrite Rminus_eq_0, Rabs_R0; lra).
  pose proof (near_mul 0 u 16 16 PI (a_lit m PI) (Rle_refl 0) Hu N0 (r_lit u m Hm PI)) as N5.
  assert (N6 : near (2001 / 1000 * u) (16 * PI) (a_mul m 16 (a_lit m PI))).
  { eapply near_le; [|eapply near_trans; [exact Hu|exact N5|apply (r_mul u m Hm)]]. lra. }
  pose proof (near_mul (2001 / 1000 * u) (324 * u) _ _ _ _ ltac:(lra) ltac:(lra) N6 N4) as N7.
  assert (N8 : near (328 * u) (16 * PI * p ^ 3) (a_mul m (a_mul m 16 (a_lit m PI)) (a_pow m (a_add m r x') 3))).
  { assert (N7' : near (3262 / 10 * u) (16 * PI * p ^ 3) (a_mul m 16 (a_lit m PI) * a_pow m (a_add m r x') 3)) by (eapply near_le; [|exact N7]; lra).
    eapply near_le; [|eapply near_trans; [exact Hu|exact N7'|apply (r_mul u m Hm)]]. lra. }
  set (d' := a_mul m (a_mul m 16 (a_lit m PI)) (a_pow m (a_add m r x') 3)) in *.
  assert (P3 : 0 < p ^ 3) by now apply pow_lt. assert (PD : 0 < 16 * PI * p ^ 3) by nra.
  assert (PD' : 0 < d') by (apply (near_pos (328 * u) _ _ ltac:(lra) PD N8)).
  pose proof (near_div (401 / 100 * u) (328 * u) _ _ _ _ ltac:(lra) ltac:(split; lra) PD Ha N8) as N9.
  pose proof (near_C _ _ _ N9) as N10. unfold k_pdm_geom_func. fold d'.
  assert (ND : RtoC d' <> RtoC 0) by (apply RtoC_neq_0; lra).
  pose proof (kdiv_near u m Hu ltac:(lra) Hm (RtoC alpha') (RtoC d') ND) as K.
  rewrite <- RtoC_div in K by lra. unfold cnear in *.
  set (g := RtoC (4 * PI * r ^ 3 / (16 * PI * p ^ 3))) in *. set (h := RtoC (alpha' / d')) in *.
  pose proof (Cmod_near_upper _ _ _ N10) as UP. pose proof (Cmod_ge_0 g) as G0.
  eapply Rle_trans; [exact (Cmod_chain _ _ _ _ _ N10 K)|].
  assert (13 * u * Cmod h <= 13 * u * ((1 + 4 / 100) * Cmod g)).
  { apply Rmult_le_compat_l; [lra|]. eapply Rle_trans; [exact UP|]. assert (10 / 9 * (401 / 100 * u + 328 * u) * Cmod g <= 4 / 100 * Cmod g) by (apply Rmult_le_compat_r; lra). lra. }
  assert (0 <= u * Cmod g) by (apply Rmult_le_pos; lra). lra.
Qed.

Lemma pdm_point u (m : machine) r x x' (beta b' : C) delta : rounds u m -> 0 <= u <= / 10 ^ 4 -> 0 < r -> 0 <= x -> Rabs (x' - x) <= 104 * u * (r + x) ->
  Cmod beta <= 101 / 100 -> Cmod (b' - beta)%C <= delta -> delta <= 1 / 100 ->
  let a := 4 * PI * r ^ 3 in let a' := a_mul m (a_mul m 4 (a_lit m PI)) (a_pow m r 3) in
  let v := (RtoC a / (1 - RtoC a / RtoC (16 * PI * (r + x) ^ 3) * beta))%C in
  (1 - RtoC a / RtoC (16 * PI * (r + x) ^ 3) * beta <> 0)%C /\ Cmod v <= 134 / 100 * a /\
  Cmod (kdiv m (RtoC a') (ksub m (RtoC 1) (kmul m (k_pdm_geom_func m x' r (RtoC a')) b')) - v)%C <= (205 * u + delta / 2) * a.
Proof.
  intros Hm [Hu Hu1] Hr Hx Hx' Hb Hb' Hd a a' v. pose proof PI_RGT_0 as PP.
  assert (U2 : 0 <= u * u <= / 10 ^ 4 * u) by (split; [apply Rmult_le_pos; lra|apply Rmult_le_compat_r; lra]).
  assert (D0 : 0 <= delta) by (eapply Rle_trans; [apply Cmod_ge_0|exact Hb']).
  assert (UD : 0 <= u * delta <= / 10 ^ 2 * u) by (split; [apply Rmult_le_pos; lra|rewrite Rmult_comm; apply Rmult_le_compat_r; lra]).
  pose proof (pdm_alpha_near u m r Hm (conj Hu Hu1)) as NA. fold a a' in NA.
  pose proof (pdm_geom_near u m r x x' a' Hm (conj Hu Hu1) Hr Hx Hx' NA) as NG. fold a in NG.
  assert (R3 : 0 < r ^ 3) by now apply pow_lt. assert (P3 : r ^ 3 <= (r + x) ^ 3) by (apply pow_incr; lra).
  assert (Pa : 0 < a) by (unfold a; nra). assert (PD : 0 < 16 * PI * (r + x) ^ 3) by nra.
  set (g0 := a / (16 * PI * (r + x) ^ 3)) in *.
  assert (G0 : 0 < g0 <= 1 / 4).
  { unfold g0. split; [now apply Rdiv_lt_0_compat|]. apply Rle_div_l; [exact PD|]. unfold a. nra. }
  assert (EG : (RtoC a / RtoC (16 * PI * (r + x) ^ 3))%C = RtoC g0) by (unfold g0; now rewrite RtoC_div by lra).
  unfold v. rewrite EG. clear v. set (v := (RtoC a / (1 - RtoC g0 * beta))%C).
  set (g' := k_pdm_geom_func m x' r (RtoC a')) in *. unfold cnear in NG. rewrite Cmod_R, (Rabs_pos_eq g0) in NG by lra.
  assert (NG' : Cmod (g' - RtoC g0)%C <= 9575 / 100 * u) by (eapply Rle_trans; [exact NG|]; assert (u * g0 <= u * (1 / 4)) by (apply Rmult_le_compat_l; lra); lra).
  assert (MG0 : Cmod (RtoC g0) <= 1 / 4) by (rewrite Cmod_R, Rabs_pos_eq; lra).
  pose proof (Cmod_near_upper _ _ _ NG') as MG. 
  assert (MG' : Cmod g' <= 2596 / 10000) by lra.
  pose proof (prod_err _ _ _ _ _ _ _ _ NG' Hb' MG' Hb) as E0.
  assert (MGB : Cmod (RtoC g0 * beta)%C <= 2525 / 10000).
  { rewrite Cmod_mult. eapply Rle_trans; [apply Rmult_le_compat; [apply Cmod_ge_0|apply Cmod_ge_0|exact MG0|exact Hb]|lra]. }
  pose proof (Cmod_near_upper _ _ _ E0) as MK.
  pose proof (kmul_near u m Hu ltac:(lra) Hm g' b') as K1. unfold cnear in K1.
  assert (K1' : Cmod (kmul m g' b' - g' * b')%C <= 107 / 100 * u).
  { eapply Rle_trans; [exact K1|]. assert (u * Cmod (g' * b')%C <= u * (266 / 1000)) by (apply Rmult_le_compat_l; lra). lra. }
  pose proof (Cmod_chain _ _ _ _ _ E0 K1') as E1. set (k := kmul m g' b') in *.
  pose proof (ksub_near u m Hu Hm (RtoC 1) k) as K2. unfold cnear in K2.
  assert (E1' : Cmod ((1 - k) - (1 - RtoC g0 * beta))%C <= 978 / 10 * u + 2596 / 10000 * delta).
  { replace ((1 - k) - (1 - RtoC g0 * beta))%C with (- (k - RtoC g0 * beta))%C by ring. rewrite Cmod_opp. eapply Rle_trans; [exact E1|]. lra. }
  assert (MD : Cmod (1 - RtoC g0 * beta)%C <= 12525 / 10000).
  { unfold Cminus. eapply Rle_trans; [apply Cmod_triangle|]. rewrite Cmod_opp, Cmod_1. lra. }
  assert (LD : 7475 / 10000 <= Cmod (1 - RtoC g0 * beta)%C).
  { pose proof (Cmod_near_lower (RtoC 1) (1 - RtoC g0 * beta)%C (2525 / 10000)) as X. rewrite Cmod_1 in X.
    replace (1 - RtoC g0 * beta - RtoC 1)%C with (- (RtoC g0 * beta))%C in X by ring. rewrite Cmod_opp in X. specialize (X MGB). lra. }
  pose proof (Cmod_near_upper _ _ _ E1') as MK2.
  assert (K2' : Cmod (ksub m (RtoC 1) k - (1 - k))%C <= 127 / 100 * u).
  { eapply Rle_trans; [exact K2|]. rewrite Rmult_comm. apply Rmult_le_compat_r; [exact Hu|]. change (RtoC 1 - k)%C with (1 - k)%C. lra. }
  pose proof (Cmod_chain _ _ _ _ _ E1' K2') as E2. set (dk := ksub m (RtoC 1) k) in *.
  pose proof (Cmod_near_lower _ _ _ E2) as LK.
  assert (LK' : 7349 / 10000 <= Cmod dk) by lra.
  pose proof (near_C _ _ _ NA) as NA'. unfold cnear in NA'. rewrite Cmod_R, (Rabs_pos_eq a) in NA' by lra.
  destruct (quot_err (RtoC a) (RtoC a') (1 - RtoC g0 * beta)%C dk _ _ (7475 / 10000) (7349 / 10000) a NA' E2 ltac:(lra) LD ltac:(lra) LK') as [ND Q].
  { rewrite Cmod_R, Rabs_pos_eq; lra. }
  assert (N0 : (1 - RtoC g0 * beta <> 0)%C) by (apply Cmod_gt_0; lra).
  split; [exact N0|].
  assert (MV : Cmod v <= 134 / 100 * a).
  { unfold v. rewrite Cmod_div by exact N0. rewrite Cmod_R, (Rabs_pos_eq a) by lra. apply Rle_div_l; [lra|].
    assert (134 / 100 * a * (7475 / 10000) <= 134 / 100 * a * Cmod (1 - RtoC g0 * beta)%C) by (apply Rmult_le_compat_l; lra). lra. }
  split; [exact MV|]. fold v in Q.
  pose proof (kdiv_near u m Hu ltac:(lra) Hm (RtoC a') dk ND) as K3. unfold cnear in K3.
  assert (AU : 0 <= a * u <= a * / 10 ^ 4) by (split; [apply Rmult_le_pos; lra|apply Rmult_le_compat_l; lra]).
  assert (AD : 0 <= a * delta <= a * (1 / 100)) by (split; [apply Rmult_le_pos; lra|apply Rmult_le_compat_l; lra]).
  assert (Q' : Cmod (RtoC a' / dk - v)%C <= 1862 / 10 * (a * u) + 473 / 1000 * (a * delta)).
  { eapply Rle_trans; [exact Q|]. unfold Rdiv. rewrite !Rinv_mult. lra. }
  pose proof (Cmod_near_upper _ _ _ Q') as MQ.
  assert (MQ' : Cmod (RtoC a' / dk)%C <= 138 / 100 * a) by lra.
  assert (K3' : Cmod (kdiv m (RtoC a') dk - RtoC a' / dk)%C <= 18 * (a * u)).
  { eapply Rle_trans; [exact K3|]. assert (u * Cmod (RtoC a' / dk)%C <= u * (138 / 100 * a)) by (apply Rmult_le_compat_l; lra). lra. }
  eapply Rle_trans; [exact (Cmod_chain _ _ _ _ _ Q' K3')|]. lra.
Qed.

(** C98. The default point-dipole signal as computed: on any machine of relative precision u, adding in any order, with a
    perfectly conducting tip of any radius and the default 32 samples, pdm.eff_pol_n is within
    (10^-7 + 1310 u + delta) alpha_tip of the documented integral, where delta is the error of the computed reflection
    coefficient. *)
Lemma C98_pdm_total_proof : forall u (m : machine) (s : sample) (beta b : C) (delta A_tip z : R) (n : Z) (r_tip : option R),
  let r := given_or (20 / 10 ^ 9) r_tip in let alpha := RtoC (4 * PI * r ^ 3) in
  rounding u m -> 0 <= u <= / 10 ^ 4 ->
  refl_coef_qs s (rr 0) = Ok (Some beta) -> k_refl_coef_qs m s 0 = Ok b -> Cmod (b - beta)%C <= delta -> delta <= 1 / 100 ->
  Cmod beta <= 101 / 100 -> (Z.abs n <= 4)%Z -> 0 < r -> 0 <= z -> 0 < A_tip <= 3 / 2 * r ->
  exists w : C, k_pdm_eff_pol_n m defaults0 s A_tip n (Some z) None r_tip None None = Ok w /\
    Cmod (w - fourier_coefficient (fun x => alpha / (1 - alpha / RtoC (16 * PI * (r + x) ^ 3) * beta))%C (z + A_tip) A_tip n)%C
    <= (/ 10 ^ 7 + 1310 * u + delta) * (4 * PI * r ^ 3).
Proof.
  intros u m s beta b delta A z n r_tip r alpha Hm Hu Hb Hk Hd Hd1 Hb1 Hn Hr Hz HA.
  set (a := 4 * PI * r ^ 3) in *. set (a' := a_mul m (a_mul m 4 (a_lit m PI)) (a_pow m r 3)).
  assert (Pa : 0 < a) by (unfold a; pose proof PI_RGT_0; assert (0 < r ^ 3) by (now apply pow_lt); nra).
  set (g := fun x => (alpha / (1 - alpha / RtoC (16 * PI * (r + x) ^ 3) * beta))%C).
  destruct (C79_pdm_default_proof s beta A z n r_tip Hb Hb1 Hn Hr Hz HA) as (v & Ev & Bv). fold r alpha a g in Bv.
  destruct (demod_within defaults0 u m (fun x => pdm_eff_pol defaults0 s (Some x) r_tip None None) g
     (fun x => k_pdm_eff_pol m defaults0 s x r_tip None None)
     (fun x => kdiv m (RtoC a') (ksub m (RtoC 1) (kmul m (k_pdm_geom_func m x r (RtoC a')) b)))
     z A n (134 / 100 * a) ((205 * u + delta / 2) * a) Hm Hu eq_refl Hn Hz (proj1 HA)) as (v' & w & Ew & Ev' & Bw).
  - intros x Hx. assert (X0 : Rabs (x - x) <= 104 * u * (r + x)) by (rewrite Rminus_eq_0, Rabs_R0; apply Rmult_le_pos; [lra|lra]).
    destruct (pdm_point u m r x x beta b delta (proj1 Hm) Hu Hr ltac:(lra) X0 Hb1 Hd Hd1) as (N & B & _). fold a in N, B. fold alpha in N, B.
    split; [|exact B]. pose proof (pdm_eff_pol_value defaults0 s x r_tip None None beta alpha) as V. cbv zeta in V. change (given_or (d_r_tip defaults0) r_tip) with r in V.
    rewrite V; [|apply tip_conductor|exact Hb|lra].
    unfold g. now rewrite cdiv_ok by exact N.
  - intros x. unfold k_pdm_eff_pol, k_pdm_defaults. rewrite Hk. reflexivity.
  - intros x x' Hx Hx'. destruct (pdm_point u m r x x' beta b delta (proj1 Hm) Hu Hr ltac:(lra)) as (_ & _ & B); auto.
    eapply Rle_trans; [exact Hx'|]. replace (104 * u * (r + x)) with (u * (104 * (r + x))) by ring. apply Rmult_le_compat_l; lra.
  - exists w. split; [exact Ew|]. unfold pdm_eff_pol_n in Ev. cbn [dflt] in Ev. rewrite Ev' in Ev. injection Ev as ->.
    eapply Rle_trans; [exact (Cmod_chain _ _ _ _ _ Bv Bw)|]. assert (0 <= a * u) by (apply Rmult_le_pos; lra). lra.
Qed.

(** C98. Over a bulk sample the reflection coefficient is itself computed from the two permittivities: total error
    (10^-7 + 1630 u kappa^2) alpha_tip, kappa = (|e0| + |e1|) / |e0 + e1|. *)
Lemma C98_pdm_bulk_proof : forall u (m : machine) (e0 e1 : C) nu (A_tip z : R) (n : Z) (r_tip : option R),
  let beta := ((e1 - e0) / (e1 + e0))%C in let kappa := ((Cmod e0 + Cmod e1) / Cmod (e0 + e1)%C)%R in
  let r := given_or (20 / 10 ^ 9) r_tip in let alpha := RtoC (4 * PI * r ^ 3) in
  rounding u m -> 0 <= u -> 40000 * u * kappa ^ 2 <= 1 -> e1 <> RtoC 0 -> (e0 + e1 <> 0)%C ->
  Cmod beta <= 101 / 100 -> (Z.abs n <= 4)%Z -> 0 < r -> 0 <= z -> 0 < A_tip <= 3 / 2 * r ->
  exists w : C, k_pdm_eff_pol_n m defaults0 (stack [e0; e1] [] nu) A_tip n (Some z) None r_tip None None = Ok w /\
    Cmod (w - fourier_coefficient (fun x => alpha / (1 - alpha / RtoC (16 * PI * (r + x) ^ 3) * beta))%C (z + A_tip) A_tip n)%C
    <= (/ 10 ^ 7 + 1630 * u * kappa ^ 2) * (4 * PI * r ^ 3).
Proof.
  intros u m e0 e1 nu A z n r_tip beta kappa r alpha Hm Hu Hk H1 Hs Hb Hn Hr Hz HA.
  pose proof (spread_ge_1 e0 e1 Hs) as K1. unfold spread in K1. fold kappa in K1.
  assert (K2 : kappa <= kappa ^ 2) by nra. assert (UK : u * kappa <= u * kappa ^ 2) by (apply Rmult_le_compat_l; lra).
  assert (UK1 : u * 1 <= u * kappa) by (apply Rmult_le_compat_l; lra).
  destruct (C76_bulk_proof u m e0 e1 nu 0 (proj1 Hm) Hu H1 Hs) as (b & Eb & Bb); [fold kappa; lra|]. fold kappa beta in Bb.
  destruct (C98_pdm_total_proof u m (stack [e0; e1] [] nu) beta b (320 * u * kappa ^ 2) A z n r_tip Hm) as (w & Ew & Bw); auto; try lra.
  - now apply bulk_qs.
  - exists w. split; [exact Ew|]. eapply Rle_trans; [exact Bw|]. fold r.
    apply Rmult_le_compat_r; [|lra]. pose proof PI_RGT_0. assert (0 < r ^ 3) by (now apply pow_lt). nra.
Qed.

(** C98. In double precision (u = 2^-53, a correctly rounding machine), permittivities away from resonance (kappa at most
    100): 1.02 10^-7 alpha_tip, all but two percent of it the sampling error. *)
Lemma C98_pdm_double_proof : forall (m : machine) (e0 e1 : C) nu (A_tip z : R) (n : Z) (r_tip : option R),
  let beta := ((e1 - e0) / (e1 + e0))%C in
  let r := given_or (20 / 10 ^ 9) r_tip in let alpha := RtoC (4 * PI * r ^ 3) in
  rounding (/ 2 ^ 53) m -> e1 <> RtoC 0 -> (e0 + e1 <> 0)%C -> Cmod e0 + Cmod e1 <= 100 * Cmod (e0 + e1)%C ->
  Cmod beta <= 101 / 100 -> (Z.abs n <= 4)%Z -> 0 < r -> 0 <= z -> 0 < A_tip <= 3 / 2 * r ->
  exists w : C, k_pdm_eff_pol_n m defaults0 (stack [e0; e1] [] nu) A_tip n (Some z) None r_tip None None = Ok w /\
    Cmod (w - fourier_coefficient (fun x => alpha / (1 - alpha / RtoC (16 * PI * (r + x) ^ 3) * beta))%C (z + A_tip) A_tip n)%C
    <= 102 / 100 * / 10 ^ 7 * (4 * PI * r ^ 3).
Proof.
  intros m e0 e1 nu A z n r_tip beta r alpha Hm H1 Hs Hk Hb Hn Hr Hz HA.
  pose proof (proj1 (Cmod_gt_0 _) Hs) as PS. pose proof (spread_ge_1 e0 e1 Hs) as K1. unfold spread in K1.
  set (kappa := (Cmod e0 + Cmod e1) / Cmod (e0 + e1)%C) in *.
  assert (K2 : kappa <= 100) by (unfold kappa; apply Rle_div_l; assumption).
  assert (K3 : kappa ^ 2 <= 100 ^ 2) by (apply pow_incr; lra).
  destruct (C98_pdm_bulk_proof (/ 2 ^ 53) m e0 e1 nu A z n r_tip Hm) as (w & Ew & Bw); auto; fold kappa; try lra.
  exists w. split; [exact Ew|]. eapply Rle_trans; [exact Bw|]. fold r kappa.
  apply Rmult_le_compat_r; [|lra]. pose proof PI_RGT_0. assert (0 < r ^ 3) by (now apply pow_lt). apply Rmult_le_pos; lra.
Qed.
