(** * Proofs: closed form of the point-dipole harmonics (C79) *)
From Coq Require Import String Reals Lra Lia ZArith List Bool.
From Coquelicot Require Import Coquelicot.
From Coq Require Import List.
From Verif Require Import Num NumLemmas LimLemmas ModelBase ModelSample ModelTip StackLemmas Spec SpecSampling FTA
  ProofsStackQS ProofsStackQS2 ProofsBulkFF ProofsSym ProofsPassive DemodLemmas ProofsDemod ProofsTip ProofsTip2 ProofsTip3 ProofsTaylor ProofsSampling.
Import ListNotations.
Open Scope R_scope.

(** ** one simple pole *)
Lemma Cmod_ph m t : Cmod (ph m t) = 1.
Proof.
  rewrite ph_cos. unfold Cmod. cbn [fst snd]. pose proof (sin2_cos2 (IZR m * t)) as S. unfold Rsqr in S.
  replace (cos (IZR m * t) ^ 2 + (- sin (IZR m * t)) ^ 2) with 1 by lra. apply sqrt_1.
Qed.
Lemma cmean_Csum N (g : nat -> nat -> C) l :
  cmean N (fun k => Csum (map (fun m => g m k) l)) = Csum (map (fun m => cmean N (g m)) l).
Proof.
  induction l as [|m l IH]; cbn [map Csum fold_right].
  - unfold cmean. rewrite Csum_zero. unfold Cdiv. ring.
  - change (fold_right Cplus (RtoC 0)) with Csum. rewrite <- IH. symmetry. rewrite <- cmean_plus. reflexivity.
Qed.
Lemma Csum_zero_in {A} (g : A -> C) l : (forall m, In m l -> g m = RtoC 0) -> Csum (map g l) = RtoC 0.
Proof.
  induction l as [|m l IH]; cbn; intros H; [reflexivity|]. change (fold_right Cplus (RtoC 0)) with Csum.
  rewrite IH by auto. rewrite H by auto. ring.
Qed.
Lemma Csum_single (g : nat -> C) N p : (p < N)%nat -> (forall m, (m < N)%nat -> m <> p -> g m = RtoC 0) ->
  Csum (map g (seq 0 N)) = g p.
Proof.
  intros Hp H. replace N with (p + (1 + (N - 1 - p)))%nat by lia. rewrite !seq_app, !map_app, !Csum_app.
  rewrite (Csum_zero_in g (seq 0 p)) by (intros m Hm; apply in_seq in Hm; apply H; lia).
  rewrite (Csum_zero_in g (seq (0 + p + 1) _)) by (intros m Hm; apply in_seq in Hm; apply H; lia).
  cbn. ring.
Qed.
Lemma sgn_pow_1 m : sgn_pow m = 1 \/ sgn_pow m = -1.
Proof. unfold sgn_pow. destruct (Z.even m); auto. Qed.
Lemma sgn_pow_abs m : Rabs (sgn_pow m) = 1.
Proof. destruct (sgn_pow_1 m) as [-> | ->]; unfold Rabs; destruct (Rcase_abs _); lra. Qed.
Lemma mean_ph_0 N : N <> O -> cmean N (fun k => ph 0 (node N k)) = RtoC 1.
Proof. intros HN. rewrite (cmean_ext N _ (fun _ => RtoC 1)) by (intros; apply ph_0). now apply cmean_const. Qed.
Lemma mean_ph_N N : N <> O -> cmean N (fun k => ph (Z.of_nat N) (node N k)) = RtoC (sgn_pow (Z.of_nat N)).
Proof.
  intros HN. rewrite (cmean_ext N _ (fun _ => RtoC (sgn_pow (Z.of_nat N)))); [now apply cmean_const|].
  intros k _. pose proof (ph_alias 1 N k HN) as H. rewrite Z.mul_1_l in H. exact H.
Qed.
Lemma ph_pown m k t : Cpown (ph m t) k = ph (m * Z.of_nat k) t.
Proof.
  induction k as [|k IH].
  - rewrite Z.mul_0_r, ph_0. reflexivity.
  - cbn [Cpown]. rewrite IH, <- ph_add. f_equal. lia.
Qed.
(** closed geometric sum *)
Lemma geo_closed (x : C) N : (1 - x <> 0)%C -> (1 - Cpown x N <> 0)%C ->
  (/ (1 - x))%C = (Csum (map (fun m => Cpown x m) (seq 0 N)) / (1 - Cpown x N))%C.
Proof.
  intros H1 H2. pose proof (geom_sum x N) as G.
  assert (E : (Csum (map (fun m => Cpown x m) (seq 0 N)) * (1 - x))%C = (1 - Cpown x N)%C).
  { replace (1 - Cpown x N)%C with (- (Cpown x N - 1))%C by ring. rewrite <- G. ring. }
  rewrite <- E. field. split; [exact H1|]. intros Z. apply H2. rewrite <- E, Z. ring.
Qed.
Lemma Cmod_sg m w : Cmod (RtoC (sgn_pow m) * w)%C = Cmod w.
Proof. rewrite Cmod_mult, Cmod_R, sgn_pow_abs. ring. Qed.
Lemma pow_lt_one q N : 0 <= q < 1 -> N <> O -> q ^ N < 1.
Proof. intros Hq HN. destruct N as [|N]; [easy|]. cbn [pow]. assert (q ^ N <= 1) by (rewrite <- (pow1 N); apply pow_incr; lra). pose proof (pow_le q N (proj1 Hq)). nra. Qed.
Lemma sg_den w N : N <> O -> Cmod w < 1 -> (1 - RtoC (sgn_pow (Z.of_nat N)) * Cpown w N <> 0)%C /\
  1 - Cmod w ^ N <= Cmod (1 - RtoC (sgn_pow (Z.of_nat N)) * Cpown w N)%C.
Proof.
  intros HN Hw. apply Cmod_1_minus.
  - rewrite Cmod_sg, Cmod_pown. lra.
  - apply pow_lt_one; [|exact HN]. split; [apply Cmod_ge_0|exact Hw].
Qed.
Lemma one_minus_ph w m t : Cmod w < 1 -> (1 - w * ph m t <> 0)%C.
Proof. intros Hw. apply (Cmod_1_minus _ (Cmod w)); [|exact Hw]. rewrite Cmod_mult, Cmod_ph. lra. Qed.
Lemma one_minus_sq w : Cmod w < 1 -> (1 - w * w <> 0)%C.
Proof. intros Hw. pose proof (Cmod_ge_0 w). apply (Cmod_1_minus _ (Cmod w ^ 2)); [rewrite Cmod_mult; lra|nra]. Qed.
Lemma kernel_split a w t : inner_image a w ->
  (a + RtoC (cos t))%C = (- ((1 - w * ph 1 t) * (1 - w * ph (-1) t)) / (2 * w))%C.
Proof.
  intros (W0 & _ & ->). assert (E : (ph 1 t * ph (-1) t)%C = RtoC 1) by (rewrite <- ph_add; apply ph_0).
  assert (K : RtoC (cos t) = ((ph 1 t + ph (-1) t) / 2)%C).
  { rewrite cos_ph. unfold Cdiv. ring. }
  rewrite K. replace ((1 - w * ph 1 t) * (1 - w * ph (-1) t))%C with (1 - w * (ph 1 t + ph (-1) t) + w * w * (ph 1 t * ph (-1) t))%C by ring.
  rewrite E. field. split; [exact W0|exact C2_neq_0].
Qed.
Lemma kernel_neq_0 a w t : inner_image a w -> (a + RtoC (cos t) <> 0)%C.
Proof.
  intros H. pose proof H as (W0 & W1 & _). rewrite (kernel_split a w t H). intros Z.
  assert (X : ((1 - w * ph 1 t) * (1 - w * ph (-1) t))%C = RtoC 0).
  { transitivity (- (2 * w) * (- ((1 - w * ph 1 t) * (1 - w * ph (-1) t)) / (2 * w)))%C; [field; split; [exact W0|exact C2_neq_0]|]. rewrite Z. ring. }
  apply Cmult_integral in X. destruct X as [X|X]; revert X; now apply one_minus_ph.
Qed.
Lemma not_div N m : (0 < Z.abs m < Z.of_nat N)%Z -> ~ (Z.of_nat N | m)%Z.
Proof. intros H D. apply Z.divide_abs_r in D. apply Z.divide_pos_le in D; lia. Qed.

Lemma kernel_mean a w N p : inner_image a w -> (p < N)%nat ->
  cmean N (fun k => / (a + RtoC (cos (node N k))) * ph (Z.of_nat p) (node N k))%C = kernel_sampled w N (Z.of_nat p).
Proof.
  intros H Hp. pose proof H as (W0 & W1 & _). assert (HN : N <> O) by lia.
  set (sg := RtoC (sgn_pow (Z.of_nat N))). destruct (sg_den w N HN W1) as [D1 _]. fold sg in D1.
  pose proof (one_minus_sq w W1) as D2.
  assert (SG : (sg * sg)%C = RtoC 1) by (unfold sg; rewrite <- RtoC_mult; f_equal; destruct (sgn_pow_1 (Z.of_nat N)) as [-> | ->]; ring).
  assert (PN : forall k, Cpown (ph 1 (node N k)) N = sg /\ Cpown (ph (-1) (node N k)) N = sg).
  { intros k. rewrite !ph_pown. split.
    - pose proof (ph_alias 1 N k HN) as X. rewrite X, Z.mul_1_l. reflexivity.
    - pose proof (ph_alias (-1) N k HN) as X. rewrite X. unfold sg, sgn_pow. replace (-1 * Z.of_nat N)%Z with (- Z.of_nat N)%Z by lia. now rewrite Z.even_opp. }
  set (c := (- (2 * w / (1 - w * w)) / (1 - sg * Cpown w N))%C).
  rewrite (cmean_ext N _ (fun k => c * (Csum (map (fun m => Cpown w m * ph (Z.of_nat p - Z.of_nat m) (node N k)) (seq 0 N))
      + Csum (map (fun m => Cpown w (S m) * ph (Z.of_nat p + Z.of_nat (S m)) (node N k)) (seq 0 N))))%C).
  - rewrite cmean_scal, cmean_plus, !cmean_Csum.
    rewrite (Csum_single _ N p Hp).
    2:{ intros m Hm Hne. rewrite cmean_scal, mean_ph; [ring|exact HN|]. apply not_div. lia. }
    rewrite (Csum_single (fun m => cmean N (fun k => Cpown w (S m) * ph (Z.of_nat p + Z.of_nat (S m)) (node N k))%C) N (N - 1 - p)%nat ltac:(lia)).
    2:{ intros m Hm Hne. rewrite cmean_scal, mean_ph; [ring|exact HN|]. intros [j Hj]. assert (j = 1%Z) by nia. lia. }
    rewrite !cmean_scal, Z.sub_diag, mean_ph_0 by exact HN.
    replace (Z.of_nat p + Z.of_nat (S (N - 1 - p)))%Z with (Z.of_nat N) by lia. rewrite mean_ph_N by exact HN. fold sg.
    unfold kernel_sampled. rewrite Zabs2Nat.id. fold sg. replace (S (N - 1 - p)) with (N - p)%nat by lia. unfold c. field. split; assumption.
  - intros k Hk. set (t := node N k). destruct (PN k) as [P1 P2]. fold t in P1, P2.
    pose proof (one_minus_ph w 1 t W1) as U1. pose proof (one_minus_ph w (-1) t W1) as U2.
    assert (E : (ph 1 t * ph (-1) t)%C = RtoC 1) by (rewrite <- ph_add; apply ph_0).
    rewrite (kernel_split a w t H).
    assert (G1 := geo_closed (w * ph 1 t)%C N U1). assert (G2 := geo_closed (w * ph (-1) t)%C N U2).
    rewrite FTA.Cpown_mult, P1, (Cmult_comm (Cpown w N)) in G1. rewrite FTA.Cpown_mult, P2, (Cmult_comm (Cpown w N)) in G2.
    specialize (G1 D1). specialize (G2 D1).
    set (S1 := Csum (map (fun m => Cpown (w * ph 1 t)%C m) (seq 0 N))) in *.
    set (S2 := Csum (map (fun m => Cpown (w * ph (-1) t)%C m) (seq 0 N))) in *.
    assert (Q1 : S1 = ((1 - sg * Cpown w N) / (1 - w * ph 1 t))%C).
    { transitivity (S1 / (1 - sg * Cpown w N) * (1 - sg * Cpown w N))%C; [field; exact D1|]. rewrite <- G1. unfold Cdiv. ring. }
    assert (Q2 : S2 = ((1 - sg * Cpown w N) / (1 - w * ph (-1) t))%C).
    { transitivity (S2 / (1 - sg * Cpown w N) * (1 - sg * Cpown w N))%C; [field; exact D1|]. rewrite <- G2. unfold Cdiv. ring. }
    replace (Csum (map (fun m => Cpown w m * ph (Z.of_nat p - Z.of_nat m) t)%C (seq 0 N))) with (ph (Z.of_nat p) t * S2)%C.
    2:{ unfold S2. rewrite <- Csum_scal. apply Csum_ext_in. intros m _. rewrite FTA.Cpown_mult, ph_pown.
        replace (Z.of_nat p - Z.of_nat m)%Z with (Z.of_nat p + -1 * Z.of_nat m)%Z by lia. rewrite ph_add. ring. }
    replace (Csum (map (fun m => Cpown w (S m) * ph (Z.of_nat p + Z.of_nat (S m)) t)%C (seq 0 N))) with (ph (Z.of_nat p) t * (w * ph 1 t) * S1)%C.
    2:{ unfold S1. rewrite <- Csum_scal. apply Csum_ext_in. intros m _. rewrite FTA.Cpown_mult, ph_pown.
        replace (Z.of_nat p + Z.of_nat (S m))%Z with (Z.of_nat p + 1 + 1 * Z.of_nat m)%Z by lia. rewrite !ph_add. cbn [Cpown]. ring. }
    rewrite Q1, Q2. unfold c. set (u := ph 1 t) in *. set (v := ph (-1) t) in *.
    transitivity (- (2 * w) / ((1 - w * u) * (1 - w * v)) * ph (Z.of_nat p) t)%C.
    { assert (NZ : (- ((1 - w * u) * (1 - w * v)))%C <> RtoC 0).
      { intros Z. apply (Cmult_neq_0 _ _ U1 U2). replace ((1 - w * u) * (1 - w * v))%C with (- - ((1 - w * u) * (1 - w * v)))%C by ring. rewrite Z. ring. }
      field. repeat split; try assumption; exact C2_neq_0. }
    transitivity (- (2 * w) / (1 - w * w) * ((1 - w * w * (u * v)) / ((1 - w * u) * (1 - w * v))) * ph (Z.of_nat p) t)%C; [rewrite E; field; repeat split; auto|].
    field. repeat split; auto.
Qed.
(** ... for either sign of n *)
Lemma kernel_mean_Z a w N n : inner_image a w -> (Z.abs_nat n < N)%nat ->
  cmean N (fun k => / (a + RtoC (cos (node N k))) * ph n (node N k))%C = kernel_sampled w N n.
Proof.
  intros H Hn. destruct (Z_le_gt_dec 0 n) as [P|P].
  - rewrite <- (Z2Nat.id n P). apply kernel_mean; [exact H|lia].
  - assert (HN : N <> O) by lia.
    rewrite <- (cmean_rev N) by (now rewrite node_N, node_0, cos_neg, ph_mPI by exact HN).
    rewrite (cmean_ext N _ (fun k => / (a + RtoC (cos (node N k))) * ph (Z.of_nat (Z.abs_nat n)) (node N k))%C).
    + rewrite (kernel_mean a w) by (try exact H; lia). unfold kernel_sampled. now rewrite Zabs2Nat.id.
    + intros k Hk. rewrite node_rev, cos_neg, ph_opp by (try exact HN; lia). do 2 f_equal. lia.
Qed.

(** ** partial fractions *)
Lemma cube_vieta kappa p1 p2 p3 : cube_roots kappa p1 p2 p3 ->
  (p1 + p2 + p3 = 0 /\ p1 * p2 + p2 * p3 + p3 * p1 = 0 /\ p1 * p2 * p3 = kappa)%C.
Proof.
  intros H. pose proof (H (RtoC 0)) as H0. pose proof (H (RtoC 1)) as H1. pose proof (H (- RtoC 1)%C) as H2.
  assert (E3 : (p1 * p2 * p3)%C = kappa).
  { transitivity (- ((0 - p1) * (0 - p2) * (0 - p3)))%C; [ring|]. rewrite H0. ring. }
  assert (A1 : (p1 * p2 + p2 * p3 + p3 * p1)%C = (p1 + p2 + p3)%C).
  { transitivity ((1 - p1) * (1 - p2) * (1 - p3) - 1 + (p1 + p2 + p3) + p1 * p2 * p3)%C; [ring|]. rewrite H1, E3. ring. }
  assert (A2 : (p1 * p2 + p2 * p3 + p3 * p1)%C = (- (p1 + p2 + p3))%C).
  { transitivity (- ((- (1) - p1) * (- (1) - p2) * (- (1) - p3)) - 1 - (p1 + p2 + p3) - p1 * p2 * p3)%C; [ring|]. rewrite H2, E3. ring. }
  assert (Z : (p1 + p2 + p3)%C = RtoC 0).
  { transitivity (((p1 + p2 + p3) - - (p1 + p2 + p3)) / 2)%C; [field; exact C2_neq_0|]. rewrite <- A2, A1. unfold Cdiv. ring. }
  split; [exact Z|]. split; [now rewrite A1|exact E3].
Qed.
Lemma C3_neq_0 : RtoC 3 <> RtoC 0.
Proof. intros E. apply (f_equal fst) in E. cbn in E. lra. Qed.
Lemma partial_fractions kappa p1 p2 p3 (y : C) : cube_roots kappa p1 p2 p3 ->
  (y - p1 <> 0)%C -> (y - p2 <> 0)%C -> (y - p3 <> 0)%C ->
  (kappa / (y * y * y - kappa))%C = ((p1 / (y - p1) + p2 / (y - p2) + p3 / (y - p3)) / 3)%C.
Proof.
  intros H N1 N2 N3. destruct (cube_vieta _ _ _ _ H) as (E1 & E2 & E3). rewrite <- (H y).
  transitivity (((p1 + p2 + p3) * (y * y) - 2 * (p1 * p2 + p2 * p3 + p3 * p1) * y + 3 * (p1 * p2 * p3)) / 3 / ((y - p1) * (y - p2) * (y - p3)))%C.
  - rewrite E1, E2, E3. field. repeat split; auto using C3_neq_0.
  - field. repeat split; auto using C3_neq_0.
Qed.
Lemma pdm_response_split (alpha beta : C) y p1 p2 p3 : y <> 0 -> cube_roots (alpha * beta / RtoC (16 * PI))%C p1 p2 p3 ->
  (RtoC y - p1 <> 0)%C -> (RtoC y - p2 <> 0)%C -> (RtoC y - p3 <> 0)%C ->
  (1 - alpha / RtoC (16 * PI * y ^ 3) * beta <> 0)%C /\
  (alpha / (1 - alpha / RtoC (16 * PI * y ^ 3) * beta))%C
  = (alpha * (1 + (p1 * / (RtoC y - p1) + p2 * / (RtoC y - p2) + p3 * / (RtoC y - p3)) / 3))%C.
Proof.
  intros Hy H N1 N2 N3. set (kappa := (alpha * beta / RtoC (16 * PI))%C) in *. pose proof PI_RGT_0 as PP.
  assert (Y : RtoC y <> RtoC 0) by (intros E; apply (f_equal fst) in E; cbn in E; contradiction).
  assert (P16 : RtoC (16 * PI) <> RtoC 0) by (intros E; apply (f_equal fst) in E; cbn in E; lra).
  assert (D : (RtoC y * RtoC y * RtoC y - kappa)%C <> RtoC 0) by (rewrite <- (H (RtoC y)); repeat apply Cmult_neq_0; assumption).
  assert (E : (1 - alpha / RtoC (16 * PI * y ^ 3) * beta)%C = ((RtoC y * RtoC y * RtoC y - kappa) / (RtoC y * RtoC y * RtoC y))%C).
  { unfold kappa. replace (16 * PI * y ^ 3) with (16 * PI * (y * y * y)) by ring.
    rewrite (RtoC_mult (16 * PI)), !(RtoC_mult _ y). field. repeat split; assumption. }
  rewrite E. split.
  - unfold Cdiv. apply Cmult_neq_0; [exact D|]. intros Z. assert (X : (RtoC y * RtoC y * RtoC y <> 0)%C) by (repeat apply Cmult_neq_0; assumption).
    assert (Q : (RtoC y * RtoC y * RtoC y * / (RtoC y * RtoC y * RtoC y))%C = RtoC 1) by (field; assumption). rewrite Z in Q.
    apply (f_equal fst) in Q. cbn in Q. lra.
  - pose proof (partial_fractions kappa p1 p2 p3 (RtoC y) H N1 N2 N3) as F. unfold Cdiv in F at 3 4 5. rewrite <- F. field. repeat split; assumption.
Qed.
Lemma image_gap r z A p w x c : A <> 0 -> inner_image ((RtoC (r + z + A) - p) / RtoC A)%C w -> x = z + A + c * A -> -1 <= c <= 1 ->
  (RtoC (r + x) - p)%C = (RtoC A * ((RtoC (r + z + A) - p) / RtoC A + RtoC (cos (acos c))))%C /\ (RtoC (r + x) - p <> 0)%C.
Proof.
  intros HA H -> Hc. assert (YA : RtoC A <> RtoC 0) by (intros E; apply (f_equal fst) in E; cbn in E; contradiction).
  assert (E : (RtoC (r + (z + A + c * A)) - p)%C = (RtoC A * ((RtoC (r + z + A) - p) / RtoC A + RtoC (cos (acos c))))%C).
  { rewrite cos_acos by exact Hc. replace (r + (z + A + c * A)) with (r + z + A + A * c) by ring. rewrite (RtoC_plus (r + z + A)), RtoC_mult. field. exact YA. }
  split; [exact E|]. rewrite E. apply Cmult_neq_0; [exact YA|]. now apply (kernel_neq_0 _ w).
Qed.
Lemma image_gap_node r z A p w N k : A <> 0 -> inner_image ((RtoC (r + z + A) - p) / RtoC A)%C w ->
  (RtoC (r + tip_height z A N k) - p)%C = (RtoC A * ((RtoC (r + z + A) - p) / RtoC A + RtoC (cos (node N k))))%C /\
  (RtoC (r + tip_height z A N k) - p <> 0)%C.
Proof.
  intros HA H. rewrite <- height_tip. unfold height.
  destruct (image_gap r z A p w (z + A + cos (node N k) * A) (cos (node N k)) HA H eq_refl (COS_bound _)) as [E1 E2].
  rewrite cos_acos in E1 by apply COS_bound. auto.
Qed.
Lemma tmean_image r z A p w N n : A <> 0 -> inner_image ((RtoC (r + z + A) - p) / RtoC A)%C w -> (Z.abs_nat n < N)%nat ->
  tmean z A n N (fun x => / (RtoC (r + x) - p))%C = (kernel_sampled w N n / RtoC A)%C.
Proof.
  intros HA H Hn. rewrite <- (kernel_mean_Z _ w N n H Hn). unfold tmean.
  assert (YA : RtoC A <> RtoC 0) by (intros E; apply (f_equal fst) in E; cbn in E; contradiction).
  transitivity (/ RtoC A * cmean N (fun k => / ((RtoC (r + z + A) - p) / RtoC A + RtoC (cos (node N k))) * ph n (node N k)))%C; [|unfold Cdiv; ring].
  rewrite <- cmean_scal. apply cmean_ext. intros k _. destruct (image_gap_node r z A p w N k HA H) as [-> _].
  pose proof (kernel_neq_0 _ w (node N k) H) as K. set (q := (_ / _ + _)%C) in *. field. split; assumption.
Qed.
Lemma pdm_tmean_closed z A n N r (alpha beta : C) p1 p2 p3 w1 w2 w3 :
  (Z.abs_nat n < N)%nat -> A <> 0 -> (forall k, (k < N)%nat -> r + tip_height z A N k <> 0) ->
  cube_roots (alpha * beta / RtoC (16 * PI))%C p1 p2 p3 ->
  inner_image ((RtoC (r + z + A) - p1) / RtoC A)%C w1 -> inner_image ((RtoC (r + z + A) - p2) / RtoC A)%C w2 ->
  inner_image ((RtoC (r + z + A) - p3) / RtoC A)%C w3 ->
  tmean z A n N (fun x => alpha / (1 - alpha / RtoC (16 * PI * (r + x) ^ 3) * beta))%C
  = (alpha * ((if Z.eqb n 0 then 1 else 0)
       + (p1 * kernel_sampled w1 N n + p2 * kernel_sampled w2 N n + p3 * kernel_sampled w3 N n) / RtoC (3 * A)))%C.
Proof.
  intros Hn HA HK HC I1 I2 I3. assert (HN : N <> O) by lia.
  assert (YA : RtoC A <> RtoC 0) by (intros E; apply (f_equal fst) in E; cbn in E; contradiction).
  rewrite (tmean_ext z A n N _ (fun x => alpha * RtoC 1 + alpha * ((p1 / 3) * / (RtoC (r + x) - p1) + ((p2 / 3) * / (RtoC (r + x) - p2) + (p3 / 3) * / (RtoC (r + x) - p3))))%C).
  - rewrite tmean_plus, !tmean_scal, !tmean_plus, !tmean_scal.
    rewrite (tmean_image r z A p1 w1 N n HA I1 Hn), (tmean_image r z A p2 w2 N n HA I2 Hn), (tmean_image r z A p3 w3 N n HA I3 Hn).
    rewrite tmean_one; [|exact HN|destruct (Z.eq_dec n 0); [now left|right; apply not_div; lia]].
    rewrite RtoC_mult. destruct (Z.eqb n 0); field; split; auto using C3_neq_0.
  - intros k Hk. specialize (HK k Hk). destruct (image_gap_node r z A p1 w1 N k HA I1) as [_ G1].
    destruct (image_gap_node r z A p2 w2 N k HA I2) as [_ G2]. destruct (image_gap_node r z A p3 w3 N k HA I3) as [_ G3].
    destruct (pdm_response_split alpha beta _ p1 p2 p3 HK HC G1 G2 G3) as [_ ->]. unfold Cdiv. ring.
Qed.

(** C79. Closed form of every point-dipole harmonic: the three cube roots p_j of
    alpha beta / (16 pi) are the heights where the response has its poles, and
    each contributes an elementary function of the w_j inside the unit circle with
    (r + z + A - p_j)/A = - (w_j + 1/w_j)/2. *)
Lemma C79_pdm_closed_form_proof :
  forall (D : Defaults) (s : sample) (A_tip : R) (n : Z) (z_tip : option R) (n_trapz : option nat) (r_tip : option R)
    (eps_tip alpha_tip : option C) (alpha beta p1 p2 p3 w1 w2 w3 : C),
  let N := given_or (d_n_trapz D) n_trapz in let z := given_or (d_z_tip D) z_tip in let r := given_or (d_r_tip D) r_tip in
  let image := fun p : C => ((RtoC (r + z + A_tip) - p) / RtoC A_tip)%C in
  tip_alpha r eps_tip alpha_tip alpha -> refl_coef_qs s (rr 0) = Ok (Some beta) ->
  (Z.abs_nat n < N)%nat -> A_tip <> 0 -> (forall k, (k < N)%nat -> r + tip_height z A_tip N k <> 0) ->
  cube_roots (alpha * beta / RtoC (16 * PI))%C p1 p2 p3 ->
  inner_image (image p1) w1 -> inner_image (image p2) w2 -> inner_image (image p3) w3 ->
  pdm_eff_pol_n D s A_tip n z_tip n_trapz r_tip eps_tip alpha_tip
  = Ok (Some (alpha * ((if Z.eqb n 0 then 1 else 0)
       + (p1 * kernel_sampled w1 N n + p2 * kernel_sampled w2 N n + p3 * kernel_sampled w3 N n) / RtoC (3 * A_tip)))%C).
Proof.
  intros D s A n z_tip nt r_tip eps_tip alt alpha beta p1 p2 p3 w1 w2 w3 N z r image Ht Hb Hn HA HK HC I1 I2 I3.
  pose proof (pdm_n_value D s A n z_tip nt r_tip eps_tip alt alpha beta) as V. cbv zeta in V. fold N z r in V.
  rewrite V; [|exact Ht|exact Hb|lia|].
  - do 2 f_equal. now apply pdm_tmean_closed.
  - intros k Hk. specialize (HK k Hk). split; [exact HK|].
    destruct (image_gap_node r z A p1 w1 N k HA I1) as [_ G1].
    destruct (image_gap_node r z A p2 w2 N k HA I2) as [_ G2]. destruct (image_gap_node r z A p3 w3 N k HA I3) as [_ G3].
    exact (proj1 (pdm_response_split alpha beta _ p1 p2 p3 HK HC G1 G2 G3)).
Qed.

(** ** the documented integral *)
Lemma kernel_error w N n : w <> RtoC 0 -> Cmod w < 1 -> (Z.abs_nat n < N)%nat ->
  Cmod (kernel_sampled w N n - kernel_harmonic w n)%C
  <= Cmod (2 * w / (1 - w * w))%C * (2 * Cmod w ^ (N - Z.abs_nat n) / (1 - Cmod w ^ N)).
Proof.
  intros W0 W1 Hn. assert (HN : N <> O) by lia. unfold kernel_sampled, kernel_harmonic. set (m := Z.abs_nat n) in *.
  destruct (sg_den w N HN W1) as [D1 D2]. set (sg := RtoC (sgn_pow (Z.of_nat N))) in *.
  pose proof (Cmod_ge_0 w) as W2. pose proof (pow_lt_one (Cmod w) N (conj W2 W1) HN) as P.
  set (c := (2 * w / (1 - w * w))%C).
  assert (E : (- c * ((Cpown w m + sg * Cpown w (N - m)) / (1 - sg * Cpown w N)) - - c * Cpown w m)%C
            = (- c * ((sg * (Cpown w (N - m) * (1 + Cpown w (m + m)))) / (1 - sg * Cpown w N)))%C).
  { rewrite Cmult_plus_distr_l, <- Cpown_add. replace (N - m + (m + m))%nat with (N + m)%nat by lia. rewrite (Cpown_add w N m).
    field. exact D1. }
  rewrite E, Cmod_mult, Cmod_opp. apply Rmult_le_compat_l; [apply Cmod_ge_0|].
  rewrite Cmod_div by exact D1. unfold sg at 1. rewrite Cmod_sg, Cmod_mult, Cmod_pown.
  unfold Rdiv. apply Rmult_le_compat.
  - apply Rmult_le_pos; [now apply pow_le|apply Cmod_ge_0].
  - apply Rlt_le, Rinv_0_lt_compat. lra.
  - rewrite (Rmult_comm 2). apply Rmult_le_compat_l; [now apply pow_le|]. eapply Rle_trans; [apply Cmod_triangle|].
    rewrite Cmod_1, Cmod_pown. assert (Cmod w ^ (m + m) <= 1) by (rewrite <- (pow1 (m + m)); apply pow_incr; lra). lra.
  - apply Rinv_le_contravar; [lra|exact D2].
Qed.
Lemma continuous_between_ext a b f g : (forall x, a <= x <= b -> f x = g x) -> continuous_between a b f -> continuous_between a b g.
Proof.
  intros E H x Hx eps He. destruct (H x Hx eps He) as (d & Hd & K). exists d. split; [exact Hd|]. intros y Hy Hyx.
  rewrite <- !E by assumption. now apply K.
Qed.
Definition near (a b x : R) (M y : R) : Prop := a <= y <= b /\ M * Rabs (y - x) <= 1.
Lemma near_mono a b x : mono (near a b x).
Proof. intros M M' y HM [H1 H2]. split; [exact H1|]. pose proof (Rabs_pos (y - x)). nra. Qed.
Lemma continuous_tends a b f : (forall x, a <= x <= b -> tends (near a b x) f (f x)) -> continuous_between a b f.
Proof.
  intros H x Hx eps He. destruct (H x Hx eps He) as [M HM]. exists (/ (Rabs M + 1)). pose proof (Rabs_pos M).
  split; [apply Rinv_0_lt_compat; lra|]. intros y Hy Hd. apply HM. split; [exact Hy|].
  pose proof (Rabs_pos (y - x)). pose proof (RRle_abs M).
  assert (Rabs (y - x) * (Rabs M + 1) < 1) by (apply (Rmult_lt_compat_r (Rabs M + 1)) in Hd; [rewrite Rinv_l in Hd by lra; exact Hd|lra]). nra.
Qed.
Lemma tends_RtoC a b x r : tends (near a b x) (fun y => RtoC (r + y)) (RtoC (r + x)).
Proof.
  intros eps He. exists (2 / eps). intros y [_ H]. rewrite <- RtoC_minus, Cmod_R. replace (r + y - (r + x)) with (y - x) by ring.
  pose proof (Rabs_pos (y - x)). apply (Rmult_le_compat_l eps) in H; [|lra]. replace (eps * (2 / eps * Rabs (y - x))) with (2 * Rabs (y - x)) in H by (field; lra). lra.
Qed.
Lemma continuous_response r a b (alpha p1 p2 p3 : C) :
  (forall x, a <= x <= b -> (RtoC (r + x) - p1 <> 0)%C /\ (RtoC (r + x) - p2 <> 0)%C /\ (RtoC (r + x) - p3 <> 0)%C) ->
  continuous_between a b (fun x => alpha * (1 + (p1 * / (RtoC (r + x) - p1) + p2 * / (RtoC (r + x) - p2) + p3 * / (RtoC (r + x) - p3)) / 3))%C.
Proof.
  intros H. apply continuous_tends. intros x Hx. destruct (H x Hx) as (N1 & N2 & N3).
  assert (M := near_mono a b x).
  assert (T : forall p, (RtoC (r + x) - p <> 0)%C -> tends (near a b x) (fun y => p * / (RtoC (r + y) - p))%C (p * / (RtoC (r + x) - p))%C).
  { intros p Np. apply tends_scal; [exact M|]. apply tends_inv; [exact M| |exact Np]. apply tends_minus; [exact M| |apply tends_const]. apply tends_RtoC. }
  apply tends_scal; [exact M|]. apply tends_plus; [exact M|apply tends_const|]. unfold Cdiv. apply tends_mult; [exact M| |apply tends_const].
  repeat (apply tends_plus; [exact M| |]); now apply T.
Qed.
Lemma pow_to_0 q K eps m : 0 <= q < 1 -> 0 <= K -> 0 < eps -> exists N0, forall N, (N0 <= N)%nat ->
  (m < N)%nat /\ K * (2 * q ^ (N - m) / (1 - q ^ N)) <= eps.
Proof.
  intros Hq HK He. destruct (pow_lt_1_zero q ltac:(rewrite Rabs_pos_eq; lra) (Rmin (1 / 2) (eps / (4 * (K + 1))))) as [N1 H1].
  - apply Rmin_pos; [lra|]. apply Rdiv_lt_0_compat; lra.
  - exists (N1 + m + 1)%nat. intros N HN. split; [lia|].
    pose proof (H1 (N - m)%nat ltac:(lia)) as A1. pose proof (H1 N ltac:(lia)) as A2.
    rewrite Rabs_pos_eq in A1, A2 by (apply pow_le; lra).
    pose proof (Rmin_l (1 / 2) (eps / (4 * (K + 1)))). pose proof (Rmin_r (1 / 2) (eps / (4 * (K + 1)))).
    set (u := q ^ (N - m)) in *. set (v := q ^ N) in *. assert (U : 0 <= u) by (apply pow_le; lra).
    assert (X : 4 * (K + 1) * u <= eps).
    { apply Rle_trans with (4 * (K + 1) * (eps / (4 * (K + 1)))); [|right; field; lra]. apply Rmult_le_compat_l; lra. }
    replace (K * (2 * u / (1 - v))) with (2 * K * u * / (1 - v)) by (field; lra).
    assert (/ (1 - v) <= 2) by (replace 2 with (/ (1 / 2)) by field; apply Rinv_le_contravar; lra).
    assert (0 < / (1 - v)) by (apply Rinv_0_lt_compat; lra). assert (0 <= K * u) by nra. nra.
Qed.
Lemma pdm_images_off D0 z A r (p w : C) : A <> 0 -> D0 = z + A -> inner_image ((RtoC (r + z + A) - p) / RtoC A)%C w ->
  forall x, D0 - Rabs A <= x <= D0 + Rabs A -> (RtoC (r + x) - p <> 0)%C.
Proof.
  intros HA -> I x Hx. assert (RA : 0 < Rabs A) by now apply Rabs_pos_lt.
  refine (proj2 (image_gap r z A p w x ((x - (z + A)) / A) HA I _ _)); [field; exact HA|].
  assert (Rabs ((x - (z + A)) / A) <= 1).
  { unfold Rdiv. rewrite Rabs_mult, Rabs_inv. apply Rmult_le_reg_r with (Rabs A); [exact RA|]. rewrite Rmult_assoc, Rinv_l by lra.
    rewrite Rmult_1_r, Rmult_1_l. apply Rabs_le. lra. }
  apply Rabs_le_between in H. lra.
Qed.

(** C79. The documented integral itself, in closed form: the same expression with
    the coefficients of the exact expansion. *)
Lemma C79_pdm_fourier_proof :
  forall (A z r : R) (n : Z) (alpha beta p1 p2 p3 w1 w2 w3 : C),
  let image := fun p : C => ((RtoC (r + z + A) - p) / RtoC A)%C in
  A <> 0 -> (forall x, z + A - Rabs A <= x <= z + A + Rabs A -> r + x <> 0) ->
  cube_roots (alpha * beta / RtoC (16 * PI))%C p1 p2 p3 ->
  inner_image (image p1) w1 -> inner_image (image p2) w2 -> inner_image (image p3) w3 ->
  fourier_coefficient (fun x => alpha / (1 - alpha / RtoC (16 * PI * (r + x) ^ 3) * beta))%C (z + A) A n
  = (alpha * ((if Z.eqb n 0 then 1 else 0)
       + (p1 * kernel_harmonic w1 n + p2 * kernel_harmonic w2 n + p3 * kernel_harmonic w3 n) / RtoC (3 * A)))%C.
Proof.
  intros A z r n alpha beta p1 p2 p3 w1 w2 w3 image HA HK HC I1 I2 I3.
  set (f := fun x => (alpha / (1 - alpha / RtoC (16 * PI * (r + x) ^ 3) * beta))%C).
  set (V := (alpha * ((if Z.eqb n 0 then 1 else 0) + (p1 * kernel_harmonic w1 n + p2 * kernel_harmonic w2 n + p3 * kernel_harmonic w3 n) / RtoC (3 * A)))%C).
  assert (O1 := pdm_images_off (z + A) z A r p1 w1 HA eq_refl I1). assert (O2 := pdm_images_off (z + A) z A r p2 w2 HA eq_refl I2).
  assert (O3 := pdm_images_off (z + A) z A r p3 w3 HA eq_refl I3).
  assert (Hc : continuous_between (z + A - Rabs A) (z + A + Rabs A) f).
  { eapply continuous_between_ext; [|apply (continuous_response r _ _ alpha p1 p2 p3); intros x Hx; auto].
    intros x Hx. unfold f. symmetry. apply pdm_response_split; auto. }
  pose proof I1 as (W1 & U1 & _). pose proof I2 as (W2 & U2 & _). pose proof I3 as (W3 & U3 & _).
  assert (K3A : RtoC (3 * A) <> RtoC 0) by (intros E; apply (f_equal fst) in E; cbn in E; lra).
  assert (Q : forall eps, 0 < eps -> Cmod (fourier_coefficient f (z + A) A n - V)%C <= 0 + eps).
  { intros eps He. rewrite Rplus_0_l.
    set (K := fun p w : C => Cmod (alpha * (p / RtoC (3 * A)))%C * Cmod (2 * w / (1 - w * w))%C).
    assert (KP : forall p w, 0 <= K p w) by (intros; unfold K; apply Rmult_le_pos; apply Cmod_ge_0).
    destruct (pow_to_0 (Cmod w1) (K p1 w1) (eps / 3) (Z.abs_nat n) (conj (Cmod_ge_0 _) U1) (KP _ _) ltac:(lra)) as [N1 H1].
    destruct (pow_to_0 (Cmod w2) (K p2 w2) (eps / 3) (Z.abs_nat n) (conj (Cmod_ge_0 _) U2) (KP _ _) ltac:(lra)) as [N2 H2].
    destruct (pow_to_0 (Cmod w3) (K p3 w3) (eps / 3) (Z.abs_nat n) (conj (Cmod_ge_0 _) U3) (KP _ _) ltac:(lra)) as [N3 H3].
    apply (fourier_within defaults0 f (z + A) A n V eps (N1 + N2 + N3)%nat Hc). intros N HN HN0.
    destruct (H1 N ltac:(lia)) as [Hn B1]. destruct (H2 N ltac:(lia)) as [_ B2]. destruct (H3 N ltac:(lia)) as [_ B3].
    replace (z + A - A) with z by ring. unfold f.
    rewrite (pdm_tmean_closed z A n N r alpha beta p1 p2 p3 w1 w2 w3); auto.
    2:{ intros k _. apply HK. pose proof (tip_height_between (z + A) A N k) as T. replace (z + A - A) with z in T by ring. exact T. }
    assert (T : forall p w, w <> RtoC 0 -> Cmod w < 1 -> K p w * (2 * Cmod w ^ (N - Z.abs_nat n) / (1 - Cmod w ^ N)) <= eps / 3 ->
      Cmod (alpha * (p / RtoC (3 * A)) * (kernel_sampled w N n - kernel_harmonic w n))%C <= eps / 3).
    { intros p w V0 V1 B. rewrite Cmod_mult. eapply Rle_trans; [apply Rmult_le_compat_l; [apply Cmod_ge_0|now apply kernel_error]|]. unfold K in B. lra. }
    unfold V. match goal with |- Cmod ?e <= _ => replace e with
      (alpha * (p1 / RtoC (3 * A)) * (kernel_sampled w1 N n - kernel_harmonic w1 n)
       + (alpha * (p2 / RtoC (3 * A)) * (kernel_sampled w2 N n - kernel_harmonic w2 n)
       + alpha * (p3 / RtoC (3 * A)) * (kernel_sampled w3 N n - kernel_harmonic w3 n)))%C by (destruct (Z.eqb n 0); field; exact K3A) end.
    eapply Rle_trans; [apply Cmod_triangle|]. eapply Rle_trans; [apply Rplus_le_compat_l, Cmod_triangle|].
    specialize (T p1 w1 W1 U1 B1) as T1. specialize (T p2 w2 W2 U2 B2) as T2. specialize (T p3 w3 W3 U3 B3) as T3. lra. }
  assert (Z0 : Cmod (fourier_coefficient f (z + A) A n - V)%C <= 0) by (now apply le_epsilon).
  apply Csub_eq0. apply Cmod_eq_0. apply Rle_antisym; [exact Z0|apply Cmod_ge_0].
Qed.
