(** * Proofs: contrast and approach curves of the demodulated signals over
    lossless samples *)
From Coq Require Import String Reals Lra Lia ZArith List Bool.
From Coquelicot Require Import Rcomplements Complex.
From Verif Require Import Num NumLemmas LimLemmas ModelBase ModelSample ModelTip StackLemmas Spec
  ProofsStackQS ProofsStackQS2 ProofsBulkFF ProofsSym ProofsPassive DemodLemmas ProofsDemod ProofsTip ProofsTip2 ProofsTip3
  ProofsTaylor PosDef.
Import ListNotations.
Open Scope R_scope.

(** ** The demodulated mean of a real function *)
Lemma node_phi N k : N <> O -> node N k = phi N k - PI.
Proof. intros HN. unfold node, phi. assert (INR N <> 0) by (now apply not_0_INR). field. assumption. Qed.
Lemma cos_Zpi_minus n x : cos (IZR n * (x - PI)) = sgn_pow n * cos (IZR n * x).
Proof.
  rewrite Rmult_minus_distr_l, cos_minus.
  assert (E : cos (IZR n * PI) = sgn_pow n /\ sin (IZR n * PI) = 0).
  { pose proof (ph_PI n) as P. rewrite ph_cos in P. unfold RtoC in P. injection P as P1 P2. unfold sgn_pow.
    split; [destruct (Z.even n); exact P1|lra]. }
  destruct E as [-> ->]. ring.
Qed.
Lemma Csum_Re (g : nat -> C) M : Re (Csum (map g (seq 0 M))) = Sm (fun k => Re (g k)) M.
Proof.
  induction M as [|M IH]; [reflexivity|]. rewrite seq_S, map_app, Csum_app. cbn [Sm map Nat.add].
  replace (Re (Csum (map g (seq 0 M)) + Csum [g M])%C) with (Re (Csum (map g (seq 0 M))) + Re (Csum [g M])) by reflexivity.
  rewrite IH. f_equal. unfold Csum. cbn [fold_right]. f_equal. ring.
Qed.
Lemma Csum_Im (g : nat -> C) M : Im (Csum (map g (seq 0 M))) = Sm (fun k => Im (g k)) M.
Proof.
  induction M as [|M IH]; [reflexivity|]. rewrite seq_S, map_app, Csum_app. cbn [Sm map Nat.add].
  replace (Im (Csum (map g (seq 0 M)) + Csum [g M])%C) with (Im (Csum (map g (seq 0 M))) + Im (Csum [g M])) by reflexivity.
  rewrite IH. f_equal. unfold Csum. cbn [fold_right]. f_equal. ring.
Qed.
Lemma Cconj_Csum l : Cconj (Csum l) = Csum (map Cconj l).
Proof.
  induction l as [|a l IH]; [apply (Cconj_R 0)|]. change (Csum (a :: l)) with (a + Csum l)%C.
  cbn [map]. change (Csum (Cconj a :: map Cconj l)) with (Cconj a + Csum (map Cconj l))%C. rewrite <- IH. apply Cconj_plus.
Qed.
Lemma tip_height_cs z A N k : tip_height z A N k = z + A - A * cs N k.
Proof. unfold tip_height, cs, phi. ring. Qed.
Lemma tmean_real z A n N (g : R -> R) : N <> O ->
  tmean z A n N (fun x => RtoC (g x)) = RtoC (sgn_pow n * harm N n (fun k => g (tip_height z A N k))).
Proof.
  intros HN. assert (PN : 0 < INR N) by (apply lt_0_INR; lia).
  set (w := fun k => (RtoC (g (tip_height z A N k)) * ph n (node N k))%C).
  assert (ER : Sm (fun k => Re (w k)) N = sgn_pow n * (INR N * harm N n (fun k => g (tip_height z A N k)))).
  { unfold harm. replace (INR N * (Sm (fun k => g (tip_height z A N k) * cos (IZR n * phi N k)) N / INR N)) with (Sm (fun k => g (tip_height z A N k) * cos (IZR n * phi N k)) N) by (field; lra).
    rewrite <- Sm_scal. apply Sm_ext. intros k _. unfold w. rewrite ph_cos, node_phi, cos_Zpi_minus by exact HN. unfold Re, RtoC. simpl. ring. }
  assert (EI : tmean z A n N (fun x => RtoC (g x)) = Cconj (tmean z A n N (fun x => RtoC (g x)))).
  { unfold tmean at 1. rewrite <- (cmean_rev N) by (rewrite tip_height_N, ph_N by exact HN; reflexivity).
    assert (CC : forall h, Cconj (cmean N h) = cmean N (fun k => Cconj (h k))).
    { intros h. unfold cmean. rewrite Cconj_div by (now apply INR_C_neq_0). rewrite Cconj_R. f_equal. rewrite Cconj_Csum, map_map. reflexivity. }
    unfold tmean. rewrite CC. apply cmean_ext. intros k Hk. rewrite Cconj_mult, Cconj_R, ph_conj.
    rewrite <- !height_tip, height_rev, node_rev, ph_opp by (try exact HN; lia). reflexivity. }
  assert (R1 : Re (tmean z A n N (fun x => RtoC (g x))) = sgn_pow n * harm N n (fun k => g (tip_height z A N k))).
  { unfold tmean, cmean. fold w. unfold Cdiv. rewrite <- RtoC_inv by lra.
    replace (Re (Csum (map w (seq 0 N)) * RtoC (/ INR N))%C) with (Re (Csum (map w (seq 0 N))) * / INR N) by (unfold Re, RtoC; simpl; ring).
    rewrite Csum_Re, ER. field. lra. }
  apply injective_projections; [exact R1|].
  apply (f_equal Im) in EI. unfold Im in EI |- *. cbn [RtoC snd]. unfold Cconj in EI. cbn [snd] in EI. lra.
Qed.

(** ** Loop gain: alpha/(1 - b F) for a multiplier F *)
Section Loop.
Context (N : nat) (HN : N <> O).
Lemma gain_mult b F : 0 <= b -> mult N F -> (forall k, (k < N)%nat -> Rabs (b * F k) < 1) -> mult N (fun k => / (1 - b * F k)).
Proof using HN. intros Hb HF H. apply (mult_geo N HN (fun k => b * F k)); [now apply mult_scal|exact H]. Qed.
Lemma gain_dom0 b F : 0 <= b -> mult N F -> (forall k, (k < N)%nat -> Rabs (b * F k) < 1) -> dom N O (fun k => / (1 - b * F k)).
Proof using HN. intros Hb HF H. apply (dom_geo0 N HN (fun k => b * F k)); [now apply mult_scal|exact H]. Qed.
(** more contrast *)
Lemma gain_contrast j b1 b2 F : 0 <= b1 < b2 -> dom N j F ->
  (forall k, (k < N)%nat -> Rabs (b1 * F k) < 1) -> (forall k, (k < N)%nat -> Rabs (b2 * F k) < 1) ->
  dom N j (fun k => / (1 - b2 * F k) - / (1 - b1 * F k)).
Proof using HN.
  intros Hb D H1 H2. assert (M := dom_mult N j F D).
  apply (dom_ext N j (fun k => (/ (1 - b1 * F k) * / (1 - b2 * F k)) * ((b2 - b1) * F k))).
  { intros k Hk. specialize (H1 k Hk). specialize (H2 k Hk). apply Rabs_lt_between in H1. apply Rabs_lt_between in H2. field. split; lra. }
  apply dom_prod; [|apply dom_scal; [lra|exact D]].
  apply (dom_prod N O (fun k => / (1 - b1 * F k))); apply gain_dom0; auto; lra.
Qed.
(** a stronger interaction *)
Lemma gain_closer j b F G : 0 < b -> mult N F -> mult N G -> dom N j (fun k => F k - G k) ->
  (forall k, (k < N)%nat -> Rabs (b * F k) < 1) -> (forall k, (k < N)%nat -> Rabs (b * G k) < 1) ->
  dom N j (fun k => / (1 - b * F k) - / (1 - b * G k)).
Proof using HN.
  intros Hb MF MG D H1 H2.
  apply (dom_ext N j (fun k => (/ (1 - b * F k) * / (1 - b * G k)) * (b * (F k - G k)))).
  { intros k Hk. specialize (H1 k Hk). specialize (H2 k Hk). apply Rabs_lt_between in H1. apply Rabs_lt_between in H2. field. split; lra. }
  apply dom_prod; [|apply dom_scal; [lra|exact D]].
  apply (dom_prod N O (fun k => / (1 - b * F k))); apply gain_dom0; auto; lra.
Qed.
Lemma gain_signal j b F : 0 < b -> dom N j F -> (forall k, (k < N)%nat -> Rabs (b * F k) < 1) -> dom N j (fun k => / (1 - b * F k)).
Proof using HN.
  intros Hb D H. apply (dom_ext N j (fun k => (/ (1 - b * F k) - / (1 - 0 * F k)) + 1)).
  { intros k Hk. rewrite Rmult_0_l, Rminus_0_r, Rinv_1. ring. }
  apply dom_plus; [|apply mult_const; lra]. apply gain_contrast; [lra|exact D|intros; rewrite Rmult_0_l, Rabs_R0; lra|exact H].
Qed.
End Loop.

(** ** Point dipole model *)
Definition pdm_int (alpha r z A : R) (N k : nat) : R := alpha / (16 * PI) * res1 N (r + z + A) A k ^ 3.
Section PDM.
Context (alpha r z A : R) (N : nat) (HN : N <> O) (Ha : 0 < alpha) (HA : 0 < A) (Hz : 0 < r + z).
Lemma pdm_kappa : 0 < alpha / (16 * PI).
Proof using Ha. pose proof PI_RGT_0. apply Rdiv_lt_0_compat; lra. Qed.
Lemma pdm_int_eq k : pdm_int alpha r z A N k = alpha / (16 * PI * (r + tip_height z A N k) ^ 3).
Proof using Ha HA Hz.
  unfold pdm_int, res1. rewrite tip_height_cs. pose proof (res1_pos N (r + z + A) A k ltac:(lra)) as P. pose proof PI_RGT_0.
  replace (r + (z + A - A * cs N k)) with (r + z + A - A * cs N k) by ring. field. split; lra.
Qed.
Lemma pdm_int_dom j : dom N j (pdm_int alpha r z A N).
Proof using HN Ha HA Hz.
  assert (D : forall i, dom N i (res1 N (r + z + A) A)) by (intros i; apply res1_dom; [exact HN|lra]).
  unfold pdm_int. apply dom_scal; [exact pdm_kappa|].
  apply (dom_ext N j (fun k => res1 N (r + z + A) A k * (res1 N (r + z + A) A k * res1 N (r + z + A) A k))); [intros; cbn [pow]; ring|].
  apply dom_prod; [apply D|]. apply dom_prod; apply D.
Qed.
Lemma pdm_int_bound b k : 0 <= b -> alpha * b < 16 * PI * (r + z) ^ 3 -> Rabs (b * pdm_int alpha r z A N k) < 1.
Proof using Ha HA Hz.
  intros Hb H. pose proof PI_RGT_0 as HP. rewrite pdm_int_eq. rewrite tip_height_cs. pose proof (cs_bound N k).
  assert (r + z <= r + (z + A - A * cs N k)) by nra. set (x := r + (z + A - A * cs N k)) in *.
  assert (X : (r + z) ^ 3 <= x ^ 3) by (apply pow_incr; lra). assert (0 < (r + z) ^ 3) by (apply pow_lt; lra).
  assert (D : 0 < 16 * PI * x ^ 3) by (apply Rmult_lt_0_compat; lra).
  rewrite Rabs_pos_eq.
  - replace (b * (alpha / (16 * PI * x ^ 3))) with (alpha * b / (16 * PI * x ^ 3)) by (unfold Rdiv; ring).
    apply Rlt_div_l; [exact D|]. rewrite Rmult_1_l. eapply Rlt_le_trans; [exact H|]. apply Rmult_le_compat_l; lra.
  - apply Rmult_le_pos; [exact Hb|]. apply Rlt_le, Rdiv_lt_0_compat; lra.
Qed.
End PDM.

(** (-1)^n times the harmonic *)
Lemma pdm_signal D s A n z_tip nt r_tip eps_tip alt alpha b :
  let N := given_or (d_n_trapz D) nt in let z := given_or (d_z_tip D) z_tip in
  let r := given_or (d_r_tip D) r_tip in
  tip_alpha r eps_tip alt (RtoC alpha) -> 0 < alpha -> refl_coef_qs s (rr 0) = Ok (Some (RtoC b)) -> N <> O ->
  0 < A -> 0 < r + z -> 0 <= b -> alpha * b < 16 * PI * (r + z) ^ 3 ->
  pdm_eff_pol_n D s A n z_tip nt r_tip eps_tip alt
  = Ok (Some (RtoC (sgn_pow n * (alpha * harm N n (fun k => / (1 - b * pdm_int alpha r z A N k)))))).
Proof.
  intros N z r Ht Ha Hb HN HA Hz Hb0 Hs.
  assert (X : forall k, 0 < r + tip_height z A N k).
  { intros k. rewrite tip_height_cs. pose proof (cs_bound N k). nra. }
  assert (EF : forall k, (1 - RtoC alpha / RtoC (16 * PI * (r + tip_height z A N k) ^ 3) * RtoC b)%C = RtoC (1 - b * pdm_int alpha r z A N k)).
  { intros k. rewrite pdm_int_eq by assumption. specialize (X k). set (x := r + tip_height z A N k) in *. assert (0 < x ^ 3) by (apply pow_lt; lra). pose proof PI_RGT_0.
    assert (0 < 16 * PI * x ^ 3) by (apply Rmult_lt_0_compat; lra).
    rewrite <- (RtoC_div alpha) by lra. rewrite <- RtoC_mult, <- RtoC_minus. f_equal. ring. }
  assert (PP : forall k, 0 < 1 - b * pdm_int alpha r z A N k).
  { intros k. pose proof (pdm_int_bound alpha r z A N Ha HA Hz b k Hb0 Hs) as P. apply Rabs_lt_between in P. lra. }
  rewrite (pdm_n_value D s A n z_tip nt r_tip eps_tip alt (RtoC alpha) (RtoC b) Ht Hb HN).
  2:{ intros k Hk. fold N z r. split; [pose proof (X k); lra|]. rewrite EF. apply RtoC_neq_0. pose proof (PP k). lra. }
  fold N z r. f_equal. f_equal.
  rewrite (tmean_ext z A n N _ (fun x => RtoC (alpha * / (1 - b * (alpha / (16 * PI * (r + x) ^ 3)))))).
  2:{ intros k Hk. rewrite EF, <- pdm_int_eq by assumption. pose proof (PP k). rewrite RtoC_mult, RtoC_inv by lra. reflexivity. }
  rewrite tmean_real by exact HN. f_equal. f_equal. rewrite <- harm_scal. apply harm_ext. intros k Hk. now rewrite pdm_int_eq.
Qed.

(** C69. Point dipole model, lossless tip and sample: harmonic n has the sign
    (-1)^n, and its magnitude grows strictly with the reflection coefficient,
    for every harmonic and any number of sampling points. *)
Lemma C69_pdm_contrast_proof :
  forall (D : Defaults) (s1 s2 : sample) (A_tip : R) (n : Z) (z_tip r_tip : option R) (n_trapz : option nat)
    (eps_tip alpha_tip : option C) (alpha b1 b2 : R),
  let N := given_or (d_n_trapz D) n_trapz in let z := given_or (d_z_tip D) z_tip in
  let r := given_or (d_r_tip D) r_tip in
  tip_alpha r eps_tip alpha_tip (RtoC alpha) -> 0 < alpha ->
  refl_coef_qs s1 (rr 0) = Ok (Some (RtoC b1)) -> refl_coef_qs s2 (rr 0) = Ok (Some (RtoC b2)) ->
  N <> O -> 0 < A_tip -> 0 < r + z -> 0 <= b1 < b2 -> alpha * b2 < 16 * PI * (r + z) ^ 3 ->
  exists m1 m2 : R,
    pdm_eff_pol_n D s1 A_tip n z_tip n_trapz r_tip eps_tip alpha_tip = Ok (Some (RtoC (sgn_pow n * m1))) /\
    pdm_eff_pol_n D s2 A_tip n z_tip n_trapz r_tip eps_tip alpha_tip = Ok (Some (RtoC (sgn_pow n * m2))) /\
    0 <= m1 < m2 /\ (0 < b1 -> 0 < m1).
Proof.
  intros D s1 s2 A n z_tip r_tip nt eps_tip alt alpha b1 b2 N z r Ht Ha H1 H2 HN HA Hz Hb Hs.
  assert (Hs1 : alpha * b1 < 16 * PI * (r + z) ^ 3) by (eapply Rlt_trans; [|exact Hs]; apply Rmult_lt_compat_l; lra).
  eexists. eexists. split; [|split; [|split]].
  - apply (pdm_signal D s1 A n z_tip nt r_tip eps_tip alt alpha b1); auto; lra.
  - apply (pdm_signal D s2 A n z_tip nt r_tip eps_tip alt alpha b2); auto; lra.
  - fold N z r. split.
    + apply Rmult_le_pos; [lra|]. apply (mult_pd N HN). apply gain_mult; [exact HN|lra|apply (dom_mult N 0), pdm_int_dom; assumption|].
      intros k _. apply pdm_int_bound; auto; lra.
    + apply Rmult_lt_compat_l; [exact Ha|]. apply dom_harm_lt; [exact HN|].
      apply (gain_contrast N HN _ b1 b2 (pdm_int alpha r z A N)); [exact Hb|now apply pdm_int_dom| |]; intros k _; apply pdm_int_bound; auto; lra.
  - intros P. fold N z r. apply Rmult_lt_0_compat; [exact Ha|]. apply dom_harm; [exact HN|].
    apply gain_signal; [exact HN|exact P|now apply pdm_int_dom|]. intros k _; apply pdm_int_bound; auto; lra.
Qed.

(** C69. ... and decays strictly with the height of the tip. *)
Lemma C69_pdm_approach_proof :
  forall (D : Defaults) (s : sample) (A_tip : R) (n : Z) (z1 z2 : R) (r_tip : option R) (n_trapz : option nat)
    (eps_tip alpha_tip : option C) (alpha b : R),
  let N := given_or (d_n_trapz D) n_trapz in
  let r := given_or (d_r_tip D) r_tip in
  tip_alpha r eps_tip alpha_tip (RtoC alpha) -> 0 < alpha -> refl_coef_qs s (rr 0) = Ok (Some (RtoC b)) ->
  N <> O -> 0 < A_tip -> 0 < r + z1 -> z1 < z2 -> 0 < b -> alpha * b < 16 * PI * (r + z1) ^ 3 ->
  exists m1 m2 : R,
    pdm_eff_pol_n D s A_tip n (Some z1) n_trapz r_tip eps_tip alpha_tip = Ok (Some (RtoC (sgn_pow n * m1))) /\
    pdm_eff_pol_n D s A_tip n (Some z2) n_trapz r_tip eps_tip alpha_tip = Ok (Some (RtoC (sgn_pow n * m2))) /\
    0 < m2 < m1.
Proof.
  intros D s A n z1 z2 r_tip nt eps_tip alt alpha b N r Ht Ha H HN HA Hz Hzz Hb Hs.
  assert (Hs2 : alpha * b < 16 * PI * (r + z2) ^ 3).
  { eapply Rlt_trans; [exact Hs|]. pose proof PI_RGT_0. apply Rmult_lt_compat_l; [lra|]. set (a := r + z1) in *. replace (r + z2) with (a + (z2 - z1)) by (unfold a; ring). set (d := z2 - z1). assert (0 < d) by (unfold d; lra).
    assert (0 < a * a) by nra. assert (0 < a * d) by nra. assert (0 < d * d) by nra. cbn [pow]. nra. }
  eexists. eexists. split; [|split].
  - apply (pdm_signal D s A n (Some z1) nt r_tip eps_tip alt alpha b); auto; cbn [given_or]; lra.
  - apply (pdm_signal D s A n (Some z2) nt r_tip eps_tip alt alpha b); auto; cbn [given_or]; fold r; lra.
  - cbn [given_or]. fold N r.
    assert (B1 : forall k, Rabs (b * pdm_int alpha r z1 A N k) < 1) by (intros k; apply pdm_int_bound; auto; lra).
    assert (B2 : forall k, Rabs (b * pdm_int alpha r z2 A N k) < 1) by (intros k; apply pdm_int_bound; auto; lra).
    assert (D1 : forall j, dom N j (pdm_int alpha r z1 A N)) by (intros; apply pdm_int_dom; auto).
    assert (D2 : forall j, dom N j (pdm_int alpha r z2 A N)) by (intros; apply pdm_int_dom; auto; lra).
    split.
    + apply Rmult_lt_0_compat; [exact Ha|]. apply dom_harm; [exact HN|]. apply gain_signal; auto.
    + apply Rmult_lt_compat_l; [exact Ha|]. apply dom_harm_lt; [exact HN|].
      apply gain_closer; [exact HN|exact Hb|apply (dom_mult N 0), D1|apply (dom_mult N 0), D2| |auto|auto].
      set (G1 := res1 N (r + z1 + A) A). set (G2 := res1 N (r + z2 + A) A).
      assert (E1 : forall i, dom N i G1) by (intros i; apply res1_dom; [exact HN|lra]).
      assert (E2 : forall i, dom N i G2) by (intros i; apply res1_dom; [exact HN|lra]).
      apply (dom_ext N _ (fun k => ((G1 k * G1 k + (G1 k * G2 k + G2 k * G2 k)) * G2 k) * (alpha / (16 * PI) * ((z2 - z1) * G1 k)))).
      { intros k _. unfold pdm_int. fold G1 G2. change (res1 N (r + z1 + A) A k) with (G1 k). change (res1 N (r + z2 + A) A k) with (G2 k).
        assert (EE : (z2 - z1) * G1 k * G2 k = G1 k - G2 k).
        { unfold G1, G2, res1. pose proof (res1_pos N (r + z1 + A) A k ltac:(lra)). pose proof (res1_pos N (r + z2 + A) A k ltac:(lra)). field. split; lra. }
        transitivity (alpha / (16 * PI) * (((z2 - z1) * G1 k * G2 k) * (G1 k * G1 k + (G1 k * G2 k + G2 k * G2 k)))); [ring|]. rewrite EE. ring. }
      apply dom_prod.
      * apply dom_prod; [|apply E2]. apply dom_plus; [apply dom_prod; apply E1|].
        apply mult_plus; apply mult_mult; first [apply (dom_mult N 0), E1|apply (dom_mult N 0), E2].
      * apply dom_scal; [now apply pdm_kappa|]. apply dom_scal; [lra|apply E1].
Qed.
