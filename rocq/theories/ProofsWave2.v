(** * Proofs: energy conservation and passivity of the far-field coefficients *)
From Coq Require Import String Reals Lra Lia ZArith List Bool.
From Coquelicot Require Import Coquelicot.
From Coq Require Import List.
From Verif Require Import Num NumLemmas LimLemmas ModelBase ModelSample ModelTip StackLemmas Spec
  ProofsStackQS ProofsStackQS2 ProofsStackFF ProofsStackFF2 SpecWave WaveLemmas WaveLemmas2 ProofsWave
  ModelRange RangeLemmas ProofsEx.
Import ListNotations.
Open Scope R_scope.

(** the power flowing down at depth z, up to a constant factor *)
Definition flux (F G : R -> C) (z : R) : R := Re (F z) * Im (G z) - Im (F z) * Re (G z).

Lemma flux_derive F G z dF dG : field_derive F z dF -> field_derive G z dG ->
  is_derive (flux F G) z
    ((Re dF * Im (G z) + Re (F z) * Im dG) - (Im dF * Re (G z) + Im (F z) * Re dG)).
Proof.
  intros [F1 F2] [G1 G2].
  assert (M : forall a b da db, is_derive a z da -> is_derive b z db ->
              is_derive (fun x => a x * b x) z (da * b z + a z * db)).
  { intros a b da db Ha Hb. apply (is_derive_mult a b z da db Ha Hb). intros; apply Rmult_comm. }
  apply (is_derive_minus (V := R_NormedModule) (fun x => Re (F x) * Im (G x)) (fun x => Im (F x) * Re (G x)));
    apply M; assumption.
Qed.
Lemma flux_cont F G z : fcont F z -> fcont G z -> continuity_pt (flux F G) z.
Proof.
  intros [F1 F2] [G1 G2].
  apply (continuity_pt_minus (fun x => Re (F x) * Im (G x)) (fun x => Im (F x) * Re (G x)));
    apply (continuity_pt_mult (fun x => _ (F x)) (fun x => _ (G x))); assumption.
Qed.

(** absorption per unit length *)
Definition absorb (p : bool) (nu q : R) (e : C) (F G : C) : R :=
  if p then Im e * (Cmod G ^ 2 + q ^ 2 / Cmod e ^ 2 * Cmod F ^ 2) else Im e * nu ^ 2 * Cmod F ^ 2.
Lemma Cmod2 (z : C) : Cmod z ^ 2 = Re z ^ 2 + Im z ^ 2.
Proof. unfold Cmod. rewrite pow2_sqrt; [reflexivity|]. apply Rplus_le_le_0_compat; apply pow2_ge_0. Qed.
Lemma flux_maxwell p nu q e F G z : (p = true -> e <> RtoC 0) -> maxwell p nu q e F G z ->
  is_derive (flux F G) z (- absorb p nu q e (F z) (G z)).
Proof.
  intros He H. destruct p; destruct H as [L1 L2].
  - specialize (He eq_refl). pose proof (flux_derive F G z _ _ L1 L2) as D.
    replace (- absorb true nu q e (F z) (G z)) with
      ((Re (e * G z)%C * Im (G z) + Re (F z) * Im ((RtoC (q ^ 2) / e - RtoC (nu ^ 2)) * F z)%C) -
       (Im (e * G z)%C * Re (G z) + Im (F z) * Re ((RtoC (q ^ 2) / e - RtoC (nu ^ 2)) * F z)%C)); [exact D|].
    unfold absorb. rewrite !Cmod2.
    assert (N : Re e ^ 2 + Im e ^ 2 <> 0).
    { rewrite <- Cmod2. apply pow_nonzero. intros X. apply Cmod_eq_0 in X. auto. }
    destruct e as [x y], (F z) as [f1 f2], (G z) as [g1 g2]. unfold Re, Im in *. simpl in *. field. lra.
  - pose proof (flux_derive F G z _ _ L1 L2) as D.
    replace (- absorb false nu q e (F z) (G z)) with
      ((Re (G z)%C * Im (G z) + Re (F z) * Im ((RtoC (q ^ 2) - e * RtoC (nu ^ 2)) * F z)%C) -
       (Im (G z)%C * Re (G z) + Im (F z) * Re ((RtoC (q ^ 2) - e * RtoC (nu ^ 2)) * F z)%C)); [exact D|].
    unfold absorb. rewrite !Cmod2.
    destruct e as [x y], (F z) as [f1 f2], (G z) as [g1 g2]. unfold Re, Im in *. simpl in *. ring.
Qed.
Lemma absorb_nonneg p nu q e F G : 0 <= Im e -> 0 <= absorb p nu q e F G.
Proof.
  intros H. unfold absorb. destruct p.
  - apply Rmult_le_pos; [exact H|]. apply Rplus_le_le_0_compat; [apply pow2_ge_0|].
    apply Rmult_le_pos; [|apply pow2_ge_0]. unfold Rdiv. apply Rmult_le_pos; [apply pow2_ge_0|].
    destruct (Req_dec (Cmod e ^ 2) 0) as [E|E]; [rewrite E, Rinv_0; lra|].
    apply Rlt_le, Rinv_0_lt_compat. pose proof (pow2_ge_0 (Cmod e)). lra.
  - apply Rmult_le_pos; [apply Rmult_le_pos; [exact H|apply pow2_ge_0]|apply pow2_ge_0].
Qed.

Lemma flux_slab p nu q e F G a b : (p = true -> e <> RtoC 0) -> a < b ->
  (forall z, a < z < b -> maxwell p nu q e F G z) -> (forall z, fcont F z) -> (forall z, fcont G z) ->
  0 <= Im e -> flux F G b <= flux F G a /\ (Im e = 0 -> flux F G b = flux F G a).
Proof.
  intros He Hab HL HF HG Hi.
  destruct (MVT_gen (flux F G) a b (fun z => - absorb p nu q e (F z) (G z))) as (c & _ & E).
  - rewrite Rmin_left, Rmax_right by lra. intros z Hz. apply flux_maxwell; auto.
  - intros z _. apply flux_cont; auto.
  - pose proof (absorb_nonneg p nu q e (F c) (G c) Hi). split.
    + assert (0 <= absorb p nu q e (F c) (G c) * (b - a)) by (apply Rmult_le_pos; lra). lra.
    + intros Z. assert (X : absorb p nu q e (F c) (G c) = 0) by (unfold absorb; rewrite Z; destruct p; ring).
      rewrite X in E. lra.
Qed.
Lemma flux_stack p nu q F G en : (forall z, fcont F z) -> (forall z, fcont G z) ->
  forall inner top, Forall (fun et : C * R => p = true -> fst et <> RtoC 0) inner ->
  Forall (fun et : C * R => 0 < snd et) inner -> Forall (fun et : C * R => 0 <= Im (fst et)) inner ->
  (forall z e, below (map fst inner ++ [en]) (map snd inner) top z e -> maxwell p nu q e F G z) ->
  let D := top + total_depth (map snd inner) in
  flux F G D <= flux F G top /\ (Forall (fun et : C * R => Im (fst et) = 0) inner -> flux F G D = flux F G top).
Proof.
  intros HF HG. induction inner as [|[e t] rest IH]; intros top Hn Ht Hi HL D.
  - cbn in D. replace D with top by (unfold D; ring). split; [lra|auto].
  - inversion Hn as [|? ? Hn1 Hn2]; subst. inversion Ht as [|? ? Ht1 Ht2]; subst.
    inversion Hi as [|? ? Hi1 Hi2]; subst. cbn [fst snd] in *.
    assert (HD : D = (top + t) + total_depth (map snd rest)) by (unfold D, total_depth; cbn [map fold_right snd]; ring).
    destruct (IH (top + t)) as [I1 I2]; auto.
    { intros z e' Hb. apply HL. apply below_cons. right. exact Hb. }
    destruct (flux_slab p nu q e F G top (top + t)) as [S1 S2]; auto; try lra.
    { intros z Hz. apply HL. apply below_cons. left. auto. }
    rewrite HD. split; [lra|]. intros Z. inversion Z; subst. cbn in *. rewrite I2, S2; auto.
Qed.

(** the substrate never sends power up *)
Lemma substrate_flux (p : bool) nu q en kn : is_kz nu q en kn -> principal kn -> 0 <= Im en -> nu <> 0 ->
  0 <= (if p then Re (kn / en)%C else Re kn).
Proof.
  intros Hk Hp Hi Hnu.
  assert (Hnu2 : 0 < nu ^ 2) by (apply pow2_gt_0; exact Hnu).
  destruct kn as [x y], en as [c d]. unfold is_kz in Hk.
  assert (E1 : x * x - y * y = c * nu ^ 2 - q ^ 2) by (apply (f_equal fst) in Hk; simpl in Hk; simpl; lra).
  assert (E2 : 2 * x * y = d * nu ^ 2) by (apply (f_equal snd) in Hk; simpl in Hk; simpl; lra).
  unfold principal, Re, Im in *. cbn [fst snd] in *.
  assert (Hx : 0 <= x) by lra.
  destruct p; [|exact Hx].
  unfold Cdiv, Cinv, Cmult. cbn [fst snd].
  replace (x * (c / (c ^ 2 + d ^ 2)) - y * (- d / (c ^ 2 + d ^ 2))) with ((x * c + y * d) / (c ^ 2 + d ^ 2))
    by (unfold Rdiv; ring).
  assert (H2 : 0 <= c ^ 2 + d ^ 2) by (apply Rplus_le_le_0_compat; apply pow2_ge_0).
  unfold Rdiv. apply Rmult_le_pos.
  - assert (X : 0 <= (x * c + y * d) * nu ^ 2).
    { replace ((x * c + y * d) * nu ^ 2) with (x * (c * nu ^ 2) + y * (d * nu ^ 2)) by ring.
      rewrite <- E2. replace (c * nu ^ 2) with (x * x - y * y + q ^ 2) by lra.
      replace (x * (x * x - y * y + q ^ 2) + y * (2 * x * y)) with (x * (x * x + y * y + q * q)) by ring.
      apply Rmult_le_pos; [exact Hx|]. pose proof (Rle_0_sqr x). pose proof (Rle_0_sqr y). pose proof (Rle_0_sqr q).
      unfold Rsqr in *. lra. }
    destruct (Rle_lt_dec 0 (x * c + y * d)) as [Y|Y]; [exact Y|]. exfalso.
    assert (0 < - (x * c + y * d) * nu ^ 2) by (apply Rmult_lt_0_compat; lra). lra.
  - destruct (Req_dec (c ^ 2 + d ^ 2) 0) as [Z|Z]; [rewrite Z, Rinv_0; lra|].
    apply Rlt_le, Rinv_0_lt_compat. lra.
Qed.

(** power transmitted into the substrate per unit of incident normal wavevector *)
Lemma flux_balance (p : bool) (e0 : C) mid en ts nu0 nu q k0 kn r t :
  length mid = length ts -> Forall (fun t => 0 < t) ts ->
  Forall (fun e => (e * RtoC (nu ^ 2) - RtoC (q ^ 2) <> 0)%C) (e0 :: mid) ->
  (p = true -> Forall (fun e => e <> RtoC 0) (e0 :: mid ++ [en])) ->
  is_kz nu q e0 k0 -> principal k0 -> is_kz nu q en kn -> principal kn ->
  Forall (fun e => 0 <= Im e) mid ->
  refl_coef (stack (e0 :: mid ++ [en]) ts nu0) (Some q) None (Some nu) (pol p) = Ok (Some r) ->
  trans_coef (stack (e0 :: mid ++ [en]) ts nu0) (Some q) None (Some nu) (pol p) = Ok (Some t) ->
  let top := Im (Cconj (1 + r) * (Ci * k0 * (if p then / e0 else 1) * (1 - r)))%C in
  let bottom := (if p then Re (kn / en)%C else Re kn) * Cmod t ^ 2 in
  bottom <= top /\ (Forall (fun e => Im e = 0) mid -> bottom = top).
Proof.
  intros Hl Ht Hk Hn K0 P0 Kn Pn Hi Hr Htr top bottom.
  destruct (proj1 (C54_maxwell_proof p e0 mid en ts nu0 nu q k0 kn r t Hl Ht Hk Hn K0 P0 Kn Pn) (conj Hr Htr))
    as (F & G & HS).
  apply is_kz_principal in K0; [|exact P0]. apply is_kz_principal in Kn; [|exact Pn].
  destruct (stack_decomp (e0 :: mid ++ [en]) ts) as (a & inner & b & E & ->).
  { simpl. rewrite app_length. simpl. lia. }
  rewrite E in *.
  assert (E' := E). unfold eps_of in E'. injection E' as -> E'. apply app_inj_tail in E'. destruct E' as [-> ->].
  assert (Hall : p = true -> forall e, In e (eps_of a inner b) -> e <> RtoC 0).
  { intros X. specialize (Hn X). rewrite Forall_forall in Hn. exact Hn. }
  assert (Ht' : Forall (fun et : C * R => 0 < snd et) inner).
  { apply Forall_forall. intros et Het. rewrite Forall_forall in Ht. apply Ht. apply in_map. exact Het. }
  assert (HW : forall e, In e (eps_of a inner b) -> Wff p e <> RtoC 0).
  { intros e He. unfold Wff. destruct p; [apply Cinv_neq_0; auto|apply RtoC_neq_0; lra]. }
  assert (Hga : good (Wff p) (kz nu q) a).
  { split; [apply HW; left; reflexivity|]. apply kz_neq_0. now inversion Hk. }
  assert (Hgi : Forall (fun et : C * R => good (Wff p) (kz nu q) (fst et)) inner).
  { apply Forall_forall. intros et Het. split.
    - apply HW. right. apply in_or_app. left. apply in_map. exact Het.
    - apply kz_neq_0. rewrite Forall_forall in Hk. apply Hk. right. apply in_map. exact Het. }
  assert (Hb : In b (eps_of a inner b)) by (right; apply in_or_app; right; left; reflexivity).
  assert (HM : scattering (maxwell p nu q) (eps_of a inner b) (map snd inner) k0 kn r t F G) by (destruct p; exact HS).
  clear HS.
  assert (HS : scattering (law (Wff p) (kz nu q)) (eps_of a inner b) (map snd inner) (kz nu q a) (kz nu q b) r t F G).
  { rewrite <- K0, <- Kn. revert HM. apply scattering_ext. intros e z He.
    apply (maxwell_law p nu q e F G z (fun X => Hall X e He)). }
  destruct (scattering_ends (Wff p) (kz nu q) a inner b r t F G Hga Hgi (HW b Hb) Ht' HS) as (FD & GD & F0 & G0).
  destruct HM as ((HF & HG & HL) & _ & _).
  destruct (flux_stack p nu q F G b HF HG inner 0) as [B1 B2].
  - apply Forall_forall. intros et Het X. apply Hall; [exact X|]. right. apply in_or_app. left. apply in_map. exact Het.
  - exact Ht'.
  - apply Forall_forall. intros et Het. rewrite Forall_forall in Hi. apply Hi. apply in_map. exact Het.
  - intros z e Hbz. apply HL. right. exact Hbz.
  - rewrite Rplus_0_l in *.
    assert (X0 : flux F G 0 = top).
    { unfold flux, top. rewrite F0, G0, <- K0. unfold Wff. destruct p; unfold Re, Im, Cconj; simpl; ring. }
    assert (XD : flux F G (total_depth (map snd inner)) = bottom).
    { unfold flux, bottom. rewrite FD, GD, <- Kn, Cmod2. unfold Wff.
      destruct p; [|unfold Re, Im; simpl; ring].
      unfold Cdiv. generalize (/ b)%C. intros w. unfold Re, Im; simpl; ring. }
    rewrite X0, XD in *. split; [exact B1|]. intros Z. apply B2. apply Forall_forall. intros et Het.
    rewrite Forall_forall in Z. apply Z. apply in_map. exact Het.
Qed.

(** C56. Energy balance.  Light coming through a transparent environment onto a
    stack whose inner layers do not amplify: the reflected plus the transmitted
    power is at most the incident power, and equal to it if the inner layers
    are lossless (also if they are metallic or evanescent). *)
Lemma C56_energy_balance_proof :
  forall (p : bool) (e0 : R) (mid : list C) (en : C) (ts : list R) nu0 (nu q k0 : R) (kn r t : C),
  length mid = length ts -> Forall (fun t => 0 < t) ts ->
  0 < e0 -> 0 < k0 -> k0 ^ 2 = e0 * nu ^ 2 - q ^ 2 ->
  Forall (fun e => (e * RtoC (nu ^ 2) - RtoC (q ^ 2) <> 0)%C) mid ->
  (p = true -> Forall (fun e => e <> RtoC 0) (mid ++ [en])) ->
  is_kz nu q en kn -> principal kn ->
  Forall (fun e => 0 <= Im e) mid ->
  refl_coef (stack (RtoC e0 :: mid ++ [en]) ts nu0) (Some q) None (Some nu) (pol p) = Ok (Some r) ->
  trans_coef (stack (RtoC e0 :: mid ++ [en]) ts nu0) (Some q) None (Some nu) (pol p) = Ok (Some t) ->
  let reflected := Cmod r ^ 2 in
  let transmitted := (if p then e0 * Re (kn / en)%C else Re kn) / k0 * Cmod t ^ 2 in
  reflected + transmitted <= 1 /\
  (Forall (fun e => Im e = 0) mid -> reflected + transmitted = 1).
Proof.
  intros p e0 mid en ts nu0 nu q k0 kn r t Hl Ht He0 Hk0 K0 Hk Hn Kn Pn Hi Hr Htr reflected transmitted.
  assert (K0c : is_kz nu q (RtoC e0) (RtoC k0)).
  { unfold is_kz. rewrite <- !RtoC_mult, <- RtoC_minus, <- K0. f_equal. ring. }
  destruct (flux_balance p (RtoC e0) mid en ts nu0 nu q (RtoC k0) kn r t) as [B1 B2]; auto.
  - apply Forall_cons; [|exact Hk]. unfold is_kz in K0c. rewrite <- K0c, <- RtoC_mult. apply RtoC_neq_0.
    apply Rmult_integral_contrapositive; lra.
  - intros X. apply Forall_cons; [apply RtoC_neq_0; lra|auto].
  - left. simpl. exact Hk0.
  - cbv zeta in B1, B2. set (bottom := (if p then Re (kn / en)%C else Re kn)) in *.
    set (w0 := if p then / e0 else 1).
    assert (Hw0 : 0 < w0) by (unfold w0; destruct p; [apply Rinv_0_lt_compat; exact He0|lra]).
    assert (ET : Im (Cconj (1 + r) * (Ci * RtoC k0 * (if p then / RtoC e0 else 1) * (1 - r)))%C = k0 * w0 * (1 - reflected)).
    { unfold reflected. rewrite Cmod2. unfold w0. destruct p.
      - rewrite <- RtoC_inv by lra. destruct r as [x y]. unfold Im, Re, Cconj, RtoC, Ci. simpl. ring.
      - destruct r as [x y]. unfold Im, Re, Cconj, RtoC, Ci. simpl. ring. }
    rewrite ET in B1, B2.
    assert (TT : transmitted = bottom * Cmod t ^ 2 / (k0 * w0)).
    { unfold transmitted, bottom, w0. destruct p; field; lra. }
    assert (Hkw : 0 < k0 * w0) by (apply Rmult_lt_0_compat; assumption).
    assert (EB : bottom * Cmod t ^ 2 = transmitted * (k0 * w0)) by (rewrite TT; field; lra).
    rewrite EB in B1, B2. split.
    + assert (transmitted <= 1 - reflected); [|lra]. apply (Rmult_le_reg_r (k0 * w0)); [exact Hkw|]. lra.
    + intros Z. specialize (B2 Z). assert (transmitted = 1 - reflected); [|lra].
      apply (Rmult_eq_reg_r (k0 * w0)); [|lra]. lra.
Qed.

(** C56. Nothing passive reflects more than it receives; a lossless stack on a
    lossless substrate in which the wave cannot propagate reflects everything. *)
Lemma C56_reflects_at_most_everything_proof :
  forall (p : bool) (e0 : R) (mid : list C) (en : C) (ts : list R) nu0 (nu q k0 : R) (kn r t : C),
  length mid = length ts -> Forall (fun t => 0 < t) ts ->
  0 < e0 -> 0 < k0 -> k0 ^ 2 = e0 * nu ^ 2 - q ^ 2 ->
  Forall (fun e => (e * RtoC (nu ^ 2) - RtoC (q ^ 2) <> 0)%C) mid ->
  (p = true -> Forall (fun e => e <> RtoC 0) (mid ++ [en])) ->
  is_kz nu q en kn -> principal kn ->
  Forall (fun e => 0 <= Im e) (mid ++ [en]) ->
  refl_coef (stack (RtoC e0 :: mid ++ [en]) ts nu0) (Some q) None (Some nu) (pol p) = Ok (Some r) ->
  trans_coef (stack (RtoC e0 :: mid ++ [en]) ts nu0) (Some q) None (Some nu) (pol p) = Ok (Some t) ->
  Cmod r <= 1 /\
  (Forall (fun e => Im e = 0) (mid ++ [en]) -> Re en * nu ^ 2 <= q ^ 2 -> Cmod r = 1).
Proof.
  intros p e0 mid en ts nu0 nu q k0 kn r t Hl Ht He0 Hk0 K0 Hk Hn Kn Pn Hi Hr Htr.
  apply Forall_app in Hi. destruct Hi as [Hi Hin]. inversion Hin as [|? ? Hien _]; subst.
  destruct (C56_energy_balance_proof p e0 mid en ts nu0 nu q k0 kn r t) as [B1 B2]; auto.
  assert (Hnu : nu <> 0). { intros ->. pose proof (pow2_ge_0 q). assert (0 < k0 ^ 2) by (apply pow_lt; lra). lra. }
  pose proof (Cmod_ge_0 r) as Hr0. pose proof (pow2_ge_0 (Cmod t)) as Ht2.
  split.
  - assert (HT : 0 <= (if p then e0 * Re (kn / en)%C else Re kn) / k0 * Cmod t ^ 2).
    { pose proof (substrate_flux p nu q en kn Kn Pn Hien Hnu) as Hs.
      apply Rmult_le_pos; [|exact Ht2]. apply Rmult_le_pos; [|apply Rlt_le, Rinv_0_lt_compat; exact Hk0].
      destruct p; [apply Rmult_le_pos; lra|exact Hs]. }
    cbv zeta in B1. assert (H : Cmod r ^ 2 <= 1 ^ 2) by lra. apply pow_incr_inv in H || idtac.
    apply Rsqr_incr_0_var; [unfold Rsqr; simpl in H; lra|lra].
  - intros Z Hev. apply Forall_app in Z. destruct Z as [Z Zn]. inversion Zn as [|? ? Zen _]; subst.
    specialize (B2 Z). cbv zeta in B2.
    assert (Hkn : Re kn = 0).
    { destruct kn as [x y], en as [c d]. unfold is_kz in Kn. unfold principal, Re, Im in *. cbn [fst snd] in *. subst d.
      assert (E1 : x * x - y * y = c * nu ^ 2 - q ^ 2) by (apply (f_equal fst) in Kn; simpl in Kn; simpl; lra).
      assert (E2 : x * y = 0) by (apply (f_equal snd) in Kn; simpl in Kn; simpl; lra).
      apply Rmult_integral in E2. destruct E2 as [E2|E2]; [exact E2|]. subst y.
      assert (x * x = 0). { pose proof (Rle_0_sqr x) as X. unfold Rsqr in X. lra. } apply Rmult_integral in H. lra. }
    assert (HT : (if p then e0 * Re (kn / en)%C else Re kn) = 0).
    { destruct p; [|exact Hkn]. destruct kn as [x y], en as [c d]. unfold Re, Im in *. cbn [fst snd] in *. subst x d.
      unfold Cdiv, Cinv, Cmult. cbn [fst snd]. unfold Rdiv. ring. }
    rewrite HT in B2. assert (H : Cmod r ^ 2 = 1) by lra.
    apply Rsqr_inj; [exact Hr0|lra|unfold Rsqr; simpl in H; lra].
Qed.

(** C57. Evanescent waves (q beyond the light line of the environment): twice the
    imaginary part of the reflection coefficient is the power absorbed by
    the stack; it is never negative for a passive sample, and for lossless
    inner layers all of it goes into the substrate.  This is C14 at finite
    frequency and for both polarizations. *)
Lemma C57_evanescent_absorption_proof :
  forall (p : bool) (e0 : R) (mid : list C) (en : C) (ts : list R) nu0 (nu q kappa : R) (kn r t : C),
  length mid = length ts -> Forall (fun t => 0 < t) ts -> nu <> 0 ->
  0 < e0 -> 0 < kappa -> kappa ^ 2 = q ^ 2 - e0 * nu ^ 2 ->
  Forall (fun e => (e * RtoC (nu ^ 2) - RtoC (q ^ 2) <> 0)%C) mid ->
  (p = true -> Forall (fun e => e <> RtoC 0) (mid ++ [en])) ->
  is_kz nu q en kn -> principal kn ->
  Forall (fun e => 0 <= Im e) mid ->
  refl_coef (stack (RtoC e0 :: mid ++ [en]) ts nu0) (Some q) None (Some nu) (pol p) = Ok (Some r) ->
  trans_coef (stack (RtoC e0 :: mid ++ [en]) ts nu0) (Some q) None (Some nu) (pol p) = Ok (Some t) ->
  let transmitted := (if p then e0 * Re (kn / en)%C else Re kn) / kappa * Cmod t ^ 2 in
  transmitted <= 2 * Im r /\
  (Forall (fun e => Im e = 0) mid -> transmitted = 2 * Im r) /\
  (0 <= Im en -> 0 <= Im r).
Proof.
  intros p e0 mid en ts nu0 nu q k0 kn r t Hl Ht Hnu He0 Hk0 K0 Hk Hn Kn Pn Hi Hr Htr transmitted.
  assert (K0c : is_kz nu q (RtoC e0) (0, k0)).
  { unfold is_kz. rewrite <- RtoC_mult, <- RtoC_minus. apply injective_projections; simpl; simpl in K0; lra. }
  destruct (flux_balance p (RtoC e0) mid en ts nu0 nu q (0, k0) kn r t) as [B1 B2]; auto.
  - apply Forall_cons; [|exact Hk]. rewrite <- RtoC_mult, <- RtoC_minus. apply RtoC_neq_0.
    assert (0 < k0 ^ 2) by (apply pow_lt; lra). lra.
  - intros X. apply Forall_cons; [apply RtoC_neq_0; lra|auto].
  - right. simpl. split; [reflexivity|lra].
  - cbv zeta in B1, B2. set (bottom := (if p then Re (kn / en)%C else Re kn)) in *.
    set (w0 := if p then / e0 else 1).
    assert (Hw0 : 0 < w0) by (unfold w0; destruct p; [apply Rinv_0_lt_compat; exact He0|lra]).
    assert (ET : Im (Cconj (1 + r) * (Ci * (0, k0) * (if p then / RtoC e0 else 1) * (1 - r)))%C = k0 * w0 * (2 * Im r)).
    { unfold w0. destruct p.
      - rewrite <- RtoC_inv by lra. destruct r as [x y]. unfold Im, Re, Cconj, RtoC, Ci. simpl. ring.
      - destruct r as [x y]. unfold Im, Re, Cconj, RtoC, Ci. simpl. ring. }
    rewrite ET in B1, B2.
    assert (Hkw : 0 < k0 * w0) by (apply Rmult_lt_0_compat; assumption).
    assert (EB : bottom * Cmod t ^ 2 = transmitted * (k0 * w0)).
    { unfold transmitted, bottom, w0. destruct p; field; lra. }
    rewrite EB in B1, B2.
    assert (C1 : transmitted <= 2 * Im r) by (apply (Rmult_le_reg_r (k0 * w0)); [exact Hkw|]; lra).
    split; [exact C1|]. split.
    + intros Z. specialize (B2 Z). apply (Rmult_eq_reg_r (k0 * w0)); [|lra]. lra.
    + intros Hien. assert (0 <= transmitted); [|lra].
      pose proof (substrate_flux p nu q en kn Kn Pn Hien Hnu) as Hs.
      unfold transmitted. apply Rmult_le_pos; [|apply pow2_ge_0].
      apply Rmult_le_pos; [|apply Rlt_le, Rinv_0_lt_compat; exact Hk0].
      destruct p; [apply Rmult_le_pos; lra|exact Hs].
Qed.

(** ** Concrete cases *)
(** the quarter-wave film: r = -1/7, t = 4i/7, 1/49 + 3 * 16/49 = 1 *)
Lemma quarter_wave_trans :
  trans_coef (stack [RtoC 1; RtoC 4; RtoC 9] [PI / 4] None) (Some 0) None (Some 1) "s" = Ok (Some (0, 4 / 7)).
Proof.
  assert (K : forall e k : R, 0 < k -> k * k = e -> kz 1 0 (RtoC e) = RtoC k).
  { intros e k Hk He. symmetry. apply is_kz_principal; [|left; exact Hk]. unfold is_kz. rewrite <- He.
    apply injective_projections; simpl; ring. }
  change (stack [RtoC 1; RtoC 4; RtoC 9] [PI / 4] None) with (qs_sample (RtoC 1) [(RtoC 4, PI / 4)] (RtoC 9) None).
  change "s"%string with (pol_str false).
  rewrite (trans_coef_struct _ _ _ _ _ _ _ _ 1 0); [|reflexivity|reflexivity|].
  - unfold Mff. cbn [stackM]. unfold Tff, ffactor, Pff.
    rewrite (K 1 1), (K 4 2), (K 9 3) by lra.
    assert (X1 : Cexp ((0, -1)%R * (RtoC 2 * RtoC (PI / 4)))%C = (0, -1)).
    { unfold Cexp, Re, Im. simpl. replace (_ - _) with 0 by ring. rewrite exp_0.
      replace (_ + _) with (- (PI / 2)) by field. rewrite cos_neg, sin_neg, cos_PI2, sin_PI2. f_equal; lra. }
    assert (X2 : Cexp ((0, 1)%R * (RtoC 2 * RtoC (PI / 4)))%C = (0, 1)).
    { unfold Cexp, Re, Im. simpl. replace (_ - _) with 0 by ring. rewrite exp_0.
      replace (_ + _) with (PI / 2) by field. rewrite cos_PI2, sin_PI2. f_equal; lra. }
    rewrite X1, X2. unfold pmul, pP, pT. cbn [c00 c01 c10 c11].
    unfold rc. match goal with |- Ok (cdiv (Some _) (Some ?x)) = _ => replace x with (0, - (7 / 4)) end.
    + rewrite cdiv_ok; [|intros H; apply (f_equal snd) in H; simpl in H; lra].
      do 2 f_equal. apply injective_projections; simpl; field.
    + apply injective_projections; simpl; field.
  - split; [split|split]; try discriminate.
    + rewrite (K 1 1) by lra. apply RtoC_neq_0; lra.
    + rewrite (K 4 2) by lra. apply RtoC_neq_0; lra.
Qed.
Lemma quarter_thick : Forall (fun t => 0 < t) [PI / 4].
Proof. pose proof PI_RGT_0. apply Forall_cons; [lra|apply Forall_nil]. Qed.
Lemma C54_example_proof :
  exists E H, scattering (maxwell_s 1 0) [RtoC 1; RtoC 4; RtoC 9] [PI / 4] (RtoC 1) (RtoC 3)
                (RtoC (- 1 / 7)) (0, 4 / 7) E H.
Proof.
  apply (C54_maxwell_proof false (RtoC 1) [RtoC 4] (RtoC 9) [PI / 4] None 1 0 (RtoC 1) (RtoC 3) (RtoC (- 1 / 7)) (0, 4 / 7)).
  - reflexivity.
  - apply quarter_thick.
  - repeat (apply Forall_cons; [cne|]). apply Forall_nil.
  - discriminate.
  - unfold is_kz. ceq.
  - left; simpl; lra.
  - unfold is_kz. ceq.
  - left; simpl; lra.
  - split; [apply C08_example_proof|apply quarter_wave_trans].
Qed.
Lemma C56_example_proof : Cmod (RtoC (- 1 / 7)) ^ 2 + Re (RtoC 3) / 1 * Cmod (0, 4 / 7) ^ 2 = 1.
Proof.
  apply (C56_energy_balance_proof false 1 [RtoC 4] (RtoC 9) [PI / 4] None 1 0 1 (RtoC 3) (RtoC (- 1 / 7)) (0, 4 / 7)).
  - reflexivity.
  - apply quarter_thick.
  - lra.
  - lra.
  - lra.
  - repeat (apply Forall_cons; [cne|]). apply Forall_nil.
  - discriminate.
  - unfold is_kz. ceq.
  - left; simpl; lra.
  - apply Forall_cons; [simpl; lra|apply Forall_nil].
  - apply C08_example_proof.
  - apply quarter_wave_trans.
  - apply Forall_cons; [reflexivity|apply Forall_nil].
Qed.
Lemma ln2_le : ln 2 <= 2.
Proof. apply Rle_trans with (ln (exp 2)); [|rewrite ln_exp; lra]. pose proof (exp_ineq1_le 2). apply ln_le; lra. Qed.
(** the film of C07: beta = 47/78, the code's t is 20/39, the transmitted potential 10/39 *)
Lemma film_trans nu : trans_coef_qs (stack [RtoC 1; RtoC 5; RtoC 2] [ln 2] nu) (rr 1) = Ok (Some (RtoC (20 / 39))).
Proof.
  change (stack [RtoC 1; RtoC 5; RtoC 2] [ln 2] nu) with (qs_sample (RtoC 1) [(RtoC 5, ln 2)] (RtoC 2) nu).
  rewrite trans_coef_qs_struct.
  - unfold Mqs. cbn [stackM]. unfold Pqs, Tqs.
    assert (L : 1 * ln 2 <= MAX_EXP_ARG).
    { pose proof MAX_16. pose proof ln2_le. lra. }
    assert (P : 0 < ln 2) by (rewrite <- ln_1; apply ln_increasing; lra).
    assert (CL : clipR (1 * ln 2) = ln 2).
    { unfold clipR. pose proof MAX_16. rewrite Rmax_left, Rmin_left by (rewrite ?Rmult_1_l in *; lra). ring. }
    rewrite CL.
    assert (X1 : exp (ln 2) = 2) by (apply exp_ln; lra).
    assert (X2 : exp (- ln 2) = / 2) by (rewrite exp_Ropp, X1; reflexivity).
    rewrite X1, X2. unfold pmul, pP, pT, rc. cbn [c00 c01 c10 c11].
    match goal with |- Ok (cdiv (Some _) (Some ?x)) = _ => replace x with (RtoC (39 / 20)) end.
    + rewrite cdiv_ok by (apply RtoC_neq_0; lra). do 2 f_equal. ceq.
    + ceq.
  - repeat (apply Forall_cons; [cne|]). apply Forall_nil.
Qed.
Lemma C55_example_proof :
  exists V D, field_in (electrostatic 1) [RtoC 1; RtoC 5; RtoC 2] [ln 2] V D /\
    (forall z, z <= 0 -> V z = (RtoC (exp (- (1) * z)) - RtoC (47 / 78) * RtoC (exp (1 * z)))%C) /\
    (forall z, total_depth [ln 2] <= z ->
       V z = (RtoC 1 / RtoC 2 * RtoC (20 / 39) * RtoC (exp (- (1) * (z - total_depth [ln 2]))))%C).
Proof.
  apply (C55_electrostatic_proof (RtoC 1) [RtoC 5] (RtoC 2) [ln 2] None 1 (RtoC (47 / 78)) (RtoC (20 / 39))).
  - reflexivity.
  - apply Forall_cons; [|apply Forall_nil]. rewrite <- ln_1. apply ln_increasing; lra.
  - lra.
  - apply Forall_cons; [|apply Forall_nil]. pose proof MAX_16. pose proof ln2_le. lra.
  - repeat (apply Forall_cons; [cne|]). apply Forall_nil.
  - split; [apply film_47_78|apply film_trans].
Qed.

(** an evanescent wave (kappa = 4) on an absorber: r = (-1 + 2i)/5, t = (4 + 2i)/5,
    absorbed 4/5 *)
Definition absorber : C := (25 / 9, 32 / 9).
Lemma absorber_coefs :
  refl_coef (stack [RtoC 1; absorber] [] None) (Some 5) None (Some 3) "s" = Ok (Some (- 1 / 5, 2 / 5)) /\
  trans_coef (stack [RtoC 1; absorber] [] None) (Some 5) None (Some 3) "s" = Ok (Some (4 / 5, 2 / 5)).
Proof.
  assert (K0 : kz 3 5 (RtoC 1) = (0, 4)).
  { symmetry. apply is_kz_principal; [|right; simpl; lra]. unfold is_kz. apply injective_projections; simpl; field. }
  assert (K1 : kz 3 5 absorber = (4, 4)).
  { symmetry. apply is_kz_principal; [|left; simpl; lra]. unfold is_kz, absorber. apply injective_projections; simpl; field. }
  change (stack [RtoC 1; absorber] [] None) with (qs_sample (RtoC 1) [] absorber None).
  change "s"%string with (pol_str false).
  assert (OK : okstack (okff false 3 5) (RtoC 1) [] absorber).
  { simpl. split; try discriminate. rewrite K0. intros H. apply (f_equal snd) in H. simpl in H. lra. }
  rewrite (refl_coef_struct _ _ _ _ _ _ _ _ 3 5), (trans_coef_struct _ _ _ _ _ _ _ _ 3 5) by (reflexivity || exact OK).
  unfold Mff. cbn [stackM]. unfold Tff, ffactor. rewrite K0, K1. unfold pT, rc. cbn [c00 c01 c10 c11].
  split.
  - rewrite cdiv_ok.
    + do 2 f_equal. apply injective_projections; simpl; field.
    + intros H. apply (f_equal fst) in H. simpl in H. field_simplify in H. lra.
  - rewrite cdiv_ok.
    + do 2 f_equal. apply injective_projections; simpl; field.
    + intros H. apply (f_equal fst) in H. simpl in H. field_simplify in H. lra.
Qed.
Lemma C57_example_proof : Re (4, 4) / 4 * Cmod (4 / 5, 2 / 5) ^ 2 = 2 * Im (- 1 / 5, 2 / 5).
Proof.
  apply (C57_evanescent_absorption_proof false 1 [] absorber [] None 3 5 4 (4, 4) (- 1 / 5, 2 / 5) (4 / 5, 2 / 5)).
  - reflexivity.
  - apply Forall_nil.
  - lra.
  - lra.
  - lra.
  - lra.
  - apply Forall_nil.
  - intros X. discriminate X.
  - unfold is_kz, absorber. apply injective_projections; simpl; field.
  - left; simpl; lra.
  - apply Forall_nil.
  - apply absorber_coefs.
  - apply absorber_coefs.
  - apply Forall_nil.
Qed.
