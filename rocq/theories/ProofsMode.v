(** * Proofs: the coefficients are undefined exactly at the modes of the stack;
    passive stacks have none of the radiating kind, lossy ones none at all *)
From Coq Require Import String Reals Lra Lia ZArith List Bool.
From Coquelicot Require Import Coquelicot.
From Coq Require Import List.
From Verif Require Import Num NumLemmas LimLemmas ModelBase ModelSample ModelTip StackLemmas Spec
  ProofsStackQS ProofsStackQS2 ProofsStackFF ProofsStackFF2 SpecWave WaveLemmas WaveLemmas2 ProofsWave ProofsWave2
  ProofsBulkFF SpecFresnel ProofsFresnel SpecMode ModeLemmas.
Import ListNotations.
Open Scope R_scope.

Lemma mode_ext (l1 l2 : C -> (R -> C) -> (R -> C) -> R -> Prop) es ts k0 kn F G :
  (forall e z, In e es -> l1 e F G z <-> l2 e F G z) -> mode l1 es ts k0 kn F G <-> mode l2 es ts k0 kn F G.
Proof.
  intros H. unfold mode, field_in. split; intros ((H1 & H2 & H3) & H4); (split; [|exact H4]);
    (split; [exact H1|split; [exact H2|]]); intros z e Hm; apply (H e z (material_In _ _ _ _ Hm)); auto.
Qed.
Lemma cdiv_None (a b : C) : (Some a / Some b)%cv = None <-> b = RtoC 0.
Proof.
  split; [|intros ->; unfold cdiv; destruct (Ceq_dec 0 0); [reflexivity|congruence]].
  intros H. destruct (Ceq_dec b 0) as [E|E]; [exact E|]. rewrite cdiv_ok in H by exact E. discriminate.
Qed.

(** the setting of the far-field theorems *)
Lemma ff_setting (p : bool) (e0 : C) mid en ts nu0 nu q :
  length mid = length ts -> Forall (fun t => 0 < t) ts ->
  Forall (fun e => (e * RtoC (nu ^ 2) - RtoC (q ^ 2) <> 0)%C) (e0 :: mid) ->
  (p = true -> Forall (fun e => e <> RtoC 0) (e0 :: mid ++ [en])) ->
  exists inner, mid = map fst inner /\ ts = map snd inner /\
    good (Wff p) (kz nu q) e0 /\ Forall (fun et : C * R => good (Wff p) (kz nu q) (fst et)) inner /\
    Wff p en <> RtoC 0 /\ Forall (fun et : C * R => 0 < snd et) inner /\
    refl_coef (stack (e0 :: mid ++ [en]) ts nu0) (Some q) None (Some nu) (pol p)
    = Ok (Some (c10 (Mw (Wff p) (kz nu q) e0 inner en)) / Some (c00 (Mw (Wff p) (kz nu q) e0 inner en)))%cv /\
    trans_coef (stack (e0 :: mid ++ [en]) ts nu0) (Some q) None (Some nu) (pol p)
    = Ok (rc 1 / Some (c00 (Mw (Wff p) (kz nu q) e0 inner en)))%cv /\
    forall F G, mode (maxwell p nu q) (eps_of e0 inner en) (map snd inner) (kz nu q e0) (kz nu q en) F G
      <-> mode (law (Wff p) (kz nu q)) (eps_of e0 inner en) (map snd inner) (kz nu q e0) (kz nu q en) F G.
Proof.
  intros Hl Ht Hk Hn.
  destruct (stack_decomp (e0 :: mid ++ [en]) ts) as (a & inner & b & E & ->).
  { simpl. rewrite app_length. simpl. lia. }
  rewrite E in *.
  assert (E' := E). unfold eps_of in E'. injection E' as -> E'. apply app_inj_tail in E'. destruct E' as [-> ->].
  exists inner. split; [reflexivity|]. split; [reflexivity|].
  assert (Hall : p = true -> forall e, In e (eps_of a inner b) -> e <> RtoC 0).
  { intros X. specialize (Hn X). rewrite Forall_forall in Hn. exact Hn. }
  assert (Ha : fgood p nu q a).
  { split; [apply kz_neq_0; now inversion Hk|]. intros X. apply Hall; [exact X|left; reflexivity]. }
  assert (Hin : Forall (fun et => fgood p nu q (fst et)) inner).
  { apply Forall_forall. intros et Het. split.
    - apply kz_neq_0. rewrite Forall_forall in Hk. apply Hk. right. apply in_map. exact Het.
    - intros X. apply Hall; [exact X|]. right. apply in_or_app. left. apply in_map. exact Het. }
  assert (Hb : p = true -> b <> RtoC 0).
  { intros X. apply Hall; [exact X|]. right. apply in_or_app. right. left. reflexivity. }
  assert (HW : forall e, (p = true -> e <> RtoC 0) -> Wff p e <> RtoC 0).
  { intros e He. unfold Wff. destruct p; [apply Cinv_neq_0; auto|apply RtoC_neq_0; lra]. }
  split; [split; [apply HW|]; apply Ha|].
  split; [eapply Forall_impl; [|exact Hin]; intros et [X Y]; split; auto|].
  split; [now apply HW|].
  split; [apply Forall_forall; intros et Het; rewrite Forall_forall in Ht; apply Ht; apply in_map; exact Het|].
  rewrite stack_struct, pol_pol_str.
  rewrite (refl_coef_struct _ _ _ _ _ _ _ _ nu q), (trans_coef_struct _ _ _ _ _ _ _ _ nu q);
    try reflexivity; try (apply okstack_fgood; assumption).
  rewrite <- (Mw_Mff p nu q inner a b Ha Hin Hb). split; [reflexivity|]. split; [reflexivity|].
  intros F G. apply mode_ext. intros e z He. symmetry. apply (maxwell_law p nu q e F G z (fun X => Hall X e He)).
Qed.

(** C72. refl_coef and trans_coef are undefined (nan) exactly where the stack has a
    mode of its own: a field that solves Maxwell's equations without any incident
    wave. *)
Lemma C72_poles_are_modes_proof :
  forall (p : bool) (e0 : C) (mid : list C) (en : C) (ts : list R) nu0 (nu q : R) (k0 kn : C),
  length mid = length ts -> Forall (fun t => 0 < t) ts ->
  Forall (fun e => (e * RtoC (nu ^ 2) - RtoC (q ^ 2) <> 0)%C) (e0 :: mid) ->
  (p = true -> Forall (fun e => e <> RtoC 0) (e0 :: mid ++ [en])) ->
  is_kz nu q e0 k0 -> principal k0 -> is_kz nu q en kn -> principal kn ->
  let has_mode := exists F G, mode (if p then maxwell_p nu q else maxwell_s nu q) (e0 :: mid ++ [en]) ts k0 kn F G in
  (refl_coef (stack (e0 :: mid ++ [en]) ts nu0) (Some q) None (Some nu) (pol p) = Ok None <-> has_mode) /\
  (trans_coef (stack (e0 :: mid ++ [en]) ts nu0) (Some q) None (Some nu) (pol p) = Ok None <-> has_mode).
Proof.
  intros p e0 mid en ts nu0 nu q k0 kn Hl Ht Hk Hn K0 P0 Kn Pn has_mode.
  apply is_kz_principal in K0; [|exact P0]. apply is_kz_principal in Kn; [|exact Pn]. subst k0 kn.
  destruct (ff_setting p e0 mid en ts nu0 nu q Hl Ht Hk Hn) as (inner & -> & -> & Hg & Hin & Hen & Ht' & -> & -> & EX).
  assert (HM : has_mode <-> c00 (Mw (Wff p) (kz nu q) e0 inner en) = RtoC 0).
  { rewrite <- (mode_iff (Wff p) (kz nu q) e0 inner en Hg Hin Hen Ht'). unfold has_mode, eps_of in *.
    split; intros (F & G & H); exists F, G; [apply EX|apply EX in H]; destruct p; exact H. }
  rewrite HM. split.
  - rewrite <- (cdiv_None (c10 (Mw (Wff p) (kz nu q) e0 inner en))). split; [intros H; congruence|intros ->; reflexivity].
  - rewrite <- (cdiv_None (RtoC 1)). unfold rc. split; [intros H; congruence|intros ->; reflexivity].
Qed.

(** C72. The same for the quasistatic coefficients and the electrostatic modes. *)
Lemma C72_qs_poles_are_modes_proof :
  forall (e0 : C) (mid : list C) (en : C) (ts : list R) nu (q : R),
  length mid = length ts -> Forall (fun t => 0 < t) ts -> 0 < q ->
  Forall (fun t => q * t <= MAX_EXP_ARG) ts ->
  Forall (fun e => e <> RtoC 0) (e0 :: mid ++ [en]) ->
  let has_mode := exists V D, mode (electrostatic q) (e0 :: mid ++ [en]) ts (0, q) (0, q) V D in
  (refl_coef_qs (stack (e0 :: mid ++ [en]) ts nu) (rr q) = Ok None <-> has_mode) /\
  (trans_coef_qs (stack (e0 :: mid ++ [en]) ts nu) (rr q) = Ok None <-> has_mode).
Proof.
  intros e0 mid en ts nu q Hl Ht Hq Hclip Hn has_mode.
  destruct (stack_decomp (e0 :: mid ++ [en]) ts) as (a & inner & b & E & ->).
  { simpl. rewrite app_length. simpl. lia. }
  unfold has_mode. rewrite E in *. clear has_mode.
  assert (E' := E). unfold eps_of in E'. injection E' as -> E'. apply app_inj_tail in E'. destruct E' as [-> ->].
  rewrite Forall_forall in Hn.
  assert (Ha : a <> RtoC 0) by (apply Hn; left; reflexivity).
  assert (Hb : b <> RtoC 0) by (apply Hn; right; apply in_or_app; right; left; reflexivity).
  assert (Hin : Forall (fun et : C * R => fst et <> RtoC 0) inner).
  { apply Forall_forall. intros et Het. apply Hn. right. apply in_or_app. left. apply in_map. exact Het. }
  assert (Ht' : Forall (fun et : C * R => 0 < snd et) inner).
  { apply Forall_forall. intros et Het. rewrite Forall_forall in Ht. apply Ht. apply in_map. exact Het. }
  assert (Hc : Forall (fun et : C * R => Rabs (q * snd et) <= MAX_EXP_ARG) inner).
  { apply Forall_forall. intros et Het. rewrite Forall_forall in Hclip, Ht'. 
    rewrite Rabs_pos_eq; [apply Hclip; apply in_map; exact Het|].
    apply Rmult_le_pos; [lra|]. apply Rlt_le, Ht', Het. }
  set (W := fun e : C => e). set (K := fun _ : C => (Ci * RtoC q)%C).
  assert (HK : forall e, K e <> RtoC 0).
  { intros e. apply Cmult_neq_0; [exact Ci_neq_0|]. apply RtoC_neq_0. lra. }
  assert (Hga : good W K a) by (split; auto).
  assert (Hgi : Forall (fun et : C * R => good W K (fst et)) inner).
  { eapply Forall_impl; [|exact Hin]. intros et X. split; auto. }
  rewrite stack_struct.
  assert (Hnz : Forall (fun e => e <> RtoC 0) (map fst inner ++ [b])).
  { apply Forall_forall. intros e He. apply Hn. right. exact He. }
  rewrite refl_coef_qs_struct, trans_coef_qs_struct by exact Hnz.
  pose proof (Mw_Mqs q inner (Rgt_not_eq _ _ Hq) Hc a b Ha Hin Hb) as EM. fold W K in EM.
  set (M := Mqs q a inner b) in *.
  assert (KQ : forall e, K e = (0, q)) by (intros e; unfold K, Ci, RtoC; apply injective_projections; simpl; ring).
  assert (HM : (exists V D, mode (electrostatic q) (eps_of a inner b) (map snd inner) (0, q) (0, q) V D) <-> c00 M = RtoC 0).
  { transitivity (c00 (Mw W K a inner b) = RtoC 0).
    - rewrite <- (mode_iff W K a inner b Hga Hgi Hb Ht'). rewrite !KQ.
      assert (EX : forall F G, mode (electrostatic q) (eps_of a inner b) (map snd inner) (0, q) (0, q) F G
        <-> mode (law W K) (eps_of a inner b) (map snd inner) (0, q) (0, q) F G).
      { intros F G. apply mode_ext. intros e z He. unfold law, wlaw, electrostatic, W, K.
        rewrite (field_derive_eq G z (- (e * (Ci * RtoC q * (Ci * RtoC q))) * F z)%C (e * RtoC (q ^ 2) * F z)%C); [tauto|].
        replace (Ci * RtoC q * (Ci * RtoC q))%C with ((Ci * Ci) * (RtoC q * RtoC q))%C by ring.
        rewrite Ci_sqr, <- RtoC_mult. replace (q ^ 2) with (q * q) by ring. ring. }
      split; intros (F & G & H); exists F, G; apply EX; exact H.
    - rewrite EM. cbn [scale neg_off c00]. split; intros Z.
      + destruct (Ceq_dec (c00 M) 0) as [Q|Q]; [exact Q|]. exfalso. apply (Cmult_neq_0 (b / a)%C (c00 M)); auto. now apply Cdiv_neq_0.
      + rewrite Z. ring. }
  rewrite HM. split.
  - rewrite <- (cdiv_None (c10 M)). split; [intros H; congruence|intros ->; reflexivity].
  - rewrite <- (cdiv_None (RtoC 1)). unfold rc. split; [intros H; congruence|intros ->; reflexivity].
Qed.

(** ** Loss *)
Lemma dark_slab (p : bool) nu q e F G a b : (p = true -> e <> RtoC 0) -> nu <> 0 -> (e * RtoC (nu ^ 2) - RtoC (q ^ 2) <> 0)%C -> a < b ->
  (forall z, a < z < b -> maxwell p nu q e F G z) -> (forall z, fcont F z) -> (forall z, fcont G z) ->
  0 < Im e -> flux F G b = flux F G a -> exists z, a < z < b /\ F z = RtoC 0 /\ G z = RtoC 0.
Proof.
  intros He Hnu Hk Hab HL HF HG Hi Hf.
  assert (Hc : forall z, a < z < b -> flux F G z = flux F G a).
  { intros z Hz. destruct (flux_slab p nu q e F G a z) as [S1 _]; auto; try lra. { intros x Hx. apply HL. lra. }
    destruct (flux_slab p nu q e F G z b) as [S2 _]; auto; try lra. intros x Hx. apply HL. lra. }
  assert (HA : forall z, a < z < b -> absorb p nu q e (F z) (G z) = 0).
  { intros z Hz. pose proof (flux_maxwell p nu q e F G z He (HL z Hz)) as D.
    assert (D0 : is_derive (flux F G) z 0).
    { apply (is_derive_ext_loc (fun _ => flux F G a)); [|apply (is_derive_const (V := R_NormedModule))].
      assert (P : 0 < Rmin (z - a) (b - z)) by (apply Rmin_glb_lt; lra).
      exists (mkposreal _ P). intros y Hy. unfold ball in Hy. simpl in Hy. unfold AbsRing_ball, abs, minus, plus, opp in Hy. simpl in Hy.
      apply Rabs_def2 in Hy. pose proof (Rmin_l (z - a) (b - z)). pose proof (Rmin_r (z - a) (b - z)). symmetry. apply Hc. lra. }
    apply is_derive_unique in D. apply is_derive_unique in D0. lra. }
  assert (Z0 : forall w : C, Cmod w ^ 2 = 0 -> w = RtoC 0).
  { intros w Hw. apply Cmod_eq_0. destruct (Req_dec (Cmod w) 0) as [E|E]; [exact E|]. exfalso. apply (pow_nonzero _ 2) in E. contradiction. }
  set (z := (a + b) / 2). assert (Hz : a < z < b) by (unfold z; lra). exists z. split; [exact Hz|].
  assert (LOC : forall f : R -> C, (forall x, a < x < b -> f x = RtoC 0) -> field_derive f z 0).
  { intros f Hf0. apply (fd_ext_loc (fun _ => RtoC 0)); [|apply fd_const].
    assert (P : 0 < Rmin (z - a) (b - z)) by (apply Rmin_glb_lt; lra).
    exists (mkposreal _ P). intros y Hy. unfold ball in Hy. simpl in Hy. unfold AbsRing_ball, abs, minus, plus, opp in Hy. simpl in Hy.
    apply Rabs_def2 in Hy. pose proof (Rmin_l (z - a) (b - z)). pose proof (Rmin_r (z - a) (b - z)). symmetry. apply Hf0. lra. }
  destruct p; cbn [maxwell] in HL.
  - specialize (He eq_refl). assert (HG0 : forall x, a < x < b -> G x = RtoC 0).
    { intros x Hx. specialize (HA x Hx). unfold absorb in HA. apply Z0.
      assert (A1 : 0 <= Cmod (G x) ^ 2) by apply pow2_ge_0.
      assert (A2 : 0 <= q ^ 2 / Cmod e ^ 2 * Cmod (F x) ^ 2).
      { apply Rmult_le_pos; [|apply pow2_ge_0]. apply Rmult_le_pos; [apply pow2_ge_0|]. apply Rlt_le, Rinv_0_lt_compat. apply pow_lt. now apply Cmod_gt_0. }
      apply Rmult_integral in HA. destruct HA; lra. }
    split; [|now apply HG0]. destruct (HL z Hz) as [_ L2]. pose proof (fd_unique _ _ _ _ L2 (LOC G HG0)) as E.
    assert (E' : ((RtoC (q ^ 2) - e * RtoC (nu ^ 2)) * F z = 0)%C).
    { replace ((RtoC (q ^ 2) - e * RtoC (nu ^ 2)) * F z)%C with (e * ((RtoC (q ^ 2) / e - RtoC (nu ^ 2)) * F z))%C by (field; exact He). rewrite E. ring. }
    destruct (Ceq_dec (F z) 0) as [Q|Q]; [exact Q|]. exfalso.
    apply (Cmult_neq_0 (e * RtoC (nu ^ 2) - RtoC (q ^ 2))%C (F z) Hk Q).
    replace ((e * RtoC (nu ^ 2) - RtoC (q ^ 2)) * F z)%C with (- ((RtoC (q ^ 2) - e * RtoC (nu ^ 2)) * F z))%C by ring. rewrite E'. ring.
  - assert (HF0 : forall x, a < x < b -> F x = RtoC 0).
    { intros x Hx. specialize (HA x Hx). unfold absorb in HA. apply Z0. assert (0 < nu ^ 2) by now apply pow2_gt_0.
      apply Rmult_integral in HA. destruct HA as [HA|HA]; [|exact HA]. apply Rmult_integral in HA. lra. }
    split; [now apply HF0|]. destruct (HL z Hz) as [L1 _]. exact (fd_unique _ _ _ _ L1 (LOC F HF0)).
Qed.
Lemma dark_stack (p : bool) nu q F G en : nu <> 0 -> (forall z, fcont F z) -> (forall z, fcont G z) ->
  forall inner top, Forall (fun et : C * R => p = true -> fst et <> RtoC 0) inner ->
  Forall (fun et : C * R => good (Wff p) (kz nu q) (fst et)) inner ->
  Forall (fun et : C * R => (fst et * RtoC (nu ^ 2) - RtoC (q ^ 2) <> 0)%C) inner ->
  Forall (fun et : C * R => 0 < snd et) inner -> Forall (fun et : C * R => 0 <= Im (fst et)) inner ->
  (p = true -> en <> RtoC 0) ->
  (forall z e, below (map fst inner ++ [en]) (map snd inner) top z e -> maxwell p nu q e F G z) ->
  let D := top + total_depth (map snd inner) in
  Exists (fun et : C * R => 0 < Im (fst et)) inner -> flux F G D = flux F G top -> F D = RtoC 0.
Proof.
  intros Hnu HF HG. induction inner as [|[e t] rest IH]; intros top Hn Hgd Hkk Ht Hi Hen HL D HE Hf; [inversion HE|].
  inversion Hn as [|? ? Hn1 Hn2]; subst. inversion Ht as [|? ? Ht1 Ht2]; subst. inversion Hgd as [|? ? [Gw Gk] Hgd2]; subst.
  inversion Hi as [|? ? Hi1 Hi2]; subst. inversion Hkk as [|? ? Hk1 Hk2]; subst. cbn [fst snd] in *.
  assert (HD : D = (top + t) + total_depth (map snd rest)) by (unfold D, total_depth; cbn [map fold_right snd]; ring).
  assert (HLr : forall z e', below (map fst rest ++ [en]) (map snd rest) (top + t) z e' -> maxwell p nu q e' F G z).
  { intros z e' Hb. apply HL. apply below_cons. right. exact Hb. }
  assert (HLe : forall z, top < z < top + t -> maxwell p nu q e F G z).
  { intros z Hz. apply HL. apply below_cons. left. auto. }
  destruct (flux_stack p nu q F G en HF HG rest (top + t) Hn2 Ht2 Hi2 HLr) as [I1 _]. cbv zeta in I1.
  destruct (flux_slab p nu q e F G top (top + t)) as [S1 _]; auto; try lra.
  rewrite HD in *. 
  assert (Q1 : flux F G (top + t) = flux F G top) by lra.
  inversion HE as [? ? He|? ? He]; subst; cbn [fst] in *.
  - destruct (dark_slab p nu q e F G top (top + t)) as (z & Hz & F0 & G0); auto; try lra.
    destruct (slab_zero_down (Wff p e) (kz nu q e) F G z (top + t)) as [E1 E2]; auto; try lra.
    { intros x Hx. apply (maxwell_law p nu q e F G x Hn1). apply HLe. lra. }
    destruct (zero_down (Wff p) (kz nu q) F G HF HG rest en (top + t) Hgd2 Ht2) as [R _]; auto.
    intros x e' Hb. apply (maxwell_law p nu q e' F G x); [|now apply HLr].
    intros X. pose proof (below_In _ _ _ _ _ Hb) as Hin. apply in_app_or in Hin. destruct Hin as [Hin|[<-|[]]]; [|now apply Hen].
    apply in_map_iff in Hin. destruct Hin as (et & <- & Hin). rewrite Forall_forall in Hn2. now apply Hn2.
  - apply (IH (top + t)); auto. lra.
Qed.

Lemma substrate_flux_pos (p : bool) nu q en kn : is_kz nu q en kn -> principal kn -> 0 < Im en -> nu <> 0 ->
  0 < (if p then Re (kn / en)%C else Re kn).
Proof.
  intros Hk Hp Hi Hnu.
  assert (Hnu2 : 0 < nu ^ 2) by (apply pow2_gt_0; exact Hnu).
  destruct kn as [x y], en as [c d]. unfold is_kz in Hk.
  assert (E1 : x * x - y * y = c * nu ^ 2 - q ^ 2) by (apply (f_equal fst) in Hk; simpl in Hk; simpl; lra).
  assert (E2 : 2 * x * y = d * nu ^ 2) by (apply (f_equal snd) in Hk; simpl in Hk; simpl; lra).
  unfold principal, Re, Im in *. cbn [fst snd] in *.
  assert (X0 : 0 < d * nu ^ 2) by now apply Rmult_lt_0_compat.
  assert (Hx : 0 < x) by (destruct Hp as [?|[Z ?]]; [lra|subst x; nra]).
  destruct p; [|exact Hx].
  unfold Cdiv, Cinv, Cmult. cbn [fst snd].
  replace (x * (c / (c ^ 2 + d ^ 2)) - y * (- d / (c ^ 2 + d ^ 2))) with ((x * c + y * d) / (c ^ 2 + d ^ 2))
    by (unfold Rdiv; ring).
  assert (H2 : 0 < c ^ 2 + d ^ 2) by nra.
  apply Rdiv_lt_0_compat; [|exact H2].
  assert (X : 0 < (x * c + y * d) * nu ^ 2).
  { replace ((x * c + y * d) * nu ^ 2) with (x * (c * nu ^ 2) + y * (d * nu ^ 2)) by ring.
    rewrite <- E2. replace (c * nu ^ 2) with (x * x - y * y + q ^ 2) by lra.
    replace (x * (x * x - y * y + q ^ 2) + y * (2 * x * y)) with (x * (x * x + y * y + q * q)) by ring.
    apply Rmult_lt_0_compat; [exact Hx|]. pose proof (Rle_0_sqr y). pose proof (Rle_0_sqr q). unfold Rsqr in *. nra. }
  destruct (Rle_lt_dec (x * c + y * d) 0) as [Y|Y]; [|exact Y]. exfalso.
  assert ((x * c + y * d) * nu ^ 2 <= 0 * nu ^ 2) by (apply Rmult_le_compat_r; lra). lra.
Qed.

(** flux of a mode at both ends *)
Lemma mode_flux (p : bool) (e0 : C) mid en ts nu q F G :
  length mid = length ts -> Forall (fun t => 0 < t) ts ->
  Forall (fun e => (e * RtoC (nu ^ 2) - RtoC (q ^ 2) <> 0)%C) (e0 :: mid) ->
  (p = true -> Forall (fun e => e <> RtoC 0) (e0 :: mid ++ [en])) ->
  Forall (fun e => 0 <= Im e) mid -> nu <> 0 ->
  mode (maxwell p nu q) (e0 :: mid ++ [en]) ts (kz nu q e0) (kz nu q en) F G ->
  exists r t : C, r <> RtoC 0 /\ t <> RtoC 0 /\
   let top := - (Re (kz nu q e0 * (if p then / e0 else 1))%C * Cmod r ^ 2) in
   let bottom := (if p then Re (kz nu q en / en)%C else Re (kz nu q en)) * Cmod t ^ 2 in
   bottom <= top /\ (Exists (fun e => 0 < Im e) mid -> bottom < top).
Proof.
  intros Hl Ht Hk Hn Hi Hnu HM.
  destruct (ff_setting p e0 mid en ts None nu q Hl Ht Hk Hn) as (inner & -> & -> & Hg & Hin & Hen & Ht' & _ & _ & EX).
  assert (HM' := HM). apply EX in HM'.
  destruct (mode_ends (Wff p) (kz nu q) e0 inner en F G Hg Hin Hen Ht' HM') as (r & t & Nt & Nr & F0 & G0 & FD & GD & _).
  exists r, t. split; [exact Nr|]. split; [exact Nt|]. intros top bottom.
  destruct HM as ((HF & HG & HL) & _).
  assert (X0 : flux F G 0 = top).
  { unfold flux, top. rewrite F0, G0, Cmod2. unfold Wff. destruct p; [generalize (/ e0)%C; intros w|]; unfold Re, Im; simpl; ring. }
  assert (XD : flux F G (0 + total_depth (map snd inner)) = bottom).
  { rewrite Rplus_0_l. unfold flux, bottom. rewrite FD, GD, Cmod2. unfold Wff.
    destruct p; [|unfold Re, Im; simpl; ring].
    unfold Cdiv. generalize (/ en)%C. intros w. unfold Re, Im; simpl; ring. }
  assert (N1 : Forall (fun et : C * R => p = true -> fst et <> RtoC 0) inner).
  { apply Forall_forall. intros et Het X. specialize (Hn X). rewrite Forall_forall in Hn. apply Hn. right. apply in_or_app. left. apply in_map. exact Het. }
  assert (N2 : Forall (fun et : C * R => 0 <= Im (fst et)) inner).
  { apply Forall_forall. intros et Het. rewrite Forall_forall in Hi. apply Hi. apply in_map. exact Het. }
  assert (N3 : Forall (fun et : C * R => (fst et * RtoC (nu ^ 2) - RtoC (q ^ 2) <> 0)%C) inner).
  { apply Forall_forall. intros et Het. rewrite Forall_forall in Hk. apply Hk. right. apply in_map. exact Het. }
  assert (N4 : p = true -> en <> RtoC 0).
  { intros X. specialize (Hn X). rewrite Forall_forall in Hn. apply Hn. right. apply in_or_app. right. left. reflexivity. }
  assert (HLb : forall z e, below (map fst inner ++ [en]) (map snd inner) 0 z e -> maxwell p nu q e F G z) by (intros z e Hb; apply HL; right; exact Hb).
  destruct (flux_stack p nu q F G en HF HG inner 0 N1 Ht' N2 HLb) as [B1 _]. cbv zeta in B1. rewrite X0, XD in B1.
  split; [exact B1|]. intros HE. destruct B1 as [B1|B1]; [exact B1|]. exfalso. apply Nt. rewrite <- FD, <- (Rplus_0_l (total_depth _)).
  apply (dark_stack p nu q F G en Hnu HF HG inner 0); auto.
  - apply Exists_exists in HE. destruct HE as (e & He & Hie). apply in_map_iff in He. destruct He as (et & <- & He).
    apply Exists_exists. eauto.
  - rewrite X0, XD. exact B1.
Qed.

(** C72. Light coming through a transparent environment: a stack without gain has
    no pole, both coefficients are always finite. *)
Lemma C72_propagating_finite_proof :
  forall (p : bool) (e0 : R) (mid : list C) (en : C) (ts : list R) nu0 (nu q k0 : R),
  length mid = length ts -> Forall (fun t => 0 < t) ts ->
  0 < e0 -> 0 < k0 -> k0 ^ 2 = e0 * nu ^ 2 - q ^ 2 ->
  Forall (fun e => (e * RtoC (nu ^ 2) - RtoC (q ^ 2) <> 0)%C) mid ->
  (p = true -> Forall (fun e => e <> RtoC 0) (mid ++ [en])) ->
  Forall (fun e => 0 <= Im e) (mid ++ [en]) ->
  exists r t : C,
    refl_coef (stack (RtoC e0 :: mid ++ [en]) ts nu0) (Some q) None (Some nu) (pol p) = Ok (Some r) /\
    trans_coef (stack (RtoC e0 :: mid ++ [en]) ts nu0) (Some q) None (Some nu) (pol p) = Ok (Some t).
Proof.
  intros p e0 mid en ts nu0 nu q k0 Hl Ht He0 Hk0 K0 Hk Hn Hi.
  assert (K0c : is_kz nu q (RtoC e0) (RtoC k0)).
  { unfold is_kz. rewrite <- !RtoC_mult, <- RtoC_minus. apply injective_projections; simpl; simpl in K0; lra. }
  assert (P0 : principal (RtoC k0)) by (left; simpl; lra).
  assert (KK := is_kz_principal _ _ _ _ K0c P0).
  assert (Hnu : nu <> 0) by (intros ->; assert (0 < k0 ^ 2) by (apply pow_lt; lra); nra).
  assert (Hk' : Forall (fun e => (e * RtoC (nu ^ 2) - RtoC (q ^ 2) <> 0)%C) (RtoC e0 :: mid)).
  { apply Forall_cons; [|exact Hk]. rewrite <- RtoC_mult, <- RtoC_minus. apply RtoC_neq_0.
    assert (0 < k0 ^ 2) by (apply pow_lt; lra). lra. }
  assert (Hn' : p = true -> Forall (fun e => e <> RtoC 0) (RtoC e0 :: mid ++ [en])).
  { intros X. apply Forall_cons; [apply RtoC_neq_0; lra|auto]. }
  apply Forall_app in Hi. destruct Hi as [Hi Hie]. inversion Hie as [|? ? Hien _]; subst.
  destruct (ff_setting p (RtoC e0) mid en ts nu0 nu q Hl Ht Hk' Hn') as (inner & -> & -> & Hg & Hin & Hen & Ht' & -> & -> & EX).
  destruct (Ceq_dec (c00 (Mw (Wff p) (kz nu q) (RtoC e0) inner en)) 0) as [Z|Z].
  - exfalso. apply (mode_iff (Wff p) (kz nu q) (RtoC e0) inner en Hg Hin Hen Ht') in Z. destruct Z as (F & G & HM). apply EX in HM.
    destruct (mode_flux p (RtoC e0) (map fst inner) en (map snd inner) nu q F G Hl Ht Hk' Hn' Hi Hnu HM) as (r & t & Nr & _ & B & _).
    cbv zeta in B. rewrite <- KK in B.
    assert (T : 0 < Re (RtoC k0 * (if p then / RtoC e0 else 1))%C).
    { destruct p; [rewrite <- RtoC_inv by lra|]; rewrite <- RtoC_mult; simpl; [apply Rmult_lt_0_compat; [lra|now apply Rinv_0_lt_compat]|lra]. }
    pose proof (substrate_flux p nu q en (kz nu q en) (kz_is_kz nu q en) (kz_principal nu q en) Hien Hnu) as S.
    assert (0 < Cmod r ^ 2) by (apply pow_lt; now apply Cmod_gt_0).
    assert (0 < Re (RtoC k0 * (if p then / RtoC e0 else 1))%C * Cmod r ^ 2) by now apply Rmult_lt_0_compat.
    assert (0 <= (if p then Re (kz nu q en / en)%C else Re (kz nu q en)) * Cmod t ^ 2) by (apply Rmult_le_pos; [exact S|apply pow2_ge_0]).
    lra.
  - rewrite cdiv_ok by exact Z. unfold rc. rewrite cdiv_ok by exact Z. eauto.
Qed.

(** C72. Evanescent waves: any absorption anywhere in the stack removes all poles
    on the real momentum axis. *)
Lemma C72_evanescent_finite_proof :
  forall (p : bool) (e0 : R) (mid : list C) (en : C) (ts : list R) nu0 (nu q kappa : R),
  length mid = length ts -> Forall (fun t => 0 < t) ts -> nu <> 0 ->
  e0 <> 0 -> 0 < kappa -> kappa ^ 2 = q ^ 2 - e0 * nu ^ 2 ->
  Forall (fun e => (e * RtoC (nu ^ 2) - RtoC (q ^ 2) <> 0)%C) mid ->
  (p = true -> Forall (fun e => e <> RtoC 0) (mid ++ [en])) ->
  Forall (fun e => 0 <= Im e) (mid ++ [en]) -> Exists (fun e => 0 < Im e) (mid ++ [en]) ->
  exists r t : C,
    refl_coef (stack (RtoC e0 :: mid ++ [en]) ts nu0) (Some q) None (Some nu) (pol p) = Ok (Some r) /\
    trans_coef (stack (RtoC e0 :: mid ++ [en]) ts nu0) (Some q) None (Some nu) (pol p) = Ok (Some t).
Proof.
  intros p e0 mid en ts nu0 nu q k0 Hl Ht Hnu He0 Hk0 K0 Hk Hn Hi HE.
  assert (K0c : is_kz nu q (RtoC e0) (0, k0)).
  { unfold is_kz. rewrite <- RtoC_mult, <- RtoC_minus. apply injective_projections; simpl; simpl in K0; lra. }
  assert (P0 : principal (0, k0)) by (right; simpl; split; [reflexivity|lra]).
  assert (KK := is_kz_principal _ _ _ _ K0c P0).
  assert (Hk' : Forall (fun e => (e * RtoC (nu ^ 2) - RtoC (q ^ 2) <> 0)%C) (RtoC e0 :: mid)).
  { apply Forall_cons; [|exact Hk]. rewrite <- RtoC_mult, <- RtoC_minus. apply RtoC_neq_0.
    assert (0 < k0 ^ 2) by (apply pow_lt; lra). lra. }
  assert (Hn' : p = true -> Forall (fun e => e <> RtoC 0) (RtoC e0 :: mid ++ [en])).
  { intros X. apply Forall_cons; [apply RtoC_neq_0; lra|auto]. }
  apply Forall_app in Hi. destruct Hi as [Hi Hie]. inversion Hie as [|? ? Hien _]; subst.
  destruct (ff_setting p (RtoC e0) mid en ts nu0 nu q Hl Ht Hk' Hn') as (inner & -> & -> & Hg & Hin & Hen & Ht' & -> & -> & EX).
  destruct (Ceq_dec (c00 (Mw (Wff p) (kz nu q) (RtoC e0) inner en)) 0) as [Z|Z].
  - exfalso. apply (mode_iff (Wff p) (kz nu q) (RtoC e0) inner en Hg Hin Hen Ht') in Z. destruct Z as (F & G & HM). apply EX in HM.
    destruct (mode_flux p (RtoC e0) (map fst inner) en (map snd inner) nu q F G Hl Ht Hk' Hn' Hi Hnu HM) as (r & t & Nr & Nt & B & B').
    cbv zeta in B, B'. rewrite <- KK in B, B'.
    assert (T : Re ((0, k0) * (if p then / RtoC e0 else 1))%C = 0).
    { destruct p; [rewrite <- RtoC_inv by lra|]; simpl; ring. }
    rewrite T, Rmult_0_l, Ropp_0 in B, B'.
    apply Exists_app in HE. destruct HE as [HE|HE].
    + specialize (B' HE).
      pose proof (substrate_flux p nu q en (kz nu q en) (kz_is_kz nu q en) (kz_principal nu q en) Hien Hnu) as S.
      assert (0 <= (if p then Re (kz nu q en / en)%C else Re (kz nu q en)) * Cmod t ^ 2) by (apply Rmult_le_pos; [exact S|apply pow2_ge_0]). lra.
    + inversion HE as [? ? HE1|? ? HE1]; subst; [|inversion HE1].
      pose proof (substrate_flux_pos p nu q en (kz nu q en) (kz_is_kz nu q en) (kz_principal nu q en) HE1 Hnu) as S.
      assert (0 < Cmod t ^ 2) by (apply pow_lt; now apply Cmod_gt_0).
      assert (0 < (if p then Re (kz nu q en / en)%C else Re (kz nu q en)) * Cmod t ^ 2) by now apply Rmult_lt_0_compat. lra.
  - rewrite cdiv_ok by exact Z. unfold rc. rewrite cdiv_ok by exact Z. eauto.
Qed.

(** C72. A metal of permittivity -2 carries a surface mode at q = sqrt 2 (nu = 1), and
    the p coefficients are nan there; an absorbing film on it removes the pole. *)
Lemma C72_example_proof :
  (exists F G, mode (maxwell_p 1 (sqrt 2)) [RtoC 1; RtoC (-2)] [] (0, 1) (0, 2) F G) /\
  refl_coef (stack [RtoC 1; RtoC (-2)] [] None) (Some (sqrt 2)) None (Some 1) "p" = Ok None /\
  (exists r t : C,
    refl_coef (stack [RtoC 1; (2, 1); RtoC (-2)] [1 / 2] None) (Some (sqrt 2)) None (Some 1) "p" = Ok (Some r) /\
    trans_coef (stack [RtoC 1; (2, 1); RtoC (-2)] [1 / 2] None) (Some (sqrt 2)) None (Some 1) "p" = Ok (Some t)) /\
  exists r t : C,
    refl_coef (stack [RtoC 1; RtoC 3; RtoC (-2)] [1 / 2] None) (Some (1 / 2)) None (Some 1) "p" = Ok (Some r) /\
    trans_coef (stack [RtoC 1; RtoC 3; RtoC (-2)] [1 / 2] None) (Some (1 / 2)) None (Some 1) "p" = Ok (Some t).
Proof.
  assert (S2 : sqrt 2 ^ 2 = 2) by (apply pow2_sqrt; lra).
  assert (NN : refl_coef (stack [RtoC 1; RtoC (-2)] [] None) (Some (sqrt 2)) None (Some 1) "p" = Ok None)
    by (apply (C71_surface_polariton_proof 1 (-2) 1 (sqrt 2) None); lra).
  split; [|split; [exact NN|split]].
  - destruct (C72_poles_are_modes_proof true (RtoC 1) [] (RtoC (-2)) [] None 1 (sqrt 2) (0, 1) (0, 2)) as [M _].
    + reflexivity.
    + apply Forall_nil.
    + apply Forall_cons; [|apply Forall_nil]. rewrite <- RtoC_mult, <- RtoC_minus, S2. apply RtoC_neq_0. lra.
    + intros _. repeat (apply Forall_cons; [apply RtoC_neq_0; lra|]). apply Forall_nil.
    + apply is_kz_I. rewrite S2. lra.
    + right. simpl. lra.
    + apply is_kz_I. rewrite S2. lra.
    + right. simpl. lra.
    + apply M. exact NN.
  - apply (C72_evanescent_finite_proof true 1 [(2, 1)] (RtoC (-2)) [1 / 2] None 1 (sqrt 2) 1).
    + reflexivity.
    + repeat constructor; lra.
    + lra.
    + lra.
    + lra.
    + rewrite S2. lra.
    + apply Forall_cons; [|apply Forall_nil]. rewrite S2. intros E. apply (f_equal snd) in E. simpl in E. lra.
    + intros _. apply Forall_cons; [intros E; apply (f_equal snd) in E; simpl in E; lra|]. apply Forall_cons; [apply RtoC_neq_0; lra|apply Forall_nil].
    + repeat (apply Forall_cons; [simpl; lra|]). apply Forall_nil.
    + apply Exists_cons_hd. simpl. lra.
  - apply (C72_propagating_finite_proof true 1 [RtoC 3] (RtoC (-2)) [1 / 2] None 1 (1 / 2) (sqrt (3 / 4))).
    + reflexivity.
    + repeat constructor; lra.
    + lra.
    + apply sqrt_lt_R0. lra.
    + rewrite pow2_sqrt; lra.
    + apply Forall_cons; [|apply Forall_nil]. rewrite <- RtoC_mult, <- RtoC_minus. apply RtoC_neq_0. lra.
    + intros _. repeat (apply Forall_cons; [apply RtoC_neq_0; lra|]). apply Forall_nil.
    + repeat (apply Forall_cons; [simpl; lra|]). apply Forall_nil.
Qed.
