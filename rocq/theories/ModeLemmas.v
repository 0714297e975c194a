(** * Fields without an incident wave *)
From Coq Require Import Reals Lra Lia List.
From Coquelicot Require Import Coquelicot.
From Coq Require Import List.
From Verif Require Import Num NumLemmas StackLemmas SpecWave WaveLemmas WaveLemmas2 SpecMode.
Import ListNotations.
Open Scope R_scope.

Lemma amp_F w k F G : w <> RtoC 0 -> k <> RtoC 0 -> F = (dn w k F G + bk w k F G)%C.
Proof. intros. unfold dn, bk. field. repeat split; auto using C2_neq_0, Ci_neq_0. Qed.
Lemma amp_G w k F G : w <> RtoC 0 -> k <> RtoC 0 -> G = (Ci * k * w * (dn w k F G - bk w k F G))%C.
Proof. intros. unfold dn, bk. field. repeat split; auto using C2_neq_0, Ci_neq_0. Qed.
Lemma dn_0 w k : w <> RtoC 0 -> k <> RtoC 0 -> dn w k 0 0 = RtoC 0.
Proof. intros. unfold dn. field. repeat split; auto using C2_neq_0, Ci_neq_0. Qed.
Lemma bk_0 w k : w <> RtoC 0 -> k <> RtoC 0 -> bk w k 0 0 = RtoC 0.
Proof. intros. unfold bk. field. repeat split; auto using C2_neq_0, Ci_neq_0. Qed.
Lemma ex_neq_0 k s : ex k s <> RtoC 0.
Proof. intros E. pose proof (ex_inv k s) as H. rewrite E, Cmult_0_l in H. apply (f_equal fst) in H. simpl in H. lra. Qed.

(** zero at one end of a slab, zero at the other *)
Lemma slab_zero_up w k F G a b : w <> RtoC 0 -> k <> RtoC 0 -> a < b ->
  (forall z, a < z < b -> wlaw w k F G z) -> (forall z, fcont F z) -> (forall z, fcont G z) ->
  F b = RtoC 0 -> G b = RtoC 0 -> F a = RtoC 0 /\ G a = RtoC 0.
Proof.
  intros Hw Hk Hab HL HF HG E1 E2. destruct (slab w k F G a b Hw Hk Hab HL HF HG) as [S1 S2].
  rewrite E1, E2 in S1, S2. rewrite dn_0, Cmult_0_r in S1 by assumption. rewrite bk_0, Cmult_0_r in S2 by assumption.
  split; [rewrite (amp_F w k (F a) (G a)) by assumption|rewrite (amp_G w k (F a) (G a)) by assumption]; rewrite S1, S2; ring.
Qed.
Lemma slab_zero_down w k F G a b : w <> RtoC 0 -> k <> RtoC 0 -> a < b ->
  (forall z, a < z < b -> wlaw w k F G z) -> (forall z, fcont F z) -> (forall z, fcont G z) ->
  F a = RtoC 0 -> G a = RtoC 0 -> F b = RtoC 0 /\ G b = RtoC 0.
Proof.
  intros Hw Hk Hab HL HF HG E1 E2. destruct (slab w k F G a b Hw Hk Hab HL HF HG) as [S1 S2].
  rewrite E1, E2 in S1, S2. rewrite dn_0 in S1 by assumption. rewrite bk_0 in S2 by assumption.
  assert (D0 : dn w k (F b) (G b) = RtoC 0).
  { replace (dn w k (F b) (G b)) with (ex k (- (b - a)) * dn w k (F b) (G b) / ex k (- (b - a)))%C by (field; apply ex_neq_0). rewrite <- S1. field. apply ex_neq_0. }
  assert (B0 : bk w k (F b) (G b) = RtoC 0).
  { replace (bk w k (F b) (G b)) with (ex k (b - a) * bk w k (F b) (G b) / ex k (b - a))%C by (field; apply ex_neq_0). rewrite <- S2. field. apply ex_neq_0. }
  split; [rewrite (amp_F w k (F b) (G b)) by assumption|rewrite (amp_G w k (F b) (G b)) by assumption]; rewrite D0, B0; ring.
Qed.

Section Medium.
Context (W K : C -> C).
Notation law := (law W K). Notation good := (good W K).

Lemma depth_nonneg (inner : list (C * R)) : Forall (fun et : C * R => 0 < snd et) inner -> 0 <= total_depth (map snd inner).
Proof. intros Ht. induction Ht as [|[? ?] l H _ IH']; cbn in *; [lra|]. fold (total_depth (map snd l)) in *. lra. Qed.

Lemma zero_up F G : (forall z, fcont F z) -> (forall z, fcont G z) ->
  forall inner en top, Forall (fun et : C * R => good (fst et)) inner -> Forall (fun et : C * R => 0 < snd et) inner ->
  (forall z e, below (map fst inner ++ [en]) (map snd inner) top z e -> law e F G z) ->
  let D := top + total_depth (map snd inner) in
  F D = RtoC 0 -> G D = RtoC 0 -> forall z, top <= z <= D -> F z = RtoC 0 /\ G z = RtoC 0.
Proof.
  intros HF HG. induction inner as [|[e t] rest IH]; intros en top Hin Ht HL D FD GD z Hz.
  - cbn in D. assert (z = D) by (unfold D in *; lra). subst z. auto.
  - inversion Hin as [|? ? [Hwe Hke] Hin']; subst. inversion Ht as [|? ? Htp Ht']; subst. cbn [fst snd] in *.
    assert (HD : D = (top + t) + total_depth (map snd rest)) by (unfold D, total_depth; cbn [map fold_right snd]; ring).
    assert (I : forall z, top + t <= z <= D -> F z = RtoC 0 /\ G z = RtoC 0).
    { intros z' Hz'. rewrite HD in *. apply (IH en (top + t)); auto. intros x e' Hb. apply HL. apply below_cons. right. exact Hb. }
    destruct (Rle_dec (top + t) z) as [C|C]; [apply I; lra|].
    pose proof (depth_nonneg rest Ht').
    destruct (I (top + t)) as [E1 E2]; [lra|].
    apply (slab_zero_up (W e) (K e) F G z (top + t)); auto; try lra.
    intros x Hx. apply HL. apply below_cons. left. split; [lra|reflexivity].
Qed.
Lemma zero_down F G : (forall z, fcont F z) -> (forall z, fcont G z) ->
  forall inner en top, Forall (fun et : C * R => good (fst et)) inner -> Forall (fun et : C * R => 0 < snd et) inner ->
  (forall z e, below (map fst inner ++ [en]) (map snd inner) top z e -> law e F G z) ->
  F top = RtoC 0 -> G top = RtoC 0 ->
  F (top + total_depth (map snd inner)) = RtoC 0 /\ G (top + total_depth (map snd inner)) = RtoC 0.
Proof.
  intros HF HG. induction inner as [|[e t] rest IH]; intros en top Hin Ht HL F0 G0.
  - cbn. rewrite Rplus_0_r. auto.
  - inversion Hin as [|? ? [Hwe Hke] Hin']; subst. inversion Ht as [|? ? Htp Ht']; subst. cbn [fst snd] in *.
    replace (top + total_depth (map snd ((e, t) :: rest))) with ((top + t) + total_depth (map snd rest)) by (unfold total_depth; cbn [map fold_right snd]; ring).
    destruct (slab_zero_down (W e) (K e) F G top (top + t)) as [E1 E2]; auto; try lra.
    { intros x Hx. apply HL. apply below_cons. left. auto. }
    apply (IH en); auto. intros x e' Hb. apply HL. apply below_cons. right. exact Hb.
Qed.

Lemma bottom_end inner en t F G : W en <> RtoC 0 -> Forall (fun et : C * R => 0 < snd et) inner ->
  (forall z, fcont G z) ->
  (forall z e, below (map fst inner ++ [en]) (map snd inner) 0 z e -> law e F G z) ->
  let D := total_depth (map snd inner) in
  (forall z, D <= z -> F z = (t * Cexp ((0, 1)%R * K en * RtoC (z - D)))%C) ->
  (F D = t /\ G D = Ci * K en * W en * t)%C.
Proof.
  intros Hen Ht HG HLb D Hbot.
  split.
  - rewrite Hbot by lra. replace (D - D) with 0 by ring. change (t * ex (K en) 0 = t)%C. rewrite ex_0. ring.
  - assert (E : G D = (Ci * K en * W en * (t * ex (K en) (D - D)))%C).
    { apply (fc_agree_right G (fun z => Ci * K en * W en * (t * ex (K en) (z - D)))%C).
      - apply HG.
      - refine (fc_derive _ _ _ _). apply fd_scal. apply fd_scal. apply fd_ex.
      - intros z Hz.
        assert (Hm : below (map fst inner ++ [en]) (map snd inner) 0 z en).
        { assert (Hgen : forall top, top + total_depth (map snd inner) < z ->
                   below (map fst inner ++ [en]) (map snd inner) top z en).
          { clear - Ht. induction Ht as [|[e t] l H _ IH]; intros top Hz.
            - cbn in *. split; [lra|reflexivity].
            - apply below_cons. right. apply IH. cbn in Hz. fold (total_depth (map snd l)) in Hz. lra. }
          apply Hgen. fold D. lra. }
        destruct (HLb z en Hm) as [L1 _].
        assert (L1' : field_derive F z (t * (Ci * K en * ex (K en) (z - D)))%C).
        { apply (fd_ext_loc (fun x => t * ex (K en) (x - D))%C).
          - apply (filter_imp (fun x => ~ x <= D)); [|apply locally_gt; exact Hz].
            intros x Hx. symmetry. apply Hbot. lra.
          - apply fd_scal, fd_ex. }
        pose proof (fd_unique _ _ _ _ L1 L1') as E.
        replace (G z) with (G z / W en * W en)%C by (field; exact Hen). rewrite E. ring. }
    rewrite E. replace (D - D) with 0 by ring. rewrite ex_0. ring.
Qed.
Lemma top_end e0 r F G : good e0 -> (forall z, fcont G z) -> (forall z, z < 0 -> law e0 F G z) ->
  (forall z, z <= 0 -> F z = (r * Cexp ((0, -1)%R * K e0 * RtoC z))%C) ->
  (F 0%R = r /\ G 0%R = - (Ci * K e0 * W e0 * r))%C.
Proof.
  intros [Hw0 Hk0] HG HL Htop.
  assert (X : forall z, Cexp ((0, -1)%R * K e0 * RtoC z)%C = ex (K e0) (- z)).
  { intros z. unfold ex. f_equal. rewrite RtoC_opp. apply injective_projections; simpl; ring. }
  split.
  - rewrite Htop by lra. rewrite X, Ropp_0, ex_0. ring.
  - assert (E : G 0 = solG (W e0) (K e0) 0 r 0 0).
    { apply (fc_agree_left G (solG (W e0) (K e0) 0 r 0)).
      - apply HG.
      - exact (fc_derive _ _ _ (proj2 (sol_law (W e0) (K e0) 0 r 0 0 Hw0))).
      - intros z Hz. destruct (HL z Hz) as [L1 _].
        assert (L1' : field_derive F z (solG (W e0) (K e0) 0 r 0 z / W e0)%C).
        { apply (fd_ext_loc (solF (K e0) 0 r 0)); [|apply sol_law; exact Hw0].
          apply (filter_imp (fun x => x <= 0)); [|apply locally_lt; exact Hz].
          intros x Hx. rewrite Htop by lra. rewrite X. unfold solF. rewrite Rminus_0_r. ring. }
        pose proof (fd_unique _ _ _ _ L1 L1') as E.
        replace (G z) with (G z / W e0 * W e0)%C by (field; exact Hw0). rewrite E. field. exact Hw0. }
    rewrite E. unfold solG. replace (0 - 0) with 0 by ring. rewrite Ropp_0, ex_0. ring.
Qed.

(** everything known about a mode *)
Lemma mode_ends e0 inner en F G : good e0 -> Forall (fun et : C * R => good (fst et)) inner ->
  W en <> RtoC 0 -> Forall (fun et : C * R => 0 < snd et) inner ->
  mode law (eps_of e0 inner en) (map snd inner) (K e0) (K en) F G ->
  exists r t : C, t <> RtoC 0 /\ r <> RtoC 0 /\ F 0 = r /\ G 0 = (- (Ci * K e0 * W e0 * r))%C /\
    F (total_depth (map snd inner)) = t /\ G (total_depth (map snd inner)) = (Ci * K en * W en * t)%C /\
    (c00 (Mw W K e0 inner en) * t)%C = RtoC 0 /\ (c10 (Mw W K e0 inner en) * t)%C = r.
Proof.
  intros H0 Hin Hen Ht ((HF & HG & HL) & (r & Htop) & (t & Hbot) & (zz & Hzz)).
  assert (HF' : forall z, fcont F z) by exact HF. assert (HG' : forall z, fcont G z) by exact HG.
  assert (HLb : forall z e, below (map fst inner ++ [en]) (map snd inner) 0 z e -> law e F G z) by (intros z e Hb; apply HL; right; exact Hb).
  assert (HLt : forall z, z < 0 -> law e0 F G z) by (intros z Hz; apply HL; left; auto).
  destruct (top_end e0 r F G H0 HG' HLt Htop) as [F0 G0].
  destruct (bottom_end inner en t F G Hen Ht HG' HLb Hbot) as [FD GD].
  set (D := total_depth (map snd inner)) in *. pose proof (depth_nonneg inner Ht) as HD. fold D in HD.
  assert (Nt : t <> RtoC 0).
  { intros ->. apply Hzz. rewrite Cmult_0_r in GD.
    assert (Z : forall z, 0 <= z <= D -> F z = RtoC 0 /\ G z = RtoC 0).
    { intros z Hz. apply (zero_up F G HF' HG' inner en 0 Hin Ht HLb); rewrite Rplus_0_l; assumption. }
    destruct (Rle_dec zz 0) as [C|C].
    - rewrite (Htop zz C). destruct (Z 0) as [E _]; [lra|]. rewrite F0 in E. rewrite E. ring.
    - destruct (Rle_dec zz D) as [C'|C']; [apply Z; lra|]. rewrite Hbot by lra. ring. }
  destruct (transfer_down W K F G t HF' HG' inner e0 en 0 H0 Hin Hen Ht HLb) as [R1 R2]; [rewrite Rplus_0_l; exact FD|rewrite Rplus_0_l; exact GD|].
  destruct H0 as [Hw0 Hk0].
  assert (Q1 : (c00 (Mw W K e0 inner en) * t)%C = RtoC 0).
  { rewrite <- R1, F0, G0. unfold dn. field. repeat split; auto using C2_neq_0, Ci_neq_0. }
  assert (Q2 : (c10 (Mw W K e0 inner en) * t)%C = r).
  { rewrite <- R2, F0, G0. unfold bk. field. repeat split; auto using C2_neq_0, Ci_neq_0. }
  exists r, t. repeat (split; [assumption|]). split; [|repeat (split; [assumption|]); assumption].
  intros ->. apply Nt. rewrite Cmult_0_r in G0.
  assert (G0' : G 0 = RtoC 0) by (rewrite G0; ring).
  destruct (zero_down F G HF' HG' inner en 0 Hin Ht HLb F0 G0') as [E _]. rewrite Rplus_0_l in E. fold D in E. congruence.
Qed.

Lemma mode_iff e0 inner en : good e0 -> Forall (fun et : C * R => good (fst et)) inner ->
  W en <> RtoC 0 -> Forall (fun et : C * R => 0 < snd et) inner ->
  (exists F G, mode law (eps_of e0 inner en) (map snd inner) (K e0) (K en) F G) <-> c00 (Mw W K e0 inner en) = RtoC 0.
Proof.
  intros H0 Hin Hen Ht. split.
  - intros (F & G & HM). destruct (mode_ends e0 inner en F G H0 Hin Hen Ht HM) as (r & t & Nt & _ & _ & _ & _ & _ & Q & _).
    destruct (Ceq_dec (c00 (Mw W K e0 inner en)) 0) as [E|E]; [exact E|]. exfalso. now apply (Cmult_neq_0 _ _ E Nt).
  - intros M1. set (tr := RtoC 1).
    destruct (build W K tr inner en 0 Hin Hen Ht) as (F' & G' & HF' & HG' & HL' & HB').
    destruct (put_above W K e0 0 F' G' H0 HF' HG') as (F & G & HF & HG & HE & HL1 & HL2 & HS).
    destruct (transfer_down W K F' G' tr HF' HG' inner e0 en 0) as [R1 R2]; auto.
    { destruct (HB' (0 + total_depth (map snd inner))) as [-> _]; [lra|].
      unfold Rminus. rewrite Rplus_opp_r, ex_0. ring. }
    { destruct (HB' (0 + total_depth (map snd inner))) as [_ ->]; [lra|].
      unfold Rminus. rewrite Rplus_opp_r, ex_0. ring. }
    rewrite R1, R2, M1, Cmult_0_l in HS. pose proof (depth_nonneg inner Ht) as HD.
    assert (BB : forall z, total_depth (map snd inner) <= z -> F z = (tr * Cexp ((0, 1)%R * K en * RtoC (z - total_depth (map snd inner))))%C).
    { intros z Hz. rewrite Rplus_0_l in HB'. destruct (HE z) as [-> _]; [lra|]. destruct (HB' z Hz) as [-> _]. reflexivity. }
    exists F, G. split; [split; [exact HF|split; [exact HG|]]|split; [|split]].
    + intros z e [[Hz ->]|Hb].
      * apply HL1. exact Hz.
      * apply HL2; [|apply HL'; exact Hb]. eapply below_gt; eauto.
    + exists (c10 (Mw W K e0 inner en) * tr)%C. intros z Hz. rewrite HS by exact Hz. unfold solF. rewrite Rminus_0_r. unfold ex.
      rewrite Cmult_0_l, Cplus_0_l. f_equal. f_equal. rewrite RtoC_opp. apply injective_projections; simpl; ring.
    + exists tr. exact BB.
    + exists (total_depth (map snd inner)). rewrite BB by lra. unfold Rminus. rewrite Rplus_opp_r.
      change (tr * ex (K en) 0 <> 0)%C. rewrite ex_0. unfold tr. rewrite Cmult_1_l. apply RtoC_neq_0. lra.
Qed.
End Medium.
