(** * The scattering problem of a layered medium and products of 2x2 matrices *)
From Coq Require Import String Reals Lra Lia ZArith List Bool.
From Coquelicot Require Import Coquelicot.
From Coq Require Import List.
From Verif Require Import Num NumLemmas LimLemmas ModelBase ModelSample ModelTip StackLemmas Spec SpecWave WaveLemmas.
Import ListNotations.
Open Scope R_scope.

(** general first-order law: F' = G / w, G' = - w k^2 F *)
Definition wlaw (w k : C) (F G : R -> C) (z : R) : Prop :=
  field_derive F z (G z / w)%C /\ field_derive G z (- (w * (k * k)) * F z)%C.
(** downward and upward amplitudes *)
Definition dn (w k F G : C) : C := ((F + G / (Ci * k * w)) / 2)%C.
Definition bk (w k F G : C) : C := ((F - G / (Ci * k * w)) / 2)%C.
Definition ex (k : C) (s : R) : C := Cexp (Ci * k * RtoC s)%C.

Lemma ex_plus k s t : (ex k s * ex k t)%C = ex k (s + t).
Proof. unfold ex. rewrite <- Cexp_plus. f_equal. rewrite RtoC_plus. ring. Qed.
Lemma ex_0 k : ex k 0 = RtoC 1.
Proof. unfold ex. replace (Ci * k * RtoC 0)%C with (RtoC 0) by ring. apply Cexp_0. Qed.
Lemma ex_inv k s : (ex k s * ex k (- s))%C = RtoC 1.
Proof. rewrite ex_plus. replace (s + - s) with 0 by ring. apply ex_0. Qed.
Lemma Ckw (k w : C) : k <> RtoC 0 -> w <> RtoC 0 -> (Ci * k * w)%C <> RtoC 0.
Proof. intros. repeat apply Cmult_neq_0; auto. exact Ci_neq_0. Qed.

(** amplitudes through a homogeneous slab *)
Lemma slab w k F G a b : w <> RtoC 0 -> k <> RtoC 0 -> a < b ->
  (forall z, a < z < b -> wlaw w k F G z) ->
  (forall z, fcont F z) -> (forall z, fcont G z) ->
  dn w k (F a) (G a) = (ex k (- (b - a)) * dn w k (F b) (G b))%C /\
  bk w k (F a) (G a) = (ex k (b - a) * bk w k (F b) (G b))%C.
Proof.
  intros Hw Hk Hab HL HF HG.
  assert (K : forall c : C, (c * c = - (k * k))%C -> 
     ((G b + c * w * F b) * Cexp ((- c) * RtoC b) = (G a + c * w * F a) * Cexp ((- c) * RtoC a))%C).
  { intros c Hc.
    apply (fd_zero_const (fun z => (G z + c * w * F z) * Cexp ((- c) * RtoC z))%C a b Hab).
    - intros z Hz. destruct (HL z Hz) as [L1 L2].
      eapply fd_ext; [reflexivity| |apply fd_mult; [apply fd_plus; [exact L2|apply fd_scal; exact L1]|apply fd_exp]].
      rewrite <- Hc || idtac.
      replace (- (w * (k * k)))%C with (w * (c * c))%C by (rewrite Hc; ring).
      field. exact Hw.
    - intros z _. apply fc_mult; [|apply fc_exp]. apply fc_plus; [apply HG|].
      apply (fc_mult (fun _ => c * w)%C F); [apply fc_const|apply HF]. }
  assert (Hi : (Ci * k * (Ci * k) = - (k * k))%C).
  { replace (Ci * k * (Ci * k))%C with ((Ci * Ci) * (k * k))%C by ring. rewrite Ci_sqr. ring. }
  pose proof (K (Ci * k)%C Hi) as K1.
  assert (Hi' : (- (Ci * k) * - (Ci * k) = - (k * k))%C) by (rewrite <- Hi; ring).
  pose proof (K (- (Ci * k))%C Hi') as K2. clear K.
  assert (E1 : forall z, Cexp (- (Ci * k) * RtoC z)%C = ex k (- z)).
  { intros z. unfold ex. f_equal. rewrite RtoC_opp. ring. }
  assert (E2 : forall z, Cexp (- - (Ci * k) * RtoC z)%C = ex k z).
  { intros z. unfold ex. f_equal. ring. }
  rewrite !E1 in K1. rewrite !E2 in K2.
  pose proof (Ckw k w Hk Hw) as N. unfold dn, bk. split.
  - replace (- (b - a)) with (a + - b) by ring. rewrite <- ex_plus.
    replace ((F a + G a / (Ci * k * w)) / 2)%C with
      ((ex k a * ((G a + Ci * k * w * F a) * ex k (- a))) / (2 * (Ci * k * w)))%C.
    2:{ replace (ex k a * ((G a + Ci * k * w * F a) * ex k (- a)))%C
          with ((ex k a * ex k (- a)) * (G a + Ci * k * w * F a))%C by ring.
        rewrite ex_inv. field. repeat split; auto using C2_neq_0, Ci_neq_0. }
    rewrite <- K1. field. repeat split; auto using C2_neq_0, Ci_neq_0.
  - replace (b - a) with (b + - a) by ring. rewrite <- ex_plus.
    replace ((F a - G a / (Ci * k * w)) / 2)%C with
      (- ((ex k (- a) * ((G a + - (Ci * k) * w * F a) * ex k a)) / (2 * (Ci * k * w))))%C.
    2:{ replace (ex k (- a) * ((G a + - (Ci * k) * w * F a) * ex k a))%C
          with ((ex k a * ex k (- a)) * (G a + - (Ci * k) * w * F a))%C by ring.
        rewrite ex_inv. field. repeat split; auto using C2_neq_0, Ci_neq_0. }
    rewrite <- K2. field. repeat split; auto using C2_neq_0, Ci_neq_0.
Qed.

Lemma below_gt (inner : list (C * R)) : Forall (fun et : C * R => 0 < snd et) inner -> forall (en : C) top z e,
  below (map fst inner ++ [en]) (map snd inner) top z e -> top < z.
Proof.
  induction inner as [|[e1 t] rest IH]; intros Ht en top z e H; cbn in H.
  - tauto.
  - inversion Ht as [|? ? H1 H2]; subst. cbn in H1.
    destruct (map fst rest ++ [en]) eqn:E; [destruct rest; discriminate|].
    destruct H as [[H _]|H]; [lra|]. rewrite <- E in H. apply IH in H; [lra|exact H2].
Qed.
Lemma below_cons (e1 : C) t inner en top z e :
  below (map fst ((e1, t) :: inner) ++ [en]) (map snd ((e1, t) :: inner)) top z e
  <-> (top < z < top + t /\ e = e1) \/ below (map fst inner ++ [en]) (map snd inner) (top + t) z e.
Proof. cbn. destruct (map fst inner ++ [en]) eqn:E; [destruct inner; discriminate|]. tauto. Qed.

Section Medium.
Context (W K : C -> C).
Definition Tw (a b : C) : cmat := pT (W b * K b / (W a * K a))%C.
Definition Pw (e : C) (t : R) : cmat := pP (ex (K e) (- t)) (ex (K e) t).
Definition Mw := stackM Tw Pw.
Definition law (e : C) := wlaw (W e) (K e).
Definition good (e : C) : Prop := W e <> RtoC 0 /\ K e <> RtoC 0.

(** the state of the substrate at the last interface determines the amplitudes above the stack *)
Lemma transfer_down F G tr : (forall z, fcont F z) -> (forall z, fcont G z) ->
  forall inner a en top, good a -> Forall (fun et : C * R => good (fst et)) inner -> W en <> RtoC 0 ->
  Forall (fun et : C * R => 0 < snd et) inner ->
  (forall z e, below (map fst inner ++ [en]) (map snd inner) top z e -> law e F G z) ->
  let D := top + total_depth (map snd inner) in
  F D = tr -> G D = (Ci * K en * W en * tr)%C ->
  dn (W a) (K a) (F top) (G top) = (c00 (Mw a inner en) * tr)%C /\
  bk (W a) (K a) (F top) (G top) = (c10 (Mw a inner en) * tr)%C.
Proof.
  intros HF HG. induction inner as [|[e t] rest IH]; intros a en top [Ha Hka] Hin Hen Ht HL D HFD HGD.
  - cbn in D. replace D with top in * by (unfold D; ring). rewrite HFD, HGD.
    unfold Mw. cbn [stackM]. unfold Tw, pT. cbn [c00 c10]. unfold dn, bk. split; field; repeat split; auto using C2_neq_0, Ci_neq_0.
  - inversion Hin as [|? ? [Hwe Hke] Hin']; subst. inversion Ht as [|? ? Htp Ht']; subst.
    cbn [fst snd] in *.
    assert (HD : D = (top + t) + total_depth (map snd rest)) by (unfold D, total_depth; cbn [map fold_right snd]; ring).
    destruct (IH e en (top + t)) as [I1 I2]; auto.
    + split; assumption.
    + intros z e' Hb. apply HL. apply below_cons. right. exact Hb.
    + rewrite <- HD. reflexivity.
    + rewrite <- HD. exact HGD.
    + destruct (slab (W e) (K e) F G top (top + t)) as [S1 S2]; auto; try lra.
      { intros z Hz. apply HL. apply below_cons. left. auto. }
      replace (top + t - top) with t in * by ring. rewrite I1 in S1. rewrite I2 in S2.
      unfold Mw in *. cbn [stackM]. set (M := stackM Tw Pw e rest en) in *.
      set (Ft := F top) in *. set (Gt := G top) in *.
      assert (EF : Ft = (dn (W e) (K e) Ft Gt + bk (W e) (K e) Ft Gt)%C).
      { unfold dn, bk. field. repeat split; auto using C2_neq_0, Ci_neq_0. }
      assert (EG : Gt = (Ci * K e * W e * (dn (W e) (K e) Ft Gt - bk (W e) (K e) Ft Gt))%C).
      { unfold dn, bk. field. repeat split; auto using C2_neq_0, Ci_neq_0. }
      rewrite S1, S2 in EF, EG. rewrite EF, EG. unfold dn, bk, Tw, Pw, pT, pP, pmul. cbn [c00 c01 c10 c11].
      split; field; repeat split; auto using C2_neq_0, Ci_neq_0.
Qed.

(** the solution in one material with given amplitudes at depth b *)
Definition solF (k u v : C) (b z : R) : C := (u * ex k (z - b) + v * ex k (- (z - b)))%C.
Definition solG (w k u v : C) (b z : R) : C := (Ci * k * w * (u * ex k (z - b) - v * ex k (- (z - b))))%C.
Lemma fd_ex k b z : field_derive (fun x => ex k (x - b)) z (Ci * k * ex k (z - b))%C.
Proof.
  apply (fd_ext (fun x => ex k (- b) * Cexp (Ci * k * RtoC x))%C _ _ (ex k (- b) * (Ci * k * Cexp (Ci * k * RtoC z)))%C).
  - intros x. fold (ex k x). rewrite ex_plus. f_equal. ring.
  - fold (ex k z). replace (ex k (- b) * (Ci * k * ex k z))%C with (Ci * k * (ex k (- b) * ex k z))%C by ring.
    rewrite ex_plus. do 2 f_equal. ring.
  - apply fd_scal. apply fd_exp.
Qed.
Lemma fd_ex' k b z : field_derive (fun x => ex k (- (x - b))) z (- (Ci * k) * ex k (- (z - b)))%C.
Proof.
  assert (E : forall x, ex k (- x) = ex (- k)%C x).
  { intros x. unfold ex. f_equal. rewrite RtoC_opp. ring. }
  eapply fd_ext; [| |apply (fd_ex (- k)%C b z)].
  - intros x. cbn. rewrite E. reflexivity.
  - rewrite E. ring.
Qed.
Lemma sol_law w k u v b z : w <> RtoC 0 -> wlaw w k (solF k u v b) (solG w k u v b) z.
Proof.
  intros Hw. split.
  - eapply fd_ext; [reflexivity| |apply fd_plus; apply fd_scal; [apply fd_ex|apply fd_ex']].
    unfold solG. field. exact Hw.
  - eapply (fd_ext (fun x => Ci * k * w * (u * ex k (x - b) + (- v) * ex k (- (x - b))))%C);
      [intros x; unfold solG; ring| |apply fd_scal, fd_plus; apply fd_scal; [apply fd_ex|apply fd_ex']].
    unfold solF. replace (k * k)%C with (- (Ci * Ci) * (k * k))%C by (rewrite Ci_sqr; ring). ring.
Qed.
Lemma wlaw_ext_loc w k F G F' G' z : locally z (fun x => F x = F' x /\ G x = G' x) ->
  wlaw w k F G z -> wlaw w k F' G' z.
Proof.
  intros H [L1 L2]. destruct (locally_singleton _ _ H) as [E1 E2]. split.
  - rewrite <- E2. apply (fd_ext_loc F); [|exact L1]. apply (filter_imp _ _ (fun x h => proj1 h) H).
  - rewrite <- E1. apply (fd_ext_loc G); [|exact L2]. apply (filter_imp _ _ (fun x h => proj2 h) H).
Qed.
Lemma locally_lt (z b : R) : z < b -> locally z (fun x => x <= b).
Proof.
  intros H. exists (mkposreal (b - z) ltac:(lra)). intros y Hy.
  unfold ball in Hy. simpl in Hy. unfold AbsRing_ball, abs, minus, plus, opp in Hy. simpl in Hy.
  apply Rabs_def2 in Hy. lra.
Qed.
Lemma locally_gt (z b : R) : b < z -> locally z (fun x => ~ x <= b).
Proof.
  intros H. exists (mkposreal (z - b) ltac:(lra)). intros y Hy.
  unfold ball in Hy. simpl in Hy. unfold AbsRing_ball, abs, minus, plus, opp in Hy. simpl in Hy.
  apply Rabs_def2 in Hy. lra.
Qed.

(** put a layer of material e above the depth b *)
Lemma put_above e b F' G' : good e ->
  (forall z, fcont F' z) -> (forall z, fcont G' z) ->
  exists F G, (forall z, fcont F z) /\ (forall z, fcont G z) /\
    (forall z, b <= z -> F z = F' z /\ G z = G' z) /\
    (forall z, z < b -> law e F G z) /\
    (forall z, b < z -> forall e', law e' F' G' z -> law e' F G z) /\
    (forall z, z <= b -> F z = solF (K e) (dn (W e) (K e) (F' b) (G' b)) (bk (W e) (K e) (F' b) (G' b)) b z).
Proof.
  intros [Hw Hk] HF HG.
  set (u := dn (W e) (K e) (F' b) (G' b)). set (v := bk (W e) (K e) (F' b) (G' b)).
  set (Fs := solF (K e) u v b). set (Gs := solG (W e) (K e) u v b).
  assert (EF : Fs b = F' b).
  { unfold Fs, solF. replace (b - b) with 0 by ring. rewrite Ropp_0, ex_0. unfold u, v, dn, bk.
    field. repeat split; auto using C2_neq_0, Ci_neq_0. }
  assert (EG : Gs b = G' b).
  { unfold Gs, solG. replace (b - b) with 0 by ring. rewrite Ropp_0, ex_0. unfold u, v, dn, bk.
    field. repeat split; auto using C2_neq_0, Ci_neq_0. }
  assert (HL : forall z, wlaw (W e) (K e) Fs Gs z) by (intros z; apply sol_law; exact Hw).
  exists (fun z => if Rle_dec z b then Fs z else F' z), (fun z => if Rle_dec z b then Gs z else G' z).
  split; [|split; [|split; [|split; [|split]]]].
  - intros z. apply fc_glue; [exact (fc_derive _ _ _ (proj1 (HL z)))|apply HF|exact EF].
  - intros z. apply fc_glue; [exact (fc_derive _ _ _ (proj2 (HL z)))|apply HG|exact EG].
  - intros z Hz. destruct (Rle_dec z b); [|split; reflexivity]. replace z with b by lra. split; assumption.
  - intros z Hz. apply (wlaw_ext_loc (W e) (K e) Fs Gs); [|apply HL].
    apply (filter_imp (fun x => x <= b)); [|apply locally_lt; exact Hz].
    intros x Hx. destruct (Rle_dec x b); [auto|contradiction].
  - intros z Hz e' L. apply (wlaw_ext_loc (W e') (K e') F' G'); [|exact L].
    apply (filter_imp (fun x => ~ x <= b)); [|apply locally_gt; exact Hz].
    intros x Hx. destruct (Rle_dec x b); [contradiction|auto].
  - intros z Hz. destruct (Rle_dec z b); [reflexivity|contradiction].
Qed.

Lemma build tr : forall inner en top, Forall (fun et : C * R => good (fst et)) inner -> W en <> RtoC 0 ->
  Forall (fun et : C * R => 0 < snd et) inner ->
  exists F G, (forall z, fcont F z) /\ (forall z, fcont G z) /\
    (forall z e, below (map fst inner ++ [en]) (map snd inner) top z e -> law e F G z) /\
    (forall z, top + total_depth (map snd inner) <= z ->
       F z = (tr * ex (K en) (z - (top + total_depth (map snd inner))))%C /\
       G z = (Ci * K en * W en * (tr * ex (K en) (z - (top + total_depth (map snd inner)))))%C).
Proof.
  induction inner as [|[e t] rest IH]; intros en top Hin Hen Ht.
  - exists (solF (K en) tr 0 top), (solG (W en) (K en) tr 0 top).
    assert (HL : forall z, wlaw (W en) (K en) (solF (K en) tr 0 top) (solG (W en) (K en) tr 0 top) z)
      by (intros z; apply sol_law; exact Hen).
    split; [|split; [|split]].
    + intros z. exact (fc_derive _ _ _ (proj1 (HL z))).
    + intros z. exact (fc_derive _ _ _ (proj2 (HL z))).
    + intros z e [_ ->]. apply HL.
    + intros z _. cbn. rewrite Rplus_0_r. unfold solF, solG. split; ring.
  - inversion Hin as [|? ? He Hin']; subst. inversion Ht as [|? ? Htp Ht']; subst. cbn [fst snd] in *.
    destruct (IH en (top + t) Hin' Hen Ht') as (F' & G' & HF' & HG' & HL' & HB').
    destruct (put_above e (top + t) F' G' He HF' HG') as (F & G & HF & HG & HE & HL1 & HL2 & _).
    exists F, G. split; [exact HF|]. split; [exact HG|]. split.
    + intros z e' Hb. apply below_cons in Hb. destruct Hb as [[Hz ->]|Hb].
      * apply HL1. lra.
      * apply HL2; [|apply HL'; exact Hb]. eapply below_gt; eauto.
    + cbn [map total_depth fold_right]. fold (total_depth (map snd rest)).
      replace (top + (snd (e, t) + total_depth (map snd rest))) with (top + t + total_depth (map snd rest)) by (cbn; ring).
      intros z Hz.
      assert (0 <= total_depth (map snd rest)).
      { clear - Ht'. induction Ht' as [|[? ?] l H _ IH']; cbn in *; [lra|]. fold (total_depth (map snd l)) in *. lra. }
      destruct (HE z) as [-> ->]; [lra|]. apply HB'. exact Hz.
Qed.

Definition msolution e0 inner en r tr : Prop :=
  (c00 (Mw e0 inner en) * tr)%C = RtoC 1 /\ (c10 (Mw e0 inner en) * tr)%C = r.

Lemma scattering_ends e0 inner en r tr F G : good e0 -> Forall (fun et : C * R => good (fst et)) inner ->
  W en <> RtoC 0 -> Forall (fun et : C * R => 0 < snd et) inner ->
  scattering law (eps_of e0 inner en) (map snd inner) (K e0) (K en) r tr F G ->
  let D := total_depth (map snd inner) in
  (F D = tr /\ G D = Ci * K en * W en * tr /\ F 0%R = 1 + r /\ G 0%R = Ci * K e0 * W e0 * (1 - r))%C.
Proof.
  intros [Hw0 Hk0] Hin Hen Ht ((HF & HG & HL) & Htop & Hbot).
  assert (HF' : forall z, fcont F z) by exact HF. assert (HG' : forall z, fcont G z) by exact HG.
  assert (HLb : forall z e, below (map fst inner ++ [en]) (map snd inner) 0 z e -> law e F G z).
  { intros z e Hb. apply HL. right. exact Hb. }
  intros D0. set (D := total_depth (map snd inner)) in *. subst D0.
  assert (ED : (F D = tr /\ G D = Ci * K en * W en * tr)%C).
  { split.
    - rewrite Hbot by lra. replace (D - D) with 0 by ring.
      change (tr * ex (K en) 0 = tr)%C. rewrite ex_0. ring.
    - assert (E : G D = (Ci * K en * W en * (tr * ex (K en) (D - D)))%C).
      { apply (fc_agree_right G (fun z => Ci * K en * W en * (tr * ex (K en) (z - D)))%C).
        - apply HG'.
        - refine (fc_derive _ _ _ _). apply fd_scal. apply fd_scal. apply fd_ex.
        - intros z Hz.
          assert (Hm : below (map fst inner ++ [en]) (map snd inner) 0 z en).
          { assert (Hgen : forall top, top + total_depth (map snd inner) < z ->
                     below (map fst inner ++ [en]) (map snd inner) top z en).
            { clear - Ht. induction Ht as [|[e t] l H _ IH]; intros top Hz.
              - cbn in *. split; [lra|reflexivity].
              - apply below_cons. right. apply IH. cbn in Hz. fold (total_depth (map snd l)) in Hz. lra. }
            apply Hgen. fold D. lra. }
          destruct (HLb z en Hm) as [L1 _].
          assert (L1' : field_derive F z (tr * (Ci * K en * ex (K en) (z - D)))%C).
          { apply (fd_ext_loc (fun x => tr * ex (K en) (x - D))%C).
            - apply (filter_imp (fun x => ~ x <= D)); [|apply locally_gt; exact Hz].
              intros x Hx. symmetry. apply Hbot. lra.
            - apply fd_scal, fd_ex. }
          pose proof (fd_unique _ _ _ _ L1 L1') as E.
          replace (G z) with (G z / W en * W en)%C by (field; exact Hen). rewrite E. ring. }
      rewrite E. replace (D - D) with 0 by ring. rewrite ex_0. ring. }
  destruct ED as [EF EG].
  assert (E0 : (F 0 = 1 + r /\ G 0 = Ci * K e0 * W e0 * (1 - r))%C).
  { assert (X : forall z, Cexp ((0, -1)%R * K e0 * RtoC z)%C = ex (K e0) (- z)).
    { intros z. unfold ex. f_equal. rewrite RtoC_opp. apply injective_projections; simpl; ring. }
    split.
    - rewrite Htop by lra. rewrite X. change (ex (K e0) 0 + r * ex (K e0) (- 0) = 1 + r)%C.
      rewrite Ropp_0, ex_0. ring.
    - assert (E : G 0 = solG (W e0) (K e0) 1 r 0 0).
      { apply (fc_agree_left G (solG (W e0) (K e0) 1 r 0)).
        - apply HG'.
        - exact (fc_derive _ _ _ (proj2 (sol_law (W e0) (K e0) 1 r 0 0 Hw0))).
        - intros z Hz. assert (Hm : law e0 F G z) by (apply HL; left; auto).
          destruct Hm as [L1 _].
          assert (L1' : field_derive F z (solG (W e0) (K e0) 1 r 0 z / W e0)%C).
          { apply (fd_ext_loc (solF (K e0) 1 r 0)); [|apply sol_law; exact Hw0].
            apply (filter_imp (fun x => x <= 0)); [|apply locally_lt; exact Hz].
            intros x Hx. rewrite Htop by lra. rewrite X. unfold solF. rewrite Rminus_0_r.
            change (Cexp ((0, 1)%R * K e0 * RtoC x)%C) with (ex (K e0) x). ring. }
          pose proof (fd_unique _ _ _ _ L1 L1') as E.
          replace (G z) with (G z / W e0 * W e0)%C by (field; exact Hw0). rewrite E. field. exact Hw0. }
      rewrite E. unfold solG. replace (0 - 0) with 0 by ring. rewrite Ropp_0, ex_0. ring. }
  tauto.
Qed.

Lemma scattering_sound e0 inner en r tr F G : good e0 -> Forall (fun et : C * R => good (fst et)) inner ->
  W en <> RtoC 0 -> Forall (fun et : C * R => 0 < snd et) inner ->
  scattering law (eps_of e0 inner en) (map snd inner) (K e0) (K en) r tr F G ->
  msolution e0 inner en r tr.
Proof.
  intros H0 Hin Hen Ht HS.
  destruct (scattering_ends e0 inner en r tr F G H0 Hin Hen Ht HS) as (EF & EG & F0 & G0).
  destruct HS as ((HF & HG & HL) & _ & _). destruct H0 as [Hw0 Hk0].
  destruct (transfer_down F G tr HF HG inner e0 en 0) as [R1 R2]; auto.
  - split; assumption.
  - intros z e Hb. apply HL. right. exact Hb.
  - rewrite Rplus_0_l. exact EF.
  - rewrite Rplus_0_l. exact EG.
  - split.
    + rewrite <- R1, F0, G0. unfold dn. field. repeat split; auto using C2_neq_0, Ci_neq_0.
    + rewrite <- R2, F0, G0. unfold bk. field. repeat split; auto using C2_neq_0, Ci_neq_0.
Qed.

Lemma scattering_complete e0 inner en r tr : good e0 -> Forall (fun et : C * R => good (fst et)) inner ->
  W en <> RtoC 0 -> Forall (fun et : C * R => 0 < snd et) inner ->
  msolution e0 inner en r tr ->
  exists F G, scattering law (eps_of e0 inner en) (map snd inner) (K e0) (K en) r tr F G.
Proof.
  intros H0 Hin Hen Ht [M1 M2].
  destruct (build tr inner en 0 Hin Hen Ht) as (F' & G' & HF' & HG' & HL' & HB').
  destruct (put_above e0 0 F' G' H0 HF' HG') as (F & G & HF & HG & HE & HL1 & HL2 & HS).
  destruct (transfer_down F' G' tr HF' HG' inner e0 en 0) as [R1 R2]; auto.
  { destruct (HB' (0 + total_depth (map snd inner))) as [-> _]; [lra|].
    unfold Rminus. rewrite Rplus_opp_r, ex_0. ring. }
  { destruct (HB' (0 + total_depth (map snd inner))) as [_ ->]; [lra|].
    unfold Rminus. rewrite Rplus_opp_r, ex_0. ring. }
  rewrite R1, R2, M1, M2 in HS.
  exists F, G. split; [split; [exact HF|split; [exact HG|]]|split].
  - intros z e [[Hz ->]|Hb].
    + apply HL1. exact Hz.
    + apply HL2; [|apply HL'; exact Hb]. eapply below_gt; eauto.
  - intros z Hz. rewrite HS by exact Hz. unfold solF. rewrite Rminus_0_r. unfold ex.
    rewrite Cmult_1_l. f_equal. f_equal. f_equal. rewrite RtoC_opp. apply injective_projections; simpl; ring.
  - intros z Hz. rewrite Rplus_0_l in HB'.
    assert (0 <= total_depth (map snd inner)).
    { clear - Ht. induction Ht as [|[? ?] l H _ IH']; cbn in *; [lra|]. fold (total_depth (map snd l)) in *. lra. }
    destruct (HE z) as [-> _]; [lra|]. destruct (HB' z Hz) as [-> _]. reflexivity.
Qed.
End Medium.
