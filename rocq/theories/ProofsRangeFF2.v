(** * Proofs: where the far-field transfer matrix stays in range (C68) *)
From Coq Require Import String Reals Lra Lia ZArith List Bool.
From Coquelicot Require Import Rcomplements Complex.
From Verif Require Import Num NumLemmas ModelBase ModelSample ModelTip StackLemmas Spec ModelRange SpecRange
  RangeLemmas ProofsStackQS ProofsStackFF ProofsOpaque ModelRangeFF SpecRangeFF ProofsRange ProofsRangeFF.
Import ListNotations.
Open Scope R_scope.

#[local] Arguments Cmod x%C_scope.

Lemma MILD_ge : 16 <= MILD.
Proof. unfold MILD. replace 16 with (2 ^ 4) by ring. apply Rle_pow; [lra|lia]. Qed.
Lemma MILD_4 : 1024 * (MILD * MILD * (MILD * MILD)) <= MAXF.
Proof.
  eapply Rle_trans; [|exact MAXF_big]. replace 1024 with (2 ^ 10) by ring. unfold MILD.
  rewrite <- !pow_add. apply Rle_pow; [lra|lia].
Qed.
#[global] Opaque MILD.
Lemma MILD_pow : 1024 * (MILD * MILD * MILD) <= MAXF /\ 1024 * (MILD * MILD) <= MAXF /\ 1024 * MILD <= MAXF.
Proof. pose proof MILD_ge. pose proof MILD_4. assert (0 <= MILD * MILD) by nra. assert (0 <= MILD * MILD * MILD) by nra. repeat split; nra. Qed.
Lemma mild_pos x : mild x -> 0 < Cmod x.
Proof. intros [H _]. pose proof MILD_ge. assert (0 < / MILD) by (apply Rinv_0_lt_compat; lra). lra. Qed.
Lemma mild_inv x : mild x -> / Cmod x <= MILD.
Proof.
  intros H. pose proof (mild_pos _ H). destruct H as [H _]. pose proof MILD_ge.
  rewrite <- (Rinv_inv MILD). apply Rinv_le_contravar; [apply Rinv_0_lt_compat; lra|exact H].
Qed.

(** ** Division of numbers of known size *)
Lemma zdiv_size a b x y X Y : zis a x -> zis b y -> Cmod x <= X -> 0 < Cmod y -> / Cmod y <= Y -> 
  2 * X <= MAXF -> 2 * Cmod y <= MAXF -> 2 * Y <= MAXF -> 4 * (X * Y) <= MAXF -> zis (zdiv a b) (x / y)%C.
Proof.
  intros Ha Hb Hx Hy HY B1 B2 B3 B4. pose proof (Cmod_ge_0 x) as P.
  assert (PY : 0 < / Cmod y) by (apply Rinv_0_lt_compat; exact Hy).
  apply (zdiv_is _ _ _ _ (Cmod y / 2) Ha Hb).
  - lra.
  - apply Rmax_half_Cmod.
  - lra.
  - lra.
  - replace (/ (Cmod y / 2)) with (2 * / Cmod y) by (field; lra). lra.
  - replace (2 * Cmod x / (Cmod y / 2)) with (4 * (Cmod x * / Cmod y)) by (field; lra).
    eapply Rle_trans; [|exact B4]. apply Rmult_le_compat_l; [lra|]. apply Rmult_le_compat; lra.
Qed.

Definition zlay (l : C * C) : cflt * cflt := (zof (fst l), zof (snd l)).
Definition mildl (l : C * C) : Prop := mild (fst l) /\ mild (snd l).

Lemma zfactor_is p a b : mildl a -> mildl b ->
  zis (zfactor p (zlay a) (zlay b)) (iface_ratio p a b) /\ Cmod (iface_ratio p a b) <= MILD * MILD * (MILD * MILD).
Proof.
  intros [Ea Ka] [Eb Kb]. pose proof MILD_ge as G. pose proof MILD_4 as G4. destruct MILD_pow as (G3 & G2 & G1).
  assert (M2 : 0 < MILD * MILD) by nra.
  pose proof (mild_pos _ Ea). pose proof (mild_pos _ Ka). pose proof (mild_pos _ Eb). pose proof (mild_pos _ Kb).
  pose proof (mild_inv _ Ka) as IKa. pose proof (mild_inv _ Eb) as IEb.
  destruct Ea as [_ Ea], Kb as [_ Kb], Ka as [_ Ka], Eb as [_ Eb].
  assert (Na : snd a <> RtoC 0) by (apply Cmod_gt_0; assumption).
  assert (Nb : fst b <> RtoC 0) by (apply Cmod_gt_0; assumption).
  assert (PI1 : 0 < / Cmod (snd a)) by (apply Rinv_0_lt_compat; assumption).
  assert (PI2 : 0 < / Cmod (fst b)) by (apply Rinv_0_lt_compat; assumption).
  destruct p; unfold zfactor, iface_ratio, zlay; cbn [fst snd].
  - assert (X1 : Cmod (fst a * snd b)%C <= MILD * MILD) by (rewrite Cmod_mult; apply Rmult_le_compat; lra).
    assert (X2 : Cmod (fst b * snd a)%C <= MILD * MILD) by (rewrite Cmod_mult; apply Rmult_le_compat; lra).
    assert (X3 : 0 < Cmod (fst b * snd a)%C) by (rewrite Cmod_mult; apply Rmult_lt_0_compat; assumption).
    assert (X4 : / Cmod (fst b * snd a)%C <= MILD * MILD).
    { rewrite Cmod_mult, Rinv_mult. apply Rmult_le_compat; lra. }
    assert (X5 : 0 < / Cmod (fst b * snd a)%C) by (apply Rinv_0_lt_compat; assumption).
    split.
    + apply (zdiv_size _ _ _ _ (MILD * MILD) (MILD * MILD)); try assumption; try lra.
      * apply zmul_is; [reflexivity|reflexivity|]. rewrite <- Cmod_mult. lra.
      * apply zmul_is; [reflexivity|reflexivity|]. rewrite <- Cmod_mult. lra.
    + rewrite Cmod_div by (apply Cmod_gt_0; assumption). pose proof (Cmod_ge_0 (fst a * snd b)%C).
      apply Rmult_le_compat; lra.
  - split.
    + apply (zdiv_size _ _ _ _ MILD MILD); try assumption; try reflexivity; lra.
    + rewrite Cmod_div by assumption. apply Rle_trans with (MILD * MILD); [apply Rmult_le_compat; lra|].
      assert (1 <= MILD * MILD) by nra. nra.
Qed.

Definition zTl p a b : zmat := ztrans (zfactor p (zlay a) (zlay b)).
Definition zPl (l : C * C) (t : R) : zmat := zprop_ff (zof (snd l)) (Fin t).

Lemma TL_ratio p a b : TL p a b = pT (iface_ratio p a b).
Proof. reflexivity. Qed.

Lemma zTl_is p a b : mildl a -> mildl b -> mis (zTl p a b) (TL p a b).
Proof.
  intros Ha Hb. destruct (zfactor_is p a b Ha Hb) as [E B]. unfold zTl.
  destruct (ztrans_is _ _ E) as (H1 & H2 & H3 & H4).
  - pose proof MILD_4. pose proof MILD_ge. assert (16 * 16 <= MILD * MILD) by nra.
    assert (1 <= MILD * MILD * (MILD * MILD)) by nra. lra.
  - repeat split; assumption.
Qed.

Lemma zexp_is k t s : (s = -1 \/ s = 1) -> Cmod k * Rabs t <= MAXF -> Rabs (Im k * t) <= MAX_EXP_ARG ->
  zis (zexp (zmul (Fin 0, Fin s) (zmul (zof k) (re (Fin t))))) (Cexp ((0, s)%R * (k * RtoC t)))%C /\
  Cmod (Cexp ((0, s)%R * (k * RtoC t)))%C <= MAXF.
Proof.
  intros Hs B HB.
  assert (E : zis (zmul (zof k) (re (Fin t))) (k * RtoC t)%C).
  { apply zmul_is; [reflexivity|reflexivity|]. rewrite Cmod_R. exact B. }
  rewrite (zphase_is k t s E Hs B).
  assert (M : Cmod (Cexp ((0, s)%R * (k * RtoC t)))%C <= MAXF).
  { rewrite Cexp_mod, <- exp_MAX.
    replace (Re ((0, s)%R * (k * RtoC t))%C) with (- s * (Im k * t)) by (unfold Re, Im; simpl; ring).
    apply Rabs_le_between in HB. assert (- s * (Im k * t) <= MAX_EXP_ARG) by (destruct Hs as [-> | ->]; lra).
    destruct (Rle_lt_or_eq_dec _ _ H) as [H'|H']; [left; apply exp_increasing; exact H'|right; rewrite H'; reflexivity]. }
  split; [|exact M].
  pose proof (Re_le (Cexp ((0, s)%R * (k * RtoC t)))%C) as R1. pose proof (Im_le (Cexp ((0, s)%R * (k * RtoC t)))%C) as R2.
  unfold zof at 1. cbn [zexp]. unfold zis, zof.
  set (w := ((0, s)%R * (k * RtoC t))%C) in *.
  assert (E1 : Re (Cexp w) = exp (Re w) * cos (Im w)) by (unfold Cexp; simpl; ring).
  assert (E2 : Im (Cexp w) = exp (Re w) * sin (Im w)) by (unfold Cexp; simpl; ring).
  rewrite E1 in *. rewrite E2 in *. rewrite !inrange_ok by lra. reflexivity.
Qed.

Lemma zPl_is l t : Cmod (snd l) * Rabs t <= MAXF -> Rabs (Im (snd l) * t) <= MAX_EXP_ARG -> mis (zPl l t) (PL l t).
Proof.
  intros B HB. destruct (zexp_is (snd l) t (-1) ltac:(auto) B HB) as [E1 M1].
  destruct (zexp_is (snd l) t 1 ltac:(auto) B HB) as [E2 M2].
  unfold zPl, zprop_ff, PL, pP.
  assert (S : forall a x c, zis a x -> Cmod x <= MAXF -> c = 0 \/ c = 1 -> zis (zmul a (rf c)) (x * RtoC c)%C).
  { intros a x c Ha Hx Hc. apply zmul_is; [exact Ha|reflexivity|]. rewrite Cmod_R.
    pose proof (Cmod_ge_0 x). destruct Hc as [-> | ->]; [rewrite Rabs_R0|rewrite Rabs_R1]; lra. }
  repeat split; cbn [z00 z01 z10 z11 c00 c01 c10 c11].
  - rewrite (S _ _ 1 E1 M1) by auto. unfold zis. f_equal. ring.
  - rewrite (S _ _ 0 E2 M2) by auto. unfold zis. f_equal. ring.
  - rewrite (S _ _ 0 E1 M1) by auto. unfold zis. f_equal. ring.
  - rewrite (S _ _ 1 E2 M2) by auto. unfold zis. f_equal. ring.
Qed.

Lemma PL_mods l t : 0 <= Im (snd l) * t ->
  Cmod (c00 (PL l t)) = exp (Im (snd l) * t) /\ Cmod (c11 (PL l t)) <= exp (Im (snd l) * t) /\ 1 <= exp (Im (snd l) * t).
Proof.
  intros H. unfold PL, pP. cbn [c00 c11]. rewrite !Cexp_mod.
  replace (Re ((0, -1)%R * (snd l * RtoC t))%C) with (Im (snd l) * t) by (unfold Re, Im; simpl; ring).
  replace (Re ((0, 1)%R * (snd l * RtoC t))%C) with (- (Im (snd l) * t)) by (unfold Re, Im; simpl; ring).
  pose proof (exp_ineq1_le (Im (snd l) * t)). repeat split; try lra.
  destruct (Req_dec (Im (snd l) * t) 0) as [->|]; [rewrite Ropp_0; lra|left; apply exp_increasing; lra].
Qed.

Lemma rows_PL A B l t : 0 <= Im (snd l) * t -> rows A B -> rows (pmul A (PL l t)) (B * exp (Im (snd l) * t)).
Proof.
  intros Hq [H1 H2]. destruct (PL_mods l t Hq) as (E1 & E2 & E3). set (E := exp (Im (snd l) * t)) in *.
  pose proof (Cmod_ge_0 (c00 A)). pose proof (Cmod_ge_0 (c01 A)).
  pose proof (Cmod_ge_0 (c10 A)). pose proof (Cmod_ge_0 (c11 A)). pose proof (Cmod_ge_0 (c11 (PL l t))).
  assert (Z1 : c01 (PL l t) = RtoC 0) by reflexivity. assert (Z2 : c10 (PL l t) = RtoC 0) by reflexivity.
  split; cbn [pmul c00 c01 c10 c11]; rewrite Z1, Z2.
  - replace (c00 A * c00 (PL l t) + c01 A * 0)%C with (c00 A * c00 (PL l t))%C by ring.
    replace (c00 A * 0 + c01 A * c11 (PL l t))%C with (c01 A * c11 (PL l t))%C by ring.
    rewrite !Cmod_mult, E1. nra.
  - replace (c10 A * c00 (PL l t) + c11 A * 0)%C with (c10 A * c00 (PL l t))%C by ring.
    replace (c10 A * 0 + c11 A * c11 (PL l t))%C with (c11 A * c11 (PL l t))%C by ring.
    rewrite !Cmod_mult, E1. nra.
Qed.

Lemma exp_le_MAX x : exp x <= MAXF -> x <= MAX_EXP_ARG.
Proof.
  intros H. rewrite <- (ln_exp x). change MAX_EXP_ARG with (ln MAXF). apply ln_le; [apply exp_pos|exact H].
Qed.

(** ** The chain *)
Definition firstL (inner : list ((C * C) * R)) (ln : C * C) : C * C :=
  match inner with [] => ln | (l, _) :: _ => l end.
Fixpoint zTPl p (inner : list ((C * C) * R)) (ln : C * C) : list (zmat * zmat) :=
  match inner with
  | [] => []
  | (l, t) :: rest => (zTl p l (firstL rest ln), zPl l t) :: zTPl p rest ln
  end.
Fixpoint bndl p (inner : list ((C * C) * R)) (ln : C * C) : R :=
  match inner with
  | [] => 1
  | (l, t) :: rest => exp (Im (snd l) * t) * (Wf (iface_ratio p l (firstL rest ln)) * bndl p rest ln)
  end.
Definition okt (lt : (C * C) * R) : Prop :=
  0 <= Im (snd (fst lt)) * snd lt /\ Cmod (snd (fst lt)) * Rabs (snd lt) <= MAXF.

Lemma bndl_ge1 p inner : forall ln, Forall okt inner -> 1 <= bndl p inner ln.
Proof.
  induction inner as [|[l t] rest IH]; intros ln H; cbn [bndl]; [lra|].
  apply Forall_cons_iff in H. destruct H as [[H1 _] H2]. cbn [fst snd] in H1.
  pose proof (IH ln H2). pose proof (Wf_ge1 (iface_ratio p l (firstL rest ln))).
  destruct (PL_mods l t H1) as (_ & _ & E). assert (1 <= Wf (iface_ratio p l (firstL rest ln)) * bndl p rest ln) by nra. nra.
Qed.

Lemma stackTP_step p l t rest ln l0 :
  stackTP (TL p) PL l0 ((l, t) :: rest) ln = (TL p l (firstL rest ln), PL l t) :: stackTP (TL p) PL l rest ln.
Proof. destruct rest as [|[l' t'] rest]; reflexivity. Qed.

Lemma chainl_is p inner : forall l0 ln Z A B,
  Forall mildl (map fst inner) -> mildl ln -> Forall okt inner ->
  mis Z A -> rows A B -> 1 <= B -> B * bndl p inner ln <= MAXF ->
  mis (zchain Z (zTPl p inner ln)) (pchain A (stackTP (TL p) PL l0 inner ln)) /\
  rows (pchain A (stackTP (TL p) PL l0 inner ln)) (B * bndl p inner ln).
Proof.
  induction inner as [|[l t] rest IH]; intros l0 ln Z A B Hm Hn Ht HZ HR H0 HB.
  - cbn [zTPl stackTP bndl]. split; [exact HZ|]. rewrite Rmult_1_r. exact HR.
  - rewrite stackTP_step. cbn [zTPl bndl] in *.
    cbn [map fst] in Hm. apply Forall_cons_iff in Hm. destruct Hm as [Hl Hm].
    apply Forall_cons_iff in Ht. destruct Ht as [[Ht1 Ht2] Ht]. cbn [fst snd] in Ht1, Ht2.
    pose proof (bndl_ge1 p rest ln Ht) as Bg.
    destruct (PL_mods l t Ht1) as (E1 & E2 & E3). set (E := exp (Im (snd l) * t)) in *.
    set (f := iface_ratio p l (firstL rest ln)) in *. pose proof (Wf_ge1 f) as Wg.
    assert (B1 : B * E * Wf f * bndl p rest ln <= MAXF) by (rewrite !Rmult_assoc in *; exact HB).
    assert (PE : 1 <= B * E) by nra.
    assert (PW : 1 <= B * E * Wf f) by nra.
    assert (B2 : B * E * Wf f <= MAXF) by nra.
    assert (B3 : B * E <= MAXF) by nra.
    assert (BE : Rabs (Im (snd l) * t) <= MAX_EXP_ARG).
    { rewrite Rabs_pos_eq by exact Ht1. apply exp_le_MAX. fold E. nra. }
    assert (Tf : mildl (firstL rest ln)).
    { destruct rest as [|[l' t'] rest']; [exact Hn|]. cbn [map fst] in Hm. apply Forall_cons_iff in Hm. apply Hm. }
    assert (MP : mis (zmm Z (zPl l t)) (pmul A (PL l t))).
    { apply (mis_mul _ _ _ _ B E HZ (zPl_is l t Ht2 BE) HR); try exact B3; try lra.
      - change (c01 (PL l t)) with (RtoC 0). rewrite Cmod_0. lra.
      - change (c10 (PL l t)) with (RtoC 0). rewrite Cmod_0. lra. }
    pose proof (rows_PL A B l t Ht1 HR) as RP. fold E in RP.
    assert (MT : mis (zmm (zmm Z (zPl l t)) (zTl p l (firstL rest ln))) (pmul (pmul A (PL l t)) (TL p l (firstL rest ln)))).
    { pose proof (Cmod_ge_0 (tp f)). pose proof (Cmod_ge_0 (tm f)).
      apply (mis_mul _ _ _ _ (B * E) (Wf f) MP (zTl_is p l _ Hl Tf) RP); try exact B2;
        rewrite TL_ratio; fold f; cbn [pT c00 c01 c10 c11]; fold (tp f) (tm f); unfold Wf; lra. }
    pose proof (rows_T _ _ f RP) as RT.
    destruct (IH l ln _ _ _ Hm Hn Ht MT RT PW B1) as [I1 I2].
    split; [exact I1|].
    replace (B * (E * (Wf f * bndl p rest ln))) with (B * E * Wf f * bndl p rest ln) by ring. exact I2.
Qed.

Lemma amplification_bndl p inner : forall l0 ln,
  amplification_ff p (eps_of l0 inner ln) * exp (attenuation (map fst inner) (map snd inner))
  = Wf (iface_ratio p l0 (firstL inner ln)) * bndl p inner ln.
Proof.
  induction inner as [|[l t] rest IH]; intros l0 ln.
  - unfold amplification_ff, attenuation, eps_of. cbn. rewrite exp_0, Wf_eq. ring.
  - specialize (IH l ln). unfold amplification_ff, attenuation, eps_of in *.
    cbn [map fst snd app tl combine fold_right firstL bndl] in *.
    rewrite exp_plus, Wf_eq.
    set (a := fold_right _ 1 _) in *. set (b := exp (fold_right _ _ _)) in *.
    replace (Wf (iface_ratio p l0 l) * a * (exp (Im (snd l) * t) * b))
      with (Wf (iface_ratio p l0 l) * exp (Im (snd l) * t) * (a * b)) by ring.
    rewrite IH. ring.
Qed.

(** ** The model on a stack of layers *)
Lemma zT_structl p inner : forall l0 ln,
  ztrans_matrices_ff p (map zlay (eps_of l0 inner ln))
  = zTl p l0 (firstL inner ln) :: map fst (zTPl p inner ln).
Proof.
  induction inner as [|[e t] rest IH]; intros l0 ln; [reflexivity|].
  specialize (IH e ln). unfold eps_of in *. unfold ztrans_matrices_ff in *.
  cbn [map fst app] in *. rewrite removelast_cons2. cbn [tl combine map fst snd] in *.
  rewrite IH. reflexivity.
Qed.
Lemma zP_structl p inner ln :
  map (fun x => zprop_ff (snd (fst x)) (snd x)) (combine (map zlay (map fst inner)) (map Fin (map snd inner)))
  = map snd (zTPl p inner ln).
Proof.
  induction inner as [|[l t] rest IH]; [reflexivity|]. cbn [map fst snd combine zTPl]. rewrite IH. reflexivity.
Qed.

Definition kz_mild (nu q : R) (l : C * C) : Prop :=
  is_kz nu q (fst l) (snd l) /\ principal (snd l) /\ mildl l.

Lemma zlay_is nu q l : Rabs nu <= MILD -> Rabs q <= MILD -> kz_mild nu q l ->
  (zof (fst l), znu_z (Fin nu) (Fin q) (zof (fst l))) = zlay l.
Proof.
  intros Hn Hq (K & P & [Me Mk]). unfold zlay. f_equal.
  pose proof MILD_ge. destruct MILD_pow as (G3 & G2 & G1).
  pose proof (Rabs_pos nu). pose proof (Rabs_pos q).
  assert (N2 : nu ^ 2 <= MILD * MILD) by (rewrite <- pow2_abs; nra).
  assert (Q2 : q ^ 2 <= MILD * MILD) by (rewrite <- pow2_abs; nra).
  assert (0 <= nu ^ 2) by nra.
  destruct Me as [_ Me], Mk as [_ Mk]. pose proof (Cmod_ge_0 (fst l)). pose proof (Cmod_ge_0 (snd l)).
  assert (M2 : 0 <= MILD * MILD) by nra. assert (M3 : 0 <= MILD * MILD * MILD) by nra.
  apply znu_z_is; try assumption; try nra.
Qed.

Lemma ztransfer_structl p l0 inner ln nu q : inner <> [] ->
  Rabs nu <= MILD -> Rabs q <= MILD -> Forall (kz_mild nu q) (eps_of l0 inner ln) ->
  ztransfer_ff p (map zof (map fst (eps_of l0 inner ln))) (map Fin (map snd inner)) (Fin nu) (Fin q)
  = Some (zchain (zTl p l0 (firstL inner ln)) (zTPl p inner ln)).
Proof.
  intros Ni Hn Hq HK. unfold ztransfer_ff.
  replace (map (fun e => (e, znu_z (Fin nu) (Fin q) e)) (map zof (map fst (eps_of l0 inner ln))))
    with (map zlay (eps_of l0 inner ln)).
  2:{ rewrite !map_map. apply map_ext_in. intros l Hl. symmetry. apply zlay_is; try assumption.
      rewrite Forall_forall in HK. apply HK, Hl. }
  rewrite zT_structl.
  replace (2 <? length (map zof (map fst (eps_of l0 inner ln))))%nat with true.
  2:{ symmetry. apply Nat.ltb_lt. rewrite !map_length, eps_of_length. destruct inner; [contradiction|cbn [length]; lia]. }
  replace (removelast (tl (map zlay (eps_of l0 inner ln)))) with (map zlay (map fst inner)).
  2:{ unfold eps_of. cbn [map tl]. rewrite map_app. cbn [map]. rewrite removelast_snoc. reflexivity. }
  rewrite (zP_structl p inner ln), combine_fst_snd. reflexivity.
Qed.

(** C68. As long as the growth through the stack stays within the range of a
    double, the range-limited arithmetic returns exactly the far-field
    reflection and transmission coefficient of the exact one. *)
Lemma C68_safe_region_proof :
  forall (p : bool) (first : C * C) (mid : list (C * C)) (last : C * C) (ts : list R) nu0 (nu q : R) (r s : C),
  length mid = length ts -> ts <> [] -> Rabs nu <= MILD -> Rabs q <= MILD ->
  Forall (fun l => is_kz nu q (fst l) (snd l) /\ principal (snd l) /\ mild (fst l) /\ mild (snd l)) (first :: mid ++ [last]) ->
  Forall (fun lt => 0 <= Im (snd (fst lt)) * snd lt /\ Cmod (snd (fst lt)) * Rabs (snd lt) <= MAXF) (combine mid ts) ->
  2 * amplification_ff p (first :: mid ++ [last]) * exp (attenuation mid ts) <= MAXF ->
  let es := map fst (first :: mid ++ [last]) in
  refl_coef (stack es ts nu0) (Some q) None (Some nu) (pol p) = Ok (Some r) -> 4 * Cmod r <= MAXF ->
  trans_coef (stack es ts nu0) (Some q) None (Some nu) (pol p) = Ok (Some s) -> 4 * Cmod s <= MAXF ->
  zrefl_ff p (map zof es) (map Fin ts) (Fin nu) (Fin q) = Some (zof r) /\
  ztrans_ff p (map zof es) (map Fin ts) (Fin nu) (Fin q) = Some (zof s).
Proof.
  intros p l0 mid ln ts nu0 nu q r s Hlen Hne Hnu Hq HK Ht HB es Hr Br Hs Bs.
  assert (Ei : exists inner, mid = map fst inner /\ ts = map snd inner /\ combine mid ts = inner).
  { exists (combine mid ts). split; [|split; [|reflexivity]].
    - clear - Hlen. revert ts Hlen. induction mid as [|a mid IH]; intros [|t ts] H; try discriminate; [reflexivity|].
      cbn. f_equal. apply IH. cbn in H. lia.
    - clear - Hlen. revert mid Hlen. induction ts as [|t ts IH]; intros [|a mid] H; try discriminate; [reflexivity|].
      cbn. f_equal. apply IH. cbn in H. lia. }
  destruct Ei as (inner & -> & -> & Ei). rewrite Ei in Ht. clear Hlen Ei.
  change (Forall okt inner) in Ht.
  assert (Ni : inner <> []) by (intros ->; contradiction).
  change (l0 :: map fst inner ++ [ln]) with (eps_of l0 inner ln) in *.
  assert (HK' : Forall (kz_mild nu q) (eps_of l0 inner ln)).
  { eapply Forall_impl; [|exact HK]. intros l (H1 & H2 & H3). exact (conj H1 (conj H2 H3)). }
  assert (Hm : Forall mildl (eps_of l0 inner ln)).
  { eapply Forall_impl; [|exact HK]. intros l (_ & _ & H3). exact H3. }
  assert (Hm' : mildl l0 /\ Forall mildl (map fst inner) /\ mildl ln).
  { unfold eps_of in Hm. apply Forall_cons_iff in Hm. destruct Hm as [H0 H].
    apply Forall_app in H. destruct H as [H1 H2]. apply Forall_inv in H2. tauto. }
  destruct Hm' as (M0 & Mi & Mn).
  assert (Ok : okL p l0 inner ln).
  { apply okL_all. eapply Forall_impl; [|exact Hm]. intros l [H1 H2]. apply mild_pos in H1, H2. split; [|intros _]; apply Cmod_gt_0; assumption. }
  destruct (ff_coefs p l0 inner ln nu0 nu q) as [F1 F2].
  { eapply Forall_impl; [|exact HK]. intros l (H1 & H2 & _). tauto. }
  { exact Ok. }
  cbv zeta in F1, F2. fold es in F1, F2. rewrite F1 in Hr. rewrite F2 in Hs. clear F1 F2.
  apply (f_equal (fun x => match x with Ok y => y | Raise _ => None end)) in Hr, Hs. cbn beta iota in Hr, Hs.
  apply cdiv_Some in Hr. destruct Hr as (x & y & Ex & Ey & Ny & Er). injection Ex as <-. injection Ey as <-.
  unfold rc in Hs. rewrite cdiv_ok in Hs by exact Ny. injection Hs as Hs.
  unfold zrefl_ff, ztrans_ff. unfold es. rewrite ztransfer_structl by assumption.
  rewrite (Rmult_assoc 2), amplification_bndl in HB.
  set (f0 := iface_ratio p l0 (firstL inner ln)) in *.
  assert (Tf : mildl (firstL inner ln)).
  { destruct inner as [|[l' t'] rest']; [contradiction|]. cbn [map fst] in Mi.
    apply Forall_cons_iff in Mi. apply Mi. }
  pose proof (zTl_is p l0 (firstL inner ln) M0 Tf) as HT.
  assert (R0 : rows (TL p l0 (firstL inner ln)) (Wf f0)).
  { rewrite TL_ratio. fold f0. split; cbn [pT c00 c01 c10 c11]; fold (tp f0) (tm f0); unfold Wf; lra. }
  pose proof (Wf_ge1 f0) as Wg. pose proof (bndl_ge1 p inner ln Ht) as Bg.
  destruct (chainl_is p inner l0 ln _ _ _ Mi Mn Ht HT R0) as [CM CR]; [lra|nra|].
  assert (EM : pchain (TL p l0 (firstL inner ln)) (stackTP (TL p) PL l0 inner ln) = stackM (TL p) PL l0 inner ln).
  { rewrite stackM_chain. destruct inner as [|[l t] rest]; reflexivity. }
  rewrite EM in CM, CR. destruct CM as (Z0 & _ & Z2 & _). destruct CR as [C1 C2].
  set (m00 := c00 (stackM (TL p) PL l0 inner ln)) in *. set (m10 := c10 (stackM (TL p) PL l0 inner ln)) in *.
  pose proof (Cmod_ge_0 (c01 (stackM (TL p) PL l0 inner ln))). pose proof (Cmod_ge_0 (c11 (stackM (TL p) PL l0 inner ln))).
  assert (P0 : 0 < Cmod m00) by (apply Cmod_gt_0; exact Ny).
  rewrite <- Hs in Bs. rewrite Cmod_div, Cmod_1 in Bs by exact Ny.
  assert (P1 : 0 < / Cmod m00) by (apply Rinv_0_lt_compat; exact P0).
  pose proof MAXF_big' as MB.
  split; f_equal.
  - rewrite Er. rewrite Er in Br. rewrite Cmod_div in Br by exact Ny.
    apply (zdiv_is _ _ m10 m00 (Cmod m00 / 2) Z2 Z0).
    + lra.
    + apply Rmax_half_Cmod.
    + lra.
    + lra.
    + replace (/ (Cmod m00 / 2)) with (2 * (1 / Cmod m00)) by (field; lra). lra.
    + replace (2 * Cmod m10 / (Cmod m00 / 2)) with (4 * (Cmod m10 / Cmod m00)) by (field; lra). exact Br.
  - rewrite <- Hs. apply (zdiv_size _ _ (RtoC 1) m00 1 (/ Cmod m00)); try assumption; try (rewrite ?Cmod_1; lra).
    reflexivity.
Qed.

Lemma mild_small x : / 16 <= Cmod x <= 16 -> mild x.
Proof.
  intros [H1 H2]. pose proof MILD_ge as G. split; [|lra].
  eapply Rle_trans; [|exact H1]. apply Rinv_le_contravar; lra.
Qed.
Lemma Cmod_bounds (a b lo hi : R) : 0 <= lo -> 0 <= hi -> lo ^ 2 <= a ^ 2 + b ^ 2 <= hi ^ 2 -> lo <= Cmod (a, b) <= hi.
Proof.
  intros L H [H1 H2]. unfold Cmod. cbn [fst snd]. split.
  - rewrite <- (sqrt_pow2 lo L). apply sqrt_le_1; nra.
  - rewrite <- (sqrt_pow2 hi H). apply sqrt_le_1; nra.
Qed.

Lemma Cdiv_by_1 (x : C) : (x / RtoC 1)%C = x.
Proof. apply Cdiv_eq; [exact C1_neq_0|ring]. Qed.

(** example: vacuum / absorbing film of permittivity 3 + 4i, thickness 1 / the
    same material as substrate, at normal incidence *)
Lemma C68_safe_example_proof :
  zrefl_ff false (map zof [RtoC 1; (3, 4)%R; (3, 4)%R]) [Fin 1] (Fin 1) (Fin 0) = Some (zof ((-1, -1)%R / (3, 1)%R)%C) /\
  ztrans_ff false (map zof [RtoC 1; (3, 4)%R; (3, 4)%R]) [Fin 1] (Fin 1) (Fin 0)
  = Some (zof (RtoC 2 / (3, 1)%R * Cexp (-1, 2)%R)%C).
Proof.
  assert (K : Forall (fun l : C * C => is_kz 1 0 (fst l) (snd l) /\ principal (snd l))
                (eps_of (RtoC 1, RtoC 1) [(((3, 4)%R, (2, 1)%R), 1)] ((3, 4)%R, (2, 1)%R))).
  { repeat (apply Forall_cons; [split; [apply C_eq; unfold Re, Im; simpl; ring|left; unfold Re; simpl; lra]|]). apply Forall_nil. }
  assert (N1 : (2, 1)%R <> RtoC 0) by (apply C_neq_0; lra).
  assert (N3 : (3, 1)%R <> RtoC 0) by (apply C_neq_0; lra).
  assert (NE : Cexp (1, -2)%R <> RtoC 0) by apply Cexp_neq_0.
  destruct (ff_coefs false (RtoC 1, RtoC 1) [(((3, 4)%R, (2, 1)%R), 1)] ((3, 4)%R, (2, 1)%R) None 1 0 K) as [F1 F2].
  { apply okL_all. unfold eps_of. cbn [map fst app].
    repeat (apply Forall_cons; [split; [cbn [snd]; first [exact N1|exact C1_neq_0]|intros Hf; discriminate Hf]|]). apply Forall_nil. }
  cbv zeta in F1, F2.
  assert (EM : stackM (TL false) PL (RtoC 1, RtoC 1) [(((3, 4)%R, (2, 1)%R), 1)] ((3, 4)%R, (2, 1)%R)
    = pmul (pT (2, 1)%R) (PL ((3, 4)%R, (2, 1)%R) 1)).
  { cbn [stackM]. unfold TL, lfactor. cbn [snd fst].
    replace ((2, 1)%R / (2, 1)%R)%C with (RtoC 1) by (field; exact N1).
    rewrite Cdiv_by_1.
    rewrite pT_1, pmul_I_r. reflexivity. }
  rewrite EM in F1, F2.
  assert (U : PL ((3, 4)%R, (2, 1)%R) 1 = pP (Cexp (1, -2)%R) (Cexp (-1, 2)%R)).
  { unfold PL. f_equal; f_equal; apply C_eq; unfold Re, Im; simpl; ring. }
  assert (M0 : c00 (pmul (pT (2, 1)%R) (PL ((3, 4)%R, (2, 1)%R) 1)) = ((3, 1)%R / 2 * Cexp (1, -2)%R)%C).
  { rewrite U. unfold pmul, pP, pT. cbn [c00 c01 c10 c11].
    replace (1 + (2, 1)%R)%C with ((3, 1)%R : C) by (apply C_eq; unfold Re, Im; simpl; ring). ring. }
  assert (M1 : c10 (pmul (pT (2, 1)%R) (PL ((3, 4)%R, (2, 1)%R) 1)) = ((-1, -1)%R / 2 * Cexp (1, -2)%R)%C).
  { rewrite U. unfold pmul, pP, pT. cbn [c00 c01 c10 c11].
    replace (1 - (2, 1)%R)%C with ((-1, -1)%R : C) by (apply C_eq; unfold Re, Im; simpl; ring). ring. }
  rewrite M0, M1 in F1. rewrite M0 in F2.
  assert (ND : ((3, 1)%R / 2 * Cexp (1, -2)%R)%C <> RtoC 0).
  { apply Cmult_neq_0; [apply Cdiv_neq_0; [exact N3|exact C2_neq_0]|exact NE]. }
  rewrite cdiv_ok in F1 by exact ND. unfold rc in F2. rewrite cdiv_ok in F2 by exact ND.
  replace ((-1, -1)%R / 2 * Cexp (1, -2)%R / ((3, 1)%R / 2 * Cexp (1, -2)%R))%C with ((-1, -1)%R / (3, 1)%R)%C in F1.
  2:{ field. repeat split; try assumption. exact C2_neq_0. }
  replace (RtoC 1 / ((3, 1)%R / 2 * Cexp (1, -2)%R))%C with (RtoC 2 / (3, 1)%R * Cexp (-1, 2)%R)%C in F2.
  2:{ replace (Cexp (-1, 2)%R) with (/ Cexp (1, -2)%R)%C.
      - field. repeat split; try assumption. exact C2_neq_0.
      - rewrite <- Cexp_opp_inv. f_equal. apply C_eq; unfold Re, Im; simpl; ring. }
  pose proof MAXF_big' as MB. pose proof MILD_ge as MG. destruct MILD_pow as (_ & _ & MP).
  assert (M31 : 3 <= Cmod (3, 1)%R <= 4) by (apply Cmod_bounds; lra).
  assert (M21 : 2 <= Cmod (2, 1)%R <= 3) by (apply Cmod_bounds; lra).
  assert (M34 : 3 <= Cmod (3, 4)%R <= 5) by (apply Cmod_bounds; lra).
  assert (M11 : 1 <= Cmod (-1, -1)%R <= 2) by (apply Cmod_bounds; lra).
  assert (Ee : exp 1 <= 3) by (pose proof exp_le_3; lra).
  assert (ratio : forall x, Cmod x <= 2 -> Cmod (x / (3, 1)%R)%C <= 1).
  { intros x Hx. rewrite Cmod_div by exact N3. apply Rle_div_l; lra. }
  apply (C68_safe_region_proof false (RtoC 1, RtoC 1) [((3, 4)%R, (2, 1)%R)] ((3, 4)%R, (2, 1)%R) [1] None 1 0).
  - reflexivity.
  - discriminate.
  - rewrite Rabs_R1. lra.
  - rewrite Rabs_R0. lra.
  - unfold eps_of in K. cbn [map fst] in K. cbn [app] in *. eapply Forall_impl; [|apply Forall_and; [exact K|]].
    + intros l [[H1 H2] H3]. split; [exact H1|]. split; [exact H2|exact H3].
    + repeat apply Forall_cons; try apply Forall_nil; cbn [fst snd]; split; apply mild_small; rewrite ?Cmod_1; lra.
  - cbn [combine]. apply Forall_cons; [|apply Forall_nil]. cbn [fst snd]. rewrite Rabs_R1. unfold Im at 1. cbn [snd]. lra.
  - unfold amplification_ff, attenuation, iface_ratio. cbn [app tl combine fold_right map fst snd].
    unfold Im. cbn [snd]. replace (1 * 1 + 0) with 1 by ring.
    rewrite Cdiv_by_1.
    replace ((2, 1)%R / (2, 1)%R)%C with (RtoC 1) by (field; exact N1).
    replace (1 + (2, 1)%R)%C with ((3, 1)%R : C) by (apply C_eq; unfold Re, Im; simpl; ring).
    replace (1 - (2, 1)%R)%C with ((-1, -1)%R : C) by (apply C_eq; unfold Re, Im; simpl; ring).
    replace (1 + RtoC 1)%C with (RtoC 2) by (apply C_eq; unfold Re, Im; simpl; ring).
    replace (1 - RtoC 1)%C with (RtoC 0) by ring. rewrite Cmod_0, Cmod_R, (Rabs_pos_eq 2) by lra.
    pose proof (exp_pos 1). nra.
  - exact F1.
  - pose proof (ratio (-1, -1)%R ltac:(lra)). lra.
  - exact F2.
  - rewrite Cmod_mult, Cexp_mod. unfold Re. cbn [fst].
    pose proof (ratio (RtoC 2) ltac:(rewrite Cmod_R, Rabs_pos_eq; lra)) as R2.
    pose proof (Cmod_ge_0 (RtoC 2 / (3, 1)%R)%C). pose proof (exp_pos (-1)).
    assert (exp (-1) <= 1) by (rewrite <- exp_0; left; apply exp_increasing; lra). nra.
Qed.

(** example: the film of permittivity 3 + 4i of C67 on a substrate of
    permittivity 4.  In exact arithmetic it reflects like the interface vacuum
    / film; within the range of a double it returns nan. *)
Lemma C68_nan_example_proof :
  exists K T, forall t, T <= t -> t <= 2 ^ 1000 -> exists r,
    refl_coef (stack [RtoC 1; (3, 4)%R; RtoC 4] [t] None) (Some 0) None (Some 1) "s" = Ok (Some r) /\
    Cmod (r - (-1, -1)%R / (3, 1)%R)%C <= K * exp (- (2 * 1) * t) /\
    zrefl_ff false (map zof [RtoC 1; (3, 4)%R; RtoC 4]) [Fin t] (Fin 1) (Fin 0) = Some (NaN, NaN).
Proof.
  destruct C67_example_proof as (K & T & H). exists K, (Rmax T 1100). intros t Ht Ht'.
  pose proof (Rmax_l T 1100). pose proof (Rmax_r T 1100).
  destruct (H t ltac:(lra)) as (r & s & G1 & G2 & _). exists r. split; [exact G1|]. split; [exact G2|].
  pose proof MAXF_big' as MB. pose proof MAX_EXP_le_1024 as ME.
  assert (M21 : 2 <= Cmod (2, 1)%R <= 3) by (apply Cmod_bounds; lra).
  assert (M34 : 3 <= Cmod (3, 4)%R <= 5) by (apply Cmod_bounds; lra).
  apply (C68_opaque_layer_nan_refuted_proof false [RtoC 1] (3, 4)%R [RtoC 4] [] t [] 1 0 (2, 1)%R).
  - reflexivity.
  - reflexivity.
  - apply C_eq; unfold Re, Im; simpl; ring.
  - left. unfold Re. simpl. lra.
  - lra.
  - lra.
  - lra.
  - nra.
  - rewrite Rabs_pos_eq by lra. apply Rle_trans with (3 * 2 ^ 1000); [apply Rmult_le_compat; lra|].
    eapply Rle_trans; [|exact MAXF_big]. replace (2 ^ 1023) with (2 ^ 23 * 2 ^ 1000) by (rewrite <- pow_add; reflexivity).
    apply Rmult_le_compat_r; [apply pow_le; lra|]. lra.
  - unfold Im. cbn [snd]. assert (ln 2 <= 1) by (rewrite <- (ln_exp 1); apply ln_le; [lra|]; pose proof (exp_ineq1_le 1); lra). lra.
Qed.
