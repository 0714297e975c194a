(** * Infinite arguments (C103): buried conductors, infinite thicknesses, distant and infinitely long tips *)
From Coq Require Import String Reals Lra Lia ZArith List Bool.
From Coquelicot Require Import Rcomplements Complex.
From Verif Require Import Num NumLemmas ModelBase ModelSample ModelTip StackLemmas Spec ModelRange SpecRange
  RangeLemmas SpecInf ModelInf ProofsStackQS ProofsPassive ProofsRange ProofsRange3 ProofsInf.
Import ListNotations.
Open Scope R_scope.

Lemma nf_fmul_r a b : nf b -> nf (fmul a b).
Proof.
  intros H. destruct b; [exfalso; exact (H x eq_refl)|..]; destruct a; cbn; auto using nf_scale with nfdb.
Qed.
Lemma zmul_bad_r a b : zsick b -> zbad (zmul a b).
Proof.
  intros [H|H]; split; unfold zmul, fsub; cbn [fst snd].
  - apply nf_fadd_l, nf_fmul_r, H.
  - apply nf_fadd_r, nf_fmul_r, H.
  - apply nf_fadd_r, nf_fopp, nf_fmul_r, H.
  - apply nf_fadd_l, nf_fmul_r, H.
Qed.
Lemma zdiv_inf_sick w x : infinite_eps w -> zsick (zdiv w x).
Proof.
  intros [y Hw]. unfold zdiv. destruct (fge _ _); left; cbn [fst snd]; apply nf_fmul_l;
    destruct Hw as [->|[->|[->| ->]]]; cbn [fst snd].
  1,2: apply nf_fadd_l; auto with nfdb.
  1,2: apply nf_fadd_r, nf_fmul_l; auto with nfdb.
  1,2: apply nf_fadd_l, nf_fmul_l; auto with nfdb.
  1,2: apply nf_fadd_r; auto with nfdb.
Qed.
Lemma ztrans_sick f : zsick f -> zbad (z00 (ztrans f)).
Proof.
  intros H. cbn [ztrans z00]. pose proof (zmul_bad_r (rf 1) f H) as [B1 B2].
  assert (zbad (zadd (rf 1) (zmul (rf 1) f))) as [C1 C2] by (split; apply nf_fadd_r; assumption).
  set (s := zadd _ _) in *. unfold zdiv. destruct (fge _ _); split; cbn [fst snd]; apply nf_fmul_l.
  - now apply nf_fadd_l.
  - unfold fsub. now apply nf_fadd_l.
  - now apply nf_fadd_r.
  - unfold fsub. now apply nf_fadd_r, nf_fopp.
Qed.
Lemma zmm_bad_r A B : zsick (z00 B) -> zbad (z00 (zmm A B)).
Proof. intros H. cbn [zmm z00]. apply zadd_bad_l, zmul_bad_r, H. Qed.
Lemma tmat_split (l1 l2 : list cflt) w x :
  ztrans_matrices (l1 ++ w :: x :: l2) = ztrans_matrices (l1 ++ [w]) ++ ztrans (zdiv w x) :: ztrans_matrices (x :: l2).
Proof.
  unfold ztrans_matrices. induction l1 as [|a l1 IH]; [reflexivity|].
  destruct l1 as [|b l1]; [reflexivity|]. cbn [app] in *.
  rewrite !removelast_cons2 in *. cbn [tl combine map] in *. cbn [app]. f_equal. exact IH.
Qed.
Lemma zchain_sick TP : forall M P T l1 l2, zbad (z00 T) -> TP = l1 ++ (T, P) :: l2 -> zbad (z00 (zchain M TP)).
Proof.
  intros M P T l1 l2 H ->. rewrite zchain_app. cbn [zchain fold_left fst snd]. apply zchain_bad. now apply zmm_bad_r, zbad_sick.
Qed.
Lemma combine_split {A B} (l1 l2 : list A) (a : A) (l' : list B) : length l' = length (l1 ++ a :: l2) ->
  exists b m1 m2, combine (l1 ++ a :: l2) l' = m1 ++ (a, b) :: m2.
Proof.
  revert l'. induction l1 as [|x l1 IH]; intros [|y l'] H; try discriminate; cbn [app length] in H.
  - exists y, [], (combine l2 l'). reflexivity.
  - injection H as H. destruct (IH l' H) as (b & m1 & m2 & E). exists b, ((x, y) :: m1), m2. cbn [app combine]. now rewrite E.
Qed.
Lemma tmat_length (l : list cflt) : length (ztrans_matrices l) = pred (length l).
Proof.
  unfold ztrans_matrices. rewrite map_length, combine_length. destruct l as [|a l]; [reflexivity|].
  assert (R : length (removelast (a :: l)) = length l).
  { destruct (exists_last (l := a :: l)) as [l' [b E]]; [discriminate|]. rewrite E, removelast_last. apply (f_equal (@length _)) in E. rewrite app_length in E. cbn in E. lia. }
  rewrite R. cbn. lia.
Qed.

(** C103. A layer of infinite permittivity that is not the substrate: nan, for every other layer, thickness and momentum.  The limit exists: see C103_buried_limit. *)
Lemma C103_buried_conductor_refuted_proof :
  forall (l1 l2 : list cflt) (w x : cflt) (ts : list flt) (q : flt),
  infinite_eps w -> (length ts + 2 = length (l1 ++ w :: x :: l2))%nat ->
  zrefl_qs (l1 ++ w :: x :: l2) ts q = Some (NaN, NaN).
Proof.
  intros l1 l2 w x ts q Hw Hl. pose proof (ztrans_sick _ (zdiv_inf_sick w x Hw)) as Bd.
  unfold zrefl_qs, ztransfer_qs. pose proof (tmat_length (l1 ++ w :: x :: l2)) as TL. rewrite tmat_split in *.
  destruct (ztrans_matrices (l1 ++ [w])) as [|T0 Ts]; cbn [app] in *.
  - destruct (2 <? length (l1 ++ w :: x :: l2))%nat.
    + f_equal. apply zdiv_bad. now apply zchain_bad.
    + f_equal. apply zdiv_bad. cbn [z00]. now apply zmul_bad, zbad_sick.
  - assert (L2 : (2 <? length (l1 ++ w :: x :: l2) = true)%nat).
    { apply Nat.ltb_lt. cbn [length] in TL. rewrite app_length in TL. cbn [length] in TL. lia. }
    rewrite L2. f_equal. apply zdiv_bad.
    destruct (combine_split Ts (ztrans_matrices (x :: l2)) (ztrans (zdiv w x)) (map (zprop q) ts)) as (b & m1 & m2 & E).
    + rewrite map_length. cbn [length] in TL. lia.
    + eapply zchain_sick; [exact Bd|exact E].
Qed.

(** C103. A bulk sample of infinite permittivity: beta = 1, the limit, from the transfer matrix (the single-interface formula gives nan). *)
Lemma C103_metal_sample_proof :
  forall (e0 : C) (w : cflt) (q : flt) nu k, infinite_eps w -> Cmod e0 <= MAXF ->
  zrefl_qs [zof e0; w] [] q = Some (zof (RtoC 1)) /\
  as_conductor (fun E => refl_coef_qs (stack [e0; E] [] nu) (rr k)) (RtoC 1).
Proof.
  intros e0 w q nu k Hw He. pose proof MAXF_big' as MB. split.
  - destruct (trans_inf e0 w Hw He) as (Z0 & Z1 & Z2 & Z3). unfold zrefl_qs, ztransfer_qs, ztrans_matrices. cbn [removelast tl combine map fst snd length]. cbn [Nat.ltb Nat.leb]. f_equal.
    assert (T2 : tp 0 = RtoC (1 / 2) /\ tm 0 = RtoC (1 / 2)) by (unfold tp, tm; rewrite (RtoC_div 1 2) by lra; split; field; auto).
    cbn [pT c00 c10] in Z0, Z2. fold (tp 0) in Z0. fold (tm 0) in Z2. rewrite (proj1 T2) in Z0. rewrite (proj2 T2) in Z2.
    assert (Y : forall a, zis a (RtoC (1 / 2)) -> zis (zmul a (rf 1)) (RtoC (1 / 2))).
    { intros a Ha. replace (RtoC (1 / 2)) with (RtoC (1 / 2) * RtoC 1)%C by ring. apply zmul_is; [exact Ha|apply zis_R|]. rewrite !Cmod_R, !Rabs_pos_eq; lra. }
    match goal with |- zdiv ?a ?b = _ => change (zis (zdiv a b) (RtoC 1)) end.
    replace (RtoC 1) with (RtoC (1 / 2) / RtoC (1 / 2))%C by (field; apply RtoC_neq_0; lra).
    apply (zdiv_is _ _ _ _ (1 / 2)); [now apply Y|now apply Y|lra| | | | |]; rewrite ?Cmod_R, ?Rabs_pos_eq; cbn [Re Im RtoC fst snd]; try lra.
    apply Rmax_l.
  - intros ep Hp. pose proof (Cmod_ge_0 e0) as P0. exists (Cmod e0 + 1 + 2 * Cmod e0 / ep). intros E HE.
    assert (Q : 0 <= 2 * Cmod e0 / ep) by (apply Rle_div_r; lra).
    assert (N : E <> RtoC 0) by (intros ->; rewrite Cmod_0 in HE; lra).
    assert (D : Cmod E - Cmod e0 <= Cmod (E + e0)%C).
    { pose proof (Cmod_triangle (E + e0)%C (- e0)%C) as T. rewrite Cmod_opp in T. replace (E + e0 + - e0)%C with E in T by ring. lra. }
    assert (N2 : (E + e0)%C <> RtoC 0) by (intro Z; rewrite Z, Cmod_0 in D; lra).
    exists ((E - e0) / (E + e0))%C. split; [apply bulk_qs; [exact N|now rewrite Cplus_comm]|].
    replace ((E - e0) / (E + e0) - 1)%C with (- (2 * e0) / (E + e0))%C by (field; exact N2).
    rewrite Cmod_div, Cmod_opp, Cmod_mult, Cmod_R, Rabs_pos_eq by (try exact N2; lra).
    assert (Dp : 0 < Cmod (E + e0)%C) by lra. apply Rle_div_l; [exact Dp|].
    apply Rle_trans with (ep * (2 * Cmod e0 / ep)); [right; field; lra|]. apply Rmult_le_compat_l; lra.
Qed.

(** C103. What the code returns nan for: as the permittivity of a film of positive thickness grows, its reflection coefficient tends to 1. *)
Lemma C103_buried_limit_proof :
  forall (e0 e2 : C) (t q : R) nu, e2 <> RtoC 0 -> 0 < q * t ->
  as_conductor (fun E => refl_coef_qs (stack [e0; E; e2] [t] nu) (rr q)) (RtoC 1).
Proof.
  intros e0 e2 t q nu N2 Hq ep Hp.
  set (X := exp (clipR (q * t))). set (Y := exp (- clipR (q * t))). pose proof MAX_EXP_le as ME.
  assert (Cp : 0 < clipR (q * t)) by (rewrite clipR_pos by lra; apply Rmin_glb_lt; lra).
  assert (XY : Y < X) by (apply exp_increasing; lra). assert (Y0 : 0 < Y) by apply exp_pos. assert (X0 : 0 < X) by apply exp_pos.
  pose proof (Cmod_ge_0 e0) as P0. assert (P2 : 0 < Cmod e2) by (now apply Cmod_gt_0).
  set (k := (e0 / e2)%C). set (S := X + Y). set (D := X - Y). assert (D0 : 0 < D) by (unfold D; lra). assert (S0 : 0 < S) by (unfold S; lra).
  pose proof (Cmod_ge_0 (1 + k)%C) as Pk1. pose proof (Cmod_ge_0 k) as Pk.
  set (U := 2 * (Cmod e0 * D + Cmod k * S)). set (V := Cmod e0 * D + Cmod (1 + k)%C * S).
  assert (U0 : 0 <= U) by (unfold U; assert (0 <= Cmod e0 * D) by (apply Rmult_le_pos; lra); assert (0 <= Cmod k * S) by (apply Rmult_le_pos; lra); lra).
  assert (V0 : 0 <= V) by (unfold V; assert (0 <= Cmod e0 * D) by (apply Rmult_le_pos; lra); assert (0 <= Cmod (1 + k)%C * S) by (apply Rmult_le_pos; lra); lra).
  assert (UE : 0 <= U / ep) by (apply Rle_div_r; lra).
  set (B := Rmax 1 ((V + U / ep + 1) * Cmod e2 / D)). exists B. intros E HE.
  assert (E1 : 1 <= Cmod E) by (eapply Rle_trans; [apply Rmax_l|exact HE]).
  assert (E2 : (V + U / ep + 1) * Cmod e2 / D <= Cmod E) by (eapply Rle_trans; [apply Rmax_r|exact HE]).
  assert (E3 : V + U / ep + 1 <= Cmod E / Cmod e2 * D).
  { apply Rmult_le_reg_r with (Cmod e2 / D); [apply Rdiv_lt_0_compat; lra|]. replace (Cmod E / Cmod e2 * D * (Cmod e2 / D)) with (Cmod E) by (field; lra).
    replace ((V + U / ep + 1) * (Cmod e2 / D)) with ((V + U / ep + 1) * Cmod e2 / D) by (field; lra). exact E2. }
  assert (N : E <> RtoC 0) by (intros ->; rewrite Cmod_0 in E1; lra).
  set (den := ((1 + k) * RtoC S + (e0 / E + E / e2) * RtoC D)%C). set (num := ((e0 / E) * RtoC D + k * RtoC S)%C).
  assert (Bn : 2 * Cmod num <= U).
  { unfold num, U. apply Rmult_le_compat_l; [lra|]. eapply Rle_trans; [apply Cmod_triangle|]. rewrite !Cmod_mult, Cmod_div, !Cmod_R, !Rabs_pos_eq by (try exact N; lra).
    apply Rplus_le_compat_r. apply Rmult_le_compat_r; [lra|]. apply Rle_div_l; [lra|]. rewrite <- (Rmult_1_r (Cmod e0)) at 1. apply Rmult_le_compat_l; lra. }
  assert (Bd : U / ep + 1 <= Cmod den).
  { assert (T : Cmod (E / e2 * RtoC D)%C <= Cmod den + Cmod ((1 + k) * RtoC S + e0 / E * RtoC D)%C).
    { rewrite <- (Cmod_opp ((1 + k) * RtoC S + e0 / E * RtoC D)%C). eapply Rle_trans; [|apply Cmod_triangle]. right. f_equal. unfold den. ring. }
    assert (T2 : Cmod ((1 + k) * RtoC S + e0 / E * RtoC D)%C <= V).
    { unfold V. rewrite Rplus_comm. eapply Rle_trans; [apply Cmod_triangle|]. rewrite !Cmod_mult, Cmod_div, !Cmod_R, !Rabs_pos_eq by (try exact N; lra).
      apply Rplus_le_compat_l. apply Rmult_le_compat_r; [lra|]. apply Rle_div_l; [lra|]. rewrite <- (Rmult_1_r (Cmod e0)) at 1. apply Rmult_le_compat_l; lra. }
    rewrite Cmod_mult, Cmod_div, Cmod_R, Rabs_pos_eq in T by (try exact N2; lra). lra. }
  assert (Nd : den <> RtoC 0) by (intro Z; rewrite Z, Cmod_0 in Bd; lra).
  exists (1 - 2 * num / den)%C. split.
  - change (stack [e0; E; e2] [t] nu) with (qs_sample e0 [(E, t)] e2 nu). rewrite refl_coef_qs_struct by (repeat constructor; assumption). f_equal.
    assert (M0 : c00 (Mqs q e0 [(E, t)] e2) = (den / 4)%C).
    { unfold Mqs, den, k, S, D. cbn [stackM]. unfold Tqs, Pqs, pP, pT. cbn [pmul c00 c01 c10 c11]. fold X Y. rewrite RtoC_plus, RtoC_minus. field. auto. }
    assert (M1 : c10 (Mqs q e0 [(E, t)] e2) = ((den - 2 * num) / 4)%C).
    { unfold Mqs, den, num, k, S, D. cbn [stackM]. unfold Tqs, Pqs, pP, pT. cbn [pmul c00 c01 c10 c11]. fold X Y. rewrite RtoC_plus, RtoC_minus. field. auto. }
    assert (N4 : RtoC 4 <> RtoC 0) by (apply RtoC_neq_0; lra).
    rewrite M0, M1, cdiv_ok by (apply Cdiv_neq_0; assumption). f_equal. field. split; assumption.
  - replace (1 - 2 * num / den - 1)%C with (- (2 * num / den))%C by (field; exact Nd). rewrite Cmod_opp, Cmod_div, Cmod_mult, Cmod_R, Rabs_pos_eq by (try exact Nd; lra).
    assert (Dp : 0 < Cmod den) by lra. apply Rle_div_l; [exact Dp|].
    apply Rle_trans with (ep * (U / ep)); [replace (ep * (U / ep)) with U by (field; lra); exact Bn|]. apply Rmult_le_compat_l; lra.
Qed.

(** C103. An infinite thickness is read as any thickness beyond the clip, at every positive momentum, wherever it stands; at zero momentum it is nan. *)
Lemma C103_infinite_thickness_proof :
  forall (eps : list cflt) (ts1 ts2 : list flt) (q : R),
  (forall t, 0 < q -> MAX_EXP_ARG <= q * t ->
     zrefl_qs eps (ts1 ++ PInf :: ts2) (Fin q) = zrefl_qs eps (ts1 ++ Fin t :: ts2) (Fin q)) /\
  ((length (ts1 ++ PInf :: ts2) + 2 = length eps)%nat -> zrefl_qs eps (ts1 ++ PInf :: ts2) (Fin 0) = Some (NaN, NaN)).
Proof.
  intros eps ts1 ts2 q. split.
  - intros t Hq Ht. assert (E : zprop (Fin q) PInf = zprop (Fin q) (Fin t)).
    { unfold zprop. assert (P : fclip (fmul (Fin q) PInf) = fclip (fmul (Fin q) (Fin t))); [|now rewrite P].
      cbn [fmul]. rewrite fclip_inrange. unfold scale_inf. destruct (Rlt_dec 0 q) as [_|H]; [|lra]. cbn [fclip]. f_equal.
      pose proof MAX_EXP_le. rewrite clipR_pos by lra. rewrite Rmin_right by lra. reflexivity. }
    unfold zrefl_qs, ztransfer_qs. rewrite !map_app. cbn [map]. now rewrite E.
  - intros Hl. unfold zrefl_qs, ztransfer_qs. pose proof (tmat_length eps) as TL. rewrite app_length in Hl. cbn [length] in Hl.
    destruct (ztrans_matrices eps) as [|T0 Ts] eqn:ET; [exfalso; cbn in TL; lia|].
    assert (L2 : (2 <? length eps = true)%nat) by (apply Nat.ltb_lt; lia). rewrite L2. f_equal. apply zdiv_bad.
    cbn [length] in TL. assert (LT : length Ts = (length ts1 + 1 + length ts2)%nat) by lia.
    rewrite map_app. cbn [map].
    assert (Lp : (length ts1 < length Ts)%nat) by lia. destruct (nth_split Ts T0 Lp) as (A1 & A2 & EA & LA). set (T := nth _ Ts T0) in *. clearbody T.
    assert (EC : combine Ts (map (zprop (Fin 0)) ts1 ++ zprop (Fin 0) PInf :: map (zprop (Fin 0)) ts2)
      = combine A1 (map (zprop (Fin 0)) ts1) ++ (T, zprop (Fin 0) PInf) :: combine A2 (map (zprop (Fin 0)) ts2)).
    { rewrite EA. clear - LA. revert ts1 LA. induction A1 as [|a A1 IH]; intros [|b ts1] LA; try discriminate; [reflexivity|]. cbn [map app combine]. f_equal. apply IH. cbn in LA. lia. }
    rewrite EC, zchain_app. cbn [zchain fold_left fst snd]. apply zchain_bad. apply zmm_bad, zbad_sick. apply zmm_bad_r.
    unfold zprop. assert (F : fmul (Fin 0) PInf = NaN) by (cbn; unfold scale_inf; destruct (Rlt_dec 0 0); [lra|reflexivity]). rewrite F. left. apply nf_NaN.
Qed.
