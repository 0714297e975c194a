(** * Proofs: far-field response of stacks with an opaque or a transparent layer *)
From Coq Require Import String Reals Lra Lia ZArith List Bool.
From Coquelicot Require Import Rcomplements Complex.
From Verif Require Import Num NumLemmas ModelBase ModelSample ModelTip StackLemmas Spec
  ProofsStackQS ProofsStackQS2 ProofsStackFF ProofsStackFF2.
Import ListNotations.
Open Scope R_scope.

#[local] Arguments Cmod x%C_scope.

(** ** Cutting a stack at a layer *)
Lemma stackM_app {L} (T : L -> L -> cmat) (P : L -> R -> cmat) l t i2 ln : forall i1 l0,
  stackM T P l0 (i1 ++ (l, t) :: i2) ln
  = pmul (stackM T P l0 i1 l) (pmul (P l t) (stackM T P l i2 ln)).
Proof.
  induction i1 as [|[a u] i1 IH]; intros l0; [reflexivity|].
  cbn [app stackM]. rewrite IH, !pmul_assoc. reflexivity.
Qed.

Lemma okL_app p l t i2 ln : forall i1 l0,
  okL p l0 i1 l -> okL p l i2 ln -> okL p l0 (i1 ++ (l, t) :: i2) ln.
Proof.
  induction i1 as [|[a u] i1 IH]; intros l0 H1 H2; cbn [app okL] in *; [split; assumption|].
  destruct H1 as [H0 H1]. split; [exact H0|apply IH; assumption].
Qed.

Definition strip (i : list ((C * C) * R)) : list (C * R) := map (fun p => (fst (fst p), snd p)) i.
Lemma withki_strip nu q i :
  Forall (fun l => is_kz nu q (fst l) (snd l) /\ principal (snd l)) (map fst i) -> withki nu q (strip i) = i.
Proof.
  induction i as [|[[e k] t] i IH]; intros H; [reflexivity|].
  cbn [map fst] in H. apply Forall_cons_iff in H. destruct H as [[H1 H2] H3]. cbn [fst snd] in H1, H2.
  cbn [strip withki map fst snd]. f_equal; [|apply IH, H3].
  unfold withk. rewrite (is_kz_principal _ _ _ _ H1 H2). reflexivity.
Qed.
Lemma withk_fst nu q l : is_kz nu q (fst l) (snd l) /\ principal (snd l) -> withk nu q (fst l) = l.
Proof. destruct l as [e k]. cbn [fst snd]. intros [H1 H2]. unfold withk. rewrite (is_kz_principal _ _ _ _ H1 H2). reflexivity. Qed.

(** both coefficients of a stack of (permittivity, wavevector) layers *)
Lemma ff_coefs p a inner b nu0 nu q :
  Forall (fun l => is_kz nu q (fst l) (snd l) /\ principal (snd l)) (eps_of a inner b) ->
  okL p a inner b ->
  let s := stack (map fst (eps_of a inner b)) (map snd inner) nu0 in
  let M := stackM (TL p) PL a inner b in
  refl_coef s (Some q) None (Some nu) (pol p) = Ok (Some (c10 M) / Some (c00 M))%cv /\
  trans_coef s (Some q) None (Some nu) (pol p) = Ok (rc 1 / Some (c00 M))%cv.
Proof.
  intros HK Hok s M. unfold eps_of in HK.
  apply Forall_cons_iff in HK. destruct HK as [Ka HK]. apply Forall_app in HK. destruct HK as [Ki Kb].
  apply Forall_inv in Kb.
  assert (Es : s = qs_sample (fst a) (strip inner) (fst b) nu0).
  { unfold s, stack, qs_sample, strip, eps_of. cbn [map]. rewrite !map_app, !map_map. reflexivity. }
  assert (EM : Mff p nu q (fst a) (strip inner) (fst b) = M).
  { rewrite Mff_withk, withki_strip, !withk_fst by assumption. reflexivity. }
  assert (Hok' : okstack (okff p nu q) (fst a) (strip inner) (fst b)).
  { apply okL_okff. rewrite withki_strip, !withk_fst by assumption. exact Hok. }
  rewrite <- EM, Es, pol_pol_str. split.
  - apply refl_coef_struct; [reflexivity|reflexivity|exact Hok'].
  - apply trans_coef_struct; [reflexivity|reflexivity|exact Hok'].
Qed.

(** ** Opaque layers *)
Lemma exp_decays k c d : 0 < k -> 0 <= c -> 0 < d -> exists T, 0 <= T /\ forall t, T <= t -> c * exp (- k * t) <= d.
Proof.
  intros Hk Hc Hd. exists (c / (k * d)). split.
  { apply Rmult_le_pos; [exact Hc|]. apply Rlt_le, Rinv_0_lt_compat. nra. }
  intros t Ht. assert (H1 : c <= k * t * d).
  { apply (Rmult_le_compat_r (k * d)) in Ht; [|nra]. unfold Rdiv in Ht. rewrite Rmult_assoc, Rinv_l in Ht by nra. lra. }
  pose proof (exp_ineq1_le (k * t)) as H2.
  replace (- k * t) with (- (k * t)) by ring. rewrite exp_Ropp.
  pose proof (exp_pos (k * t)) as H3.
  apply (Rmult_le_reg_r (exp (k * t))); [exact H3|]. rewrite Rmult_assoc, Rinv_l by lra. nra.
Qed.

Lemma ff_round_mod l t : Cmod (ff_round l t) = exp (- (2 * Im (snd l)) * t).
Proof.
  unfold ff_round. rewrite Cexp_mod. f_equal. destruct l as [e [x y]]. unfold Re, Im; simpl. ring.
Qed.

(** C67. A layer whose normal wavevector has a positive imaginary part
    (absorption, or total internal reflection) hides everything below it: as
    its thickness grows, the reflection coefficient tends to that of the stack
    cut off at this layer, and transmission tends to zero, both
    exponentially. *)
Lemma C67_opaque_layer_hides_proof :
  forall (p : bool) (a : C * C) (top : list (C * C)) (l : C * C) (below : list (C * C))
         (ts1 ts2 : list R) nu0 (nu q : R) (r_cut r_below : C),
  Forall (fun x => is_kz nu q (fst x) (snd x) /\ principal (snd x)) (a :: top ++ l :: below) ->
  0 < Im (snd l) ->
  parratt (if p then fresnel_p else fresnel_s) ff_round (a :: top ++ [l]) ts1 r_cut ->
  parratt (if p then fresnel_p else fresnel_s) ff_round (l :: below) ts2 r_below ->
  exists K T, forall t, T <= t -> exists r tr,
    let s := stack (map fst (a :: top ++ l :: below)) (ts1 ++ t :: ts2) nu0 in
    refl_coef s (Some q) None (Some nu) (pol p) = Ok (Some r) /\
    Cmod (r - r_cut)%C <= K * exp (- (2 * Im (snd l)) * t) /\
    trans_coef s (Some q) None (Some nu) (pol p) = Ok (Some tr) /\
    Cmod tr <= K * exp (- Im (snd l) * t).
Proof.
  intros p a top l below ts1 ts2 nu0 nu q r_cut rb HK Hl H1 H2.
  destruct (stack_decomp _ _ (parratt_length _ _ _ _ _ H1)) as (a' & i1 & l' & E1 & ->).
  unfold eps_of in E1. injection E1 as <- E1. apply app_inj_tail in E1. destruct E1 as [-> <-].
  destruct (stack_decomp _ _ (parratt_length _ _ _ _ _ H2)) as (l' & i2 & b & E2 & ->).
  unfold eps_of in E2. injection E2 as <- ->.
  fold (fresnel p) in H1, H2.
  pose proof (parratt_okL p i1 a l r_cut H1) as O1. pose proof (parratt_okL p i2 l b rb H2) as O2.
  assert (tr1 : forall i : list ((C * C) * R), Forall (fun _ : R => True) (map snd i)).
  { intros i. induction (map snd i); constructor; auto. }
  destruct (parratt_sound (TL p) PL _ _ (ff_T_ok p) (fun _ => True) ff_P_ok i1 a l r_cut (tr1 i1) H1) as [A0 A1].
  destruct (parratt_sound (TL p) PL _ _ (ff_T_ok p) (fun _ => True) ff_P_ok i2 l b rb (tr1 i2) H2) as [B0 B1].
  set (A := stackM (TL p) PL a i1 l) in *. set (B := stackM (TL p) PL l i2 b) in *.
  assert (PA : 0 < Cmod (c00 A)) by (apply Cmod_gt_0; exact A0).
  assert (PB : 0 < Cmod (c00 B)) by (apply Cmod_gt_0; exact B0).
  destruct (exp_decays (2 * Im (snd l)) (Cmod (c01 A * rb)) (Cmod (c00 A) / 2)) as (T & T0 & HT);
    [lra|apply Cmod_ge_0|lra|].
  set (K1 := Cmod ((c11 A - r_cut * c01 A) * rb)%C * (2 / Cmod (c00 A))).
  set (K2 := 2 / (Cmod (c00 A) * Cmod (c00 B))).
  exists (Rmax K1 K2), T. intros t Ht.
  assert (HK' : Forall (fun x => is_kz nu q (fst x) (snd x) /\ principal (snd x)) (eps_of a (i1 ++ (l, t) :: i2) b)).
  { unfold eps_of. rewrite map_app. cbn [map fst]. rewrite <- app_assoc. exact HK. }
  destruct (ff_coefs p a (i1 ++ (l, t) :: i2) b nu0 nu q HK' (okL_app p l t i2 b i1 a O1 O2)) as [R1 R2].
  assert (EL : eps_of a (i1 ++ (l, t) :: i2) b = a :: map fst i1 ++ l :: (map fst i2 ++ [b])).
  { unfold eps_of. rewrite map_app. cbn [map fst]. rewrite <- app_assoc. reflexivity. }
  assert (ET : map snd (i1 ++ (l, t) :: i2) = map snd i1 ++ t :: map snd i2) by (rewrite map_app; reflexivity).
  cbv zeta in R1, R2. rewrite EL, ET in R1, R2. rewrite stackM_app in R1, R2. fold A B in R1, R2.
  set (u := Cexp ((0, -1)%R * (snd l * RtoC t))%C) in *. set (X := ff_round l t).
  assert (Nu : u <> RtoC 0) by apply Cexp_neq_0.
  assert (Ev : Cexp ((0, 1)%R * (snd l * RtoC t))%C = (u * X)%C).
  { unfold u, X, ff_round. rewrite <- Cexp_plus. f_equal. apply C_eq; unfold Re, Im; simpl; ring. }
  set (D := (c00 A + c01 A * rb * X)%C).
  assert (MX : Cmod X = exp (- (2 * Im (snd l)) * t)) by apply ff_round_mod.
  assert (BD : Cmod (c00 A) / 2 <= Cmod D).
  { specialize (HT t Ht). rewrite <- MX, <- Cmod_mult in HT.
    pose proof (Cmod_triangle D (- (c01 A * rb * X))%C) as TR. rewrite Cmod_opp in TR.
    replace (D + - (c01 A * rb * X))%C with (c00 A) in TR by (unfold D; ring). lra. }
  assert (PD : 0 < Cmod D) by lra.
  assert (ND : D <> RtoC 0) by (apply Cmod_gt_0; exact PD).
  assert (M0 : c00 (pmul A (pmul (PL l t) B)) = (u * c00 B * D)%C).
  { unfold PL. fold u. rewrite Ev. unfold pmul, pP. cbn [c00 c01 c10 c11]. rewrite B1. unfold D. ring. }
  assert (M1 : c10 (pmul A (pmul (PL l t) B)) = (u * c00 B * (c10 A + c11 A * rb * X))%C).
  { unfold PL. fold u. rewrite Ev. unfold pmul, pP. cbn [c00 c01 c10 c11]. rewrite B1. ring. }
  rewrite M0, M1 in R1. rewrite M0 in R2.
  assert (NM : (u * c00 B * D)%C <> RtoC 0) by (repeat apply Cmult_neq_0; assumption).
  rewrite cdiv_ok in R1 by exact NM. unfold rc in R2. rewrite cdiv_ok in R2 by exact NM.
  exists (u * c00 B * (c10 A + c11 A * rb * X) / (u * c00 B * D))%C, (RtoC 1 / (u * c00 B * D))%C.
  cbv zeta. split; [exact R1|]. split; [|split; [exact R2|]].
  - replace (u * c00 B * (c10 A + c11 A * rb * X) / (u * c00 B * D) - r_cut)%C
      with (((c11 A - r_cut * c01 A) * rb) * X / D)%C.
    2:{ rewrite A1. unfold D in *. field. repeat split; try assumption. }
    rewrite Cmod_div by exact ND. rewrite Cmod_mult, MX.
    pose proof (exp_pos (- (2 * Im (snd l)) * t)) as PX. set (e := exp (- (2 * Im (snd l)) * t)) in *.
    pose proof (Cmod_ge_0 ((c11 A - r_cut * c01 A) * rb)%C) as PC. set (w := Cmod ((c11 A - r_cut * c01 A) * rb)%C) in *.
    apply Rle_trans with (K1 * e); [|apply Rmult_le_compat_r; [lra|apply Rmax_l]].
    unfold K1. replace (w * (2 / Cmod (c00 A)) * e) with (w * e * / (Cmod (c00 A) / 2)) by (field; lra).
    apply Rmult_le_compat_l; [nra|]. apply Rinv_le_contravar; lra.
  - rewrite Cmod_div by exact NM. rewrite Cmod_1, !Cmod_mult.
    assert (Mu : Cmod u = / exp (- Im (snd l) * t)).
    { unfold u. rewrite Cexp_mod, <- exp_Ropp. f_equal. destruct l as [e [x y]]. unfold Re, Im; simpl. ring. }
    pose proof (exp_pos (- Im (snd l) * t)) as PX. set (e := exp (- Im (snd l) * t)) in *.
    apply Rle_trans with (K2 * e); [|apply Rmult_le_compat_r; [lra|apply Rmax_r]].
    rewrite Mu. unfold K2.
    replace (2 / (Cmod (c00 A) * Cmod (c00 B)) * e) with (/ (/ e * Cmod (c00 B) * (Cmod (c00 A) / 2))) by (field; lra).
    unfold Rdiv at 1. rewrite Rmult_1_l. assert (0 < / e) by (apply Rinv_0_lt_compat, PX).
    apply Rinv_le_contravar; [repeat apply Rmult_lt_0_compat; lra|].
    apply Rmult_le_compat_l; [|exact BD]. apply Rlt_le, Rmult_lt_0_compat; assumption.
Qed.

(** ** Transparent layers *)
Lemma PL_half_turn e (k : R) t : k <> 0 ->
  PL (e, RtoC k) (t + PI / k) = mkC (- c00 (PL (e, RtoC k) t))%C (RtoC 0) (RtoC 0) (- c11 (PL (e, RtoC k) t))%C.
Proof.
  intros Hk. unfold PL, pP. cbn [c00 c11 snd].
  assert (E : forall s : R, s = -1 \/ s = 1 -> Cexp ((0, s)%R * (RtoC k * RtoC (t + PI / k)))%C
              = (- Cexp ((0, s)%R * (RtoC k * RtoC t)))%C).
  { intros s Hs. replace ((0, s)%R * (RtoC k * RtoC (t + PI / k)))%C
      with ((0, s)%R * (RtoC k * RtoC t) + (0, s * PI)%R)%C.
    2:{ apply C_eq; unfold Re, Im; simpl; field; exact Hk. }
    rewrite Cexp_plus. replace (Cexp (0, s * PI)) with (RtoC (-1)); [|].
    - apply C_eq; unfold Re, Im; simpl; ring.
    - unfold Cexp. cbn [Re Im fst snd]. rewrite exp_0. destruct Hs as [-> | ->].
      + replace (-1 * PI) with (- PI) by ring. rewrite cos_neg, sin_neg, cos_PI, sin_PI.
        apply C_eq; unfold Re, Im; simpl; ring.
      + replace (1 * PI) with PI by ring. rewrite cos_PI, sin_PI. apply C_eq; unfold Re, Im; simpl; ring. }
  rewrite !E by auto. reflexivity.
Qed.

Lemma cdiv_opp (x y : C) : cdiv (Some (- x)%C) (Some (- y)%C) = cdiv (Some x) (Some y).
Proof.
  destruct (Ceq_dec y (RtoC 0)) as [->|N].
  - replace (- 0)%C with (RtoC 0) by ring. rewrite !cdiv_zero. reflexivity.
  - rewrite !cdiv_ok by (try apply Copp_neq_0; exact N). f_equal. field. split; try apply Copp_neq_0; exact N.
Qed.
Lemma cdiv_opp_r (x y : C) : cdiv (Some x) (Some (- y)%C)
  = match cdiv (Some x) (Some y) with Some z => Some (- z)%C | None => None end.
Proof.
  destruct (Ceq_dec y (RtoC 0)) as [->|N].
  - replace (- 0)%C with (RtoC 0) by ring. rewrite !cdiv_zero. reflexivity.
  - rewrite !cdiv_ok by (try apply Copp_neq_0; exact N). f_equal. field. split; try apply Copp_neq_0; exact N.
Qed.

Lemma okL_all p : forall inner l0 ln,
  Forall (fun x => snd x <> RtoC 0 /\ (p = true -> fst x <> RtoC 0)) (eps_of l0 inner ln) -> okL p l0 inner ln.
Proof.
  induction inner as [|[l t] inner IH]; intros l0 ln H; unfold eps_of in H; cbn [map fst app] in H;
    apply Forall_cons_iff in H; destruct H as [H0 H].
  - apply Forall_inv in H. split; tauto.
  - cbn [okL]. split; [|apply IH; exact H]. apply Forall_inv in H. split; tauto.
Qed.

(** C67. A transparent layer never hides what is below it, however thick: the
    reflection coefficient is periodic in its thickness with period half a
    wavelength, pi / k, and the transmission coefficient changes sign. *)
Lemma C67_transparent_layer_periodic_proof :
  forall (p : bool) (a : C * C) (top : list (C * C)) (l : C * C) (below : list (C * C))
         (ts1 ts2 : list R) nu0 (nu q t k : R),
  wf (a :: top ++ [l]) ts1 -> wf (l :: below) ts2 ->
  Forall (fun x => is_kz nu q (fst x) (snd x) /\ principal (snd x)) (a :: top ++ l :: below) ->
  Forall (fun x => snd x <> RtoC 0 /\ (p = true -> fst x <> RtoC 0)) (a :: top ++ l :: below) ->
  snd l = RtoC k ->
  let s u := stack (map fst (a :: top ++ l :: below)) (ts1 ++ u :: ts2) nu0 in
  refl_coef (s (t + PI / k)) (Some q) None (Some nu) (pol p)
  = refl_coef (s t) (Some q) None (Some nu) (pol p) /\
  trans_coef (s (t + PI / k)) (Some q) None (Some nu) (pol p)
  = map_res (fun x => match x with Some z => Some (- z)%C | None => None end)
            (trans_coef (s t) (Some q) None (Some nu) (pol p)).
Proof.
  intros p a top l below ts1 ts2 nu0 nu q t k W1 W2 HK HN Ek s.
  destruct (stack_decomp _ _ W1) as (a' & i1 & l' & E1 & ->).
  unfold eps_of in E1. injection E1 as <- E1. apply app_inj_tail in E1. destruct E1 as [-> <-].
  destruct (stack_decomp _ _ W2) as (l' & i2 & b & E2 & ->).
  unfold eps_of in E2. injection E2 as <- ->.
  assert (EL : forall u, eps_of a (i1 ++ (l, u) :: i2) b = a :: map fst i1 ++ l :: (map fst i2 ++ [b])).
  { intros u. unfold eps_of. rewrite map_app. cbn [map fst]. rewrite <- app_assoc. reflexivity. }
  assert (ET : forall u, map snd (i1 ++ (l, u) :: i2) = map snd i1 ++ u :: map snd i2) by (intros u; rewrite map_app; reflexivity).
  assert (HC : forall u, 
    refl_coef (s u) (Some q) None (Some nu) (pol p)
      = Ok (Some (c10 (stackM (TL p) PL a (i1 ++ (l, u) :: i2) b)) / Some (c00 (stackM (TL p) PL a (i1 ++ (l, u) :: i2) b)))%cv /\
    trans_coef (s u) (Some q) None (Some nu) (pol p)
      = Ok (rc 1 / Some (c00 (stackM (TL p) PL a (i1 ++ (l, u) :: i2) b)))%cv).
  { intros u. pose proof (ff_coefs p a (i1 ++ (l, u) :: i2) b nu0 nu q) as F. cbv zeta in F.
    rewrite EL, ET in F. apply F; [exact HK|]. apply okL_all. rewrite EL. exact HN. }
  assert (Nk : k <> 0).
  { apply Forall_cons_iff in HN. destruct HN as [_ HN]. apply Forall_app in HN. destruct HN as [_ HN].
    apply Forall_cons_iff in HN. destruct HN as [[HN _] _]. rewrite Ek in HN. intros ->. apply HN. reflexivity. }
  set (A := stackM (TL p) PL a i1 l). set (B := stackM (TL p) PL l i2 b).
  assert (E0 : c00 (stackM (TL p) PL a (i1 ++ (l, t + PI / k) :: i2) b)
             = (- c00 (stackM (TL p) PL a (i1 ++ (l, t) :: i2) b))%C).
  { rewrite !stackM_app. destruct l as [e kl]. cbn [snd] in Ek. subst kl. fold A B.
    rewrite PL_half_turn by exact Nk. unfold PL. unfold pmul, pP. cbn [c00 c01 c10 c11]. ring. }
  assert (E1 : c10 (stackM (TL p) PL a (i1 ++ (l, t + PI / k) :: i2) b)
             = (- c10 (stackM (TL p) PL a (i1 ++ (l, t) :: i2) b))%C).
  { rewrite !stackM_app. destruct l as [e kl]. cbn [snd] in Ek. subst kl. fold A B.
    rewrite PL_half_turn by exact Nk. unfold PL. unfold pmul, pP. cbn [c00 c01 c10 c11]. ring. }
  destruct (HC t) as [C1 C2]. destruct (HC (t + PI / k)) as [C3 C4].
  rewrite C1, C2, C3, C4, E0, E1. split; [f_equal; apply cdiv_opp|].
  cbn [map_res]. f_equal. unfold rc. apply cdiv_opp_r.
Qed.

(** example: light at normal incidence on an absorbing film (permittivity
    3 + 4i, wavevector 2 + i) on a substrate of permittivity 4; the cut-off
    stack is the interface vacuum / film *)
Lemma C67_example_proof :
  exists K T, forall t, T <= t -> exists r tr,
    let s := stack [RtoC 1; (3, 4)%R; RtoC 4] [t] None in
    refl_coef s (Some 0) None (Some 1) "s" = Ok (Some r) /\
    Cmod (r - (-1, -1)%R / (3, 1)%R)%C <= K * exp (- (2 * 1) * t) /\
    trans_coef s (Some 0) None (Some 1) "s" = Ok (Some tr) /\
    Cmod tr <= K * exp (- 1 * t).
Proof.
  refine (C67_opaque_layer_hides_proof false (RtoC 1, RtoC 1) [] ((3, 4)%R, (2, 1)%R) [(RtoC 4, RtoC 2)] [] [] None 1 0
    _ ((0, 1)%R / (4, 1)%R)%C _ _ _ _).
  - repeat (apply Forall_cons; [split; [apply C_eq; unfold Re, Im; simpl; ring|left; unfold Re; simpl; lra]|]). apply Forall_nil.
  - unfold Im. simpl. lra.
  - cbn [app]. apply parratt_bottom. cbn. split; [apply C_neq_0; lra|]. split; [|].
    + apply C_neq_0. simpl. lra.
    + f_equal; apply C_eq; unfold Re, Im; simpl; ring.
  - apply parratt_bottom. cbn. split; [apply C_neq_0; lra|]. split; [|].
    + apply C_neq_0. simpl. lra.
    + f_equal; apply C_eq; unfold Re, Im; simpl; ring.
Qed.

(** example: a film of wavevector 2 between wavevectors 1 and 3 *)
Lemma C67_periodic_example_proof : forall t,
  refl_coef (stack [RtoC 1; RtoC 4; RtoC 9] [t + PI / 2] None) (Some 0) None (Some 1) "p"
  = refl_coef (stack [RtoC 1; RtoC 4; RtoC 9] [t] None) (Some 0) None (Some 1) "p".
Proof.
  intros t.
  apply (C67_transparent_layer_periodic_proof true (RtoC 1, RtoC 1) [] (RtoC 4, RtoC 2) [(RtoC 9, RtoC 3)] [] [] None 1 0 t 2);
    try reflexivity.
  - repeat (apply Forall_cons; [split; [apply C_eq; unfold Re, Im; simpl; ring|left; unfold Re; simpl; lra]|]). apply Forall_nil.
  - repeat (apply Forall_cons; [split; [apply RtoC_neq_0; simpl; lra|intros _; apply RtoC_neq_0; simpl; lra]|]). apply Forall_nil.
Qed.
