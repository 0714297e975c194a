(** * Proofs: far-field equivalences, determinants, conventions, validation *)
From Coq Require Import String Reals Lra Lia ZArith List Bool.
From Coquelicot Require Import Rcomplements Complex.
From Verif Require Import Num NumLemmas ModelBase ModelSample ModelTip StackLemmas Spec
  ProofsStackQS ProofsStackQS2 ProofsStackFF.
Import ListNotations.
Open Scope R_scope.

Lemma kz_neq_0 nu q e : (e * RtoC (nu ^ 2) - RtoC (q ^ 2) <> 0)%C -> kz nu q e <> RtoC 0.
Proof. apply Csqrt_neq_0. Qed.

(** every wavevector of the stack is nonzero; for p also every permittivity
    below the environment *)
Definition ff_regular (p : bool) (nu q : R) (es : list C) : Prop :=
  Forall (fun e => (e * RtoC (nu ^ 2) - RtoC (q ^ 2) <> 0)%C) es /\
  (p = true -> nonzero_below es).

Lemma ff_regular_ok p nu q inner : forall e0 en,
  ff_regular p nu q (eps_of e0 inner en) -> okstack (okff p nu q) e0 inner en.
Proof.
  induction inner as [|[e t] rest IH]; intros e0 en [H1 H2].
  - cbn. cbn in H1, H2. split; [apply kz_neq_0; now inversion H1|].
    intros E. specialize (H2 E). unfold nonzero_below in H2. cbn in H2. now inversion H2.
  - cbn [okstack]. unfold eps_of in *. cbn [map app fst] in *.
    apply Forall_cons_iff in H1. destruct H1 as [K0 K1]. split.
    + split; [apply kz_neq_0; exact K0|]. intros E. specialize (H2 E).
      unfold nonzero_below in H2. cbn [tl] in H2. now inversion H2.
    + apply IH. split; [exact K1|]. intros E. specialize (H2 E).
      unfold nonzero_below in *. cbn [tl] in *. now inversion H2.
Qed.

Lemma transfer_matrix_explicit p e0 inner en nu0 nu q :
  ff_regular p nu q (eps_of e0 inner en) ->
  transfer_matrix (stack (eps_of e0 inner en) (map snd inner) nu0) (Some q) None (Some nu) (pol p)
  = Ok (lift (Mff p nu q e0 inner en)).
Proof.
  intros H. rewrite stack_struct, pol_pol_str.
  rewrite (transfer_matrix_struct _ _ _ _ _ _ _ _ nu q); [reflexivity| | |apply ff_regular_ok; exact H];
    reflexivity.
Qed.

Definition goodff (p : bool) (nu q : R) (e : C) : Prop := kz nu q e <> RtoC 0 /\ (p = true -> e <> RtoC 0).

Lemma Tff_comp p nu q a e b :
  kz nu q a <> RtoC 0 -> goodff p nu q e -> (p = true -> b <> RtoC 0) ->
  pmul (Tff p nu q a e) (Tff p nu q e b) = Tff p nu q a b.
Proof.
  intros Ha [He He'] Hb. unfold Tff. rewrite pT_mul. f_equal. unfold ffactor.
  destruct p; field; auto.
Qed.
Lemma Pff_0 nu q e : Pff nu q e 0 = pI.
Proof.
  unfold Pff. replace (kz nu q e * RtoC 0)%C with (RtoC 0) by ring.
  replace ((0, -1)%R * 0)%C with (RtoC 0) by ring. replace ((0, 1)%R * 0)%C with (RtoC 0) by ring.
  rewrite Cexp_0. reflexivity.
Qed.
Lemma Pff_add nu q e x y : pmul (Pff nu q e x) (Pff nu q e y) = Pff nu q e (x + y).
Proof.
  unfold Pff. rewrite pP_mul, <- !Cexp_plus. f_equal; f_equal; rewrite RtoC_plus; ring.
Qed.
Lemma Tff_self p nu q e : goodff p nu q e -> Tff p nu q e e = pI.
Proof.
  intros [H1 H2]. unfold Tff. replace (ffactor p nu q e e) with (RtoC 1); [apply pT_1|].
  unfold ffactor. destruct p; field; auto.
Qed.

Lemma insert_ff p nu q (i1 : list (C * R)) : forall a e i2 b,
  ff_regular p nu q (eps_of a (i1 ++ (e, 0) :: i2) b) ->
  Mff p nu q a (i1 ++ (e, 0) :: i2) b = Mff p nu q a (i1 ++ i2) b.
Proof.
  unfold Mff. induction i1 as [|[x tx] i1 IH]; intros a e i2 b H.
  - apply ff_regular_ok in H. cbn [app stackM]. rewrite Pff_0, pmul_I_l.
    destruct i2 as [|[y ty] i2]; cbn in H.
    + cbn [stackM]. destruct H as [[A1 A2] [B1 B2]]. apply Tff_comp; auto. split; auto.
    + cbn [stackM]. destruct H as [[A1 A2] [[B1 B2] _]]. rewrite <- pmul_assoc. f_equal.
      apply Tff_comp; auto. split; auto.
  - cbn [app stackM]. rewrite IH; [reflexivity|].
    destruct H as [H1 H2]. unfold eps_of in *. cbn [map app fst] in *. split.
    + now apply Forall_inv_tail in H1.
    + intros E. specialize (H2 E). unfold nonzero_below in *. cbn [tl] in *. now apply Forall_inv_tail in H2.
Qed.

(** C11. Zero-thickness layers are invisible in the far field. *)
Lemma C11_zero_thickness_layer_invisible_proof :
  forall (p : bool) (l1 l2 : list C) (t1 t2 : list R) (e : C) nu0 (nu q : R),
  length l1 = (length t1 + 1)%nat -> length l2 = (length t2 + 1)%nat ->
  Forall (fun e => (e * RtoC (nu ^ 2) - RtoC (q ^ 2) <> 0)%C) (l1 ++ e :: l2) ->
  (p = true -> nonzero_below (l1 ++ e :: l2)) ->
  transfer_matrix (stack (l1 ++ e :: l2) (t1 ++ 0 :: t2) nu0) (Some q) None (Some nu) (pol p)
  = transfer_matrix (stack (l1 ++ l2) (t1 ++ t2) nu0) (Some q) None (Some nu) (pol p).
Proof.
  intros p l1 l2 t1 t2 e nu0 nu q H1 H2 Hk Hn.
  assert (HR : ff_regular p nu q (l1 ++ e :: l2)) by (split; assumption). clear Hk Hn.
  destruct (split_decomp l1 l2 t1 t2 H1 H2) as (a & i1 & i2 & b & -> & -> & -> & ->).
  pose proof (eps_of_app a i1 [(e, 0)] i2 b) as E1. cbn in E1.
  pose proof (eps_of_app a i1 [] i2 b) as E2. cbn in E2.
  cbn [app] in *. rewrite E1 in *. rewrite E2.
  change (0 :: map snd i2) with (map snd ((e, 0) :: i2)). rewrite <- !map_app.
  rewrite !transfer_matrix_explicit.
  - rewrite insert_ff by exact HR. reflexivity.
  - destruct HR as [K1 K2]. unfold eps_of, nonzero_below in *. cbn [tl] in *.
    rewrite map_app in *. cbn [map fst] in *. rewrite <- app_assoc in *. cbn [app] in *.
    split.
    + apply Forall_cons_iff in K1. destruct K1 as [K1 K3]. constructor; [exact K1|].
      apply Forall_app in K3. destruct K3 as [K3 K4]. apply Forall_app. split; [exact K3|].
      now apply Forall_inv_tail in K4.
    + intros E. specialize (K2 E). cbn [tl] in *.
      apply Forall_app in K2. destruct K2 as [K3 K4]. apply Forall_app. split; [exact K3|].
      now apply Forall_inv_tail in K4.
  - exact HR.
Qed.

Lemma split_ff p nu q (i1 : list (C * R)) : forall a e x y i2 b,
  goodff p nu q e ->
  Mff p nu q a (i1 ++ (e, x) :: (e, y) :: i2) b = Mff p nu q a (i1 ++ (e, x + y) :: i2) b.
Proof.
  unfold Mff. induction i1 as [|[u tu] i1 IH]; intros a e x y i2 b He.
  - cbn [app stackM]. f_equal. rewrite Tff_self, pmul_I_l by exact He.
    rewrite <- pmul_assoc, Pff_add. reflexivity.
  - cbn [app stackM]. rewrite IH by assumption. reflexivity.
Qed.

(** C11. Splitting a layer in two is invisible in the far field. *)
Lemma C11_split_layer_invisible_proof :
  forall (p : bool) (l1 l2 : list C) (t1 t2 : list R) (e : C) nu0 (nu q x y : R),
  length l1 = (length t1 + 1)%nat -> length l2 = (length t2 + 1)%nat ->
  Forall (fun e => (e * RtoC (nu ^ 2) - RtoC (q ^ 2) <> 0)%C) (l1 ++ e :: l2) ->
  (p = true -> nonzero_below (l1 ++ e :: l2)) ->
  transfer_matrix (stack (l1 ++ e :: e :: l2) (t1 ++ x :: y :: t2) nu0) (Some q) None (Some nu) (pol p)
  = transfer_matrix (stack (l1 ++ e :: l2) (t1 ++ (x + y) :: t2) nu0) (Some q) None (Some nu) (pol p).
Proof.
  intros p l1 l2 t1 t2 e nu0 nu q x y H1 H2 Hk Hn.
  assert (HR : ff_regular p nu q (l1 ++ e :: l2)) by (split; assumption). clear Hk Hn.
  destruct (split_decomp l1 l2 t1 t2 H1 H2) as (a & i1 & i2 & b & -> & -> & -> & ->).
  pose proof (eps_of_app a i1 [(e, x); (e, y)] i2 b) as E1. cbn in E1.
  pose proof (eps_of_app a i1 [(e, x + y)] i2 b) as E2. cbn in E2.
  cbn [app] in *. rewrite E1 in *. rewrite E2 in *.
  change (x :: y :: map snd i2) with (map snd ((e, x) :: (e, y) :: i2)).
  change ((x + y) :: map snd i2) with (map snd ((e, x + y) :: i2)). rewrite <- !map_app.
  assert (HR' : ff_regular p nu q (eps_of a (i1 ++ (e, x) :: (e, y) :: i2) b) /\ goodff p nu q e).
  { destruct HR as [K1 K2]. unfold eps_of, nonzero_below in *. cbn [tl] in *.
    rewrite !map_app in *. cbn [map fst] in *. rewrite <- !app_assoc in *. cbn [app] in *.
    apply Forall_cons_iff in K1. destruct K1 as [K1 K3].
    apply Forall_app in K3. destruct K3 as [K3 K4]. pose proof (Forall_inv K4) as K5. cbn in K5.
    split; [split|split].
    - constructor; [exact K1|]. apply Forall_app. auto.
    - intros E. specialize (K2 E). cbn [tl] in *. apply Forall_app in K2. destruct K2 as [K2 K6].
      apply Forall_app. split; auto. constructor; [now inversion K6|exact K6].
    - apply kz_neq_0. exact K5.
    - intros E. specialize (K2 E). cbn [tl] in *. apply Forall_app in K2. destruct K2 as [K2 K6].
      now inversion K6. }
  destruct HR' as [HR' Hg].
  rewrite !transfer_matrix_explicit by assumption.
  rewrite split_ff by exact Hg. reflexivity.
Qed.

(** ** C16 in the far field *)
(** p: eps/k, s: 1/k *)
Definition fweight (p : bool) (nu q : R) (e : C) : C :=
  if p then (e / kz nu q e)%C else (/ kz nu q e)%C.
Lemma Cinv_neq_0 (k : C) : k <> RtoC 0 -> (/ k)%C <> RtoC 0.
Proof. intros H E. apply C1_neq_0. rewrite <- (Cinv_r k H), E. ring. Qed.
Lemma fweight_neq p nu q e : goodff p nu q e -> fweight p nu q e <> RtoC 0.
Proof.
  intros [H1 H2]. unfold fweight. destruct p; [apply Cdiv_neq_0; auto|apply Cinv_neq_0; auto].
Qed.

Lemma ffactor_weight p nu q a b : kz nu q a <> RtoC 0 -> goodff p nu q b ->
  ffactor p nu q a b = (fweight p nu q a / fweight p nu q b)%C.
Proof.
  intros H [H1 H2]. unfold ffactor, fweight. destruct p; field; auto using Cinv_neq_0.
Qed.

Lemma det_Mff p nu q inner : forall e0 en,
  ff_regular p nu q (eps_of e0 inner en) ->
  det (Mff p nu q e0 inner en) = ffactor p nu q e0 en.
Proof.
  unfold Mff. induction inner as [|[e t] rest IH]; intros e0 en H.
  - cbn [stackM]. apply det_pT.
  - cbn [stackM]. rewrite !det_mul.
    assert (H' : ff_regular p nu q (eps_of e rest en)).
    { destruct H as [H1 H2]. unfold eps_of, nonzero_below in *. cbn [map app fst tl] in *. split.
      - now apply Forall_inv_tail in H1.
      - intros E. specialize (H2 E). cbn [tl] in *. now apply Forall_inv_tail in H2. }
    rewrite (IH e en H'). unfold Tff, Pff. rewrite det_pT, det_pP, <- Cexp_plus.
    replace ((0, -1)%R * (kz nu q e * RtoC t) + (0, 1)%R * (kz nu q e * RtoC t))%C with (RtoC 0)
      by (apply C_eq; unfold Re, Im; simpl; ring).
    rewrite Cexp_0.
    assert (Hen : (p = true -> en <> RtoC 0) /\ (p = true -> e <> RtoC 0) /\ kz nu q e <> RtoC 0 /\ kz nu q e0 <> RtoC 0).
    { destruct H as [H1 H2]. unfold eps_of, nonzero_below in *. cbn [map app fst tl] in *.
      apply Forall_cons_iff in H1. destruct H1 as [H1 H3]. apply Forall_inv in H3.
      repeat split; try (apply kz_neq_0; assumption); intros E; specialize (H2 E); cbn [tl] in *.
      - apply Forall_inv_tail in H2. apply Forall_app in H2. destruct H2 as [_ H2]. now inversion H2.
      - now inversion H2. }
    destruct Hen as (A1 & A2 & A3 & A4). unfold ffactor. destruct p; field; auto.
Qed.

(** C16. Determinant of the far-field transfer matrix; [k0], [kn] are the
    (principal) wavevectors of environment and substrate. *)
Lemma C16_det_transfer_matrix_proof :
  forall (p : bool) (e0 : C) (mid : list C) (en : C) (ts : list R) nu0 (nu q : R) (k0 kn : C),
  length mid = length ts ->
  Forall (fun e => (e * RtoC (nu ^ 2) - RtoC (q ^ 2) <> 0)%C) (e0 :: mid ++ [en]) ->
  (p = true -> nonzero_below (e0 :: mid ++ [en])) ->
  is_kz nu q e0 k0 -> principal k0 -> is_kz nu q en kn -> principal kn ->
  exists M, transfer_matrix (stack (e0 :: mid ++ [en]) ts nu0) (Some q) None (Some nu) (pol p) = Ok M /\
    (m00 M * m11 M - m01 M * m10 M)%cv
    = Some (if p then e0 * kn / (en * k0) else kn / k0)%C.
Proof.
  intros p e0 mid en ts nu0 nu q k0 kn Hl Hk Hn K0 P0 Kn Pn.
  apply is_kz_principal in K0; [|exact P0]. apply is_kz_principal in Kn; [|exact Pn]. subst k0 kn.
  assert (HR : ff_regular p nu q (e0 :: mid ++ [en])) by (split; assumption). clear Hk Hn.
  destruct (stack_decomp (e0 :: mid ++ [en]) ts) as (a & inner & b & E & ->).
  { simpl. rewrite app_length. simpl. lia. }
  rewrite E in *.
  unfold eps_of in E. injection E as -> E. apply app_inj_tail in E. destruct E as [-> ->].
  rewrite transfer_matrix_explicit by exact HR.
  eexists. split; [reflexivity|].
  change (Some (det (Mff p nu q a inner b)) = Some (ffactor p nu q a b)). f_equal.
  apply det_Mff. exact HR.
Qed.

Lemma Tff_rev p nu q a b : goodff p nu q a -> goodff p nu q b ->
  Tff p nu q b a = smul (fweight p nu q b / fweight p nu q a)%C (flip (Tff p nu q a b)).
Proof.
  intros Ha Hb. unfold Tff. rewrite !ffactor_weight by (assumption || apply Ha || apply Hb).
  pose proof (fweight_neq _ _ _ _ Ha). pose proof (fweight_neq _ _ _ _ Hb).
  apply cmat_eq; simpl; field; auto.
Qed.

Lemma stackM_rev_ff p nu q inner : forall e0 en,
  goodff p nu q e0 -> Forall (goodff p nu q) (map fst inner ++ [en]) ->
  Mff p nu q en (rev inner) e0 = smul (fweight p nu q en / fweight p nu q e0)%C (flip (Mff p nu q e0 inner en)).
Proof.
  unfold Mff. induction inner as [|[l t] rest IH]; intros l0 ln H0 H; cbn in H.
  - apply Tff_rev; [exact H0|]. now inversion H.
  - apply Forall_cons_iff in H. destruct H as [Hl Hr].
    cbn [rev stackM]. rewrite stackM_app. cbn [stackM].
    rewrite (IH l ln Hl Hr), (Tff_rev p nu q l0 l H0 Hl), !flip_mul.
    unfold Pff. rewrite flip_pP, !pmul_assoc.
    pose proof (fweight_neq _ _ _ _ Hl). pose proof (fweight_neq _ _ _ _ H0).
    apply cmat_eq; simpl; field; auto.
Qed.

(** C16. Reversing the stack multiplies the far-field transmission
    coefficient by the same ratio. *)
Lemma C16_reciprocity_proof :
  forall (p : bool) (e0 : C) (mid : list C) (en : C) (ts : list R) nu0 (nu q : R) (k0 kn : C),
  length mid = length ts ->
  Forall (fun e => (e * RtoC (nu ^ 2) - RtoC (q ^ 2) <> 0)%C) (e0 :: mid ++ [en]) ->
  (p = true -> Forall (fun e => e <> RtoC 0) (e0 :: mid ++ [en])) ->
  is_kz nu q e0 k0 -> principal k0 -> is_kz nu q en kn -> principal kn ->
  trans_coef (stack (rev (e0 :: mid ++ [en])) (rev ts) nu0) (Some q) None (Some nu) (pol p)
  = (let! t := trans_coef (stack (e0 :: mid ++ [en]) ts nu0) (Some q) None (Some nu) (pol p) in
     Ok (Some (if p then e0 * kn / (en * k0) else kn / k0)%C * t)%cv).
Proof.
  intros p e0 mid en ts nu0 nu q k0 kn Hl Hk Hn K0 P0 Kn Pn.
  apply is_kz_principal in K0; [|exact P0]. apply is_kz_principal in Kn; [|exact Pn]. subst k0 kn.
  assert (HG : Forall (goodff p nu q) (e0 :: mid ++ [en])).
  { apply Forall_forall. intros e He. split.
    - apply kz_neq_0. rewrite Forall_forall in Hk. auto.
    - intros E. specialize (Hn E). rewrite Forall_forall in Hn. auto. }
  assert (HR : ff_regular p nu q (e0 :: mid ++ [en])).
  { split; [exact Hk|]. intros E. specialize (Hn E). now inversion Hn. }
  assert (HR' : ff_regular p nu q (rev (e0 :: mid ++ [en]))).
  { split; [apply Forall_rev; exact Hk|]. intros E. specialize (Hn E). apply Forall_rev in Hn.
    unfold nonzero_below. destruct (rev (e0 :: mid ++ [en])); [constructor|]. now inversion Hn. }
  destruct (stack_decomp (e0 :: mid ++ [en]) ts) as (a & inner & b & E & ->).
  { simpl. rewrite app_length. simpl. lia. }
  rewrite E in *. rewrite eps_of_rev, <- map_rev in *.
  unfold eps_of in E. injection E as -> E. apply app_inj_tail in E. destruct E as [-> ->].
  unfold trans_coef. rewrite !transfer_matrix_explicit by assumption.
  cbn [rbind lift m00]. f_equal.
  unfold eps_of in HG. apply Forall_cons_iff in HG. destruct HG as [Ga Gi].
  assert (Gb : goodff p nu q b) by (apply Forall_app in Gi; destruct Gi as [_ Gi]; now inversion Gi).
  rewrite stackM_rev_ff by assumption. cbn [smul flip c00].
  pose proof (fweight_neq _ _ _ _ Ga) as Wa. pose proof (fweight_neq _ _ _ _ Gb) as Wb.
  replace (if p then (a * kz nu q b / (b * kz nu q a))%C else (kz nu q b / kz nu q a)%C)
    with (fweight p nu q a / fweight p nu q b)%C.
  2:{ symmetry. apply (ffactor_weight p nu q a b); [apply Ga|exact Gb]. }
  set (m := c00 (Mff p nu q a inner b)). set (wa := fweight p nu q a) in *. set (wb := fweight p nu q b) in *.
  destruct (Ceq_dec m 0) as [E|E].
  - rewrite E. replace (wb / wa * 0)%C with (RtoC 0) by ring. rewrite !cdiv_zero. reflexivity.
  - unfold rc. rewrite !cdiv_ok by (auto; apply Cmult_neq_0; auto; apply Cdiv_neq_0; auto).
    unfold cmul. cbn [olift2]. f_equal. field. auto.
Qed.

(** ** C18: argument validation *)
(** C18. Which ValueError a far-field call raises, in order of precedence,
    and that it raises nothing else, for a sample with at least two layers. *)
Lemma C18_far_field_errors_proof :
  forall (s : sample) (q theta_in nu : option R) (polarization : string),
  (2 <= n_layers s)%nat ->
  let missing_nu := nu = None /\ nu_vac s = None /\ (2 < n_layers s)%nat in
  let both := q <> None /\ theta_in <> None in
  let badpol := polarization <> "p"%string /\ polarization <> "s"%string in
  let call_raises := fun msg =>
    transfer_matrix s q theta_in nu polarization = Raise (ValueError msg) /\
    refl_coef s q theta_in nu polarization = Raise (ValueError msg) /\
    trans_coef s q theta_in nu polarization = Raise (ValueError msg) in
  (missing_nu -> call_raises "`nu_vac` must not be None for multilayer samples."%string) /\
  (~ missing_nu -> both -> call_raises "Either `theta_in` or `q` must be None."%string) /\
  (~ missing_nu -> ~ both -> badpol -> call_raises "`polarization` must be 's' or 'p'"%string) /\
  (~ missing_nu -> ~ both -> ~ badpol ->
     exists M r t, transfer_matrix s q theta_in nu polarization = Ok M /\
       refl_coef s q theta_in nu polarization = Ok r /\
       trans_coef s q theta_in nu polarization = Ok t).
Proof.
  intros s q th nu pl Hs missing both badpol cr.
  assert (Hcr : forall m, transfer_matrix s q th nu pl = Raise (ValueError m) -> cr m).
  { intros m H. unfold cr, refl_coef, trans_coef. rewrite H. auto. }
  assert (Hres : ~ missing -> exists v, resolve_nu s nu = Ok v).
  { intros Hm. unfold resolve_nu, multilayer. destruct nu; [eauto|].
    destruct (nu_vac s) eqn:En; [eauto|].
    destruct (Nat.ltb_spec 2 (n_layers s)); [|eauto]. exfalso. apply Hm. repeat split; auto. }
  assert (Hq : ~ both -> forall v, exists u, resolve_q v q th = Ok u).
  { intros Hb v. unfold resolve_q. destruct th, q; eauto. exfalso. apply Hb. split; discriminate. }
  assert (E0 : Nat.eqb (n_layers s) 0 = false) by (apply Nat.eqb_neq; lia).
  repeat split; intros.
  - apply Hcr. destruct H as (-> & Hn & Hm). unfold transfer_matrix, resolve_nu, multilayer.
    rewrite Hn. destruct (Nat.ltb_spec 2 (n_layers s)); [reflexivity|lia].
  - apply Hcr in H || idtac. unfold refl_coef. destruct H as (-> & Hn & Hm). unfold transfer_matrix, resolve_nu, multilayer.
    rewrite Hn. destruct (Nat.ltb_spec 2 (n_layers s)); [reflexivity|lia].
  - unfold trans_coef. destruct H as (-> & Hn & Hm). unfold transfer_matrix, resolve_nu, multilayer.
    rewrite Hn. destruct (Nat.ltb_spec 2 (n_layers s)); [reflexivity|lia].
  - destruct (Hres H) as [v Hv]. destruct H0 as [K1 K2]. unfold transfer_matrix. rewrite Hv. cbn [rbind].
    destruct q, th; try congruence. reflexivity.
  - destruct (Hres H) as [v Hv]. destruct H0 as [K1 K2]. unfold refl_coef, transfer_matrix. rewrite Hv. cbn [rbind].
    destruct q, th; try congruence. reflexivity.
  - destruct (Hres H) as [v Hv]. destruct H0 as [K1 K2]. unfold trans_coef, transfer_matrix. rewrite Hv. cbn [rbind].
    destruct q, th; try congruence. reflexivity.
  - destruct (Hres H) as [v Hv]. destruct (Hq H0 v) as [u Hu]. destruct H1 as [K1 K2].
    unfold transfer_matrix. rewrite Hv. cbn [rbind]. rewrite Hu. cbn [rbind]. rewrite E0.
    destruct (String.eqb_spec pl "p"); [congruence|]. destruct (String.eqb_spec pl "s"); [congruence|]. reflexivity.
  - destruct (Hres H) as [v Hv]. destruct (Hq H0 v) as [u Hu]. destruct H1 as [K1 K2].
    unfold refl_coef, transfer_matrix. rewrite Hv. cbn [rbind]. rewrite Hu. cbn [rbind]. rewrite E0.
    destruct (String.eqb_spec pl "p"); [congruence|]. destruct (String.eqb_spec pl "s"); [congruence|]. reflexivity.
  - destruct (Hres H) as [v Hv]. destruct (Hq H0 v) as [u Hu]. destruct H1 as [K1 K2].
    unfold trans_coef, transfer_matrix. rewrite Hv. cbn [rbind]. rewrite Hu. cbn [rbind]. rewrite E0.
    destruct (String.eqb_spec pl "p"); [congruence|]. destruct (String.eqb_spec pl "s"); [congruence|]. reflexivity.
  - destruct (Hres H) as [v Hv]. destruct (Hq H0 v) as [u Hu].
    assert (HM : exists M, transfer_matrix s q th nu pl = Ok M).
    { unfold transfer_matrix. rewrite Hv. cbn [rbind]. rewrite Hu. cbn [rbind]. rewrite E0.
      destruct (n_layers s) as [|[|k]] eqn:En; try lia.
      replace (S (S k) - 1)%nat with (S k) by lia. cbn [seq map].
      destruct (String.eqb_spec pl "p") as [Ep|Ep].
      - cbn [rbind seq map]. destruct (multilayer s); eauto.
      - destruct (String.eqb_spec pl "s") as [Es|Es].
        + cbn [rbind seq map]. destruct (multilayer s); eauto.
        + exfalso. apply H1. split; assumption. }
    destruct HM as [M HM]. exists M. unfold refl_coef, trans_coef. rewrite HM. cbn. eauto.
Qed.

(** C18. A wavenumber given at the call overrides the stored one; a missing
    one is taken from the sample. *)
Lemma C18_call_nu_overrides_proof :
  forall es ts (nu0 nu1 : option R) (v : R) q theta_in polarization,
  transfer_matrix (mkSample es ts nu0) q theta_in (Some v) polarization
  = transfer_matrix (mkSample es ts nu1) q theta_in (Some v) polarization /\
  transfer_matrix (mkSample es ts (Some v)) q theta_in None polarization
  = transfer_matrix (mkSample es ts nu0) q theta_in (Some v) polarization.
Proof. intros. split; reflexivity. Qed.

(** ** C21 *)
Lemma kz_nu0 q e : 0 <= q -> kz 0 q e = (0, q).
Proof.
  intros H. unfold kz. replace (e * RtoC (0 ^ 2) - RtoC (q ^ 2))%C with (RtoC (- q ^ 2)).
  - apply Csqrt_neg. exact H.
  - rewrite pow_i by lia. rewrite RtoC_opp. ring.
Qed.

Lemma Mff_nu0 q inner : 0 < q -> forall e0 en,
  Forall (fun e => e <> RtoC 0) (map fst inner ++ [en]) ->
  Forall (fun t => Rabs (q * t) <= MAX_EXP_ARG) (map snd inner) ->
  Mff true 0 q e0 inner en = Mqs q e0 inner en.
Proof.
  intros Hq. assert (Hi : (0, q)%R <> RtoC 0) by (apply C_neq_0; lra).
  assert (HT : forall a b, b <> RtoC 0 -> Tff true 0 q a b = Tqs a b).
  { intros a b Hb. unfold Tff, Tqs, ffactor. rewrite !kz_nu0 by lra. f_equal. field. auto. }
  unfold Mff, Mqs. induction inner as [|[e t] rest IH]; intros e0 en H Ht; cbn [stackM map app fst snd] in *.
  - apply HT. now inversion H.
  - apply Forall_cons_iff in H. destruct H as [He H]. apply Forall_cons_iff in Ht. destruct Ht as [Ht1 Ht].
    rewrite IH, HT by assumption. f_equal. f_equal.
    unfold Pff, Pqs. rewrite kz_nu0, clipR_id by (assumption || lra).
    rewrite <- !Cexp_R. f_equal; f_equal; apply C_eq; unfold Re, Im; simpl; ring.
Qed.

(** C21. The quasistatic transfer matrix is exactly the p-polarized one at
    nu_vac = 0. *)
Lemma C21_quasistatic_is_zero_wavenumber_proof :
  forall (es : list C) (ts : list R) nu0 (q : R),
  wf es ts -> nonzero_below es -> 0 < q ->
  Forall (fun t => Rabs (q * t) <= MAX_EXP_ARG) ts ->
  transfer_matrix (stack es ts nu0) (Some q) None (Some 0) "p" = transfer_matrix_qs (stack es ts nu0) (rr q) /\
  refl_coef (stack es ts nu0) (Some q) None (Some 0) "p" = refl_coef_qs (stack es ts nu0) (rr q) /\
  trans_coef (stack es ts nu0) (Some q) None (Some 0) "p" = trans_coef_qs (stack es ts nu0) (rr q).
Proof.
  intros es ts nu0 q Hw Hn Hq Ht.
  assert (E : transfer_matrix (stack es ts nu0) (Some q) None (Some 0) "p" = transfer_matrix_qs (stack es ts nu0) (rr q)).
  { destruct (stack_decomp es ts Hw) as (e0 & inner & en & -> & ->).
    rewrite (transfer_matrix_explicit true).
    - rewrite stack_struct, transfer_matrix_qs_struct by exact Hn. rewrite Mff_nu0 by assumption. reflexivity.
    - split; [|auto]. apply Forall_forall. intros e _ E. 
      assert (E' : RtoC (- q ^ 2) = RtoC 0).
      { rewrite <- E. rewrite pow_i by lia. rewrite RtoC_opp. ring. }
      apply RtoC_inj in E'. nra. }
  split; [exact E|]. unfold refl_coef, trans_coef, refl_coef_qs, trans_coef_qs. rewrite E. auto.
Qed.
