(** * Proofs: stacks of reciprocal permittivities (C86) *)
From Coq Require Import String Reals Lra Lia ZArith List Bool.
From Coquelicot Require Import Rcomplements Complex.
From Verif Require Import Num NumLemmas ModelBase ModelSample ModelTip StackLemmas Spec SpecDual ProofsStackQS ProofsStackQS2 ProofsSym.
Import ListNotations.
Open Scope R_scope.

(** [c * S M S] with S = diag(1, -1) *)
Definition twist (c : C) (M : cmat) : cmat := mkC (c * c00 M)%C (- (c * c01 M))%C (- (c * c10 M))%C (c * c11 M)%C.
Arguments twist c%C_scope M.
Lemma twist_mul c d M N : pmul (twist c M) (twist d N) = twist (c * d) (pmul M N).
Proof. apply cmat_eq; simpl; ring. Qed.
Lemma twist_P a b : pP a b = twist 1 (pP a b).
Proof. apply cmat_eq; simpl; ring. Qed.
Lemma twist_T a b : a <> RtoC 0 -> b <> RtoC 0 -> Tqs (/ a)%C (/ b)%C = twist (b / a) (Tqs a b).
Proof.
  intros Ha Hb. unfold Tqs. replace (/ a / / b)%C with (b / a)%C by (field; auto). apply cmat_eq; simpl; field; auto.
Qed.
Definition dinner (inner : list (C * R)) : list (C * R) := map (fun p => (/ fst p, snd p)%C) inner.
Lemma Mqs_dual q inner : forall e0 en, e0 <> RtoC 0 -> Forall (fun e => e <> RtoC 0) (map fst inner ++ [en]) ->
  Mqs q (/ e0)%C (dinner inner) (/ en)%C = twist (en / e0) (Mqs q e0 inner en).
Proof.
  unfold Mqs. induction inner as [|[l t] rest IH]; intros e0 en H0 H; cbn [dinner map fst snd stackM app] in *.
  - inversion H; subst. now apply twist_T.
  - inversion H as [|? ? Hl Hr]; subst. fold (dinner rest). rewrite (IH l en Hl Hr), twist_T by assumption.
    unfold Pqs at 1. rewrite twist_P. fold (Pqs q l t). rewrite !twist_mul. f_equal. field. auto.
Qed.
Lemma negV_div a b : (Some (- a)%C / b)%cv = negV (Some a / b)%cv.
Proof.
  destruct b as [b|]; [|reflexivity]. destruct (Ceq_dec b (RtoC 0)) as [->|Hb]; [rewrite !cdiv_zero; reflexivity|].
  rewrite !cdiv_ok by exact Hb. cbn [negV]. f_equal. field. exact Hb.
Qed.
Lemma nz_map (l : list C) : Forall (fun e => e <> RtoC 0) l -> Forall (fun e => e <> RtoC 0) (map Cinv l).
Proof. induction 1; cbn [map]; constructor; auto. intro K.
  assert (X : (x * / x)%C = RtoC 1) by (apply Cinv_r; exact H). rewrite K in X. rewrite Cmult_0_r in X. apply RtoC_inj in X. lra. Qed.

(** C86. Replacing every permittivity of a stack (real or complex, whether or not
    it has a resonance at this momentum) by its reciprocal changes the sign of
    the quasistatic reflection coefficient and multiplies the transmission
    coefficient by the ratio of the outer permittivities. *)
Lemma C86_reciprocal_proof :
  forall (e0 en : C) (mid : list C) (ts : list R) nu (q : R),
  length mid = length ts -> Forall (fun e => e <> RtoC 0) (e0 :: mid ++ [en]) ->
  let s := stack (e0 :: mid ++ [en]) ts nu in
  let s' := stack (map Cinv (e0 :: mid ++ [en])) ts nu in
  refl_coef_qs s' (rr q) = map_res negV (refl_coef_qs s (rr q)) /\
  trans_coef_qs s' (rr q) = map_res (fun t => Some (e0 / en)%C * t)%cv (trans_coef_qs s (rr q)).
Proof.
  intros e0 en mid ts nu q Hl Hnz s s'. inversion Hnz as [|? ? H0 H1]; subst.
  destruct (stack_decomp (e0 :: mid ++ [en]) ts) as (a & inner & b & E & Et). { cbn [length]. rewrite app_length. cbn [length]. lia. }
  pose proof E as E'. unfold eps_of in E. injection E as <- E. apply app_inj_tail in E. destruct E as [Em <-].
  assert (Es' : map Cinv (e0 :: mid ++ [en]) = eps_of (/ e0)%C (dinner inner) (/ en)%C).
  { rewrite E'. unfold eps_of, dinner. cbn [map]. rewrite map_app, !map_map. reflexivity. }
  assert (Et' : ts = map snd (dinner inner)) by (unfold dinner; rewrite map_map; exact Et).
  assert (N' : Forall (fun e => e <> RtoC 0) (map fst (dinner inner) ++ [(/ en)%C])).
  { replace (map fst (dinner inner) ++ [(/ en)%C]) with (map Cinv (mid ++ [en])).
    - now apply nz_map.
    - rewrite Em, map_app. unfold dinner. rewrite !map_map. reflexivity. }
  assert (Hen : en <> RtoC 0) by (apply Forall_app in H1; destruct H1 as [_ H1]; now inversion H1).
  assert (R1 : s = qs_sample e0 inner en nu) by (unfold s; rewrite E', Et; reflexivity).
  assert (R2 : s' = qs_sample (/ e0)%C (dinner inner) (/ en)%C nu) by (unfold s'; rewrite Es', Et'; reflexivity).
  rewrite R1, R2. rewrite Em in H1. rewrite !refl_coef_qs_struct, !trans_coef_qs_struct by assumption. rewrite Mqs_dual by assumption. cbn [twist c00 c10 map_res].
  set (M := Mqs q e0 inner en). assert (Hc : (en / e0 <> 0)%C) by (apply Cdiv_neq_0; assumption).
  destruct (Ceq_dec (c00 M) (RtoC 0)) as [Z|Z].
  - rewrite Z, Cmult_0_r, !cdiv_zero. split; reflexivity.
  - assert (Hm : (en / e0 * c00 M <> 0)%C) by (apply Cmult_neq_0; assumption). unfold rc. rewrite !cdiv_ok by assumption. cbn [negV cmul olift2].
    split; do 2 f_equal; field; auto.
Qed.

Lemma map_res_map_res {A B E} (f : A -> B) (g : B -> E) r : map_res g (map_res f r) = map_res (fun a => g (f a)) r.
Proof. destruct r; reflexivity. Qed.
Lemma neg_sampled lg s s' z n : z <> 0 -> (forall q, refl_coef_qs s' (rr q) = map_res negV (refl_coef_qs s (rr q))) ->
  sampled_beta lg s' (rr z) n = map_res (map (fun p => match p with (x, w, b) => (x, w, negV b) end)) (sampled_beta lg s (rr z) n).
Proof.
  intros Hz H. unfold sampled_beta. destruct (Nat.eqb n 0); [reflexivity|]. rewrite H.
  destruct (refl_coef_qs s (rr z)) as [b0|]; [|reflexivity]. cbn [map_res rbind].
  assert (EQ : forall x, (rr x / (rr 2 * rr z))%rv = rr (x / (2 * z))) by (intros x; unfold rmul, rr; cbn [olift2]; rewrite rdiv_ok by lra; reflexivity).
  induction (lg n) as [|[x w] l IH]; [reflexivity|]. cbn [mapM fst snd]. rewrite !EQ, H.
  destruct (refl_coef_qs s _) as [b|]; [|reflexivity]. cbn [map_res rbind].
  rewrite IH. clear IH. destruct (mapM _ l) as [l'|]; reflexivity.
Qed.
Lemma negV_sum l : csum (map negV l) = negV (csum l).
Proof.
  unfold csum. induction l as [|a l IH]; cbn [map fold_right].
  - unfold rc. cbn [negV]. f_equal. ring.
  - rewrite IH. destruct a as [a|]; [|reflexivity]. destruct (fold_right cadd (rc 0) l) as [x|]; [|reflexivity]. cbn [negV cadd olift2]. f_equal. ring.
Qed.
Lemma negV_mul a b : (a * negV b)%cv = negV (a * b)%cv.
Proof. destruct a, b; try reflexivity. cbn [negV cmul olift2]. f_equal. ring. Qed.
Lemma negV_div_l a b : (negV a / b)%cv = negV (a / b)%cv.
Proof. destruct a as [a|]; [apply negV_div|reflexivity]. Qed.

(** C86. Hence the averages over momenta, the potential and the field change sign;
    the image of a charge above the sample stays where it is and changes sign. *)
Lemma C86_reciprocal_image_proof :
  forall (laggauss : laggauss_t) (D : Defaults) (e0 en : C) (mid : list C) (ts : list R) nu (z : R) (n_lag : option nat),
  length mid = length ts -> Forall (fun e => e <> RtoC 0) (e0 :: mid ++ [en]) -> z <> 0 ->
  let s := stack (e0 :: mid ++ [en]) ts nu in
  let s' := stack (map Cinv (e0 :: mid ++ [en])) ts nu in
  refl_coef_qs_above_surf laggauss D s' (rr z) n_lag = map_res negV (refl_coef_qs_above_surf laggauss D s (rr z) n_lag) /\
  surf_pot_and_field laggauss D s' (rr z) n_lag
    = map_res (fun pE => (negV (fst pE), negV (snd pE))) (surf_pot_and_field laggauss D s (rr z) n_lag) /\
  image_depth_and_charge laggauss D s' (rr z) n_lag
    = map_res (fun dc => (fst dc, negV (snd dc))) (image_depth_and_charge laggauss D s (rr z) n_lag).
Proof.
  intros lg D e0 en mid ts nu z nl Hl Hnz Hz s s'.
  assert (H : forall q, refl_coef_qs s' (rr q) = map_res negV (refl_coef_qs s (rr q))) by (intros q; apply C86_reciprocal_proof; assumption).
  assert (S : surf_pot_and_field lg D s' (rr z) nl = map_res (fun pE => (negV (fst pE), negV (snd pE))) (surf_pot_and_field lg D s (rr z) nl)).
  { unfold surf_pot_and_field. rewrite (neg_sampled lg s s' z _ Hz H). destruct (sampled_beta _ _ _ _) as [l|]; [|reflexivity]. cbn [map_res rbind fst snd].
    rewrite <- !negV_div_l, <- !negV_sum, !map_map. do 2 f_equal; f_equal; f_equal; apply map_ext; intros [[x w] b]; now rewrite negV_mul. }
  split; [|split; [exact S|]].
  - unfold refl_coef_qs_above_surf. rewrite (neg_sampled lg s s' z _ Hz H). destruct (sampled_beta _ _ _ _) as [l|]; [|reflexivity]. cbn [map_res rbind].
    rewrite <- negV_sum, !map_map. do 2 f_equal. apply map_ext. intros [[x w] b]. now rewrite negV_mul.
  - unfold image_depth_and_charge. rewrite S. destruct (surf_pot_and_field lg D s (rr z) nl) as [[phi E]|]; [|reflexivity]. cbn [map_res rbind fst snd].
    destruct E as [E|]; [|now rewrite !cdiv_None_r]. destruct phi as [phi|]; [|reflexivity].
    cbn [negV]. unfold cpown. cbn [olift1]. destruct (Ceq_dec E 0) as [->|HE].
    + replace (- RtoC 0)%C with (RtoC 0) by ring. rewrite !cdiv_zero. reflexivity.
    + assert (HE' : (- E)%C <> RtoC 0) by (intro K; apply HE; replace E with (- - E)%C by ring; rewrite K; ring).
      rewrite !cdiv_ok by assumption. cbn [negV]. do 2 f_equal.
      * unfold cabs. cbn [olift1]. do 3 f_equal. field. auto.
      * f_equal. cbn [Cpown]. field. auto.
Qed.

(** C86. Example: an absorbing film (2 + 3i) on silicon carbide at resonance (-1 + i),
    and the stack of the reciprocal permittivities. *)
Lemma C86_example_proof : forall q,
  refl_coef_qs (stack [RtoC 1; (2 / 13, - 3 / 13); (- 1 / 2, - 1 / 2)] [5] None) (rr q)
  = map_res negV (refl_coef_qs (stack [RtoC 1; (2, 3); (- 1, 1)] [5] None) (rr q)).
Proof.
  intros q. destruct (C86_reciprocal_proof (RtoC 1) (- 1, 1) [(2, 3)] [5] None q eq_refl) as [H _].
  - repeat constructor; intro K; injection K; lra.
  - cbn [map app] in H. etransitivity; [|exact H]. unfold stack. cbn [map].
    assert (E1 : (/ RtoC 1)%C = RtoC 1) by (rewrite <- RtoC_inv by lra; f_equal; field).
    rewrite E1. unfold Cinv. cbn [fst snd]. do 2 f_equal. do 2 f_equal; [|f_equal]; f_equal; f_equal; field.
Qed.
