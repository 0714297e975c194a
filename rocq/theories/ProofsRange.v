(** * Proofs: overflow in the quasistatic transfer matrix (C52), safe region *)
From Coq Require Import String Reals Lra Lia ZArith List Bool.
From Coquelicot Require Import Rcomplements Complex.
From Verif Require Import Num NumLemmas ModelBase ModelSample ModelTip StackLemmas Spec ModelRange SpecRange
  RangeLemmas ProofsStackQS.
Import ListNotations.
Open Scope R_scope.

(** ** The chain of the range-limited model on a structured stack *)
Definition zT (a b : C) : zmat := ztrans (zdiv (zof a) (zof b)).
Definition zP (q t : R) : zmat := zprop (Fin q) (Fin t).
Fixpoint zTP (q : R) (inner : list (C * R)) (en : C) : list (zmat * zmat) :=
  match inner with
  | [] => []
  | (l, t) :: rest =>
      (zT l (match rest with [] => en | (l', _) :: _ => l' end), zP q t) :: zTP q rest en
  end.
Definition first_of (inner : list (C * R)) (en : C) : C :=
  match inner with [] => en | (l, _) :: _ => l end.

Lemma zT_struct inner : forall q e0 en,
  ztrans_matrices (map zof (eps_of e0 inner en))
  = zT e0 (first_of inner en) :: map fst (zTP q inner en).
Proof.
  induction inner as [|[e t] rest IH]; intros q e0 en; [reflexivity|].
  specialize (IH q e en). unfold eps_of in *. unfold ztrans_matrices in *.
  cbn [map fst app] in *. rewrite removelast_cons2. cbn [tl combine map fst snd] in *.
  rewrite IH. cbn [zTP map fst first_of]. reflexivity.
Qed.
Lemma zP_struct inner : forall q en,
  map (zprop (Fin q)) (map Fin (map snd inner)) = map snd (zTP q inner en).
Proof.
  induction inner as [|[e t] rest IH]; intros q en; [reflexivity|].
  cbn [zTP map snd]. rewrite (IH q en). reflexivity.
Qed.
Lemma combine_fst_snd {A B} (l : list (A * B)) : combine (map fst l) (map snd l) = l.
Proof. induction l as [|[a b] l IH]; [reflexivity|]. cbn. rewrite IH. reflexivity. Qed.

Lemma ztransfer_struct q e0 inner en :
  inner <> [] ->
  ztransfer_qs (map zof (eps_of e0 inner en)) (map Fin (map snd inner)) (Fin q)
  = Some (zchain (zT e0 (first_of inner en)) (zTP q inner en)).
Proof.
  intros H. unfold ztransfer_qs. rewrite (zT_struct inner q), (zP_struct inner q en).
  rewrite map_length, eps_of_length, combine_fst_snd.
  destruct inner as [|p inner]; [contradiction|].
  replace (2 <? length (p :: inner) + 2)%nat with true; [reflexivity|].
  symmetry. apply Nat.ltb_lt. cbn [length]. lia.
Qed.

Lemma exact_stackTP q inner : forall e0 en,
  stackTP Tqs (Pqs q) e0 inner en =
  match inner with
  | [] => []
  | (l, t) :: rest => (Tqs l (first_of rest en), Pqs q l t) :: stackTP Tqs (Pqs q) l rest en
  end.
Proof. intros e0 en. destruct inner as [|[l t] [|[l' t'] rest]]; reflexivity. Qed.

(** ** All entries of a matrix are exact *)
Definition mis (Z : zmat) (A : cmat) : Prop :=
  zis (z00 Z) (c00 A) /\ zis (z01 Z) (c01 A) /\ zis (z10 Z) (c10 A) /\ zis (z11 Z) (c11 A).
Definition rows (A : cmat) (B : R) : Prop :=
  Cmod (c00 A) + Cmod (c01 A) <= B /\ Cmod (c10 A) + Cmod (c11 A) <= B.

Lemma zT_is a b : tame a -> tame b -> mis (zT a b) (Tqs a b).
Proof.
  intros Ha Hb. unfold zT.
  destruct (ztrans_is (zdiv (zof a) (zof b)) (a / b)%C) as (H1 & H2 & H3 & H4).
  - apply zdiv_tame; try assumption; reflexivity.
  - apply tame_ratio; assumption.
  - repeat split; assumption.
Qed.
Lemma zP_is q t l : mis (zP q t) (Pqs q l t).
Proof.
  destruct (zprop_is q t) as (E & _). unfold zP. rewrite E. repeat split; reflexivity.
Qed.

Lemma zdot_is a b a' b' x y x' y' :
  zis a x -> zis b y -> zis a' x' -> zis b' y' ->
  Cmod x * Cmod x' + Cmod y * Cmod y' <= MAXF ->
  zis (zadd (zmul a a') (zmul b b')) (x * x' + y * y')%C.
Proof.
  intros Ha Hb Ha' Hb' H.
  pose proof (Cmod_ge_0 x). pose proof (Cmod_ge_0 y).
  pose proof (Cmod_ge_0 x'). pose proof (Cmod_ge_0 y').
  assert (0 <= Cmod x * Cmod x') by (apply Rmult_le_pos; assumption).
  assert (0 <= Cmod y * Cmod y') by (apply Rmult_le_pos; assumption).
  apply zadd_is.
  - apply zmul_is; try assumption. lra.
  - apply zmul_is; try assumption. lra.
  - eapply Rle_trans; [apply Cmod_triangle|]. rewrite !Cmod_mult. exact H.
Qed.

(** columns of the right factor bounded by [W] *)
Lemma mis_mul Z A Z' A' B W :
  mis Z A -> mis Z' A' -> rows A B ->
  Cmod (c00 A') <= W -> Cmod (c01 A') <= W -> Cmod (c10 A') <= W -> Cmod (c11 A') <= W ->
  B * W <= MAXF -> mis (zmm Z Z') (pmul A A').
Proof.
  intros (M0 & M1 & M2 & M3) (N0 & N1 & N2 & N3) [R1 R2] W0 W1 W2 W3 HB.
  pose proof (Cmod_ge_0 (c00 A)). pose proof (Cmod_ge_0 (c01 A)).
  pose proof (Cmod_ge_0 (c10 A)). pose proof (Cmod_ge_0 (c11 A)).
  pose proof (Cmod_ge_0 (c00 A')). pose proof (Cmod_ge_0 (c01 A')).
  pose proof (Cmod_ge_0 (c10 A')). pose proof (Cmod_ge_0 (c11 A')).
  repeat split; cbn [zmm pmul z00 z01 z10 z11 c00 c01 c10 c11]; apply zdot_is; try assumption.
  all: eapply Rle_trans; [|exact HB]; nra.
Qed.

Definition Wf (f : C) : R := Cmod (tp f) + Cmod (tm f).
Lemma Wf_ge1 f : 1 <= Wf f.
Proof.
  unfold Wf. eapply Rle_trans; [|apply Cmod_triangle].
  replace (tp f + tm f)%C with (RtoC 1) by (unfold tp, tm; field; exact C2_neq_0).
  rewrite Cmod_1. lra.
Qed.

Lemma rows_T A B f : rows A B -> rows (pmul A (pT f)) (B * Wf f).
Proof.
  intros [H1 H2]. unfold Wf.
  pose proof (Cmod_ge_0 (tp f)). pose proof (Cmod_ge_0 (tm f)).
  assert (D : forall a b x y, Cmod (a * x + b * y)%C <= Cmod a * Cmod x + Cmod b * Cmod y).
  { intros. eapply Rle_trans; [apply Cmod_triangle|]. rewrite !Cmod_mult. lra. }
  split; cbn [pmul pT c00 c01 c10 c11]; fold (tp f) (tm f).
  - pose proof (D (c00 A) (c01 A) (tp f) (tm f)). pose proof (D (c00 A) (c01 A) (tm f) (tp f)). nra.
  - pose proof (D (c10 A) (c11 A) (tp f) (tm f)). pose proof (D (c10 A) (c11 A) (tm f) (tp f)). nra.
Qed.
Lemma rows_P A B q l t : 0 <= q * t -> rows A B -> rows (pmul A (Pqs q l t)) (B * exp (clipR (q * t))).
Proof.
  intros Hq [H1 H2].
  assert (P : 0 <= clipR (q * t)).
  { rewrite clipR_pos by exact Hq. pose proof MAX_EXP_le. apply Rmin_glb; lra. }
  assert (E1 : 1 <= exp (clipR (q * t))) by (pose proof (exp_ineq1_le (clipR (q * t))); lra).
  assert (E2 : exp (- clipR (q * t)) <= exp (clipR (q * t))).
  { destruct (Req_dec (clipR (q * t)) 0) as [->|]; [rewrite Ropp_0; lra|left; apply exp_increasing; lra]. }
  pose proof (exp_pos (- clipR (q * t))).
  pose proof (Cmod_ge_0 (c00 A)). pose proof (Cmod_ge_0 (c01 A)).
  pose proof (Cmod_ge_0 (c10 A)). pose proof (Cmod_ge_0 (c11 A)).
  unfold Pqs, pP. split; cbn [pmul c00 c01 c10 c11].
  - replace (c00 A * RtoC (exp (clipR (q * t))) + c01 A * 0)%C with (c00 A * RtoC (exp (clipR (q * t))))%C by ring.
    replace (c00 A * 0 + c01 A * RtoC (exp (- clipR (q * t))))%C with (c01 A * RtoC (exp (- clipR (q * t))))%C by ring.
    rewrite !Cmod_mult, !Cmod_R, !Rabs_pos_eq by lra. nra.
  - replace (c10 A * RtoC (exp (clipR (q * t))) + c11 A * 0)%C with (c10 A * RtoC (exp (clipR (q * t))))%C by ring.
    replace (c10 A * 0 + c11 A * RtoC (exp (- clipR (q * t))))%C with (c11 A * RtoC (exp (- clipR (q * t))))%C by ring.
    rewrite !Cmod_mult, !Cmod_R, !Rabs_pos_eq by lra. nra.
Qed.

Fixpoint bnd (q : R) (inner : list (C * R)) (en : C) : R :=
  match inner with
  | [] => 1
  | (l, t) :: rest => exp (clipR (q * t)) * (Wf (l / first_of rest en)%C * bnd q rest en)
  end.

Lemma bnd_ge1 q inner : forall en, Forall (fun t => 0 <= q * t) (map snd inner) -> 1 <= bnd q inner en.
Proof.
  induction inner as [|[l t] rest IH]; intros en H; cbn [bnd]; [lra|].
  cbn [map snd] in H. apply Forall_cons_iff in H. destruct H as [H1 H2].
  pose proof (IH en H2). pose proof (Wf_ge1 (l / first_of rest en)%C).
  rewrite clipR_pos by exact H1. pose proof MAX_EXP_le.
  assert (0 <= Rmin (q * t) MAX_EXP_ARG) by (apply Rmin_glb; lra).
  pose proof (exp_ineq1_le (Rmin (q * t) MAX_EXP_ARG)).
  assert (1 <= Wf (l / first_of rest en)%C * bnd q rest en) by nra. nra.
Qed.

Lemma chain_is q inner : forall e0 en Z A B,
  Forall tame (map fst inner) -> tame en -> Forall (fun t => 0 <= q * t) (map snd inner) ->
  mis Z A -> rows A B -> 0 <= B -> B * bnd q inner en <= MAXF ->
  mis (zchain Z (zTP q inner en)) (pchain A (stackTP Tqs (Pqs q) e0 inner en)) /\
  rows (pchain A (stackTP Tqs (Pqs q) e0 inner en)) (B * bnd q inner en).
Proof.
  induction inner as [|[l t] rest IH]; intros e0 en Z A B Ht Hen Hq HZ HR H0 HB.
  - cbn [zTP stackTP bnd]. split; [exact HZ|]. rewrite Rmult_1_r. exact HR.
  - rewrite exact_stackTP. cbn [zTP]. fold (first_of rest en).
    cbn [map fst snd] in Ht, Hq. apply Forall_cons_iff in Ht. destruct Ht as [Hl Ht].
    apply Forall_cons_iff in Hq. destruct Hq as [Hq1 Hq].
    pose proof (bnd_ge1 q rest en Hq) as Bg. cbn [bnd] in HB |- *.
    set (E := exp (clipR (q * t))) in *. set (f := (l / first_of rest en)%C) in *.
    pose proof (Wf_ge1 f) as Wg.
    assert (Eg : 1 <= E).
    { unfold E. pose proof (exp_ineq1_le (clipR (q * t))). rewrite clipR_pos in * by exact Hq1.
      pose proof MAX_EXP_le. assert (0 <= Rmin (q * t) MAX_EXP_ARG) by (apply Rmin_glb; lra). lra. }
    assert (Tf : tame (first_of rest en)).
    { destruct rest as [|[l' t'] rest']; [exact Hen|]. cbn [map fst] in Ht.
      apply Forall_cons_iff in Ht. apply Ht. }
    pose proof (zT_is l (first_of rest en) Hl Tf) as HT.
    pose proof (rows_P A B q l t Hq1 HR) as RP. fold E in RP.
    assert (B1 : B * E * Wf f * bnd q rest en <= MAXF) by (rewrite !Rmult_assoc in *; exact HB).
    assert (PE : 0 <= B * E) by (apply Rmult_le_pos; lra).
    assert (PW : 0 <= B * E * Wf f) by (apply Rmult_le_pos; lra).
    assert (B2 : B * E * Wf f <= MAXF) by nra.
    assert (B3 : B * E <= MAXF) by nra.
    assert (MP : mis (zmm Z (zP q t)) (pmul A (Pqs q l t))).
    { pose proof (exp_pos (clipR (q * t))). pose proof (exp_pos (- clipR (q * t))).
      assert (exp (- clipR (q * t)) <= E).
      { unfold E. destruct (Req_dec (clipR (q * t)) 0) as [->|]; [rewrite Ropp_0; lra|].
        left. apply exp_increasing. rewrite clipR_pos in * by exact Hq1.
        pose proof MAX_EXP_le. assert (0 <= Rmin (q * t) MAX_EXP_ARG) by (apply Rmin_glb; lra). lra. }
      apply (mis_mul _ _ _ _ B E HZ (zP_is q t l) HR); try exact B3; unfold Pqs, pP;
        cbn [c00 c01 c10 c11]; rewrite Cmod_R, Rabs_pos_eq; unfold E in *; lra. }
    assert (MT : mis (zmm (zmm Z (zP q t)) (zT l (first_of rest en)))
                     (pmul (pmul A (Pqs q l t)) (Tqs l (first_of rest en)))).
    { pose proof (Cmod_ge_0 (tp f)). pose proof (Cmod_ge_0 (tm f)).
      apply (mis_mul _ _ _ _ (B * E) (Wf f) MP HT RP); try exact B2;
        unfold Tqs; fold f; cbn [pT c00 c01 c10 c11]; fold (tp f) (tm f); unfold Wf; lra. }
    pose proof (rows_T _ _ f RP) as RT.
    destruct (IH l en _ _ _ Ht Hen Hq MT RT PW B1) as [I1 I2].
    split; [exact I1|].
    replace (B * (E * (Wf f * bnd q rest en))) with (B * E * Wf f * bnd q rest en) by ring. exact I2.
Qed.

Lemma total_pos q ts : Forall (fun t => 0 <= q * t) ts -> 0 <= total_exponent q ts.
Proof.
  unfold total_exponent. induction 1 as [|t ts H _ IH]; cbn [map fold_right]; [lra|].
  pose proof MAX_EXP_le. assert (0 <= Rmin (q * t) MAX_EXP_ARG) by (apply Rmin_glb; lra). lra.
Qed.

Lemma Wf_eq f : (Cmod (1 + f)%C + Cmod (1 - f)%C) / 2 = Wf f.
Proof.
  unfold Wf, tp, tm. rewrite !Cmod_div by exact C2_neq_0. rewrite Cmod_R, Rabs_pos_eq by lra. field.
Qed.

Lemma amplification_bnd q inner : forall e0 en,
  Forall (fun t => 0 <= q * t) (map snd inner) ->
  amplification (eps_of e0 inner en) * exp (total_exponent q (map snd inner))
  = Wf (e0 / first_of inner en)%C * bnd q inner en.
Proof.
  induction inner as [|[l t] rest IH]; intros e0 en H.
  - unfold amplification, total_exponent, eps_of. cbn. rewrite exp_0, Wf_eq. ring.
  - cbn [map snd] in H. apply Forall_cons_iff in H. destruct H as [H1 H2].
    specialize (IH l en H2). unfold amplification, total_exponent, eps_of in *.
    cbn [map fst snd app tl combine fold_right first_of bnd] in *.
    rewrite exp_plus, Wf_eq, clipR_pos by exact H1.
    set (a := fold_right _ 1 _) in *. set (b := exp (fold_right _ _ _)) in *.
    replace (Wf (e0 / l)%C * a * (exp (Rmin (q * t) MAX_EXP_ARG) * b))
      with (Wf (e0 / l)%C * exp (Rmin (q * t) MAX_EXP_ARG) * (a * b)) by ring.
    rewrite IH. ring.
Qed.

(** C52. As long as the growth through the stack stays within the range of a
    double, nothing overflows: the range-limited arithmetic returns exactly
    the reflection coefficient of the exact one. *)
Lemma C52_safe_region_proof :
  forall (es : list C) (ts : list R) nu (q : R) (r s : C),
  wf es ts -> ts <> [] -> Forall tame es -> Forall (fun t => 0 <= q * t) ts ->
  2 * amplification es * exp (total_exponent q ts) <= MAXF ->
  refl_coef_qs (stack es ts nu) (rr q) = Ok (Some r) -> 4 * Cmod r <= MAXF ->
  trans_coef_qs (stack es ts nu) (rr q) = Ok (Some s) -> 2 * Cmod s <= MAXF ->
  zrefl_qs (map zof es) (map Fin ts) (Fin q) = Some (zof r).
Proof.
  intros es ts nu q r s Hw Hne Ht Hq HB Hr Br Hs Bs.
  destruct (stack_decomp es ts Hw) as (e0 & inner & en & -> & ->).
  assert (Ni : inner <> []) by (intros ->; contradiction).
  rewrite stack_struct in Hr, Hs.
  assert (Ht' : tame e0 /\ Forall tame (map fst inner) /\ tame en).
  { unfold eps_of in Ht. apply Forall_cons_iff in Ht. destruct Ht as [H0 H].
    apply Forall_app in H. destruct H as [H1 H2]. apply Forall_cons_iff in H2. tauto. }
  destruct Ht' as (T0 & Ti & Tn).
  assert (Nz : Forall (fun e => e <> RtoC 0) (map fst inner ++ [en])).
  { unfold eps_of in Ht. apply Forall_cons_iff in Ht. destruct Ht as [_ H].
    eapply Forall_impl; [|exact H]. intros a Ha ->. apply tame_pos in Ha. rewrite Cmod_0 in Ha. lra. }
  rewrite refl_coef_qs_struct in Hr by exact Nz. rewrite trans_coef_qs_struct in Hs by exact Nz.
  injection Hr as Hr. injection Hs as Hs.
  apply cdiv_Some in Hr. destruct Hr as (x & y & Ex & Ey & Ny & Er). injection Ex as <-. injection Ey as <-.
  unfold rc in Hs. rewrite cdiv_ok in Hs by exact Ny. injection Hs as Hs.
  unfold zrefl_qs. rewrite ztransfer_struct by exact Ni. f_equal.
  rewrite (Rmult_assoc 2), amplification_bnd in HB by exact Hq.
  set (f0 := (e0 / first_of inner en)%C) in *.
  assert (Tf : tame (first_of inner en)).
  { destruct inner as [|[l' t'] rest']; [contradiction|]. cbn [map fst] in Ti.
    apply Forall_cons_iff in Ti. apply Ti. }
  pose proof (zT_is e0 (first_of inner en) T0 Tf) as HT.
  assert (R0 : rows (Tqs e0 (first_of inner en)) (Wf f0)).
  { unfold Tqs. fold f0. split; cbn [pT c00 c01 c10 c11]; fold (tp f0) (tm f0); unfold Wf; lra. }
  pose proof (Wf_ge1 f0) as Wg. pose proof (bnd_ge1 q inner en Hq) as Bg.
  destruct (chain_is q inner e0 en _ _ _ Ti Tn Hq HT R0) as [CM CR]; [lra|nra|].
  assert (EM : pchain (Tqs e0 (first_of inner en)) (stackTP Tqs (Pqs q) e0 inner en) = Mqs q e0 inner en).
  { unfold Mqs. rewrite stackM_chain. destruct inner as [|[l t] rest]; reflexivity. }
  rewrite EM in CM, CR. destruct CM as (Z0 & _ & Z2 & _). destruct CR as [C1 C2].
  set (m00 := c00 (Mqs q e0 inner en)) in *. set (m10 := c10 (Mqs q e0 inner en)) in *.
  pose proof (Cmod_ge_0 (c01 (Mqs q e0 inner en))). pose proof (Cmod_ge_0 (c11 (Mqs q e0 inner en))).
  assert (P0 : 0 < Cmod m00) by (apply Cmod_gt_0; exact Ny).
  rewrite Er. change (zis (zdiv (z10 (zchain (zT e0 (first_of inner en)) (zTP q inner en)))
                 (z00 (zchain (zT e0 (first_of inner en)) (zTP q inner en)))) (m10 / m00)%C).
  apply (zdiv_is _ _ _ _ (Cmod m00 / 2) Z2 Z0).
  - lra.
  - apply Rmax_half_Cmod.
  - lra.
  - lra.
  - rewrite <- Hs in Bs. rewrite Cmod_div, Cmod_1 in Bs by exact Ny.
    replace (/ (Cmod m00 / 2)) with (2 * (1 / Cmod m00)) by (field; lra). exact Bs.
  - rewrite Er in Br. rewrite Cmod_div in Br by exact Ny.
    replace (2 * Cmod m10 / (Cmod m00 / 2)) with (4 * (Cmod m10 / Cmod m00)) by (field; lra). exact Br.
Qed.
