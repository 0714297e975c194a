(** * Proofs: uniqueness and stability of the root-finding inverses (C89) *)
From Coq Require Import String Reals Lra Lia ZArith List Bool Permutation Sorted.
From Coquelicot Require Import Rcomplements Complex.
From Verif Require Import Num NumLemmas LimLemmas ModelBase ModelSample ModelTip NArr SpecArr NArrLemmas ModelObj SpecObj
  ModelArr ModelArrTip ModelInv StackLemmas Spec SpecPoly SpecInv SpecNear SpecSens FTA ArrSample
  ProofsStackQS ProofsStackQS2 ProofsPassive DemodLemmas ProofsDemod ProofsTip ProofsTip2 ProofsTip3 ProofsTaylor
  ProofsArr ProofsArr2 ProofsArrTip InvLemmas ProofsInv ProofsInv2 ProofsInv3 ProofsInv4 ProofsNear ProofsConsist ProofsConsist2.
Import ListNotations.
Open Scope R_scope.

(** ** Polynomials on a disc *)
Lemma pow_diff : forall rho k (x y : C), 0 <= rho -> Cmod x <= rho -> Cmod y <= rho ->
  Cmod (Cpown x k - Cpown y k)%C <= INR k * rho ^ (k - 1) * Cmod (x - y)%C.
Proof.
  intros rho k x y H0 Hx Hy. induction k as [|k IH].
  - cbn [Cpown]. replace (1 - 1)%C with (RtoC 0) by ring. rewrite Cmod_0. change (INR 0) with 0. lra.
  - cbn [Cpown]. replace (x * Cpown x k - y * Cpown y k)%C with (Cpown x k * (x - y) + y * (Cpown x k - Cpown y k))%C by ring.
    eapply Rle_trans; [apply Cmod_triangle|]. rewrite !Cmod_mult, Cmod_Cpown.
    assert (P : Cmod x ^ k <= rho ^ k) by (apply pow_incr; split; [apply Cmod_ge_0|exact Hx]).
    pose proof (Cmod_ge_0 (x - y)%C). pose proof (Cmod_ge_0 y). pose proof (Cmod_ge_0 (Cpown x k - Cpown y k)%C).
    replace (S k - 1)%nat with k by lia. rewrite S_INR.
    assert (Q : rho * (INR k * rho ^ (k - 1)) = INR k * rho ^ k).
    { destruct k as [|k]; [change (INR 0) with 0; ring|]. replace (S k - 1)%nat with k by lia. cbn [pow]. ring. }
    assert (H5 : Cmod y * Cmod (Cpown x k - Cpown y k)%C <= rho * (INR k * rho ^ (k - 1) * Cmod (x - y)%C)) by (apply Rmult_le_compat; lra).
    assert (Cmod x ^ k * Cmod (x - y)%C <= rho ^ k * Cmod (x - y)%C) by (apply Rmult_le_compat_r; lra).
    rewrite <- Rmult_assoc, Q in H5. lra.
Qed.
Lemma slopes_diff : forall rho c k (x y : C), 0 <= rho -> Cmod x <= rho -> Cmod y <= rho ->
  Cmod (Cpown x k * peval c x - Cpown y k * peval c y)%C <= slopes rho k c * Cmod (x - y)%C.
Proof.
  intros rho c. induction c as [|a c IH]; intros k x y H0 Hx Hy; cbn [peval slopes].
  - replace (Cpown x k * 0 - Cpown y k * 0)%C with (RtoC 0) by ring. rewrite Cmod_0. lra.
  - replace (Cpown x k * (a + x * peval c x) - Cpown y k * (a + y * peval c y))%C
      with (a * (Cpown x k - Cpown y k) + (Cpown x (S k) * peval c x - Cpown y (S k) * peval c y))%C by (cbn [Cpown]; ring).
    eapply Rle_trans; [apply Cmod_triangle|]. rewrite Cmod_mult.
    pose proof (pow_diff rho k x y H0 Hx Hy). pose proof (IH (S k) x y H0 Hx Hy). pose proof (Cmod_ge_0 a).
    assert (Cmod a * Cmod (Cpown x k - Cpown y k)%C <= Cmod a * (INR k * rho ^ (k - 1) * Cmod (x - y)%C)) by (apply Rmult_le_compat_l; lra).
    lra.
Qed.
Lemma margin_diff : forall rho c (x y : C), 0 <= rho -> Cmod x <= rho -> Cmod y <= rho ->
  margin rho c * Cmod (x - y)%C <= Cmod (peval c x - peval c y)%C.
Proof.
  intros rho c x y H0 Hx Hy. destruct c as [|c0 [|c1 c]]; cbn [margin].
  - rewrite Rmult_0_l. apply Cmod_ge_0.
  - rewrite Rmult_0_l. apply Cmod_ge_0.
  - pose proof (slopes_diff rho c 2 x y H0 Hx Hy) as S.
    set (u := (Cpown x 2 * peval c x - Cpown y 2 * peval c y)%C) in *.
    assert (E : (c1 * (x - y) = (peval (c0 :: c1 :: c) x - peval (c0 :: c1 :: c) y) + - u)%C).
    { unfold u. cbn [peval Cpown]. ring. }
    apply (f_equal Cmod) in E. rewrite Cmod_mult in E.
    pose proof (Cmod_triangle (peval (c0 :: c1 :: c) x - peval (c0 :: c1 :: c) y)%C (- u)%C) as T.
    rewrite <- E, Cmod_opp in T. lra.
Qed.
Lemma margin_deriv : forall rho c (x : C), Cmod x <= rho -> margin rho c <= Cmod (pderiv c x).
Proof.
  intros rho c x Hx. assert (H0 : 0 <= rho) by (pose proof (Cmod_ge_0 x); lra).
  assert (G : forall c k, Cmod (RtoC (INR k) * Cpown x (k - 1) * peval c x + Cpown x k * pderiv c x)%C <= slopes rho k c).
  { clear c. induction c as [|a c IH]; intro k; cbn [peval pderiv slopes].
    - replace (RtoC (INR k) * Cpown x (k - 1) * 0 + Cpown x k * 0)%C with (RtoC 0) by ring. rewrite Cmod_0. lra.
    - replace (RtoC (INR k) * Cpown x (k - 1) * (a + x * peval c x) + Cpown x k * (peval c x + x * pderiv c x))%C
        with (RtoC (INR k) * a * Cpown x (k - 1) + (RtoC (INR (S k)) * Cpown x (S k - 1) * peval c x + Cpown x (S k) * pderiv c x))%C.
      + eapply Rle_trans; [apply Cmod_triangle|]. apply Rplus_le_compat; [|apply IH].
        rewrite !Cmod_mult, Cmod_R, Cmod_Cpown, (Rabs_pos_eq (INR k)) by apply pos_INR.
        apply Rmult_le_compat_l; [apply Rmult_le_pos; [apply pos_INR|apply Cmod_ge_0]|]. apply pow_incr. split; [apply Cmod_ge_0|exact Hx].
      + replace (S k - 1)%nat with k by lia. rewrite S_INR, RtoC_plus. cbn [Cpown]. destruct k as [|k].
        * change (INR 0) with 0. cbn [Cpown]. ring.
        * replace (S k - 1)%nat with k by lia. cbn [Cpown]. ring. }
  destruct c as [|c0 [|c1 c]]; cbn [margin pderiv peval].
  - apply Cmod_ge_0.
  - apply Cmod_ge_0.
  - pose proof (G c 2%nat) as S. cbn [Nat.sub Cpown] in S.
    match type of S with Cmod ?u <= _ => set (w := u) in S end.
    assert (E : c1 = (c1 + x * peval c x + x * (peval c x + x * pderiv c x) + - w)%C).
    { unfold w. change (INR 2) with (1 + 1). rewrite RtoC_plus. ring. }
    pose proof (Cmod_triangle (c1 + x * peval c x + x * (peval c x + x * pderiv c x))%C (- w)%C) as T.
    rewrite <- E, Cmod_opp in T. lra.
Qed.
Lemma margin_order0 : forall rho c (b : C), Cmod b <= rho -> margin rho c * Cmod b <= Cmod (peval c b - order0 c)%C.
Proof.
  intros rho c b Hb. assert (H0 : 0 <= rho) by (pose proof (Cmod_ge_0 b); lra).
  pose proof (margin_diff rho c b (RtoC 0) H0 Hb ltac:(rewrite Cmod_0; exact H0)) as M.
  replace (b - 0)%C with b in M by ring.
  replace (peval c (RtoC 0)) with (order0 c) in M; [exact M|]. unfold order0. destruct c; cbn [nth peval]; ring.
Qed.
Lemma margin_simple : forall rho c (b : C), 0 < margin rho c -> Cmod b <= rho ->
  multiplicity (fun x => (peval c x - peval c b)%C) b 1.
Proof.
  intros rho c b M Hb. destruct (pderiv_quot c b) as (q & Hq & Eq). exists q. split.
  - intro x. rewrite (Hq x). cbn [Cpown]. ring.
  - rewrite Eq. intro Z. pose proof (margin_deriv rho c b Hb) as D. rewrite Z, Cmod_0 in D. lra.
Qed.
Lemma single : forall (l : list CV), (forall v, In v l -> exists b, v = Some b) ->
  (forall b b', In (Some b) l -> In (Some b') l -> b = b') -> (forall b, In (Some b) l -> occurrences l b = 1%nat) ->
  l = [] \/ exists b, l = [Some b].
Proof.
  intros l H1 H2 H3. destruct l as [|v l]; [left; reflexivity|right].
  destruct (H1 v (or_introl eq_refl)) as [b ->]. exists b.
  destruct l as [|w l]; [reflexivity|exfalso].
  destruct (H1 w (or_intror (or_introl eq_refl))) as [b' ->].
  assert (b' = b) by (apply H2; [right; left|left]; reflexivity). subst b'.
  pose proof (H3 b (or_introl eq_refl)) as K. unfold occurrences in K. cbn [count_occ] in K.
  destruct (CV_eq_dec (Some b) (Some b)); [|congruence]. lia.
Qed.
Lemma coef_unique : forall coef (c c' : list C) n, length c = n -> length c' = n ->
  (forall j, (j < n)%nat -> coef j = Some (nth j c (RtoC 0))) -> (forall j, (j < n)%nat -> coef j = Some (nth j c' (RtoC 0))) -> c = c'.
Proof.
  intros coef c c' n L L' H H'. apply (nth_ext _ _ (RtoC 0) (RtoC 0)); [congruence|]. intros j Hj.
  rewrite L in Hj. specialize (H j Hj). specialize (H' j Hj). congruence.
Qed.

(** ** What the calls return *)
(** the Taylor coefficients of the finite dipole model, element [i] *)
Lemma fdm_returned : forall eig sb sr D alpha A n z r L g d_Q0 d_Q1 n_trapz n_tayl thr ri ra env result i v (c : list C),
  library eig sb sr -> env_fits env (fdm_inverse_operands alpha A n z r L g d_Q0 d_Q1) ->
  fdm_refl_coef_qs_from_eff_pol_n eig sb sr D alpha A n z r L g d_Q0 d_Q1 n_trapz n_tayl thr ri ra env = Ok result ->
  index_of (elements result) i -> In v (unmasked result i) ->
  length c = given_or (d_n_tayl D) n_tayl ->
  match fdm_defaults D (at_index r i) (at_index L i) (at_index g i) (at_index d_Q0 i) (at_index d_Q1 i) None with
  | (r, L, g, d_Q0, d_Q1, _) =>
    coefficients (fun j => fdm_taylor_coef D (given_or (d_z_tip D) (at_index z i)) j (entry A i) (entry n i)
                             (rr r) (rr L) (Some g) d_Q0 (rr d_Q1) n_trapz) c
  end ->
  exists b, v = Some b /\ admissible (given_or (d_beta_threshold D) thr) ri ra (given_or (d_eps_env D) (at_index env i)) b /\
    entry alpha i = Some (peval c b).
Proof.
  intros eig sb sr D alpha A n z r L g d0 d1 nt ntay thr ri ra env result i v c LIB HE H Hi Hv Lc HC.
  destruct (fdm_inversion eig sb sr D alpha A n z r L g d0 d1 nt ntay thr ri ra env) as (OFF & EQ & HO). rewrite EQ in H.
  destruct (inversion_sound eig sb sr LIB _ _ _ _ _ HO _ _ _ _ _ H (env_ok _ _ _ HE) i v Hi Hv)
    as (b & -> & Ha & c' & al & Lc' & Eal & Hc & Hp).
  exists b. split; [reflexivity|]. split; [rewrite env_entry in Ha; exact Ha|]. rewrite Eal.
  assert (c' = c). { apply (coef_unique (fdm_inv_coef D A n z r L g d0 d1 nt i) _ _ (dflt (d_n_tayl D) ntay) Lc' Lc Hc).
    intros j Hj. unfold fdm_inv_coef.
    destruct (fdm_defaults D (at_index r i) (at_index L i) (at_index g i) (at_index d0 i) (at_index d1 i) None)
      as [[[[[r' L'] g'] d0'] d1'] da']. unfold fdm_coef.
    change (given_or (d_n_tayl D) ntay) with (dflt (d_n_tayl D) ntay) in Lc. rewrite <- Lc in Hj. specialize (HC j Hj).
    change (given_or (d_z_tip D) (at_index z i)) with (dflt (d_z_tip D) (at_index z i)) in HC. rewrite HC. reflexivity. }
  subst c'. now rewrite Hp.
Qed.
Lemma pdm_returned : forall eig sb sr D alpha A n z r eps_tip alpha_tip n_trapz n_tayl thr ri ra env result i v (c : list C) r_i alpha_i,
  library eig sb sr -> env_fits env (pdm_inverse_operands alpha A n z r eps_tip alpha_tip) ->
  pdm_refl_coef_qs_from_eff_pol_n eig sb sr D alpha A n z r eps_tip alpha_tip n_trapz n_tayl thr ri ra env = Ok result ->
  index_of (elements result) i -> In v (unmasked result i) ->
  length c = given_or (d_n_tayl D) n_tayl ->
  pdm_defaults D (at_index r i) (at_index eps_tip i) (at_index alpha_tip i) = Ok (r_i, alpha_i) ->
  coefficients (fun j => pdm_taylor_coef D (given_or (d_z_tip D) (at_index z i)) j (entry A i) (entry n i)
                           (rr r_i) alpha_i n_trapz) c ->
  exists b, v = Some b /\ admissible (given_or (d_beta_threshold D) thr) ri ra (given_or (d_eps_env D) (at_index env i)) b /\
    entry alpha i = Some (peval c b).
Proof.
  intros eig sb sr D alpha A n z r e a nt ntay thr ri ra env result i v c r_i a_i LIB HE H Hi Hv Lc HD HC.
  assert (Hea : e = None \/ a = None).
  { destruct e; [|auto]. destruct a; [|auto]. exfalso. cbn in H. discriminate. }
  destruct (pdm_inversion eig sb sr D alpha A n z r e a nt ntay thr ri ra env Hea) as (OFF & EQ & HO). rewrite EQ in H.
  destruct (inversion_sound eig sb sr LIB _ _ _ _ _ HO _ _ _ _ _ H (env_ok _ _ _ HE) i v Hi Hv)
    as (b & -> & Ha & c' & al & Lc' & Eal & Hc & Hp).
  exists b. split; [reflexivity|]. split; [rewrite env_entry in Ha; exact Ha|]. rewrite Eal.
  assert (c' = c). { apply (coef_unique (pdm_inv_coef D A n z r e a nt i) _ _ (dflt (d_n_tayl D) ntay) Lc' Lc Hc).
    intros j Hj. unfold pdm_inv_coef. rewrite HD. unfold pdm_coef.
    change (given_or (d_n_tayl D) ntay) with (dflt (d_n_tayl D) ntay) in Lc. rewrite <- Lc in Hj. specialize (HC j Hj).
    change (given_or (d_z_tip D) (at_index z i)) with (dflt (d_z_tip D) (at_index z i)) in HC. rewrite HC. reflexivity. }
  subst c'. now rewrite Hp.
Qed.

(** C89. Stability of the finite dipole inverse: let the same call be made for two
    arrays of signals.  Wherever the linear Taylor coefficient outweighs the others
    on the disc |beta| <= beta_threshold, by the margin m > 0 (or not), any value
    returned for the first array and any value returned for the second differ by at
    most (the difference of the signals) / m. *)
Lemma C89_fdm_taylor_stable_proof : forall eig sb sr D alpha alpha' A n z r L g d_Q0 d_Q1 n_trapz n_tayl thr ri ra ri' ra' env
    result result' i (c : list C) (a a' b b' : C),
  library eig sb sr -> env_fits env (fdm_inverse_operands alpha A n z r L g d_Q0 d_Q1) ->
  env_fits env (fdm_inverse_operands alpha' A n z r L g d_Q0 d_Q1) ->
  fdm_refl_coef_qs_from_eff_pol_n eig sb sr D alpha A n z r L g d_Q0 d_Q1 n_trapz n_tayl thr ri ra env = Ok result ->
  fdm_refl_coef_qs_from_eff_pol_n eig sb sr D alpha' A n z r L g d_Q0 d_Q1 n_trapz n_tayl thr ri' ra' env = Ok result' ->
  index_of (elements result) i -> index_of (elements result') i ->
  length c = given_or (d_n_tayl D) n_tayl ->
  match fdm_defaults D (at_index r i) (at_index L i) (at_index g i) (at_index d_Q0 i) (at_index d_Q1 i) None with
  | (r, L, g, d_Q0, d_Q1, _) =>
    coefficients (fun j => fdm_taylor_coef D (given_or (d_z_tip D) (at_index z i)) j (entry A i) (entry n i)
                             (rr r) (rr L) (Some g) d_Q0 (rr d_Q1) n_trapz) c
  end ->
  entry alpha i = Some a -> entry alpha' i = Some a' ->
  In (Some b) (unmasked result i) -> In (Some b') (unmasked result' i) ->
  margin (given_or (d_beta_threshold D) thr) c * Cmod (b' - b)%C <= Cmod (a' - a)%C.
Proof.
  intros eig sb sr D alpha alpha' A n z r L g d0 d1 nt ntay thr ri ra ri' ra' env result result' i c a a' b b'
    LIB HE HE' H H' Hi Hi' Lc HC Ea Ea' Hb Hb'.
  destruct (fdm_returned _ _ _ _ _ _ _ _ _ _ _ _ _ _ _ _ _ _ _ _ _ _ c LIB HE H Hi Hb Lc HC) as (x & Ex & Bx & Px). injection Ex as <-.
  destruct (fdm_returned _ _ _ _ _ _ _ _ _ _ _ _ _ _ _ _ _ _ _ _ _ _ c LIB HE' H' Hi' Hb' Lc HC) as (x & Ex & Bx' & Px'). injection Ex as <-.
  rewrite Ea in Px. rewrite Ea' in Px'. injection Px as ->. injection Px' as ->.
  apply margin_diff; [pose proof (Cmod_ge_0 b); pose proof (proj1 Bx); lra|exact (proj1 Bx')|exact (proj1 Bx)].
Qed.
(** C89. Stability of the point dipole inverse. *)
Lemma C89_pdm_taylor_stable_proof : forall eig sb sr D alpha alpha' A n z r eps_tip alpha_tip n_trapz n_tayl thr ri ra ri' ra' env
    result result' i (c : list C) r_i alpha_i (a a' b b' : C),
  library eig sb sr -> env_fits env (pdm_inverse_operands alpha A n z r eps_tip alpha_tip) ->
  env_fits env (pdm_inverse_operands alpha' A n z r eps_tip alpha_tip) ->
  pdm_refl_coef_qs_from_eff_pol_n eig sb sr D alpha A n z r eps_tip alpha_tip n_trapz n_tayl thr ri ra env = Ok result ->
  pdm_refl_coef_qs_from_eff_pol_n eig sb sr D alpha' A n z r eps_tip alpha_tip n_trapz n_tayl thr ri' ra' env = Ok result' ->
  index_of (elements result) i -> index_of (elements result') i ->
  length c = given_or (d_n_tayl D) n_tayl ->
  pdm_defaults D (at_index r i) (at_index eps_tip i) (at_index alpha_tip i) = Ok (r_i, alpha_i) ->
  coefficients (fun j => pdm_taylor_coef D (given_or (d_z_tip D) (at_index z i)) j (entry A i) (entry n i)
                           (rr r_i) alpha_i n_trapz) c ->
  entry alpha i = Some a -> entry alpha' i = Some a' ->
  In (Some b) (unmasked result i) -> In (Some b') (unmasked result' i) ->
  margin (given_or (d_beta_threshold D) thr) c * Cmod (b' - b)%C <= Cmod (a' - a)%C.
Proof.
  intros eig sb sr D alpha alpha' A n z r e at_ nt ntay thr ri ra ri' ra' env result result' i c r_i a_i a a' b b'
    LIB HE HE' H H' Hi Hi' Lc HD HC Ea Ea' Hb Hb'.
  destruct (pdm_returned _ _ _ _ _ _ _ _ _ _ _ _ _ _ _ _ _ _ _ _ c _ _ LIB HE H Hi Hb Lc HD HC) as (x & Ex & Bx & Px). injection Ex as <-.
  destruct (pdm_returned _ _ _ _ _ _ _ _ _ _ _ _ _ _ _ _ _ _ _ _ c _ _ LIB HE' H' Hi' Hb' Lc HD HC) as (x & Ex & Bx' & Px'). injection Ex as <-.
  rewrite Ea in Px. rewrite Ea' in Px'. injection Px as ->. injection Px' as ->.
  apply margin_diff; [pose proof (Cmod_ge_0 b); pose proof (proj1 Bx); lra|exact (proj1 Bx')|exact (proj1 Bx)].
Qed.

(** one element of a result *)
Lemma unique_core : forall (l : list CV) (c : list C) (al : C) d rho ri ra env,
  degree c d ->
  (forall v, In v l -> exists b, v = Some b /\ admissible rho ri ra env b /\ peval c b = al) ->
  (forall b m, admissible rho ri ra env b -> multiplicity (fun x => (peval c x - al)%C) b m -> occurrences l b = m) ->
  0 < margin rho c ->
  (l = [] \/ exists b, l = [Some b] /\ peval c b = al /\ margin rho c * Cmod b <= Cmod (al - order0 c)%C) /\
  (ri = false -> ra = false -> 0 <= rho -> INR d * Cmod (al - order0 c)%C <= rho * Cmod (nth 1 c (RtoC 0)) -> l <> []).
Proof.
  intros l c al d rho ri ra env Hdeg HV HR Hm.
  assert (HO : forall b, In (Some b) l -> occurrences l b = 1%nat).
  { intros b Hb. destruct (HV _ Hb) as (x & Ex & Bx & Px). injection Ex as <-.
    apply (HR b 1%nat Bx). rewrite <- Px. exact (margin_simple rho c b Hm (proj1 Bx)). }
  split.
  - destruct (single l) as [E|(b & E)].
    + intros v Hv. destruct (HV v Hv) as (b & -> & _). eauto.
    + intros b b' Hb Hb'. destruct (HV _ Hb) as (x & Ex & Bx & Px). injection Ex as <-. destruct (HV _ Hb') as (x & Ex & Bx' & Px'). injection Ex as <-.
      pose proof (proj1 Bx) as B1. pose proof (proj1 Bx') as B2.
      assert (R0 : 0 <= rho) by (pose proof (Cmod_ge_0 b); lra).
      pose proof (margin_diff rho c b b' R0 B1 B2) as M. rewrite Px, Px' in M.
      replace (al - al)%C with (RtoC 0) in M by ring. rewrite Cmod_0 in M.
      assert (Z : Cmod (b - b')%C = 0) by (pose proof (Cmod_ge_0 (b - b')%C); nra). apply Cmod_eq_0 in Z. now apply Csub_eq0.
    + exact HO.
    + left. exact E.
    + right. exists b. split; [exact E|]. destruct (HV (Some b)) as (x & Ex & Bx & Px); [rewrite E; left; reflexivity|]. injection Ex as <-.
      split; [exact Px|]. rewrite <- Px. apply margin_order0. exact (proj1 Bx).
  - intros -> -> R0 Hw E.
    assert (N1 : pderiv c (RtoC 0) = nth 1 c (RtoC 0)).
    { destruct c as [|c0 [|c1 cc]]; cbn [pderiv peval nth]; ring. }
    assert (P0 : peval c (RtoC 0) = order0 c).
    { unfold order0. destruct c as [|c0 cc]; cbn [peval nth]; ring. }
    assert (C1 : 0 < Cmod (nth 1 c (RtoC 0))).
    { pose proof (margin_deriv rho c (RtoC 0) ltac:(rewrite Cmod_0; exact R0)) as M. rewrite N1 in M. lra. }
    assert (NZ : pderiv c (RtoC 0) <> RtoC 0) by (rewrite N1; intro K; rewrite K, Cmod_0 in C1; lra).
    destruct (near_solution c al (RtoC 0) NZ) as (d' & Hd' & [L1 _] & b & Hb & B).
    assert (d' = d). { destruct Hd' as [P1 P2], Hdeg as [Q1 Q2]. destruct (Nat.lt_trichotomy d' d) as [K|[K|K]]; [|exact K|].
      - exfalso. apply Q1, P2, K.
      - exfalso. apply P1, Q2, K. }
    subst d'. rewrite P0, N1 in B. replace (b - 0)%C with b in B by ring.
    assert (Bb : Cmod b <= rho).
    { eapply Rle_trans; [exact B|]. apply Rle_div_l; [exact C1|].
      replace (order0 c - al)%C with (- (al - order0 c))%C by ring. rewrite Cmod_opp. exact Hw. }
    assert (K : occurrences l b = 1%nat).
    { apply (HR b 1%nat).
      - split; [exact Bb|]. split; discriminate.
      - rewrite <- Hb. exact (margin_simple rho c b Hm Bb). }
    rewrite E in K. discriminate.
Qed.

(** C89. Uniqueness: if the margin is positive for every element, the finite dipole
    inverse returns at most one value per element, of size at most
    |signal - c_0| / m; and exactly one for weak signals,
    d |signal - c_0| <= |c_1| beta_threshold (d the degree of the series), when no
    further restriction is requested. *)
Lemma C89_fdm_taylor_unique_proof : forall eig sb sr D alpha A n z r L g d_Q0 d_Q1 n_trapz n_tayl thr ri ra env S
    (c : list nat -> list C) (al : list nat -> C) d,
  library eig sb sr -> env_fits env (fdm_inverse_operands alpha A n z r L g d_Q0 d_Q1) ->
  joint (fdm_inverse_operands alpha A n z r L g d_Q0 d_Q1) S -> (exists i, index_of S i) -> (1 <= d)%nat ->
  (forall i, index_of S i -> entry alpha i = Some (al i) /\ degree (c i) d /\ length (c i) = given_or (d_n_tayl D) n_tayl /\
     match fdm_defaults D (at_index r i) (at_index L i) (at_index g i) (at_index d_Q0 i) (at_index d_Q1 i) None with
     | (r, L, g, d_Q0, d_Q1, _) =>
       coefficients (fun j => fdm_taylor_coef D (given_or (d_z_tip D) (at_index z i)) j (entry A i) (entry n i)
                                (rr r) (rr L) (Some g) d_Q0 (rr d_Q1) n_trapz) (c i)
     end) ->
  exists result,
    fdm_refl_coef_qs_from_eff_pol_n eig sb sr D alpha A n z r L g d_Q0 d_Q1 n_trapz n_tayl thr ri ra env = Ok result /\
    elements result = S /\
    forall i, index_of S i -> let rho := given_or (d_beta_threshold D) thr in let m := margin rho (c i) in 0 < m ->
      (unmasked result i = [] \/
       exists b, unmasked result i = [Some b] /\ peval (c i) b = al i /\ m * Cmod b <= Cmod (al i - order0 (c i))%C) /\
      (ri = false -> ra = false -> 0 <= rho -> INR d * Cmod (al i - order0 (c i))%C <= rho * Cmod (nth 1 (c i) (RtoC 0)) ->
       unmasked result i <> []).
Proof.
  intros eig sb sr D alpha A n z r L g d_Q0 d_Q1 nt ntay thr ri ra env S c al d LIB HE HJ HI Hd HC.
  destruct (C31_fdm_complete_proof eig sb sr D alpha A n z r L g d_Q0 d_Q1 nt ntay thr ri ra env S c al d LIB HE HJ HI Hd HC)
    as (result & ER & EL & HR).
  exists result. split; [exact ER|]. split; [exact EL|]. intros i Hi rho m Hm.
  destruct (HC i Hi) as (Eal & Hdeg & Lc & Hcoef).
  apply (unique_core (unmasked result i) (c i) (al i) d rho ri ra (given_or (d_eps_env D) (at_index env i)) Hdeg); [|intros b k; apply (HR i b k Hi)|exact Hm].
  intros v Hv. destruct (fdm_returned _ _ _ _ _ _ _ _ _ _ _ _ _ _ _ _ _ _ _ _ i v (c i) LIB HE ER ltac:(rewrite EL; exact Hi) Hv Lc Hcoef)
      as (b & -> & B & P). exists b. split; [reflexivity|]. split; [exact B|]. rewrite Eal in P. congruence.
Qed.
(** C89. Uniqueness for the point dipole inverse. *)
Lemma C89_pdm_taylor_unique_proof : forall eig sb sr D alpha A n z r eps_tip alpha_tip n_trapz n_tayl thr ri ra env S
    (c : list nat -> list C) (al : list nat -> C) d,
  library eig sb sr -> env_fits env (pdm_inverse_operands alpha A n z r eps_tip alpha_tip) ->
  eps_tip = None \/ alpha_tip = None ->
  joint (pdm_inverse_operands alpha A n z r eps_tip alpha_tip) S -> (exists i, index_of S i) -> (1 <= d)%nat ->
  (forall i, index_of S i -> entry alpha i = Some (al i) /\ degree (c i) d /\ length (c i) = given_or (d_n_tayl D) n_tayl /\
     exists r_i alpha_i, pdm_defaults D (at_index r i) (at_index eps_tip i) (at_index alpha_tip i) = Ok (r_i, alpha_i) /\
       coefficients (fun j => pdm_taylor_coef D (given_or (d_z_tip D) (at_index z i)) j (entry A i) (entry n i)
                                (rr r_i) alpha_i n_trapz) (c i)) ->
  exists result,
    pdm_refl_coef_qs_from_eff_pol_n eig sb sr D alpha A n z r eps_tip alpha_tip n_trapz n_tayl thr ri ra env = Ok result /\
    elements result = S /\
    forall i, index_of S i -> let rho := given_or (d_beta_threshold D) thr in let m := margin rho (c i) in 0 < m ->
      (unmasked result i = [] \/
       exists b, unmasked result i = [Some b] /\ peval (c i) b = al i /\ m * Cmod b <= Cmod (al i - order0 (c i))%C) /\
      (ri = false -> ra = false -> 0 <= rho -> INR d * Cmod (al i - order0 (c i))%C <= rho * Cmod (nth 1 (c i) (RtoC 0)) ->
       unmasked result i <> []).
Proof.
  intros eig sb sr D alpha A n z r e a nt ntay thr ri ra env S c al d LIB HE Hea HJ HI Hd HC.
  destruct (C31_pdm_complete_proof eig sb sr D alpha A n z r e a nt ntay thr ri ra env S c al d LIB HE Hea HJ HI Hd HC)
    as (result & ER & EL & HR).
  exists result. split; [exact ER|]. split; [exact EL|]. intros i Hi rho m Hm.
  destruct (HC i Hi) as (Eal & Hdeg & Lc & r_i & a_i & HD & Hcoef).
  apply (unique_core (unmasked result i) (c i) (al i) d rho ri ra (given_or (d_eps_env D) (at_index env i)) Hdeg); [|intros b k; apply (HR i b k Hi)|exact Hm].
  intros v Hv. destruct (pdm_returned _ _ _ _ _ _ _ _ _ _ _ _ _ _ _ _ _ _ i v (c i) r_i a_i LIB HE ER ltac:(rewrite EL; exact Hi) Hv Lc HD Hcoef)
      as (b & -> & B & P). exists b. split; [reflexivity|]. split; [exact B|]. rewrite Eal in P. congruence.
Qed.
