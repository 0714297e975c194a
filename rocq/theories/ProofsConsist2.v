(** * Proofs: consistency of the root-finding inverses (C65) *)
From Coq Require Import String Reals Lra Lia ZArith List Bool Permutation Sorted.
From Coquelicot Require Import Rcomplements Complex.
From Verif Require Import Num NumLemmas LimLemmas ModelBase ModelSample ModelTip NArr SpecArr NArrLemmas ModelObj SpecObj
  ModelArr ModelArrTip ModelInv StackLemmas Spec SpecPoly SpecInv SpecNear FTA ArrSample
  ProofsStackQS ProofsStackQS2 ProofsPassive DemodLemmas ProofsDemod ProofsTip ProofsTip2 ProofsTip3 ProofsTaylor
  ProofsArr ProofsArr2 ProofsArrTip InvLemmas ProofsInv ProofsInv2 ProofsInv3 ProofsInv4 ProofsNear ProofsConsist.
Import ListNotations.
Open Scope R_scope.

(** ** Restrictions met with room to spare are met nearby *)
Lemma Im_le_mod c : Rabs (Im c) <= Cmod c.
Proof.
  rewrite <- sqrt_Rsqr_abs. unfold Cmod. apply sqrt_le_1_alt. unfold Rsqr, Im. pose proof (pow2_ge_0 (fst c)). nra.
Qed.
Lemma permitivitty_near : forall beta env e, permitivitty (Some beta) (Some env) = Some e ->
  forall t, 0 < t -> exists d, 0 < d /\ forall b, Cmod (b - beta)%C < d ->
    exists e', permitivitty (Some b) (Some env) = Some e' /\ Cmod (e' - e)%C < t.
Proof.
  intros beta env e H t Ht. unfold permitivitty, rc in H. cbn [cmul cadd csub olift2] in H.
  apply cdiv_Some in H. destruct H as (u & w & Eu & Ew & N & E). injection Eu as <-. injection Ew as <-.
  assert (D0 : 0 < Cmod (1 - beta)%C) by (apply Cmod_gt_0, N). pose proof (Cmod_ge_0 env) as E0.
  set (D := Cmod (1 - beta)%C) in *.
  exists (Rmin (D / 2) (t * (D * D) / (4 * (Cmod env + 1)))). split.
  { apply Rmin_pos; apply Rdiv_lt_0_compat; try lra. apply Rmult_lt_0_compat; nra. }
  intros b Hb. assert (B1 : Cmod (b - beta)%C < D / 2) by (eapply Rlt_le_trans; [exact Hb|apply Rmin_l]).
  assert (B2 : Cmod (b - beta)%C < t * (D * D) / (4 * (Cmod env + 1))) by (eapply Rlt_le_trans; [exact Hb|apply Rmin_r]).
  assert (B3 : D / 2 <= Cmod (1 - b)%C).
  { pose proof (Cmod_triangle (1 - b)%C (b - beta)%C) as T. replace (1 - b + (b - beta))%C with (1 - beta)%C in T by ring. fold D in T. lra. }
  assert (N' : (1 - b <> 0)%C) by (intro K; rewrite K, Cmod_0 in B3; lra).
  exists (env * (1 + b) / (1 - b))%C. split; [unfold permitivitty, rc; cbn [cmul cadd csub olift2]; now rewrite cdiv_ok|].
  rewrite E. replace (env * (1 + b) / (1 - b) - env * (1 + beta) / (1 - beta))%C with (2 * env * (b - beta) / ((1 - b) * (1 - beta)))%C
    by (field; split; assumption).
  rewrite Cmod_div by (now apply Cmult_neq_0). rewrite !Cmod_mult, Cmod_R, (Rabs_pos_eq 2) by lra. fold D.
  apply (Rmult_lt_reg_r (Cmod (1 - b)%C * D)); [apply Rmult_lt_0_compat; lra|].
  replace (2 * Cmod env * Cmod (b - beta)%C / (Cmod (1 - b)%C * D) * (Cmod (1 - b)%C * D)) with (2 * Cmod env * Cmod (b - beta)%C)
    by (field; split; lra).
  apply Rlt_div_r in B2; [|nra]. pose proof (Cmod_ge_0 (b - beta)%C).
  assert (t * (D * (D / 2)) <= t * (Cmod (1 - b)%C * D)) by (apply Rmult_le_compat_l; nra). nra.
Qed.
Lemma interior_near : forall thr ri ra env beta, interior thr ri ra env beta ->
  exists d, 0 < d /\ forall b, Cmod (b - beta)%C < d -> admissible thr ri ra env b.
Proof.
  intros thr ri ra env beta (H1 & H2 & H3).
  assert (G2 : exists d, 0 < d /\ forall b, Cmod (b - beta)%C < d -> ri = true -> exists e, permitivitty (Some b) (Some env) = Some e /\ 0 <= Im e).
  { destruct ri; [|exists 1; split; [lra|discriminate]]. destruct (H2 eq_refl) as (e & He & P).
    destruct (permitivitty_near _ _ _ He (Im e) P) as (d & Hd & K). exists d. split; [exact Hd|]. intros b Hb _. destruct (K b Hb) as (e' & E' & L).
    exists e'. split; [exact E'|]. pose proof (Im_le_mod (e' - e)%C) as T.
    assert (EI : Im (e' - e)%C = Im e' - Im e) by (destruct e', e; unfold Cminus, Cplus, Copp, Im; cbn [fst snd]; ring).
    rewrite EI in T. unfold Rabs in T. destruct (Rcase_abs _); lra. }
  assert (G3 : exists d, 0 < d /\ forall b, Cmod (b - beta)%C < d -> ra = true -> exists e, permitivitty (Some b) (Some env) = Some e /\ 1 <= Cmod e).
  { destruct ra; [|exists 1; split; [lra|discriminate]]. destruct (H3 eq_refl) as (e & He & P).
    destruct (permitivitty_near _ _ _ He (Cmod e - 1) ltac:(lra)) as (d & Hd & K). exists d. split; [exact Hd|]. intros b Hb _. destruct (K b Hb) as (e' & E' & L).
    exists e'. split; [exact E'|]. pose proof (Cmod_triangle e' (- (e' - e))%C) as T. replace (e' + - (e' - e))%C with e in T by ring. rewrite Cmod_opp in T. lra. }
  destruct G2 as (d2 & D2 & G2), G3 as (d3 & D3 & G3).
  exists (Rmin (thr - Cmod beta) (Rmin d2 d3)). split; [repeat apply Rmin_pos; lra|].
  intros b Hb. pose proof (Rmin_l (thr - Cmod beta) (Rmin d2 d3)). pose proof (Rmin_r (thr - Cmod beta) (Rmin d2 d3)).
  pose proof (Rmin_l d2 d3). pose proof (Rmin_r d2 d3). split; [|split].
  - pose proof (Cmod_triangle beta (b - beta)%C) as T. replace (beta + (b - beta))%C with b in T by ring. lra.
  - apply G2. lra.
  - apply G3. lra.
Qed.

(** ** Scalar arguments *)
Lemma joint_scalars : forall ss, (forall s, In s ss -> s = []) -> joint ss [].
Proof.
  intros ss H. split; [|split].
  - intros s Hs. rewrite (H s Hs). split; [cbn; lia|]. intro k. left. destruct k; reflexivity.
  - intro k. left. destruct k; reflexivity.
  - left. reflexivity.
Qed.
Lemma shape_as_array {A} (o : option A) s : In s (shape_of (as_array o)) -> s = [].
Proof. destruct o as [a|]; [intros [<-|[]]; reflexivity|intros []]. Qed.
Lemma at_as_array {A} (o : option A) i : at_index (as_array o) i = o.
Proof. destruct o as [a|]; [cbn [as_array at_index]; now rewrite entry_scalar|reflexivity]. Qed.
Lemma env_as_array (o : option C) ss : env_fits (as_array o) ss.
Proof. intros S s _ H. rewrite (shape_as_array _ _ H). split; [cbn; lia|]. intro k. left. destruct k; reflexivity. Qed.
Lemma index_scalar : index_of [] [].
Proof. split; [reflexivity|]. intros k Hk. cbn in Hk. lia. Qed.

(** C65. Every approximate solution has a solution near it: if x gives a signal
    that differs from the requested one by delta, there is a solution within
    distance d delta / |slope|, where d is the degree of the series and the slope
    is that of the series at x.  If this solution meets the restrictions it is
    returned unmasked. *)
Lemma C65_near_solution_proof : forall eig sb sr D alpha A n z r L g d_Q0 d_Q1 n_trapz n_tayl thr ri ra env S
    (c : list nat -> list C) (al : list nat -> C) d,
  library eig sb sr -> env_fits env (fdm_inverse_operands alpha A n z r L g d_Q0 d_Q1) ->
  joint (fdm_inverse_operands alpha A n z r L g d_Q0 d_Q1) S -> (exists i, index_of S i) -> (1 <= d)%nat ->
  (forall i, index_of S i -> entry alpha i = Some (al i) /\ degree (c i) d /\ length (c i) = given_or (d_n_tayl D) n_tayl /\
     match fdm_defaults D (at_index r i) (at_index L i) (at_index g i) (at_index d_Q0 i) (at_index d_Q1 i) None with
     | (r, L, g, d_Q0, d_Q1, _) =>
       coefficients (fun j => fdm_taylor_coef D (given_or (d_z_tip D) (at_index z i)) j (entry A i) (entry n i)
                                (rr r) (rr L) (Some g) d_Q0 (rr d_Q1) n_trapz) (c i)
     end) ->
  exists result,
    fdm_refl_coef_qs_from_eff_pol_n eig sb sr D alpha A n z r L g d_Q0 d_Q1 n_trapz n_tayl thr ri ra env = Ok result /\
    elements result = S /\
    forall i x, index_of S i -> pderiv (c i) x <> RtoC 0 ->
      exists b, peval (c i) b = al i /\
        Cmod (b - x)%C <= INR d * Cmod (peval (c i) x - al i)%C / Cmod (pderiv (c i) x) /\
        (admissible (given_or (d_beta_threshold D) thr) ri ra (given_or (d_eps_env D) (at_index env i)) b ->
         In (Some b) (unmasked result i)).
Proof.
  intros eig sb sr D alpha A n z r L g d_Q0 d_Q1 nt ntay thr ri ra env S c al d LIB HE HJ HI Hd HC.
  destruct (C31_fdm_complete_proof eig sb sr D alpha A n z r L g d_Q0 d_Q1 nt ntay thr ri ra env S c al d LIB HE HJ HI Hd HC)
    as (result & ER & EL & HR).
  exists result. split; [exact ER|]. split; [exact EL|]. intros i x Hi Hx.
  destruct (near_solution (c i) (al i) x Hx) as (d' & Hd' & [L1 _] & b & Hb & B). destruct (HC i Hi) as (_ & Hdeg & _).
  assert (d' = d). { destruct Hd' as [P1 P2], Hdeg as [Q1 Q2]. destruct (Nat.lt_trichotomy d' d) as [K|[K|K]]; [|exact K|].
    - exfalso. apply Q1, P2, K.
    - exfalso. apply P1, Q2, K. }
  subst d'. exists b. split; [exact Hb|]. split; [exact B|]. intros Ha.
  destruct (multiplicity_pos (c i) d (al i) b Hdeg Hd Hb) as (m & Hm & Hmul).
  apply (count_occ_In CV_eq_dec). pose proof (HR i b m Hi Ha Hmul) as K. unfold occurrences in K. rewrite K. lia.
Qed.

(** C65. The finite dipole inverse is consistent: applied to the exact signal of a
    bulk sample, for which the series converges, it returns for large n_tayl an
    unmasked value as close as desired to the sample's reflection coefficient --
    if the signal responds to first order to the reflection coefficient, and the
    sample meets the requested restrictions with room to spare. *)
Lemma C65_fdm_consistent_proof :
  forall eig sb sr (laggauss : laggauss_t) (D : Defaults) (e0 e1 : C) nu (A_tip : R) (n : Z) (n_trapz : option nat)
    (z_tip r_tip L_tip : option R) (g_factor : option C) (d_Q0 d_Q1 d_Qa : option R) (n_lag : option nat)
    (thr : option R) (ri ra : bool) (eps_env : option C) (response : C),
  let s := stack [e0; e1] [] nu in let beta := ((e1 - e0) / (e1 + e0))%C in
  let N := given_or (d_n_trapz D) n_trapz in let z := given_or (d_z_tip D) z_tip in
  let r := given_or (d_r_tip D) r_tip in let L := given_or (d_L_tip D) L_tip in
  let d0 := given_or (131 / 100 * L / (L + 2 * r)) d_Q0 in let d1 := given_or (d_d_Q1 D) d_Q1 in
  let f0 := fun x => fdm_f x d0 r L (given_or (d_g_factor D) g_factor) in
  let f1 := fun x => fdm_f x d1 r L (given_or (d_g_factor D) g_factor) in
  library eig sb sr -> e1 <> RtoC 0 -> (e0 + e1 <> 0)%C -> N <> O -> resolved N n ->
  (forall k, (k < N)%nat -> let x := tip_height z A_tip N k in
     fdm_regular x d0 r L /\ fdm_regular x d1 r L /\ Cmod (beta * f1 x)%C < 1) ->
  demod D (fun x => Ok (Some (f0 x / (2 * ((1 - beta * f1 x) * (1 - beta * f1 x))))%C)) (z + A_tip) A_tip n n_trapz
    = Ok (Some response) -> response <> RtoC 0 ->
  interior (given_or (d_beta_threshold D) thr) ri ra (given_or (d_eps_env D) eps_env) beta ->
  exists a : C,
    fdm_eff_pol_n laggauss D s A_tip n z_tip n_trapz r_tip L_tip g_factor d_Q0 d_Q1 d_Qa n_lag None = Ok (Some a) /\
    forall eps, 0 < eps -> exists J0, forall J, (J0 <= J)%nat -> exists result b,
      fdm_refl_coef_qs_from_eff_pol_n eig sb sr D (scalar (Some a)) (scalar A_tip) (scalar n) (as_array z_tip) (as_array r_tip)
        (as_array L_tip) (as_array g_factor) (as_array d_Q0) (as_array d_Q1) n_trapz (Some J) thr ri ra (as_array eps_env) = Ok result /\
      elements result = [] /\ In (Some b) (unmasked result []) /\ Cmod (b - beta)%C < eps.
Proof.
  intros eig sb sr lg D e0 e1 nu A n nt z_tip r_tip L_tip g d_Q0 d_Q1 d_Qa n_lag thr ri ra env resp s beta N z r L d0 d1 f0 f1
    LIB H1 H2 HN Hn HK HS HS0 HI.
  destruct (max_below_lt (fun k => Cmod (beta * f1 (tip_height z A N k))%C) N 1 Rlt_0_1) as [rho [Hr Hr']].
  { intros k Hk. split; [apply Cmod_ge_0|apply (HK k Hk)]. }
  destruct (max_below (fun k => Cmod (f0 (tip_height z A N k) / 2)%C) N) as [K [HK0 HKb]].
  assert (Hb : refl_coef_qs s (rr 0) = Ok (Some beta)).
  { unfold s, beta. apply bulk_qs; [exact H1|exact H2]. }
  assert (HP : 0 < r /\ 0 < L) by (destruct (HK O ltac:(lia)) as [Q0 _]; split; apply Q0).
  assert (HR0 : forall k, (k < N)%nat -> fdm_regular (tip_height z A N k) d0 r L) by (intros k Hk; apply (HK k Hk)).
  assert (HR1 : forall k, (k < N)%nat -> fdm_regular (tip_height z A N k) d1 r L) by (intros k Hk; apply (HK k Hk)).
  assert (Hden : forall k, (k < N)%nat -> (1 - beta * f1 (tip_height z A N k) <> 0)%C).
  { intros k Hk. apply (Cmod_1_minus _ rho (Hr' k Hk)). lra. }
  set (c0 := if Z.eqb n 0 then RtoC 1 else RtoC 0).
  set (v := fun x => (f0 x / 2)%C).
  set (a := (c0 + tmean z A n N (fun x => beta * v x / (1 - beta * f1 x)))%C).
  exists a. split.
  { rewrite eff_pol_n_none_bulk by reflexivity.
    assert (HKf : forall k, (k < N)%nat -> let x := tip_height z A N k in
      fdm_regular x d0 r L /\ fdm_regular x d1 r L /\ (1 - beta * fdm_f x d1 r L (given_or (d_g_factor D) g) <> 0)%C).
    { intros k Hk. cbv zeta. split; [apply HR0, Hk|]. split; [apply HR1, Hk|]. apply Hden, Hk. }
    rewrite (fdm_n_value lg D s A n z_tip nt r_tip L_tip g d_Q0 d_Q1 d_Qa n_lag beta eq_refl Hb HN HKf). do 2 f_equal.
    fold N z r L d0 d1. unfold a, c0. rewrite <- (tmean_one z A n N HN Hn), <- tmean_plus. apply tmean_ext. intros k Hk.
    unfold v, f0, f1. field. split; first [exact C2_neq_0 | apply (Hden k Hk)]. }
  assert (ES : resp = tmean z A n N (fun x => v x / ((1 - beta * f1 x) * (1 - beta * f1 x)))%C).
  { assert (X : demod D (fun x => Ok (Some (f0 x / (2 * ((1 - beta * f1 x) * (1 - beta * f1 x))))%C)) (z + A) A n nt
      = Ok (Some (tmean z A n N (fun x => f0 x / (2 * ((1 - beta * f1 x) * (1 - beta * f1 x)))%C)%C))).
    { apply demod_tip; [exact HN|eauto|]. reflexivity. }
    rewrite X in HS. injection HS as HS. rewrite <- HS. apply tmean_ext. intros k Hk. unfold v. field.
    split; first [exact C2_neq_0 | apply (Hden k Hk)]. }
  intros eps He. destruct (interior_near _ _ _ _ _ HI) as (dd & Dd & Hadm).
  destruct (series_near z A n N v f1 c0 beta rho K HN ltac:(lra) Hr' HKb ltac:(rewrite <- ES; exact HS0) (Rmin eps dd) ltac:(apply Rmin_pos; lra))
    as [M HM].
  exists (S M). intros J HJ. destruct J as [|m]; [lia|]. destruct (HM m ltac:(lia)) as (d & Hdeg & Hd1 & b & Hbv & Hbd).
  pose proof (Rmin_l eps dd). pose proof (Rmin_r eps dd).
  set (cs := map (sc z A n N v f1 c0) (seq 0 (S m))) in *.
  destruct (C31_fdm_complete_proof eig sb sr D (scalar (Some a)) (scalar A) (scalar n) (as_array z_tip) (as_array r_tip)
        (as_array L_tip) (as_array g) (as_array d_Q0) (as_array d_Q1) nt (Some (S m)) thr ri ra (as_array env)
        [] (fun _ => cs) (fun _ => a) d LIB) as (result & ER & EL & HR).
  - apply env_as_array.
  - apply joint_scalars. intros sh Hs. unfold fdm_inverse_operands in Hs. rewrite !in_app_iff in Hs.
    destruct Hs as [Hs|[Hs|[Hs|[Hs|[Hs|[Hs|Hs]]]]]]; try exact (shape_as_array _ _ Hs).
    destruct Hs as [<-|[<-|[<-|[]]]]; reflexivity.
  - exists []. apply index_scalar.
  - exact Hd1.
  - intros i Hi. rewrite !entry_scalar, !at_as_array. split; [reflexivity|]. split; [exact Hdeg|].
    split; [unfold cs; rewrite map_length, seq_length; reflexivity|].
    rewrite (fdm_defaults_eq D r_tip L_tip g d_Q0 d_Q1 None) by apply HP. fold z r L d0 d1.
    intros j Hj. unfold cs in Hj |- *. rewrite map_length, seq_length in Hj.
    rewrite (nth_indep _ _ (sc z A n N v f1 c0 O)) by (rewrite map_length, seq_length; exact Hj).
    rewrite map_nth, seq_nth by exact Hj. cbn [Nat.add]. destruct j as [|j].
    + apply taylor_coef_0.
    + rewrite (taylor_coef_S D z A n nt d0 d1 r L (given_or (d_g_factor D) g) HN HR0 HR1 j). cbn [sc]. do 2 f_equal. apply tmean_ext. intros k Hk.
      unfold v, f0, f1. field. exact C2_neq_0.
  - exists result, b. split; [exact ER|]. split; [exact EL|]. split; [|lra].
    destruct (multiplicity_pos cs d a b Hdeg Hd1 Hbv) as (mm & Hm & Hmul).
    apply (count_occ_In CV_eq_dec). rewrite at_as_array in HR || idtac.
    pose proof (HR [] b mm index_scalar) as Kk. rewrite at_as_array in Kk. specialize (Kk (Hadm b ltac:(lra)) Hmul).
    unfold occurrences in Kk. rewrite Kk. lia.
Qed.

(** C65. The same for the point dipole model, given the signal divided by the
    tip polarisability (which is what this inverse expects). *)
Lemma C65_pdm_consistent_proof :
  forall eig sb sr (D : Defaults) (s : sample) (A_tip : R) (n : Z) (z_tip r_tip : option R) (n_trapz : option nat)
    (eps_tip alpha_tip : option C) (thr : option R) (ri ra : bool) (eps_env : option C) (alpha beta response : C),
  let N := given_or (d_n_trapz D) n_trapz in let z := given_or (d_z_tip D) z_tip in
  let r := given_or (d_r_tip D) r_tip in
  let f := fun x => (alpha / RtoC (16 * PI * (r + x) ^ 3))%C in
  library eig sb sr -> tip_alpha r eps_tip alpha_tip alpha -> refl_coef_qs s (rr 0) = Ok (Some beta) -> N <> O ->
  (forall k, (k < N)%nat -> let x := tip_height z A_tip N k in r + x <> 0 /\ Cmod (f x * beta)%C < 1) ->
  demod D (fun x => Ok (Some (f x / ((1 - f x * beta) * (1 - f x * beta)))%C)) (z + A_tip) A_tip n n_trapz
    = Ok (Some response) -> response <> RtoC 0 ->
  interior (given_or (d_beta_threshold D) thr) ri ra (given_or (d_eps_env D) eps_env) beta ->
  exists a c : C,
    pdm_eff_pol_n D s A_tip n z_tip n_trapz r_tip eps_tip alpha_tip = Ok (Some a) /\ a = (alpha * c)%C /\
    forall eps, 0 < eps -> exists J0, forall J, (J0 <= J)%nat -> exists result b,
      pdm_refl_coef_qs_from_eff_pol_n eig sb sr D (scalar (Some c)) (scalar A_tip) (scalar n) (as_array z_tip) (as_array r_tip)
        (as_array eps_tip) (as_array alpha_tip) n_trapz (Some J) thr ri ra (as_array eps_env) = Ok result /\
      elements result = [] /\ In (Some b) (unmasked result []) /\ Cmod (b - beta)%C < eps.
Proof.
  intros eig sb sr D s A n z_tip r_tip nt eps_tip alt thr ri ra env alpha beta resp N z r f LIB Ht Hb HN HK HS HS0 HI.
  destruct (max_below_lt (fun k => Cmod (beta * f (tip_height z A N k))%C) N 1 Rlt_0_1) as [rho [Hr Hr']].
  { intros k Hk. split; [apply Cmod_ge_0|]. rewrite Cmult_comm. apply (HK k Hk). }
  destruct (max_below (fun k => Cmod (f (tip_height z A N k))) N) as [K [HK0 HKb]].
  assert (HR0 : forall k, (k < N)%nat -> r + tip_height z A N k <> 0) by (intros k Hk; apply (HK k Hk)).
  assert (Hden : forall k, (k < N)%nat -> (1 - beta * f (tip_height z A N k) <> 0)%C).
  { intros k Hk. apply (Cmod_1_minus _ rho (Hr' k Hk)). lra. }
  assert (Hden' : forall k, (k < N)%nat -> (1 - f (tip_height z A N k) * beta <> 0)%C).
  { intros k Hk. rewrite Cmult_comm. apply Hden, Hk. }
  set (c0 := tmean z A n N (fun _ => RtoC 1)).
  set (c := (c0 + tmean z A n N (fun x => beta * f x / (1 - beta * f x)))%C).
  exists (alpha * c)%C, c. split; [|split; [reflexivity|]].
  { rewrite (pdm_n_value D s A n z_tip nt r_tip eps_tip alt alpha beta Ht Hb HN (fun k Hk => conj (HR0 k Hk) (Hden' k Hk))). do 2 f_equal.
    fold N z r. unfold c, c0. rewrite <- tmean_plus, <- tmean_scal. apply tmean_ext. intros k Hk. fold (f (tip_height z A N k)). field.
    repeat split; try apply Hden, Hk; apply Hden', Hk. }
  assert (ES : resp = tmean z A n N (fun x => f x / ((1 - beta * f x) * (1 - beta * f x)))%C).
  { assert (X : demod D (fun x => Ok (Some (f x / ((1 - f x * beta) * (1 - f x * beta)))%C)) (z + A) A n nt
      = Ok (Some (tmean z A n N (fun x => f x / ((1 - f x * beta) * (1 - f x * beta)))%C))).
    { apply demod_tip; [exact HN|eauto|]. reflexivity. }
    rewrite X in HS. injection HS as HS. rewrite <- HS. apply tmean_ext. intros k Hk. rewrite (Cmult_comm (f _) beta). reflexivity. }
  intros eps He. destruct (interior_near _ _ _ _ _ HI) as (dd & Dd & Hadm).
  destruct (series_near z A n N f f c0 beta rho K HN ltac:(lra) Hr' HKb ltac:(rewrite <- ES; exact HS0) (Rmin eps dd) ltac:(apply Rmin_pos; lra))
    as [M HM].
  exists (S M). intros J HJ. destruct J as [|m]; [lia|]. destruct (HM m ltac:(lia)) as (d & Hdeg & Hd1 & b & Hbv & Hbd).
  pose proof (Rmin_l eps dd). pose proof (Rmin_r eps dd).
  set (cs := map (sc z A n N f f c0) (seq 0 (S m))) in *.
  destruct (C31_pdm_complete_proof eig sb sr D (scalar (Some c)) (scalar A) (scalar n) (as_array z_tip) (as_array r_tip)
        (as_array eps_tip) (as_array alt) nt (Some (S m)) thr ri ra (as_array env)
        [] (fun _ => cs) (fun _ => c) d LIB) as (result & ER & EL & HR).
  - apply env_as_array.
  - destruct Ht; cbn [as_array]; auto.
  - apply joint_scalars. intros sh Hs. unfold pdm_inverse_operands in Hs. rewrite !in_app_iff in Hs.
    destruct Hs as [Hs|[Hs|[Hs|[Hs|Hs]]]]; try exact (shape_as_array _ _ Hs).
    destruct Hs as [<-|[<-|[<-|[]]]]; reflexivity.
  - exists []. apply index_scalar.
  - exact Hd1.
  - intros i Hi. rewrite !entry_scalar, !at_as_array. split; [reflexivity|]. split; [exact Hdeg|].
    split; [unfold cs; rewrite map_length, seq_length; reflexivity|].
    exists r, (Some alpha). split; [apply pdm_defaults_alpha, Ht|].
    intros j Hj. unfold cs in Hj |- *. rewrite map_length, seq_length in Hj.
    rewrite (nth_indep _ _ (sc z A n N f f c0 O)) by (rewrite map_length, seq_length; exact Hj).
    rewrite map_nth, seq_nth by exact Hj. cbn [Nat.add]. unfold pdm_taylor_coef. fold z.
    rewrite (demod_tip D _ (fun x => Cpown (f x) j)); [|exact HN|eauto|].
    + do 2 f_equal. fold N. destruct j as [|j]; [reflexivity|]. cbn [sc]. apply tmean_ext. intros k Hk. reflexivity.
    + intros k Hk. fold N in Hk |- *. f_equal. rewrite pdm_geom_ok by (apply HR0; exact Hk). reflexivity.
  - exists result, b. split; [exact ER|]. split; [exact EL|]. split; [|lra].
    destruct (multiplicity_pos cs d c b Hdeg Hd1 Hbv) as (mm & Hm & Hmul).
    apply (count_occ_In CV_eq_dec).
    pose proof (HR [] b mm index_scalar) as Kk. rewrite at_as_array in Kk. specialize (Kk (Hadm b ltac:(lra)) Hmul).
    unfold occurrences in Kk. rewrite Kk. lia.
Qed.
