(** * Proofs: the mean signal of a point dipole determines the sample (C89) *)
From Coq Require Import String Reals Lra Lia ZArith List Bool Permutation Sorted.
From Coquelicot Require Import Rcomplements Complex.
From Verif Require Import Num NumLemmas LimLemmas ModelBase ModelSample ModelTip NArr SpecArr NArrLemmas ModelObj SpecObj
  ModelArr ModelArrTip ModelInv StackLemmas Spec SpecPoly SpecInv SpecNear SpecSens FTA ArrSample
  ProofsStackQS ProofsStackQS2 ProofsPassive DemodLemmas ProofsDemod ProofsTip ProofsTip2 ProofsTip3 ProofsTaylor
  ProofsArr ProofsArr2 ProofsArrTip InvLemmas ProofsInv ProofsInv2 ProofsInv3 ProofsInv4 ProofsNear ProofsConsist ProofsConsist2
  ProofsInv5 ProofsSens2.
Import ListNotations.
Open Scope R_scope.

Section Mean.
Variable N : nat.
Variable F : nat -> R.
Variable lo : R.
Hypothesis HN : N <> O.
Hypothesis HF : forall k, (k < N)%nat -> lo <= F k <= 1 / 4.
Hypothesis Hlo : 0 < lo.
Definition M (j : nat) : R := Rsum (map (fun k => F k ^ j) (seq 0 N)) / INR N.
Lemma INRN : 0 < INR N.
Proof using HN. apply lt_0_INR. lia. Qed.
Lemma Rsum_le : forall l (f g : nat -> R), (forall k, In k l -> f k <= g k) -> Rsum (map f l) <= Rsum (map g l).
Proof.
  unfold Rsum. induction l as [|a l IH]; intros f g H; cbn [map fold_right]; [lra|].
  apply Rplus_le_compat; [apply H; left; reflexivity|]. apply IH. intros k Hk. apply H. right. exact Hk.
Qed.
Lemma Rsum_cst : forall l (x : R), Rsum (map (fun _ : nat => x) l) = INR (length l) * x.
Proof.
  unfold Rsum. induction l as [|a l IH]; intro x; [cbn; ring|]. cbn [map fold_right]. rewrite IH. cbn [length]. rewrite S_INR. ring.
Qed.
Lemma Rsum_mul : forall l (x : R) (f : nat -> R), Rsum (map (fun k => x * f k) l) = x * Rsum (map f l).
Proof. unfold Rsum. induction l as [|a l IH]; intros x f; cbn [map fold_right]; [ring|]. rewrite IH. ring. Qed.
Lemma M_pos : forall j, 0 < M j.
Proof using HN HF Hlo.
  intro j. unfold M. pose proof INRN. apply Rdiv_lt_0_compat; [|lra].
  apply Rlt_le_trans with (Rsum (map (fun _ => lo ^ j) (seq 0 N))).
  - rewrite Rsum_cst, seq_length. apply Rmult_lt_0_compat; [lra|]. now apply pow_lt.
  - apply Rsum_le. intros k Hk. apply in_seq in Hk. apply pow_incr. specialize (HF k ltac:(lia)). lra.
Qed.
Lemma M_1 : lo <= M 1.
Proof using HN HF Hlo.
  unfold M. pose proof INRN. apply Rle_div_r; [lra|]. rewrite Rmult_comm.
  rewrite <- (seq_length N 0) at 1. rewrite <- Rsum_cst. apply Rsum_le. intros k Hk. apply in_seq in Hk. specialize (HF k ltac:(lia)).
  rewrite pow_1. lra.
Qed.
Lemma M_le : forall j, M (S j) <= (1 / 4) ^ j * M 1.
Proof using HN HF Hlo.
  intro j. unfold M. pose proof INRN. unfold Rdiv at 1 3. rewrite <- Rmult_assoc. apply Rmult_le_compat_r; [apply Rlt_le, Rinv_0_lt_compat; lra|].
  rewrite <- Rsum_mul. apply Rsum_le. intros k Hk. apply in_seq in Hk. specialize (HF k ltac:(lia)). rewrite pow_1. cbn [pow].
  rewrite Rmult_comm. apply Rmult_le_compat_r; [lra|]. apply pow_incr. lra.
Qed.
Definition y : R := 101 / 400.
Lemma slopes_M : forall rho m k, 0 <= rho <= 101 / 100 ->
  slopes rho (S k) (map (fun j => RtoC (M j)) (seq (S k) m)) <= M 1 * (y ^ k * (INR (S k) * (1 - y) + y) / ((1 - y) * (1 - y))).
Proof using HN HF Hlo.
  assert (Y : 0 < y < 1) by (unfold y; lra).
  intros rho m. induction m as [|m IH]; intros k Hr; cbn [seq map slopes].
  - pose proof (M_pos 1). pose proof (pow_le y k ltac:(lra)). pose proof (pos_INR (S k)). apply Rmult_le_pos; [lra|].
    apply Rdiv_le_0_compat; [|nra]. apply Rmult_le_pos; [lra|]. nra.
  - specialize (IH (S k) Hr). replace (S k - 1)%nat with k by lia.
    rewrite Cmod_R, Rabs_pos_eq by (apply Rlt_le, M_pos).
    pose proof (M_pos 1). pose proof (M_pos (S k)). pose proof (M_le k). pose proof (pos_INR (S k)).
    assert (P : 0 <= rho ^ k) by (apply pow_le; lra).
    assert (Q : (1 / 4) ^ k * rho ^ k <= y ^ k). { rewrite <- Rpow_mult_distr. apply pow_incr. unfold y. lra. }
    assert (H3 : INR (S k) * M (S k) * rho ^ k <= INR (S k) * (y ^ k * M 1)).
    { rewrite Rmult_assoc. apply Rmult_le_compat_l; [lra|].
      apply Rle_trans with ((1 / 4) ^ k * M 1 * rho ^ k); [apply Rmult_le_compat_r; lra|].
      replace ((1 / 4) ^ k * M 1 * rho ^ k) with ((1 / 4) ^ k * rho ^ k * M 1) by ring. apply Rmult_le_compat_r; lra. }
    eapply Rle_trans; [apply Rplus_le_compat; [exact H3|exact IH]|].
    right. rewrite (S_INR (S k)). cbn [pow]. field. lra.
Qed.
Lemma margin_M : forall rho m, 0 <= rho <= 101 / 100 -> 1 / 5 * lo <= margin rho (map (fun j => RtoC (M j)) (seq 0 (S (S m)))).
Proof using HN HF Hlo.
  intros rho m Hr. cbn [seq map margin]. pose proof (slopes_M rho m 1 Hr) as S. change (INR 2) with (1 + 1) in S. rewrite pow_1 in S.
  rewrite Cmod_R, Rabs_pos_eq by (apply Rlt_le, M_pos). pose proof M_1.
  assert (E : y * ((1 + 1) * (1 - y) + y) / ((1 - y) * (1 - y)) <= 4 / 5) by (unfold y; lra).
  assert (M 1 * (y * ((1 + 1) * (1 - y) + y) / ((1 - y) * (1 - y))) <= M 1 * (4 / 5)) by (apply Rmult_le_compat_l; lra). lra.
Qed.
End Mean.

(** the Taylor coefficients of the mean signal *)
Lemma mean_coefs : forall D (A r z alpha : R) nt J,
  let N := given_or (d_n_trapz D) nt in
  let F := fun k => alpha / (16 * PI * (r + tip_height z A N k) ^ 3) in
  N <> O -> (forall k, (k < N)%nat -> r + tip_height z A N k <> 0) ->
  coefficients (fun j => pdm_taylor_coef D z j A 0 (rr r) (Some (RtoC alpha)) nt) (map (fun j => RtoC (M N F j)) (seq 0 J)).
Proof.
  intros D A r z alpha nt J N F HN HR j Hj. rewrite map_length, seq_length in Hj.
  rewrite (nth_indep _ _ ((fun j => RtoC (M N F j)) O)) by (rewrite map_length, seq_length; exact Hj).
  rewrite (map_nth (fun j => RtoC (M N F j))), seq_nth by exact Hj. cbn [Nat.add]. unfold pdm_taylor_coef.
  rewrite (demod_tip D _ (fun x => Cpown (RtoC alpha / RtoC (16 * PI * (r + x) ^ 3)) j)%C); [|exact HN|eauto|].
  - do 2 f_equal. fold N. unfold tmean.
    rewrite (cmean_ext N _ (fun k => RtoC (F k ^ j))).
    + apply injective_projections.
      * change (Re (cmean N (fun k => RtoC (F k ^ j))) = M N F j). rewrite Re_cmean. reflexivity.
      * change (Im (cmean N (fun k => RtoC (F k ^ j))) = 0). rewrite Im_cmean.
        rewrite (map_ext _ (fun _ : nat => 0)) by reflexivity. rewrite Rsum_cst. unfold Rdiv. ring.
    + intros k Hk. rewrite ph_0. rewrite Cmult_1_r.
      rewrite <- RtoC_div; [rewrite Cpown_R; reflexivity|]. apply RtoC_inj_neq || idtac.
      apply Rmult_integral_contrapositive. split; [pose proof PI_RGT_0; lra|]. apply pow_nonzero, HR, Hk.
  - intros k Hk. fold N in Hk |- *. f_equal. rewrite pdm_geom_ok by (apply HR; exact Hk). reflexivity.
Qed.
Lemma tip_height_range : forall z A N k, 0 <= A -> z <= tip_height z A N k <= z + 2 * A.
Proof.
  intros z A N k HA. unfold tip_height. pose proof (COS_bound (2 * PI * INR k / INR N)) as [B1 B2]. split; nra.
Qed.

(** C89. For a sphere no more polarisable than a perfectly conducting one, which
    does not penetrate the surface, the mean of the signal over the oscillation
    (harmonic 0) determines the reflection coefficient: with beta_threshold at most
    1.01 (the default) and any number of Taylor terms the point dipole inverse returns at most one
    value, and the values returned for two signals a, a' differ by at most
    5 |a' - a| / f, where f = alpha / (16 pi (r + z + 2 A)^3) is the coupling at the
    highest point. *)
Lemma C89_mean_signal_proof : forall eig sb sr (D : Defaults) (A_tip : R) (z_tip r_tip : option R) (eps_tip alpha_tip : option C)
    (n_trapz n_tayl : option nat) (thr : option R) (ri ra : bool) (env : option C) (alpha : R),
  let N := given_or (d_n_trapz D) n_trapz in let z := given_or (d_z_tip D) z_tip in let r := given_or (d_r_tip D) r_tip in
  let f := alpha / (16 * PI * (r + z + 2 * A_tip) ^ 3) in
  library eig sb sr -> tip_alpha r eps_tip alpha_tip (RtoC alpha) -> 0 < r -> 0 <= z -> 0 <= A_tip -> 0 < alpha <= 4 * PI * r ^ 3 ->
  N <> O -> (2 <= given_or (d_n_tayl D) n_tayl)%nat -> 0 <= given_or (d_beta_threshold D) thr <= 101 / 100 ->
  exists value : C -> option C,
    (forall a, exists result,
      pdm_refl_coef_qs_from_eff_pol_n eig sb sr D (scalar (Some a)) (scalar A_tip) (scalar 0%Z) (as_array z_tip) (as_array r_tip)
        (as_array eps_tip) (as_array alpha_tip) n_trapz n_tayl thr ri ra (as_array env) = Ok result /\
      elements result = [] /\ unmasked result [] = match value a with Some b => [Some b] | None => [] end) /\
    forall a a' b b', value a = Some b -> value a' = Some b' ->
      0 < f /\ f * Cmod (b' - b)%C <= 5 * Cmod (a' - a)%C.
Proof.
  intros eig sb sr D A z_tip r_tip e at_ nt ntay thr ri ra env alpha N z r f LIB Ht Hr Hz HA Hal HN HJ Hrho.
  destruct (given_or (d_n_tayl D) ntay) as [|[|m]] eqn:EJ; try lia. clear HJ.
  set (rho := given_or (d_beta_threshold D) thr) in *.
  set (F := fun k => alpha / (16 * PI * (r + tip_height z A N k) ^ 3)).
  pose proof PI_RGT_0 as HPI.
  assert (HX : forall k, 0 < r + z <= r + tip_height z A N k /\ r + tip_height z A N k <= r + z + 2 * A).
  { intro k. pose proof (tip_height_range z A N k HA). lra. }
  assert (HR0 : forall k, (k < N)%nat -> r + tip_height z A N k <> 0) by (intros k _; pose proof (HX k); lra).
  assert (Hf : 0 < f). { unfold f. apply Rdiv_lt_0_compat; [lra|]. apply Rmult_lt_0_compat; [lra|]. apply pow_lt. lra. }
  assert (HF : forall k, (k < N)%nat -> f <= F k <= 1 / 4).
  { intros k _. destruct (HX k) as [[X1 X2] X3]. unfold f, F.
    assert (P1 : (r + tip_height z A N k) ^ 3 <= (r + z + 2 * A) ^ 3) by (apply pow_incr; lra).
    assert (P2 : r ^ 3 <= (r + tip_height z A N k) ^ 3) by (apply pow_incr; lra).
    assert (P3 : 0 < r ^ 3) by (apply pow_lt; lra).
    split.
    - unfold Rdiv. apply Rmult_le_compat_l; [lra|]. apply Rinv_le_contravar; [apply Rmult_lt_0_compat; lra|]. apply Rmult_le_compat_l; lra.
    - apply Rle_div_l; [apply Rmult_lt_0_compat; lra|]. nra. }
  set (c := map (fun j => RtoC (M N F j)) (seq 0 (S (S m)))).
  pose proof (mean_coefs D A r z alpha nt (S (S m)) HN HR0) as HC. fold N F c in HC.
  assert (Lc : length c = S (S m)) by (unfold c; rewrite map_length, seq_length; reflexivity).
  assert (MG : 1 / 5 * f <= margin rho c) by (apply (margin_M N F f HN HF Hf); exact Hrho).
  assert (HD : pdm_defaults D r_tip e at_ = Ok (r, Some (RtoC alpha))) by (apply pdm_defaults_alpha, Ht).
  assert (DEG : degree c (S m)).
  { split.
    - unfold c. rewrite (nth_indep _ _ ((fun j => RtoC (M N F j)) O)) by (rewrite map_length, seq_length; lia).
      rewrite (map_nth (fun j => RtoC (M N F j))), seq_nth by lia. apply RtoC_neq_0. pose proof (M_pos N F f HN HF Hf (0 + S m)). lra.
    - intros k Hk. apply nth_overflow. lia. }
  assert (Hea : as_array e = None \/ as_array at_ = None) by (destruct Ht; cbn [as_array]; auto).
  assert (JT : forall a, joint (pdm_inverse_operands (scalar (A:=CV) (Some a)) (scalar A) (scalar 0%Z) (as_array z_tip) (as_array r_tip) (as_array e) (as_array at_)) []).
  { intro a. apply joint_scalars. intros sh Hs. unfold pdm_inverse_operands in Hs. rewrite !in_app_iff in Hs.
    destruct Hs as [Hs|[Hs|[Hs|[Hs|Hs]]]]; try exact (shape_as_array _ _ Hs).
    destruct Hs as [<-|[<-|[<-|[]]]]; reflexivity. }
  set (call := fun a => pdm_refl_coef_qs_from_eff_pol_n eig sb sr D (scalar (Some a)) (scalar A) (scalar 0%Z) (as_array z_tip) (as_array r_tip)
        (as_array e) (as_array at_) nt ntay thr ri ra (as_array env)).
  assert (HC' : coefficients (fun j => pdm_taylor_coef D (given_or (d_z_tip D) (at_index (as_array z_tip) [])) j
       (entry (scalar A) []) (entry (scalar 0%Z) []) (rr r) (Some (RtoC alpha)) nt) c).
  { rewrite at_as_array, !entry_scalar. exact HC. }
  assert (HD' : pdm_defaults D (at_index (as_array r_tip) []) (at_index (as_array e) []) (at_index (as_array at_) []) = Ok (r, Some (RtoC alpha))).
  { rewrite !at_as_array. exact HD. }
  assert (U : forall a, exists result, call a = Ok result /\ elements result = [] /\
     (unmasked result [] = [] \/ exists b, unmasked result [] = [Some b])).
  { intro a. destruct (C89_pdm_taylor_unique_proof eig sb sr D (scalar (Some a)) (scalar A) (scalar 0%Z) (as_array z_tip) (as_array r_tip)
        (as_array e) (as_array at_) nt ntay thr ri ra (as_array env) [] (fun _ => c) (fun _ => a) (S m) LIB) as (result & ER & EL & HU).
    - apply env_as_array.
    - exact Hea.
    - apply JT.
    - exists []. apply index_scalar.
    - lia.
    - intros i Hi. apply index_nil in Hi. subst i. rewrite entry_scalar. split; [reflexivity|]. split; [exact DEG|]. split; [congruence|].
      exists r, (Some (RtoC alpha)). split; [exact HD'|exact HC'].
    - exists result. split; [exact ER|]. split; [exact EL|]. destruct (HU [] index_scalar) as [[E|(b & E & _)] _]; [fold rho; lra|left; exact E|right; eauto]. }
  set (value := fun a => match call a with Ok r => match unmasked r [] with [Some b] => Some b | _ => None end | Raise _ => None end).
  assert (V : forall a, exists result, call a = Ok result /\ elements result = [] /\ unmasked result [] = match value a with Some b => [Some b] | None => [] end).
  { intro a. destruct (U a) as (result & ER & EL & E). exists result. split; [exact ER|]. split; [exact EL|]. unfold value. rewrite ER.
    destruct E as [E|(b & E)]; rewrite E; reflexivity. }
  exists value. split; [exact V|]. intros a a' b b' Va Va'. split; [exact Hf|].
  destruct (V a) as (result & ER & EL & E). destruct (V a') as (result' & ER' & EL' & E'). rewrite Va in E. rewrite Va' in E'.
  pose proof (C89_pdm_taylor_stable_proof eig sb sr D (scalar (Some a)) (scalar (Some a')) (scalar A) (scalar 0%Z) (as_array z_tip) (as_array r_tip)
        (as_array e) (as_array at_) nt ntay thr ri ra ri ra (as_array env) result result' [] c r (Some (RtoC alpha)) a a' b b' LIB) as ST.
  assert (G : margin rho c * Cmod (b' - b)%C <= Cmod (a' - a)%C).
  { apply ST; try apply env_as_array; try assumption; try (rewrite EL || rewrite EL'; apply index_scalar); try (rewrite entry_scalar; reflexivity).
    - congruence.
    - rewrite E. left. reflexivity.
    - rewrite E'. left. reflexivity. }
  pose proof (Cmod_ge_0 (b' - b)%C). assert (1 / 5 * f * Cmod (b' - b)%C <= Cmod (a' - a)%C) by (eapply Rle_trans; [apply Rmult_le_compat_r; [lra|exact MG]|exact G]).
  lra.
Qed.

(** C89. The default tip (a perfectly conducting sphere) meets the conditions, in
    contact and for every amplitude: its polarisability is 4 pi r^3. *)
Lemma C89_mean_signal_example_proof :
  let r := d_r_tip defaults0 in
  (exists eig sb sr, library eig sb sr) /\ tip_alpha r None None (RtoC (4 * PI * r ^ 3)) /\ 0 < r /\ 0 <= d_z_tip defaults0 /\
  0 < 4 * PI * r ^ 3 /\ d_n_trapz defaults0 <> O /\ (2 <= d_n_tayl defaults0)%nat /\ 0 <= d_beta_threshold defaults0 <= 101 / 100.
Proof.
  intro r. split; [exact library_exists|]. split; [apply C27_example_proof|].
  assert (0 < r) by (unfold r; cbn; lra). split; [exact H|]. split; [cbn; lra|]. split.
  - pose proof PI_RGT_0. apply Rmult_lt_0_compat; [lra|]. now apply pow_lt.
  - cbn. repeat split; try lia; lra.
Qed.
