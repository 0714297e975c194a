(** * Proofs: comparison of lossless stacks (C85): signals and apparent permittivity *)
From Coq Require Import String Reals Lra Lia ZArith List Bool Permutation Sorted.
From Coquelicot Require Import Rcomplements Complex.
From Verif Require Import Num NumLemmas LimLemmas ModelBase ModelSample ModelTip NArr SpecArr NArrLemmas ModelObj SpecObj
  ModelArr ModelArrTip ModelInv StackLemmas Spec SpecPoly SpecInv SpecNear SpecFirst FTA ArrSample
  ProofsStackQS ProofsStackQS2 ProofsPassive DemodLemmas ProofsDemod ProofsTip ProofsTip2 ProofsTip3 ProofsTaylor
  ProofsArr ProofsArr2 ProofsArrTip ProofsArrTip2 ProofsArrTip3 ProofsArrTip4 InvLemmas ProofsInv ProofsInv2 ProofsInv3 ProofsInv4 ProofsNear ProofsConsist ProofsConsist2
  PosDef ProofsContrast ProofsContrast2 PosPoly ProofsFirst ProofsFirst2 ProofsCompare.
Import ListNotations.
Open Scope R_scope.

Lemma fdm_taylor_ave lag D s A n z r L g d0 d1 da n_lag meth nt ntay b r' L' g' d0' d1' da' :
  meth = Some "Q_ave"%string \/ (meth = None /\ multilayer s = true) ->
  fdm_defaults D r L g d0 d1 da = (r', L', g', d0', d1', da') ->
  refl_coef_qs_above_surf lag D s (rr (dflt (d_z_tip D) z) + rr r' * rr da')%rv n_lag = Ok (Some b) ->
  fdm_eff_pol_n_taylor lag D s A n z r L g d0 d1 da n_lag meth nt ntay
  = Ok (csum (map (fun j => (fdm_coef D (dflt (d_z_tip D) z) A n (rr r') (rr L') (Some g') d0' (rr d1') nt j * cpown (Some b) j)%cv) (seq 0 (dflt (d_n_tayl D) ntay)))).
Proof.
  intros Hmeth Hd Hb. unfold fdm_eff_pol_n_taylor. cbn zeta. rewrite Hd. cbv iota beta.
  assert (E : (match meth with None => if multilayer s then "Q_ave"%string else "bulk"%string | Some m => m end) = "Q_ave"%string).
  { destruct Hmeth as [->|[-> ->]]; reflexivity. }
  rewrite E. cbn [String.eqb Ascii.eqb Bool.eqb]. rewrite Hb. cbn [rbind].
  erewrite mapM_pure; [cbn [rbind]; reflexivity|]. intro j. cbn beta.
  rewrite (proj1 (fdm_coef_ok _ _ _ _ _ _ _ _ _ _ _)). reflexivity.
Qed.

Section FDM.
Context (lg : laggauss_t) (D : Defaults) (A : R) (n : Z) (nt : option nat) (z_tip r_tip L_tip : option R) (gf : option C)
  (d_Q0 d_Q1 d_Qa : option R) (n_lag : option nat) (g : R).
Let N := given_or (d_n_trapz D) nt. Let z := given_or (d_z_tip D) z_tip.
Let r := given_or (d_r_tip D) r_tip. Let L := given_or (d_L_tip D) L_tip.
Let d0 := given_or (131 / 100 * L / (L + 2 * r)) d_Q0. Let d1 := given_or (d_d_Q1 D) d_Q1. Let da := given_or (d_d_Qa D) d_Qa.
Context (Hg : given_or (d_g_factor D) gf = RtoC g) (HN : N <> O) (HA : 0 < A) (HrL : r < 4 * L).
Context (R0 : in_reach z A d0 r L g) (R1 : in_reach z A d1 r L g).
Let q := qj n N (fV D A nt z_tip r_tip L_tip d_Q0 g) (fF D A nt z_tip r_tip L_tip d_Q1 g).
Let sg := sgn_pow n.
Lemma f_taylor_ave s m b meth : meth = Some "Q_ave"%string \/ (meth = None /\ multilayer s = true) ->
  refl_coef_qs_above_surf lg D s (rr (z + r * da)) n_lag = Ok (Some (RtoC b)) ->
  fdm_eff_pol_n_taylor lg D s A n z_tip r_tip L_tip gf d_Q0 d_Q1 d_Qa n_lag meth nt (Some (S m))
  = Ok (Some (fc0 n + RtoC (sg * tm q m b)))%C.
Proof using Hg HN HA HrL R0 R1.
  intros Hm Hb.
  rewrite (fdm_taylor_ave lg D s A n z_tip r_tip L_tip gf d_Q0 d_Q1 d_Qa n_lag meth nt (Some (S m)) (RtoC b) r L (RtoC g) (rr d0) d1 da Hm).
  - f_equal. rewrite <- (cfs_real q (fc0 n) sg m b). cbn [dflt]. apply taylor_value; [apply cfs_length|]. intros j Hj.
    rewrite dflt_given. unfold fdm_coef. fold z.
    pose proof (f_coef D A n nt z_tip r_tip L_tip d_Q0 d_Q1 g HN HA HrL R0 R1 j) as E. fold N z r L d0 d1 in E. fold q sg in E.
    rewrite E. cbn [value]. now rewrite cfs_nth by lia.
  - rewrite (fdm_defaults_eq D r_tip L_tip gf d_Q0 d_Q1 d_Qa) by (apply R0). rewrite Hg. reflexivity.
  - rewrite dflt_given. exact Hb.
Qed.
End FDM.

Lemma stack_multi (l : list R) ts nu : length l = (length ts + 2)%nat -> ts <> [] -> multilayer (stack (map RtoC l) ts nu) = true.
Proof.
  intros Hl Hn. unfold multilayer, n_layers, stack. cbn [eps_stack]. rewrite !map_length, Hl. apply Nat.ltb_lt. destruct ts; [congruence|cbn [length]; lia].
Qed.

(** C85. Hence the harmonics of the Taylor series of the finite dipole model over
    lossless stacks with no layer below the permittivity of the environment: with
    the sign (-1)^n taken out, they do not decrease if any of the permittivities
    is raised. *)
Lemma C85_signal_order_proof :
  forall (laggauss : laggauss_t) (D : Defaults) (e0 e1 e1' : R) (es es' ts : list R) nu nu' (A_tip : R) (n : Z) (n_trapz : option nat)
    (z_tip r_tip L_tip : option R) (g_factor : option C) (d_Q0 d_Q1 d_Qa : option R) (n_lag : option nat) (method : option string) (g : R) (J : nat),
  let N := given_or (d_n_trapz D) n_trapz in let z := given_or (d_z_tip D) z_tip in
  let r := given_or (d_r_tip D) r_tip in let L := given_or (d_L_tip D) L_tip in
  let d0 := given_or (131 / 100 * L / (L + 2 * r)) d_Q0 in let d1 := given_or (d_d_Q1 D) d_Q1 in let da := given_or (d_d_Qa D) d_Qa in
  let nl := given_or (d_n_lag D) n_lag in
  nl <> O -> laguerre_rule (laggauss nl) ->
  method = Some "Q_ave"%string \/ (method = None /\ ts <> []) -> given_or (d_g_factor D) g_factor = RtoC g ->
  N <> O -> 0 < A_tip -> 0 < r < 4 * L -> 0 < r + 4 * z + 2 * r * d0 -> 0 < r + 4 * z + 2 * r * d1 ->
  r + 2 * (z + 2 * A_tip) + r * d0 <= 2 * L * g -> r + 4 * (z + 2 * A_tip) + 2 * r * d0 <= 4 * L ->
  r + 2 * (z + 2 * A_tip) + r * d1 <= 2 * L * g -> r + 4 * (z + 2 * A_tip) + 2 * r * d1 <= 4 * L -> 0 < z + r * da ->
  length es = length ts -> Forall (fun t => 0 <= t) ts -> 0 < e0 ->
  Forall (fun e => e0 <= e) (e1 :: es) -> Forall2 Rle (e1 :: es) (e1' :: es') -> (1 <= J)%nat ->
  exists a a' : R,
    fdm_eff_pol_n_taylor laggauss D (stack (map RtoC (e0 :: e1 :: es)) ts nu) A_tip n z_tip r_tip L_tip g_factor d_Q0 d_Q1 d_Qa n_lag method n_trapz (Some J)
      = Ok (Some (RtoC a)) /\
    fdm_eff_pol_n_taylor laggauss D (stack (map RtoC (e0 :: e1' :: es')) ts nu') A_tip n z_tip r_tip L_tip g_factor d_Q0 d_Q1 d_Qa n_lag method n_trapz (Some J)
      = Ok (Some (RtoC a')) /\
    sgn_pow n * a <= sgn_pow n * a'.
Proof.
  intros lg D e0 e1 e1' es es' ts nu nu' A n nt z_tip r_tip L_tip gf d_Q0 d_Q1 d_Qa n_lag meth g J N z r L d0 d1 da nl
    Hnl HR Hmeth Hg HN HA [Hr HrL] P0 P1 G0 V0 G1 V1 Hz Hl Ht H0 Hge H2 HJ.
  assert (R0 : in_reach z A d0 r L g) by (repeat split; lra). assert (R1 : in_reach z A d1 r L g) by (repeat split; lra).
  destruct J as [|m]; [lia|]. destruct (fc0_real n) as (c & Ec).
  assert (Hp : Forall (fun e => 0 < e) (e1 :: es)) by (eapply Forall_impl; [|exact Hge]; intros; simpl in *; lra).
  destruct (C85_average_proof lg D n_lag e0 e0 e1 e1' es es' ts nu nu' (z + r * da) Hnl HR Hl Ht Hz H0 ltac:(lra) Hp H2) as (b & b' & E1 & E2 & Hbb & HB).
  assert (Hb0 : 0 <= b).
  { destruct (list_max_pos (e1 :: es) ltac:(discriminate)) as (M & M1 & M2).
    assert (B : (e0 - e0) / (e0 + e0) <= b) by (apply (HB e0 M H0); rewrite Forall_forall in Hge, M1 |- *; intros; split; auto).
    replace ((e0 - e0) / (e0 + e0)) with 0 in B by (field; lra). exact B. }
  pose proof (F2_len _ _ _ H2) as L2. cbn [length] in L2.
  assert (W : meth = Some "Q_ave"%string \/ (meth = None /\ multilayer (stack (map RtoC (e0 :: e1 :: es)) ts nu) = true)).
  { destruct Hmeth as [K|[K1 K2]]; [now left|right; split; [exact K1|]]. apply stack_multi; [cbn [length]; lia|exact K2]. }
  assert (W' : meth = Some "Q_ave"%string \/ (meth = None /\ multilayer (stack (map RtoC (e0 :: e1' :: es')) ts nu') = true)).
  { destruct Hmeth as [K|[K1 K2]]; [now left|right; split; [exact K1|]]. apply stack_multi; [cbn [length]; lia|exact K2]. }
  pose proof (f_taylor_ave lg D A n nt z_tip r_tip L_tip gf d_Q0 d_Q1 d_Qa n_lag g Hg HN HA HrL R0 R1 _ m b meth W E1) as T1.
  pose proof (f_taylor_ave lg D A n nt z_tip r_tip L_tip gf d_Q0 d_Q1 d_Qa n_lag g Hg HN HA HrL R0 R1 _ m b' meth W' E2) as T2.
  pose proof (fq_pos D A n nt z_tip r_tip L_tip d_Q0 d_Q1 g HN HA HrL R0 R1) as Q.
  set (q := qj n (given_or (d_n_trapz D) nt) _ _) in *.
  rewrite Ec, <- RtoC_plus in T1, T2. eexists. eexists. split; [exact T1|]. split; [exact T2|].
  enough (tm q m b <= tm q m b').
  { pose proof (sgn_sq n) as S. rewrite !Rmult_plus_distr_l, <- !Rmult_assoc, S. lra. }
  destruct m as [|m]; [unfold tm; cbn [Sm]; lra|].
  assert (q O * (b' - b) <= tm q (S m) b' - tm q (S m) b) by (apply tm_diff; [exact Q|lia|lra]).
  assert (0 <= q O * (b' - b)) by (apply Rmult_le_pos; [apply Rlt_le, Q|lra]). lra.
Qed.

(** C85. What the root-finding inverse makes of a layered sample: its first value
    is the coefficient of a half space with permittivity [x] (the one
    [permitivitty] gives), and [x] lies between the smallest and the largest
    permittivity below the environment. *)
Lemma C85_apparent_proof :
  forall eig sb sr (laggauss : laggauss_t) (D : Defaults) (e0 e1 m M : R) (es ts : list R) nu (A_tip : R) (n : Z) (n_trapz : option nat)
    (z_tip r_tip L_tip : option R) (g_factor : option C) (d_Q0 d_Q1 d_Qa : option R) (n_lag : option nat) (method : option string)
    (thr : option R) (ri ra : bool) (g : R) (J : nat),
  let N := given_or (d_n_trapz D) n_trapz in let z := given_or (d_z_tip D) z_tip in
  let r := given_or (d_r_tip D) r_tip in let L := given_or (d_L_tip D) L_tip in
  let d0 := given_or (131 / 100 * L / (L + 2 * r)) d_Q0 in let d1 := given_or (d_d_Q1 D) d_Q1 in let da := given_or (d_d_Qa D) d_Qa in
  let nl := given_or (d_n_lag D) n_lag in
  library eig sb sr -> nl <> O -> laguerre_rule (laggauss nl) ->
  method = Some "Q_ave"%string \/ (method = None /\ ts <> []) -> given_or (d_g_factor D) g_factor = RtoC g ->
  N <> O -> 0 < A_tip -> 0 < r < 4 * L -> 0 < r + 4 * z + 2 * r * d0 -> 0 < r + 4 * z + 2 * r * d1 ->
  r + 2 * (z + 2 * A_tip) + r * d0 <= 2 * L * g -> r + 4 * (z + 2 * A_tip) + 2 * r * d0 <= 4 * L ->
  r + 2 * (z + 2 * A_tip) + r * d1 <= 2 * L * g -> r + 4 * (z + 2 * A_tip) + 2 * r * d1 <= 4 * L -> 0 < z + r * da ->
  length es = length ts -> Forall (fun t => 0 <= t) ts -> 0 < e0 <= m ->
  Forall (fun e => m <= e <= M) (e1 :: es) -> (2 <= J)%nat ->
  (M - e0) / (M + e0) <= given_or (d_beta_threshold D) thr -> (ra = true -> 1 <= m) ->
  exists (a b x : R) result,
    fdm_eff_pol_n_taylor laggauss D (stack (map RtoC (e0 :: e1 :: es)) ts nu) A_tip n z_tip r_tip L_tip g_factor d_Q0 d_Q1 d_Qa n_lag method n_trapz (Some J)
      = Ok (Some (RtoC a)) /\
    fdm_refl_coef_qs_from_eff_pol_n eig sb sr D (scalar (Some (RtoC a))) (scalar A_tip) (scalar n) (as_array z_tip) (as_array r_tip)
        (as_array L_tip) (as_array g_factor) (as_array d_Q0) (as_array d_Q1) n_trapz (Some J) thr ri ra (Some (scalar (RtoC e0))) = Ok result /\
    smallest_first result b /\ permitivitty (Some (RtoC b)) (Some (RtoC e0)) = Some (RtoC x) /\ m <= x <= M.
Proof.
  intros eig sb sr lg D e0 e1 m M es ts nu A n nt z_tip r_tip L_tip gf d_Q0 d_Q1 d_Qa n_lag meth thr ri ra g J N z r L d0 d1 da nl
    LIB Hnl HR Hmeth Hg HN HA [Hr HrL] P0 P1 G0 V0 G1 V1 Hz Hl Ht H0 HB HJ Hthr Hra.
  assert (R0 : in_reach z A d0 r L g) by (repeat split; lra). assert (R1 : in_reach z A d1 r L g) by (repeat split; lra).
  destruct J as [|k]; [lia|]. destruct (fc0_real n) as (c & Ec).
  assert (Hp : Forall (fun e => 0 < e) (e1 :: es)) by (eapply Forall_impl; [|exact HB]; intros; simpl in *; lra).
  assert (H2 : Forall2 Rle (e1 :: es) (e1 :: es)) by (clear; generalize (e1 :: es); induction l; constructor; [lra|assumption]).
  destruct (C85_average_proof lg D n_lag e0 e0 e1 e1 es es ts nu nu (z + r * da) Hnl HR Hl Ht Hz ltac:(lra) ltac:(lra) Hp H2) as (b & b' & E1 & _ & _ & Hb).
  specialize (Hb m M ltac:(lra) HB). assert (HmM : m <= M) by (inversion HB; subst; lra).
  assert (Hb0 : 0 <= b) by (assert (0 <= (m - e0) / (m + e0)) by (apply Rdiv_le_0_compat; lra); lra).
  assert (Hb1 : b < 1) by (assert ((M - e0) / (M + e0) < 1) by (apply Rlt_div_l; lra); lra).
  set (x := e0 * (1 + b) / (1 - b)).
  assert (EP : permitivitty (Some (RtoC b)) (Some (RtoC e0)) = Some (RtoC x)).
  { unfold permitivitty, rc. cbn [cmul cadd csub olift2]. rewrite cdiv_ok.
    - f_equal. rewrite <- !RtoC_plus, <- !RtoC_minus, <- ?RtoC_mult, <- RtoC_div by lra. reflexivity.
    - rewrite <- RtoC_minus. apply RtoC_neq_0. lra. }
  assert (X : m <= x <= M).
  { destruct Hb as [B1 B2]. apply Rle_div_l in B1; [|lra]. apply Rle_div_r in B2; [|lra].
    unfold x. split; [apply Rle_div_r; [lra|]; lra|apply Rle_div_l; [lra|]; lra]. }
  assert (W : meth = Some "Q_ave"%string \/ (meth = None /\ multilayer (stack (map RtoC (e0 :: e1 :: es)) ts nu) = true)).
  { destruct Hmeth as [K|[K1 K2]]; [now left|right; split; [exact K1|]]. apply stack_multi; [cbn [length]; lia|exact K2]. }
  pose proof (f_taylor_ave lg D A n nt z_tip r_tip L_tip gf d_Q0 d_Q1 d_Qa n_lag g Hg HN HA HrL R0 R1 _ k b meth W E1) as T1.
  destruct (f_inverse lg D A n nt z_tip r_tip L_tip gf d_Q0 d_Q1 g Hg HN HA HrL R0 R1 eig sb sr thr ri ra (Some (RtoC e0)) k b LIB ltac:(lia) Hb0) as (result & ER & HF).
  { cbn [given_or]. split; [rewrite Cmod_R, Rabs_pos_eq; lra|]. split; intros K; exists (RtoC x); (split; [exact EP|]).
    - cbn. lra.
    - specialize (Hra K). rewrite Cmod_R, Rabs_pos_eq; lra. }
  rewrite Ec, <- RtoC_plus in T1, ER. eexists. exists b, x, result. split; [exact T1|]. split; [exact ER|]. split; [exact HF|]. split; [exact EP|exact X].
Qed.

(** C85. Example: a film of permittivity 2 on a substrate of 5, third harmonic,
    five Taylor terms: the apparent permittivity lies between 2 and 5. *)
Lemma C85_example_apparent_proof : forall eig sb sr (D : Defaults), library eig sb sr ->
  exists (a b x : R) result,
    fdm_eff_pol_n_taylor laggauss12 D (stack [RtoC 1; RtoC 2; RtoC 5] [3] None) (1 / 4) 3 (Some 0) (Some 1) (Some 3) (Some (RtoC 2)) (Some (1 / 2)) (Some (1 / 2))
      (Some 1) (Some 2%nat) None (Some 7%nat) (Some 5%nat) = Ok (Some (RtoC a)) /\
    fdm_refl_coef_qs_from_eff_pol_n eig sb sr D (scalar (Some (RtoC a))) (scalar (1 / 4)) (scalar 3%Z) (Some (scalar 0)) (Some (scalar 1))
      (Some (scalar 3)) (Some (scalar (RtoC 2))) (Some (scalar (1 / 2))) (Some (scalar (1 / 2))) (Some 7%nat) (Some 5%nat) (Some 1) true true
      (Some (scalar (RtoC 1))) = Ok result /\
    smallest_first result b /\ permitivitty (Some (RtoC b)) (Some (RtoC 1)) = Some (RtoC x) /\ 2 <= x <= 5.
Proof.
  intros eig sb sr D LIB.
  apply (C85_apparent_proof eig sb sr laggauss12 D 1 2 2 5 [5] [3] None (1 / 4) 3 (Some 7%nat) (Some 0) (Some 1) (Some 3) (Some (RtoC 2)) (Some (1 / 2)) (Some (1 / 2))
    (Some 1) (Some 2%nat) None (Some 1) true true 2 5); cbn [given_or]; try lra; try lia; try reflexivity; auto.
  - apply laggauss12_rule.
  - right. split; [reflexivity|discriminate].
  - repeat constructor; lra.
  - repeat constructor; lra.
Qed.
