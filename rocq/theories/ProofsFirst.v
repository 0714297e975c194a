(** * Proofs: which solution the root-finding inverses put first (C84) *)
From Coq Require Import String Reals Lra Lia ZArith List Bool Permutation Sorted.
From Coquelicot Require Import Rcomplements Complex.
From Verif Require Import Num NumLemmas LimLemmas ModelBase ModelSample ModelTip NArr SpecArr NArrLemmas ModelObj SpecObj
  ModelArr ModelArrTip ModelInv StackLemmas Spec SpecPoly SpecInv SpecNear SpecFirst FTA ArrSample
  ProofsStackQS ProofsStackQS2 ProofsPassive DemodLemmas ProofsDemod ProofsTip ProofsTip2 ProofsTip3 ProofsTaylor
  ProofsArr ProofsArr2 ProofsArrTip InvLemmas ProofsInv ProofsInv2 ProofsInv3 ProofsInv4 ProofsNear ProofsConsist ProofsConsist2
  PosDef ProofsContrast ProofsContrast2 PosPoly.
Import ListNotations.
Open Scope R_scope.

Lemma sgn_sq n : sgn_pow n * sgn_pow n = 1.
Proof. unfold sgn_pow. destruct (Z.even n); lra. Qed.
Lemma sgn_abs n : Rabs (sgn_pow n) = 1.
Proof. unfold sgn_pow. destruct (Z.even n); [apply Rabs_R1|unfold Rabs; destruct (Rcase_abs (-1)); lra]. Qed.
Lemma harm_bound N n h B : N <> O -> (forall k, (k < N)%nat -> Rabs (h k) <= B) -> Rabs (harm N n h) <= B.
Proof.
  intros HN H. assert (PN : 0 < INR N) by (apply lt_0_INR; lia). unfold harm, Rdiv. rewrite Rabs_mult, (Rabs_pos_eq (/ INR N)) by (apply Rlt_le, Rinv_0_lt_compat, PN).
  apply Rle_div_l; [exact PN|]. pose proof (Sm_close (fun k => h k * cos (IZR n * phi N k)) (fun _ => 0) N B) as G.
  rewrite (Sm_const 0 N), Rmult_0_r, Rminus_0_r in G. rewrite Rmult_comm. apply G. intros k Hk. rewrite Rminus_0_r, Rabs_mult.
  pose proof (H k Hk). pose proof (Rabs_pos (h k)). pose proof (COS_bound (IZR n * phi N k)). assert (Rabs (cos (IZR n * phi N k)) <= 1) by (apply Rabs_le; lra). pose proof (Rabs_pos (cos (IZR n * phi N k))). nra.
Qed.

(** ** Series of demodulated real functions *)
Section Gen.
Context (n : Z) (N : nat) (HN : N <> O) (V F : nat -> R) (DV : forall i, dom N i V) (DF : forall i, dom N i F).
Definition qj (j : nat) : R := harm N n (fun k => V k * F k ^ j).
Definition exactS (b : R) : R := harm N n (fun k => b * V k * / (1 - b * F k)).
Definition remS (m : nat) (b : R) : R := harm N n (fun k => b * V k * (b * F k) ^ m * / (1 - b * F k)).
Lemma dom_pow0 j : dom N O (fun k => F k ^ j).
Proof using HN DF. induction j as [|j IH]; [apply (dom_const N 1); lra|]. cbn [pow]. apply (dom_prod N O F); [apply DF|exact IH]. Qed.
Lemma qj_pos j : 0 < qj j.
Proof using HN DV DF.
  apply (dom_harm N HN). apply (dom_ext N _ (fun k => F k ^ j * V k)); [intros; ring|]. apply dom_prod; [apply dom_pow0|apply DV].
Qed.
Context (b : R) (Hb : 0 <= b) (HF : forall k, (k < N)%nat -> Rabs (b * F k) < 1).
Lemma den_pos k : (k < N)%nat -> 0 < 1 - b * F k.
Proof using HF. intros Hk. specialize (HF k Hk). apply Rabs_lt_between in HF. lra. Qed.
Lemma exact_split m : exactS b = tm qj m b + remS m b.
Proof using HF.
  induction m as [|m IH].
  - unfold tm, exactS, remS. cbn [Sm]. rewrite Rplus_0_l. apply harm_ext. intros k _. cbn [pow]. ring.
  - rewrite IH. unfold tm. cbn [Sm]. rewrite Rplus_assoc. f_equal. unfold qj, remS. rewrite (Rmult_comm _ (b ^ S m)), <- harm_scal, <- harm_plus.
    apply harm_ext. intros k Hk. pose proof (den_pos k Hk). rewrite Rpow_mult_distr. cbn [pow]. rewrite Rpow_mult_distr. field. lra.
Qed.
Lemma remS_dom m i : 0 < b -> dom N i (fun k => b * V k * (b * F k) ^ m * / (1 - b * F k)).
Proof using HN DV DF Hb HF.
  intros P. apply (dom_ext N i (fun k => (/ (1 - b * F k) * (b ^ m * F k ^ m)) * (b * V k))); [intros; rewrite Rpow_mult_distr; ring|].
  apply dom_prod; [|apply dom_scal; [exact P|apply DV]]. apply (dom_prod N O (fun k => / (1 - b * F k))).
  - apply gain_dom0; [exact HN|lra|apply (dom_mult N 0), DF|exact HF].
  - apply dom_scal; [now apply pow_lt|apply dom_pow0].
Qed.
Lemma remS_pos m : 0 < b -> 0 < remS m b.
Proof using HN DV DF Hb HF. intros P. apply (dom_harm N HN), remS_dom, P. Qed.
Lemma remS_0 m : b = 0 -> remS m b = 0.
Proof using. clear Hb HF. intros ->. unfold remS. rewrite (harm_ext N n _ (fun k => 0 * 0)) by (intros; ring). rewrite harm_scal. ring. Qed.
Lemma remS_nonneg m : 0 <= remS m b.
Proof using HN DV DF Hb HF. destruct (Req_dec b 0) as [E|E]; [rewrite remS_0 by exact E; lra|apply Rlt_le, remS_pos; lra]. Qed.
Lemma remS_small eps : 0 < eps -> exists M, forall m, (M <= m)%nat -> remS m b < eps.
Proof using HN HF.
  intros He. destruct (max_below_lt (fun k => Rabs (b * F k)) N 1 Rlt_0_1) as [rho [Hr Hr']].
  { intros k Hk. split; [apply Rabs_pos|apply HF, Hk]. }
  destruct (max_below (fun k => Rabs (b * V k * / (1 - b * F k))) N) as [K [HK0 HKb]].
  assert (R0 : 0 <= rho) by (eapply Rle_trans; [apply Rabs_pos|apply (Hr' O); lia]).
  assert (K0 : 0 <= K) by (eapply Rle_trans; [apply Rabs_pos|apply (HKb O); lia]).
  destruct (geometric_to_0 K rho K0 ltac:(lra) eps He) as [M HM]. exists M. intros m Hm.
  eapply Rle_lt_trans; [apply Rle_abs|]. eapply Rle_lt_trans; [|apply (HM m Hm)]. apply (harm_bound N n _ (K * rho ^ m) HN). intros k Hk.
  replace (b * V k * (b * F k) ^ m * / (1 - b * F k)) with (b * V k * / (1 - b * F k) * (b * F k) ^ m) by ring.
  rewrite Rabs_mult, <- RPow_abs. pose proof (HKb k Hk). pose proof (Hr' k Hk). apply Rmult_le_compat; try apply Rabs_pos; try assumption.
  - apply pow_le, Rabs_pos.
  - apply pow_incr. split; [apply Rabs_pos|assumption].
Qed.
(** solutions of the truncated series for the exact signal *)
Lemma over m e : (1 <= m)%nat -> 0 <= e -> tm qj m e = exactS b -> b <= e /\ (0 < b -> b < e) /\ qj O * (e - b) <= remS m b.
Proof using HN DV DF Hb HF.
  intros Hm He E. rewrite (exact_split m) in E. pose proof (remS_nonneg m) as R0. pose proof (qj_pos O) as Q0.
  assert (L : b <= e).
  { destruct (Rle_lt_dec b e) as [|K]; [assumption|exfalso]. pose proof (tm_diff qj qj_pos m e b Hm ltac:(lra)). nra. }
  split; [exact L|]. split.
  - intros P. pose proof (remS_pos m P). destruct (Rle_lt_or_eq_dec b e L) as [|<-]; [assumption|lra].
  - pose proof (tm_diff qj qj_pos m b e Hm ltac:(lra)). lra.
Qed.
Lemma over_decr m k e e' : (1 <= m)%nat -> 0 <= e -> 0 <= e' -> tm qj m e = exactS b -> tm qj (m + k) e' = exactS b -> e' <= e.
Proof using HN DV DF.
  intros Hm He He' E E'. destruct (Rle_lt_dec e' e) as [|K]; [assumption|exfalso].
  pose proof (tm_diff qj qj_pos (m + k) e e' ltac:(lia) ltac:(lra)). pose proof (tm_more qj qj_pos m k e He). pose proof (qj_pos O). nra.
Qed.
Lemma est_exists : exists est : nat -> R, forall m, 0 <= est m /\ tm qj (S m) (est m) = exactS b.
Proof using HN DV DF Hb HF.
  assert (P : 0 <= exactS b) by (rewrite (exact_split O); unfold tm; cbn [Sm]; pose proof (remS_nonneg O); lra).
  exists (fun m => proj1_sig (tm_solve qj qj_pos (S m) (exactS b) (le_n_S _ _ (Nat.le_0_l m)) P)). intros m. destruct (tm_solve _ _ _ _ _ _) as (e & He). exact He.
Qed.
End Gen.

(** ** The call on a single number *)
Lemma joint_fdm_scalars (al : CV) A n z_tip r_tip L_tip (g : option C) d_Q0 d_Q1 :
  joint (fdm_inverse_operands (scalar al) (scalar A) (scalar n) (as_array z_tip) (as_array r_tip)
        (as_array L_tip) (as_array g) (as_array d_Q0) (as_array d_Q1)) [].
Proof.
  apply joint_scalars. intros sh Hs. unfold fdm_inverse_operands in Hs. rewrite !in_app_iff in Hs.
  destruct Hs as [Hs|[Hs|[Hs|[Hs|[Hs|[Hs|Hs]]]]]]; try exact (shape_as_array _ _ Hs).
  destruct Hs as [<-|[<-|[<-|[]]]]; reflexivity.
Qed.
Lemma joint_pdm_scalars (al : CV) A n z_tip r_tip (eps_tip alt : option C) :
  joint (pdm_inverse_operands (scalar al) (scalar A) (scalar n) (as_array z_tip) (as_array r_tip)
        (as_array eps_tip) (as_array alt)) [].
Proof.
  apply joint_scalars. intros sh Hs. unfold pdm_inverse_operands in Hs. rewrite !in_app_iff in Hs.
  destruct Hs as [Hs|[Hs|[Hs|[Hs|Hs]]]]; try exact (shape_as_array _ _ Hs).
  destruct Hs as [<-|[<-|[<-|[]]]]; reflexivity.
Qed.
(** what completeness, soundness and the layout say about the first row *)
Lemma first_of (result : arr CV * arr bool) q c0 sg m b (adm : C -> Prop) :
  (forall j, 0 < q j) -> sg * sg = 1 -> (1 <= m)%nat -> 0 <= b -> adm (RtoC b) ->
  elements result = [] -> unmasked result [] = entries result [] ->
  StronglySorted nan_last (map cabs (entries result [])) ->
  (forall x k, adm x -> multiplicity (fun y => (peval (cfs q c0 sg m) y - (c0 + RtoC (sg * tm q m b)))%C) x k -> occurrences (unmasked result []) x = k) ->
  (forall v, In v (unmasked result []) -> exists x, v = Some x /\ adm x) ->
  smallest_first result b.
Proof.
  intros Hq Hs Hm Hb Ha He Hu HS HC HA. split; [exact He|]. split; [exact Hu|]. rewrite Hu in HC, HA.
  apply first_row; [exact Hb|exact HS| |].
  - apply HC; [exact Ha|]. now apply cfs_simple.
  - intros v Hv. destruct (HA v Hv) as (x & -> & Hx). exists x. split; [reflexivity|]. intros N.
    apply (cfs_first q Hq c0 sg Hs m b x Hm Hb); [|exact N].
    destruct (Ceq_dec (peval (cfs q c0 sg m) x) (c0 + RtoC (sg * tm q m b))%C) as [E|NE]; [exact E|exfalso].
    assert (Z : occurrences (entries result []) x = 0%nat).
    { apply HC; [exact Hx|]. pose proof (cfs_length q c0 sg m) as Lc. destruct (cfs q c0 sg m) as [|a c] eqn:Ec; [discriminate|].
      exists ((a - (c0 + RtoC (sg * tm q m b)))%C :: c). split; [intros y; cbn [Cpown peval]; ring|].
      cbn [peval] in *. intro K. apply NE. match type of K with (?u - ?w + ?y)%C = _ => replace (u + y)%C with (u - w + y + w)%C by ring end.
      rewrite K. ring. }
    unfold occurrences in Z. apply (count_occ_In CV_eq_dec) in Hv. lia.
Qed.
