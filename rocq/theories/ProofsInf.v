(** * Infinite arguments (C103): perfect conductors *)
From Coq Require Import String Reals Lra Lia ZArith List Bool.
From Coquelicot Require Import Rcomplements Complex.
From Verif Require Import Num NumLemmas ModelBase ModelSample ModelTip StackLemmas Spec ModelRange SpecRange
  RangeLemmas SpecInf ModelInf ProofsStackQS ProofsPassive ProofsRange.
Import ListNotations.
Open Scope R_scope.

Lemma inr0 : inrange 0 = Fin 0.
Proof. apply inrange_ok. rewrite Rabs_R0. pose proof MAXF_pos. lra. Qed.
Ltac zer := repeat (cbn [fadd fsub fopp fmul fdiv fabs fge fst snd scale_inf] || rewrite ?Rmult_0_l, ?Rmult_0_r, ?Rplus_0_r, ?Rplus_0_l, ?Ropp_0, ?inr0).
Lemma fmul0r x : Rabs x <= MAXF -> fmul (Fin x) (Fin 0) = Fin 0.
Proof. intros _. cbn. now rewrite Rmult_0_r, inr0. Qed.
(** a finite number divided by an infinite one *)
Lemma zdiv_inf (e : C) w : infinite_eps w -> Cmod e <= MAXF -> zdiv (zof e) w = zof (RtoC 0).
Proof.
  intros [y Hw] He. pose proof (Re_le e) as HR. pose proof (Im_le e) as HI. unfold zof. cbn [Re Im RtoC fst snd].
  set (a := Re e) in *. set (b := Im e) in *. clearbody a b.
  assert (A1 : inrange a = Fin a) by (apply inrange_ok; lra). assert (B1 : inrange b = Fin b) by (apply inrange_ok; lra).
  assert (A2 : inrange (- a) = Fin (- a)) by (apply inrange_ok; rewrite Rabs_Ropp; lra).
  destruct Hw as [->|[->|[->| ->]]]; unfold zdiv; zer; rewrite ?A1, ?B1, ?A2; zer; reflexivity.
Qed.

Lemma trans_inf (e : C) w : infinite_eps w -> Cmod e <= MAXF -> mis (ztrans (zdiv (zof e) w)) (pT 0).
Proof.
  intros Hw He. rewrite zdiv_inf by assumption. pose proof MAXF_big'. apply (ztrans_is (zof (RtoC 0)) (RtoC 0)); [reflexivity|]. rewrite Cmod_0. lra.
Qed.

(** the stack with one more layer *)
Lemma combine_last {A B} (l1 : list A) (l2 : list B) a b : length l1 = length l2 -> combine (l1 ++ [a]) (l2 ++ [b]) = combine l1 l2 ++ [(a, b)].
Proof. revert l2. induction l1 as [|x l1 IH]; intros [|y l2] H; try discriminate; [reflexivity|]. cbn in *. f_equal. apply IH. lia. Qed.
Lemma tmat_last (l : list cflt) a w : ztrans_matrices (l ++ [a] ++ [w]) = ztrans_matrices (l ++ [a]) ++ [ztrans (zdiv a w)].
Proof.
  unfold ztrans_matrices. rewrite app_assoc, removelast_last.
  assert (T : tl ((l ++ [a]) ++ [w]) = tl (l ++ [a]) ++ [w]) by (destruct l; reflexivity). rewrite T.
  assert (R : removelast (l ++ [a]) = l) by apply removelast_last. rewrite R.
  rewrite combine_last; [now rewrite map_app|]. destruct l as [|x l]; [reflexivity|]. cbn [app tl length]. rewrite app_length. cbn. lia.
Qed.
Lemma zchain_app M l1 l2 : zchain M (l1 ++ l2) = zchain (zchain M l1) l2.
Proof. unfold zchain. apply fold_left_app. Qed.
Lemma zTP_length q inner en : length (zTP q inner en) = length inner.
Proof. induction inner as [|[l t] rest IH]; [reflexivity|]. cbn [zTP length]. now rewrite IH. Qed.
Lemma transfer_inf q e0 inner en t w :
  ztransfer_qs (map zof (eps_of e0 inner en) ++ [w]) (map Fin (map snd inner ++ [t])) (Fin q)
  = Some (zmm (zmm (zchain (zT e0 (first_of inner en)) (zTP q inner en)) (zP q t)) (ztrans (zdiv (zof en) w))).
Proof.
  assert (E : map zof (eps_of e0 inner en) ++ [w] = map zof (e0 :: map fst inner) ++ [zof en] ++ [w]).
  { unfold eps_of. cbn [map app]. rewrite map_app. cbn [map]. rewrite <- app_assoc. reflexivity. }
  rewrite E. unfold ztransfer_qs. rewrite tmat_last.
  assert (E2 : map zof (e0 :: map fst inner) ++ [zof en] = map zof (eps_of e0 inner en)) by (unfold eps_of; cbn [map app]; rewrite map_app; reflexivity).
  rewrite E2, (zT_struct inner q). cbn [app].
  replace (2 <? length (map zof (e0 :: map fst inner) ++ zof en :: [w]))%nat with true.
  2:{ symmetry. apply Nat.ltb_lt. rewrite app_length. cbn [map length]. lia. }
  rewrite !map_app. cbn [map]. rewrite (zP_struct inner q en). rewrite combine_last by (now rewrite !map_length).
  rewrite combine_fst_snd, zchain_app. reflexivity.
Qed.

Lemma Some_inj {A} (x y : A) : Some x = Some y -> x = y.
Proof. congruence. Qed.
(** limits *)
Lemma limit_eq (V : C -> res CV) (r a b c d : C) :
  as_conductor V r -> (forall E v, E <> RtoC 0 -> V E = Ok (Some v) -> v * (a + b / E) = c + d / E)%C -> (r * a = c)%C.
Proof.
  intros HV HE. destruct (Ceq_dec (r * a)%C c) as [X|X]; [exact X|exfalso].
  assert (D : 0 < Cmod (r * a - c)%C) by (apply Cmod_gt_0; intro Z; apply X; now apply Csub_eq0). set (dl := Cmod (r * a - c)%C) in *.
  pose proof (Cmod_ge_0 a) as Pa. pose proof (Cmod_ge_0 b) as Pb. pose proof (Cmod_ge_0 d) as Pd. pose proof (Cmod_ge_0 r) as Pr.
  set (ep := Rmin 1 (dl / (4 * (Cmod a + 1)))).
  assert (Q : 0 < dl / (4 * (Cmod a + 1))) by (apply Rdiv_lt_0_compat; lra).
  assert (Pe : 0 < ep) by (unfold ep; apply Rmin_glb_lt; lra).
  destruct (HV ep Pe) as [B HB]. set (K := 4 * ((Cmod r + 1) * Cmod b + Cmod d) / dl).
  assert (PK : 0 <= K). { unfold K. apply Rle_div_r; [exact D|]. assert (0 <= (Cmod r + 1) * Cmod b) by (apply Rmult_le_pos; lra). lra. }
  set (x := Rmax B 1 + K). assert (X1 : 1 <= x) by (unfold x; pose proof (Rmax_r B 1); lra). assert (X2 : B <= x) by (unfold x; pose proof (Rmax_l B 1); lra).
  assert (X3 : K <= x) by (unfold x; pose proof (Rmax_r B 1); lra).
  destruct (HB (RtoC x)) as [v [Ev Bv]]; [rewrite Cmod_R, Rabs_pos_eq; lra|].
  assert (Nx : RtoC x <> RtoC 0) by (apply RtoC_neq_0; lra). pose proof (HE _ _ Nx Ev) as Q1.
  assert (M : (r * a - c = (r - v) * a - (v * b - d) / RtoC x)%C).
  { replace (r * a - c)%C with ((r - v) * a + (v * (a + b / RtoC x) - c) - v * b / RtoC x)%C by (field; exact Nx). rewrite Q1. field. exact Nx. }
  assert (Mv : Cmod v <= Cmod r + 1).
  { replace v with (v - r + r)%C by ring. eapply Rle_trans; [apply Cmod_triangle|]. assert (ep <= 1) by apply Rmin_l. lra. }
  assert (U : dl <= Cmod (r - v)%C * Cmod a + Cmod (v * b - d)%C / x).
  { unfold dl. rewrite M. unfold Cminus at 1. eapply Rle_trans; [apply Cmod_triangle|]. rewrite Cmod_opp, Cmod_mult, Cmod_div, (Cmod_R x), (Rabs_pos_eq x) by (try exact Nx; lra). lra. }
  assert (U1 : Cmod (r - v)%C * Cmod a <= dl / 4).
  { replace (r - v)%C with (- (v - r))%C by ring. rewrite Cmod_opp. apply Rle_trans with (dl / (4 * (Cmod a + 1)) * Cmod a).
    - apply Rmult_le_compat_r; [exact Pa|]. eapply Rle_trans; [exact Bv|apply Rmin_r].
    - apply Rle_trans with (dl / (4 * (Cmod a + 1)) * (Cmod a + 1)); [apply Rmult_le_compat_l; lra|]. right. field. lra. }
  assert (U2 : Cmod (v * b - d)%C / x <= dl / 4).
  { apply Rle_div_l; [lra|]. apply Rle_trans with ((Cmod r + 1) * Cmod b + Cmod d).
    - unfold Cminus. eapply Rle_trans; [apply Cmod_triangle|]. rewrite Cmod_opp, Cmod_mult. apply Rplus_le_compat_r. apply Rmult_le_compat_r; assumption.
    - replace ((Cmod r + 1) * Cmod b + Cmod d) with (dl / 4 * K) by (unfold K; field; lra). apply Rmult_le_compat_l; lra. }
  lra.
Qed.

(** the matrix above a conducting substrate *)
Definition Mc q e0 inner en t : cmat := pmul (Mqs q e0 inner en) (Pqs q en t).
Lemma Mqs_last q e0 inner en t E : Mqs q e0 (inner ++ [(en, t)]) E = pmul (Mc q e0 inner en t) (Tqs en E).
Proof. unfold Mqs, Mc. rewrite stackM_app. cbn [stackM]. now rewrite pmul_assoc. Qed.

(** C103. A substrate of infinite permittivity ([np.inf] or one infinite component): the code returns exactly the limit of the reflection coefficient as the
    permittivity grows, as long as the exact values stay in range: a perfectly conducting substrate works. *)
Lemma C103_perfect_conductor_proof :
  forall (es : list C) (ts : list R) nu (q : R) (w : cflt) (r s : C),
  length es = (length ts + 1)%nat -> ts <> [] -> Forall tame es -> Forall (fun t => 0 <= q * t) ts -> infinite_eps w ->
  2 * amplification es * exp (total_exponent q ts) <= MAXF ->
  as_conductor (fun E => refl_coef_qs (stack (es ++ [E]) ts nu) (rr q)) r -> 4 * Cmod r <= MAXF ->
  as_conductor (fun E => trans_coef_qs (stack (es ++ [E]) ts nu) (rr q)) s -> 2 * Cmod s <= MAXF ->
  zrefl_qs (map zof es ++ [w]) (map Fin ts) (Fin q) = Some (zof r).
Proof.
  intros es ts nu q w r s Hl Hne Ht Hq Hw HB Hr Br Hs Bs.
  destruct (exists_last Hne) as [ts' [t Et]].
  destruct (stack_decomp es ts') as (e0 & inner & en & Ee & Ets); [rewrite Hl, Et, app_length; cbn; lia|].
  assert (Eap : forall E, stack (es ++ [E]) ts nu = qs_sample e0 (inner ++ [(en, t)]) E nu).
  { intros E. unfold qs_sample, eps_of. rewrite !map_app. cbn [map fst snd]. rewrite Et, Ets, Ee. unfold stack, eps_of. cbn [app map]. rewrite !map_app. cbn [map]. reflexivity. }
  subst ts. subst ts'. rewrite Ee in *.
  assert (Ht' : tame e0 /\ Forall tame (map fst inner) /\ tame en).
  { unfold eps_of in Ht. apply Forall_cons_iff in Ht. destruct Ht as [H0 H].
    apply Forall_app in H. destruct H as [H1 H2]. apply Forall_cons_iff in H2. tauto. }
  destruct Ht' as (T0 & Ti & Tn).
  apply Forall_app in Hq. destruct Hq as [Hq Hqt]. apply Forall_inv in Hqt.
  assert (Nz : forall E, E <> RtoC 0 -> Forall (fun e => e <> RtoC 0) (map fst (inner ++ [(en, t)]) ++ [E])).
  { intros E HE. rewrite map_app. cbn [map fst]. apply Forall_app. split; [|repeat constructor; exact HE].
    unfold eps_of in Ht. apply Forall_cons_iff in Ht. destruct Ht as [_ H].
    eapply Forall_impl; [|exact H]. intros a Ha ->. apply tame_pos in Ha. rewrite Cmod_0 in Ha. lra. }
  set (A := Mc q e0 inner en t). set (K := pmul A (pT 0)).
  assert (Ent : forall E, E <> RtoC 0 -> c00 (pmul A (Tqs en E)) = (c00 K + (c00 A - c01 A) * en / 2 / E)%C /\ c10 (pmul A (Tqs en E)) = (c10 K + (c10 A - c11 A) * en / 2 / E)%C).
  { intros E HE. unfold K, Tqs, pT. cbn [pmul c00 c10 c01 c11]. split; field; auto. }
  assert (Ls : (s * c00 K = 1)%C).
  { apply (limit_eq _ s (c00 K) ((c00 A - c01 A) * en / 2)%C 1 0 Hs). intros E v HE. rewrite Eap, trans_coef_qs_struct by (now apply Nz).
    rewrite Mqs_last. fold A. rewrite (proj1 (Ent E HE)). intro X. apply (f_equal (fun x => match x with Ok y => y | _ => None end)) in X. unfold rc in X.
    apply cdiv_Some in X. destruct X as (x & y & Ex & Ey & Ny & ->). injection Ex as <-. injection Ey as <-.
    set (u := (c00 K + (c00 A - c01 A) * en / 2 / E)%C) in *. replace (1 + 0 / E)%C with (RtoC 1) by (field; exact HE). unfold Cdiv at 1. rewrite Cmult_1_l. now apply Cinv_l. }
  assert (Ny : c00 K <> RtoC 0) by (intro Z; rewrite Z in Ls; apply (f_equal fst) in Ls; cbn in Ls; lra).
  assert (Es : s = (1 / c00 K)%C) by (rewrite <- Ls at 1; field; exact Ny).
  assert (Lr : (r * c00 K = c10 K)%C).
  { apply (limit_eq _ r (c00 K) ((c00 A - c01 A) * en / 2)%C (c10 K) ((c10 A - c11 A) * en / 2)%C Hr). intros E v HE. rewrite Eap, refl_coef_qs_struct by (now apply Nz).
    rewrite Mqs_last. fold A. rewrite (proj1 (Ent E HE)), (proj2 (Ent E HE)). intro X. apply (f_equal (fun x => match x with Ok y => y | _ => None end)) in X.
    apply cdiv_Some in X. destruct X as (x & y & Ex & Ey & Ny' & ->). assert (Ex' := Some_inj _ _ Ex). assert (Ey' := Some_inj _ _ Ey). rewrite <- Ex', <- Ey' in *.
    set (u := (c00 K + (c00 A - c01 A) * en / 2 / E)%C) in *. set (u' := (c10 K + (c10 A - c11 A) * en / 2 / E)%C) in *. field. exact Ny'. }
  assert (Er : r = (c10 K / c00 K)%C) by (rewrite <- Lr; field; exact Ny).
  (* range *)
  unfold zrefl_qs. rewrite transfer_inf. f_equal.
  assert (Tot : total_exponent q (map snd inner ++ [t]) = total_exponent q (map snd inner) + clipR (q * t)).
  { unfold total_exponent. rewrite map_app, fold_right_app. cbn [map fold_right]. rewrite clipR_pos by exact Hqt. generalize (map (fun t0 : R => Rmin (q * t0) MAX_EXP_ARG) (map snd inner)).
    induction l as [|z l IH]; cbn [fold_right]; [ring|rewrite IH; ring]. }
  rewrite Tot, exp_plus, (Rmult_assoc 2), <- (Rmult_assoc (amplification _)), amplification_bnd in HB by exact Hq.
  set (f0 := (e0 / first_of inner en)%C) in *. set (X := exp (clipR (q * t))) in *.
  assert (Tf : tame (first_of inner en)).
  { destruct inner as [|[l' t'] rest']; [exact Tn|]. cbn [map fst] in Ti. apply Forall_cons_iff in Ti. apply Ti. }
  pose proof (zT_is e0 (first_of inner en) T0 Tf) as HT.
  assert (R0 : rows (Tqs e0 (first_of inner en)) (Wf f0)).
  { unfold Tqs. fold f0. split; cbn [pT c00 c01 c10 c11]; fold (tp f0) (tm f0); unfold Wf; lra. }
  pose proof (Wf_ge1 f0) as Wg. pose proof (bnd_ge1 q inner en Hq) as Bg.
  assert (Xg : 1 <= X).
  { unfold X. pose proof (exp_ineq1_le (clipR (q * t))). rewrite clipR_pos in * by exact Hqt. pose proof MAX_EXP_le. assert (0 <= Rmin (q * t) MAX_EXP_ARG) by (apply Rmin_glb; lra). lra. }
  set (W := Wf f0 * bnd q inner en) in *. assert (W1 : 1 <= W) by (unfold W; nra).
  assert (WX : W <= W * X) by nra.
  destruct (chain_is q inner e0 en _ _ _ Ti Tn Hq HT R0) as [CM CR]; [lra|fold W; lra|]. fold W in CR.
  assert (EM : pchain (Tqs e0 (first_of inner en)) (stackTP Tqs (Pqs q) e0 inner en) = Mqs q e0 inner en).
  { unfold Mqs. rewrite stackM_chain. destruct inner as [|[l t'] rest]; reflexivity. }
  rewrite EM in CM, CR.
  pose proof (rows_P _ _ q en t Hqt CR) as RP. fold X in RP. change (pmul (Mqs q e0 inner en) (Pqs q en t)) with A in RP.
  assert (MP : mis (zmm (zchain (zT e0 (first_of inner en)) (zTP q inner en)) (zP q t)) A).
  { pose proof (exp_pos (clipR (q * t))). pose proof (exp_pos (- clipR (q * t))).
    assert (exp (- clipR (q * t)) <= X).
    { unfold X. destruct (Req_dec (clipR (q * t)) 0) as [->|]; [rewrite Ropp_0; lra|].
      left. apply exp_increasing. rewrite clipR_pos in * by exact Hqt.
      pose proof MAX_EXP_le. assert (0 <= Rmin (q * t) MAX_EXP_ARG) by (apply Rmin_glb; lra). lra. }
    apply (mis_mul _ _ _ _ W X CM (zP_is q t en) CR); try lra; unfold Pqs, pP; cbn [c00 c01 c10 c11]; rewrite Cmod_R, Rabs_pos_eq; unfold X in *; lra. }
  assert (En : Cmod en <= MAXF) by (destruct Tn as [_ H]; pose proof MAXF_gt_TAME; pose proof TAME_ge1; lra).
  assert (T2 : tp 0 = RtoC (1 / 2) /\ tm 0 = RtoC (1 / 2)).
  { unfold tp, tm. rewrite (RtoC_div 1 2) by lra. split; field; auto. }
  assert (W0 : Wf 0 = 1) by (unfold Wf; rewrite (proj1 T2), (proj2 T2), Cmod_R, Rabs_pos_eq; lra).
  assert (MT : mis (zmm (zmm (zchain (zT e0 (first_of inner en)) (zTP q inner en)) (zP q t)) (ztrans (zdiv (zof en) w))) K).
  { apply (mis_mul _ _ _ _ (W * X) 1 MP (trans_inf en w Hw En) RP); try lra; cbn [pT c00 c01 c10 c11]; fold (tp 0) (tm 0);
      rewrite ?(proj1 T2), ?(proj2 T2), Cmod_R, Rabs_pos_eq; lra. }
  pose proof (rows_T _ _ 0 RP) as [C1 C2]. rewrite W0, Rmult_1_r in C1, C2. fold K in C1, C2.
  destruct MT as (Z0 & _ & Z2 & _). set (m00 := c00 K) in *. set (m10 := c10 K) in *.
  pose proof (Cmod_ge_0 (c01 K)). pose proof (Cmod_ge_0 (c11 K)).
  assert (P0 : 0 < Cmod m00) by (apply Cmod_gt_0; exact Ny).
  rewrite Er. match goal with |- zdiv ?a ?b = _ => change (zis (zdiv a b) (m10 / m00)%C) end.
  apply (zdiv_is _ _ _ _ (Cmod m00 / 2) Z2 Z0).
  - lra.
  - apply Rmax_half_Cmod.
  - lra.
  - lra.
  - rewrite Es in Bs. rewrite Cmod_div, Cmod_1 in Bs by exact Ny.
    replace (/ (Cmod m00 / 2)) with (2 * (1 / Cmod m00)) by (field; lra). exact Bs.
  - rewrite Er in Br. rewrite Cmod_div in Br by exact Ny.
    replace (2 * Cmod m10 / (Cmod m00 / 2)) with (4 * (Cmod m10 / Cmod m00)) by (field; lra). exact Br.
Qed.
