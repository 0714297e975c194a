(** * Proofs: overflow in the quasistatic transfer matrix (C52), positive real stacks *)
From Coq Require Import String Reals Lra Lia ZArith List Bool.
From Coquelicot Require Import Rcomplements Complex.
From Verif Require Import Num NumLemmas ModelBase ModelSample ModelTip StackLemmas Spec ModelRange SpecRange
  RangeLemmas ProofsStackQS ProofsStackQS2 ProofsRange.
Import ListNotations.
Open Scope R_scope.

(** ** Interface matrices of positive real permittivities *)
Definition rmat (a b : R) : zmat := mkZ (rf a) (rf b) (rf b) (rf a).

Lemma zof_R x : zof (RtoC x) = rf x.
Proof. reflexivity. Qed.

Lemma zT_real a b : tame (RtoC a) -> tame (RtoC b) -> b <> 0 ->
  zT (RtoC a) (RtoC b) = rmat ((1 + a / b) / 2) ((1 - a / b) / 2).
Proof.
  intros Ha Hb Nb. destruct (zT_is _ _ Ha Hb) as (H0 & H1 & H2 & H3).
  unfold Tqs, pT in *. cbn [c00 c01 c10 c11] in *.
  assert (E1 : ((1 + RtoC a / RtoC b) / 2)%C = RtoC ((1 + a / b) / 2)).
  { rewrite <- RtoC_div, <- RtoC_plus, <- RtoC_div by lra. reflexivity. }
  assert (E2 : ((1 - RtoC a / RtoC b) / 2)%C = RtoC ((1 - a / b) / 2)).
  { rewrite <- RtoC_div, <- RtoC_minus, <- RtoC_div by lra. reflexivity. }
  rewrite E1 in *. rewrite E2 in *. unfold zis in *. rewrite zof_R in *.
  destruct (zT (RtoC a) (RtoC b)) as [z0 z1 z2 z3]. cbn [z00 z01 z10 z11] in *. subst. reflexivity.
Qed.

Lemma tame_real a : 0 < a -> tame (RtoC a) -> / TAME <= a <= TAME.
Proof. intros Ha H. unfold tame in H. rewrite Cmod_R, Rabs_pos_eq in H; lra. Qed.

Lemma tame_of_real a : / TAME <= a <= TAME -> tame (RtoC a).
Proof.
  intros H. pose proof TAME_ge1. assert (0 < / TAME) by (apply Rinv_0_lt_compat; lra).
  unfold tame. rewrite Cmod_R, Rabs_pos_eq; lra.
Qed.

Lemma tame_small a : 1 / 16 <= a <= 16 -> tame (RtoC a).
Proof.
  intros H. apply tame_of_real. pose proof TAME_ge1 as HT.
  assert (/ TAME <= / 16) by (apply Rinv_le_contravar; lra). lra.
Qed.

Lemma real_ratio a b : 0 < a -> 0 < b -> tame (RtoC a) -> tame (RtoC b) ->
  0 < a / b /\ 16 * (1 + a / b) <= MAXF.
Proof.
  intros Ha Hb Ta Tb. pose proof (tame_ratio _ _ Ta Tb) as H.
  assert (0 < a / b) by (apply Rdiv_lt_0_compat; assumption).
  rewrite <- RtoC_div, Cmod_R, Rabs_pos_eq in H by lra. split; assumption.
Qed.

(** ** Two or more thick layers *)
Definition rrow (Z : zmat) (x y : R) : Prop :=
  ex (fst (z00 Z)) x /\ ex (snd (z00 Z)) 0 /\ ex (fst (z01 Z)) y /\ ex (snd (z01 Z)) 0.

Lemma ex_Fin x : ex (Fin x) x.
Proof. intros r [= <-]. reflexivity. Qed.

Lemma ex_dot a b x y u v :
  ex (fst a) x -> ex (snd a) 0 -> ex (fst b) y -> ex (snd b) 0 ->
  ex (fst (zadd (zmul a (rf u)) (zmul b (rf v)))) (x * u + y * v) /\
  ex (snd (zadd (zmul a (rf u)) (zmul b (rf v)))) 0.
Proof.
  intros A1 A2 B1 B2. unfold zadd, zmul, rf, re. cbn [fst snd]. split.
  - replace (x * u + y * v) with ((x * u - 0 * 0) + (y * v - 0 * 0)) by ring.
    apply ex_fadd; apply ex_fsub; apply ex_fmul; auto using ex_Fin.
  - match goal with |- ex ?a _ => cut (ex a ((x * 0 + 0 * u) + (y * 0 + 0 * v))) end.
    { intros H r E. rewrite (H r E). ring. }
    apply ex_fadd; apply ex_fadd; apply ex_fmul; auto using ex_Fin.
Qed.

Lemma zP_eq q t : zP q t = mkZ (rf (exp (clipR (q * t)))) (rf 0) (rf 0) (rf (exp (- clipR (q * t)))).
Proof. destruct (zprop_is q t) as [E _]. exact E. Qed.

Lemma rrow_P Z x y q t : rrow Z x y ->
  rrow (zmm Z (zP q t)) (x * exp (clipR (q * t))) (y * exp (- clipR (q * t))).
Proof.
  intros (A1 & A2 & B1 & B2). rewrite zP_eq. unfold rrow. cbn [zmm z00 z01 z10 z11].
  destruct (ex_dot (z00 Z) (z01 Z) x y (exp (clipR (q * t))) 0 A1 A2 B1 B2) as [H1 H2].
  destruct (ex_dot (z00 Z) (z01 Z) x y 0 (exp (- clipR (q * t))) A1 A2 B1 B2) as [H3 H4].
  rewrite Rmult_0_r, Rplus_0_r in H1. rewrite Rmult_0_r, Rplus_0_l in H3.
  repeat split; assumption.
Qed.
Lemma rrow_T Z x y a b : rrow Z x y ->
  rrow (zmm Z (rmat a b)) (x * a + y * b) (x * b + y * a).
Proof.
  intros (A1 & A2 & B1 & B2). unfold rrow, rmat. cbn [zmm z00 z01 z10 z11].
  destruct (ex_dot (z00 Z) (z01 Z) x y a b A1 A2 B1 B2) as [H1 H2].
  destruct (ex_dot (z00 Z) (z01 Z) x y b a A1 A2 B1 B2) as [H3 H4].
  repeat split; assumption.
Qed.

Lemma rrow_over Z x y : rrow Z x y -> (exists A B, Z = zmm A B) -> MAXF < x -> zsick (z00 Z).
Proof.
  intros (A1 & _) (A & B & ->) H. left. intros r E. pose proof (A1 r E) as ->.
  cbn [zmm z00 zadd fst] in E. apply fadd_range in E. pose proof MAXF_pos.
  rewrite Rabs_pos_eq in E by lra. lra.
Qed.

Definition posreal (e : C) : Prop := exists x, 0 < x /\ e = RtoC x /\ tame (RtoC x).

Fixpoint growth (q : R) (ts : list R) : R :=
  match ts with
  | [] => 1
  | t :: ts' => 3 / 8 * exp (clipR (q * t)) * growth q ts'
  end.

Lemma thick_bad q inner1 : forall inner2 en Z x y,
  inner1 <> [] -> Forall posreal (map fst (inner1 ++ inner2)) -> posreal en ->
  Forall (fun t => 1 <= q * t) (map snd inner1) ->
  rrow Z x y -> 0 < x -> Rabs y <= x ->
  MAXF < 8 / 3 * x * growth q (map snd inner1) ->
  zbad (z00 (zchain Z (zTP q (inner1 ++ inner2) en))).
Proof.
  induction inner1 as [|[l t] rest IH]; intros inner2 en Z x y Hne Hp Hen Hq HZ Hx Hy HB; [contradiction|].
  cbn [app zTP]. fold (first_of (rest ++ inner2) en).
  cbn [app map fst snd] in Hp, Hq. apply Forall_cons_iff in Hp. destruct Hp as [Hl Hp].
  apply Forall_cons_iff in Hq. destruct Hq as [Hq1 Hq].
  pose proof (rrow_P Z x y q t HZ) as RP.
  set (p := clipR (q * t)) in *.
  assert (Pp : 1 <= p).
  { unfold p. rewrite clipR_pos by lra. apply Rmin_glb; [exact Hq1|].
    rewrite <- (ln_exp 1). change MAX_EXP_ARG with (ln MAXF). apply ln_le; [apply exp_pos|].
    pose proof exp_le_3. pose proof MAXF_big'. lra. }
  cbn [map snd growth] in HB. fold p in HB.
  destruct rest as [|[l' t'] rest'].
  - cbn [map growth] in HB.
    apply (zchain_bad _ (zmm (zmm Z (zP q t)) _)). apply zmm_bad.
    eapply rrow_over; [exact RP|eauto|]. lra.
  - destruct Hl as (xl & Hxl & -> & Tl).
    assert (Hf : posreal (first_of (((l', t') :: rest') ++ inner2) en)).
    { cbn [app first_of]. cbn [app map fst] in Hp. apply Forall_cons_iff in Hp. apply Hp. }
    destruct Hf as (xf & Hxf & Ef & Tf). rewrite Ef.
    rewrite zT_real by (assumption || lra).
    destruct (real_ratio _ _ Hxl Hxf Tl Tf) as [Pg _]. set (g := xl / xf) in *.
    pose proof (rrow_T _ _ _ ((1 + g) / 2) ((1 - g) / 2) RP) as RT.
    assert (E2 : 2 <= exp p) by (pose proof (exp_ineq1_le p); lra).
    assert (E3 : exp p * exp (- p) = 1) by (rewrite <- exp_plus, Rplus_opp_r; apply exp_0).
    pose proof (exp_pos (- p)) as E4.
    assert (E5 : exp (- p) <= / 4 * exp p).
    { assert (exp p * exp p >= 4) by nra. nra. }
    apply Rabs_le_between in Hy.
    set (X := x * exp p) in *. set (Y := y * exp (- p)) in *.
    assert (PX : 0 < X) by (unfold X; nra).
    assert (BY : - (/ 4 * X) <= Y <= / 4 * X) by (unfold X, Y; nra).
    apply (IH inner2 en (zmm (zmm Z (zP q t)) (rmat ((1 + g) / 2) ((1 - g) / 2))) _ _ ltac:(discriminate) Hp Hen Hq RT).
    + nra.
    + apply Rabs_le. nra.
    + assert (G : 0 < growth q (map snd ((l', t') :: rest'))).
      { generalize (map snd ((l', t') :: rest')). intros ts. induction ts as [|s ts IHs]; cbn [growth]; [lra|].
        pose proof (exp_pos (clipR (q * s))). nra. }
      eapply Rlt_le_trans; [exact HB|].
      replace (8 / 3 * x * (3 / 8 * exp p * growth q (map snd ((l', t') :: rest'))))
        with (X * growth q (map snd ((l', t') :: rest'))) by (unfold X; field).
      apply Rmult_le_compat_r; [lra|]. nra.
Qed.

Lemma growth_total q ts : Forall (fun t => 1 <= q * t) ts ->
  exp (total_exponent q ts) <= 3 ^ length ts * growth q ts.
Proof.
  unfold total_exponent. induction 1 as [|t ts H _ IH]; cbn [map fold_right length growth pow].
  - rewrite exp_0. lra.
  - rewrite exp_plus, clipR_pos by lra. pose proof (exp_pos (Rmin (q * t) MAX_EXP_ARG)).
    set (E := exp (Rmin (q * t) MAX_EXP_ARG)) in *.
    replace (3 * 3 ^ length ts * (3 / 8 * E * growth q ts)) with (9 / 8 * (E * (3 ^ length ts * growth q ts))) by field.
    pose proof (exp_pos (fold_right Rplus 0 (map (fun t0 => Rmin (q * t0) MAX_EXP_ARG) ts))).
    assert (E * exp (fold_right Rplus 0 (map (fun t0 => Rmin (q * t0) MAX_EXP_ARG) ts)) <= E * (3 ^ length ts * growth q ts))
      by (apply Rmult_le_compat_l; lra).
    nra.
Qed.

(** C52. Two or more inner layers: once the clipped exponents of the topmost
    layers add up to more than the clipping limit (and ln 3 per layer), the
    reflection coefficient is nan, however well-behaved the exact value is. *)
Lemma C52_thick_stack_nan_proof :
  forall (es ts1 ts2 : list R) (q : R),
  wf es (ts1 ++ ts2) -> Forall (fun e => 0 < e /\ tame (RtoC e)) es ->
  Forall (fun t => 1 <= q * t) ts1 ->
  MAXF * 3 ^ length ts1 < exp (total_exponent q ts1) ->
  zrefl_qs (map zof (map RtoC es)) (map Fin (ts1 ++ ts2)) (Fin q) = Some (NaN, NaN).
Proof.
  intros es ts1 ts2 q Hw He Hq HB.
  assert (N1 : ts1 <> []).
  { intros ->. unfold total_exponent in HB. cbn in HB. rewrite exp_0 in HB. pose proof MAXF_big'. lra. }
  assert (Hw' : wf (map RtoC es) (ts1 ++ ts2)) by (unfold wf in *; rewrite map_length; exact Hw).
  destruct (stack_decomp _ _ Hw') as (e0 & inner & en & Ee & Et).
  assert (HP : Forall posreal (map RtoC es)).
  { apply Forall_map. eapply Forall_impl; [|exact He]. intros a [H1 H2]. exists a. auto. }
  rewrite Ee in *. rewrite Et.
  set (k := length ts1) in *.
  assert (E1 : ts1 = map snd (firstn k inner)).
  { rewrite <- firstn_map, <- Et. unfold k. rewrite firstn_app, Nat.sub_diag, firstn_all, firstn_O, app_nil_r. reflexivity. }
  set (inner1 := firstn k inner) in *. set (inner2 := skipn k inner) in *.
  assert (Ei : inner = inner1 ++ inner2) by (symmetry; apply firstn_skipn).
  assert (Ni1 : inner1 <> []) by (intros E; rewrite E in E1; contradiction).
  assert (Ni : inner <> []) by (rewrite Ei; destruct inner1; [contradiction|discriminate]).
  unfold eps_of in HP. apply Forall_cons_iff in HP. destruct HP as [H0 HP].
  apply Forall_app in HP. destruct HP as [HPi HPn]. apply Forall_cons_iff in HPn. destruct HPn as [HPn _].
  unfold zrefl_qs. rewrite ztransfer_struct by exact Ni.
  rewrite zdiv_bad; [reflexivity|].
  assert (Hf : posreal (first_of inner en)).
  { destruct inner as [|[l' t'] r']; [contradiction|]. cbn [map fst] in HPi. apply Forall_cons_iff in HPi. apply HPi. }
  destruct H0 as (x0 & Hx0 & -> & T0). destruct Hf as (xf & Hxf & Ef & Tf). rewrite Ef.
  rewrite zT_real by (assumption || lra).
  destruct (real_ratio _ _ Hx0 Hxf T0 Tf) as [Pf _]. set (f := x0 / xf) in *.
  rewrite Ei in HPi |- *.
  apply (thick_bad q inner1 inner2 en _ ((1 + f) / 2) ((1 - f) / 2)); try assumption.
  - rewrite <- E1. exact Hq.
  - repeat split; apply ex_Fin.
  - lra.
  - apply Rabs_le. lra.
  - rewrite <- E1. pose proof (growth_total q ts1 Hq) as G. fold k in G.
    assert (P3 : 0 < 3 ^ k) by (apply pow_lt; lra).
    assert (MG : MAXF < growth q ts1).
    { apply Rmult_lt_reg_l with (3 ^ k); [exact P3|]. lra. }
    pose proof MAXF_pos. nra.
Qed.
