(** * Proofs: passivity, and Gauss-Laguerre averages *)
From Coq Require Import String Reals Lra Lia ZArith List Bool.
From Coquelicot Require Import Rcomplements Complex.
From Verif Require Import Num NumLemmas ModelBase ModelSample ModelTip StackLemmas Spec
  ProofsStackQS ProofsStackQS2 ProofsSym.
Import ListNotations.
Open Scope R_scope.

(** ** Power flow through a stack

    For the first column (a, b) of a stack's matrix seen from a medium of
    permittivity l: u = a + b, w = (a - b) / l; Im (u conj(w)) is the power
    flowing down.  Interfaces keep (u, w), propagation through a passive
    layer does not decrease the flow. *)
Definition flow (u w : C) : R := Im (u * Cconj w)%C.

Lemma flow_prop (l u w : C) (x : R) : l <> RtoC 0 -> 0 <= Im l -> 0 <= x ->
  let c := RtoC ((exp x + exp (- x)) / 2) in
  let s := RtoC ((exp x - exp (- x)) / 2) in
  0 <= flow u w ->
  flow u w <= flow (c * u + s * (l * w))%C (s * (u / l) + c * w)%C.
Proof.
  intros Hl Hb Hx c s Hf.
  assert (He : exp x * exp (- x) = 1) by (rewrite <- exp_plus; replace (x + - x) with 0 by ring; apply exp_0).
  assert (H1 : exp (- x) <= exp x).
  { destruct Hx as [Hx| <-]; [left; apply exp_increasing; lra|rewrite Ropp_0; lra]. }
  pose proof (exp_pos x) as P1. pose proof (exp_pos (- x)) as P2.
  set (c0 := (exp x + exp (- x)) / 2) in *. set (s0 := (exp x - exp (- x)) / 2) in *.
  assert (Hcs : c0 * c0 = 1 + s0 * s0) by (unfold c0, s0; nra).
  assert (Hs : 0 <= s0) by (unfold s0; lra).
  assert (Hc : s0 <= c0) by (unfold c0, s0; lra).
  clearbody c0 s0. clear H1 P1 P2 He Hx x.
  destruct l as [a b]. unfold Im in Hb. simpl in Hb.
  assert (Hm : 0 < a * a + b * b).
  { destruct (Req_EM_T a 0) as [Ea|Ea]; destruct (Req_EM_T b 0) as [Eb|Eb]; try nra.
    subst. exfalso. apply Hl. reflexivity. }
  set (w2 := (w * (a, b))%C).
  assert (Ew : w = (w2 / (a, b))%C) by (unfold w2; field; exact Hl).
  rewrite Ew in *. clearbody w2. clear Ew w.
  replace (s * (u / (a, b)) + c * (w2 / (a, b)))%C with ((s * u + c * w2) / (a, b))%C by (field; exact Hl).
  replace ((a, b) * (w2 / (a, b)))%C with w2 by (field; exact Hl).
  assert (F : forall u v : C, flow u (v / (a, b))%C = Im ((a, b) * (u * Cconj v))%C / (a * a + b * b)).
  { intros [u1 u2] [v1 v2]. unfold flow, Im. simpl. field. lra. }
  rewrite !F in *. unfold Rdiv in *.
  assert (Hi : 0 < / (a * a + b * b)) by (now apply Rinv_0_lt_compat).
  assert (Hf' : 0 <= Im ((a, b) * (u * Cconj w2))%C) by nra.
  apply Rmult_le_compat_r; [lra|]. clear Hf Hi.
  destruct u as [u1 u2], w2 as [v1 v2]. unfold c, s, Im in *. cbn [fst snd Cmult Cplus Cconj RtoC] in *.
  set (m := u1 * v1 + u2 * v2). set (n := u2 * v1 - u1 * v2).
  assert (E0 : a * (u1 * - v2 + u2 * v1) + b * (u1 * v1 - u2 * - v2) = a * n + b * m) by (unfold m, n; ring).
  rewrite E0 in *.
  apply Rminus_le.
  match goal with |- ?L - ?G <= 0 => assert (E : G = (a * n) + b * m * (c0 * c0 + s0 * s0) +
     b * (c0 * s0) * (u1 * u1 + u2 * u2 + (v1 * v1 + v2 * v2))) end.
  { unfold m, n. transitivity (a * (u2 * v1 - u1 * v2) * (c0 * c0 - s0 * s0) +
       b * (u1 * v1 + u2 * v2) * (c0 * c0 + s0 * s0) +
       b * (c0 * s0) * (u1 * u1 + u2 * u2 + (v1 * v1 + v2 * v2))); [ring|rewrite Hcs; ring]. }
  rewrite E, Hcs. clear E.
  assert (K : 0 <= s0 * (m * (2 * s0)) + s0 * c0 * (u1 * u1 + u2 * u2 + (v1 * v1 + v2 * v2))).
  { assert (K1 : 0 <= 2 * m + (u1 * u1 + u2 * u2 + (v1 * v1 + v2 * v2))).
    { unfold m. pose proof (Rle_0_sqr (u1 + v1)). pose proof (Rle_0_sqr (u2 + v2)). unfold Rsqr in *. lra. }
    assert (K2 : 0 <= u1 * u1 + u2 * u2 + (v1 * v1 + v2 * v2)) by nra.
    set (Q := u1 * u1 + u2 * u2 + (v1 * v1 + v2 * v2)) in *.
    assert (s0 * s0 * Q <= s0 * c0 * Q).
    { apply Rmult_le_compat_r; [exact K2|]. apply Rmult_le_compat_l; lra. }
    assert (0 <= s0 * s0 * (2 * m + Q)) by (apply Rmult_le_pos; [nra|exact K1]). lra. }
  assert (K' : 0 <= b * (s0 * (m * (2 * s0)) + s0 * c0 * (u1 * u1 + u2 * u2 + (v1 * v1 + v2 * v2))))
    by (apply Rmult_le_pos; assumption).
  lra.
Qed.

(** a passive material *)
Definition passive (e : C) : Prop := e <> RtoC 0 /\ 0 <= Im e.

Lemma flow_stack q inner : forall e0 en, 0 <= q ->
  Forall (fun et => passive (fst et) /\ 0 <= snd et) inner -> passive en -> e0 <> RtoC 0 ->
  let M := Mqs q e0 inner en in
  Im en / (Cmod en ^ 2) <= flow (c00 M + c10 M)%C ((c00 M - c10 M) / e0)%C.
Proof.
  unfold Mqs. induction inner as [|[e t] rest IH]; intros e0 en Hq Hin Hen H0.
  - cbn [stackM Tqs pT c00 c10].
    replace ((1 + e0 / en) / 2 + (1 - e0 / en) / 2)%C with (RtoC 1) by (field; split; [apply Hen|auto]).
    replace (((1 + e0 / en) / 2 - (1 - e0 / en) / 2) / e0)%C with (/ en)%C
      by (field; repeat split; auto; apply Hen).
    right. destruct Hen as [Hn _]. destruct en as [a b]. unfold flow. rewrite Cmod_sqr. unfold Im, Re. simpl.
    assert (a * a + b * b <> 0).
    { intros E. apply Hn. assert (a = 0) by nra. assert (b = 0) by nra. subst. reflexivity. }
    field. lra.
  - apply Forall_cons_iff in Hin. destruct Hin as [[He Ht] Hin]. cbn [fst snd] in He, Ht.
    cbn [stackM]. specialize (IH e en Hq Hin Hen (proj1 He)). cbv zeta in *.
    set (N := stackM Tqs (Pqs q) e rest en) in *.
    set (u := (c00 N + c10 N)%C) in *. set (w := ((c00 N - c10 N) / e)%C) in *.
    assert (Hx : 0 <= clipR (q * t)).
    { unfold clipR. pose proof MAX_pos. apply Rmin_glb; [|lra].
      eapply Rle_trans; [|apply Rmax_l]. now apply Rmult_le_pos. }
    pose proof (flow_prop e u w (clipR (q * t)) (proj1 He) (proj2 He) Hx) as H. cbv zeta in H.
    set (x := clipR (q * t)) in *.
    eapply Rle_trans; [exact IH|].
    assert (Hf : 0 <= flow u w).
    { eapply Rle_trans; [|exact IH]. destruct Hen as [_ Hi]. unfold Rdiv. apply Rmult_le_pos; [exact Hi|].
      destruct (Req_EM_T (Cmod en ^ 2) 0) as [E|E]; [rewrite E, Rinv_0; lra|].
      left. apply Rinv_0_lt_compat. pose proof (pow2_ge_0 (Cmod en)). lra. }
    specialize (H Hf). eapply Rle_trans; [exact H|]. right. f_equal.
    + unfold u, w. cbn [pmul Tqs pT Pqs pP c00 c01 c10 c11]. fold x.
      rewrite !RtoC_div, !RtoC_minus, !RtoC_plus by lra. field. split; [apply He|auto].
    + unfold u, w. cbn [pmul Tqs pT Pqs pP c00 c01 c10 c11]. fold x.
      rewrite !RtoC_div, !RtoC_minus, !RtoC_plus by lra. field. repeat split; auto; apply He.
Qed.

Lemma Im_r (a b : C) (e0 : R) : 0 < e0 -> a <> RtoC 0 ->
  Im (b / a)%C = e0 * flow (a + b)%C ((a - b) / RtoC e0)%C / (2 * Cmod a ^ 2).
Proof.
  intros He Ha. destruct a as [a1 a2], b as [b1 b2].
  assert (Hn : a1 * a1 + a2 * a2 <> 0).
  { intros E. apply Ha. assert (a1 = 0) by nra. assert (a2 = 0) by nra. subst. reflexivity. }
  rewrite Cmod_sqr. unfold flow, Im, Re. simpl. field. split; lra.
Qed.

Lemma Cmod2_pos (e : C) : e <> RtoC 0 -> 0 < Cmod e ^ 2.
Proof. intros H. apply pow_lt. now apply Cmod_gt_0. Qed.

(** C14. A stack of passive layers (Im eps >= 0, eps <> 0) with a lossy
    substrate (Im eps > 0) under a real positive environment: the
    quasistatic reflection coefficient is finite with positive imaginary
    part, for any number of layers, any non-negative thicknesses and any
    momentum q >= 0 (also beyond the overflow clip). *)
Lemma C14_lossy_substrate_absorbs_proof :
  forall (e0 : R) (mid : list C) (en : C) (ts : list R) nu (q : R),
  length mid = length ts -> 0 < e0 ->
  Forall (fun e => e <> RtoC 0 /\ 0 <= Im e) mid -> 0 < Im en ->
  Forall (fun t => 0 <= t) ts -> 0 <= q ->
  exists r : C, refl_coef_qs (stack (RtoC e0 :: mid ++ [en]) ts nu) (rr q) = Ok (Some r) /\ 0 < Im r.
Proof.
  intros e0 mid en ts nu q Hl He0 Hmid Hen Hts Hq.
  destruct (stack_decomp (RtoC e0 :: mid ++ [en]) ts) as (a & inner & b & E & ->).
  { simpl. rewrite app_length. simpl. lia. }
  rewrite E. rewrite stack_struct.
  unfold eps_of in E. injection E as <- E. apply app_inj_tail in E. destruct E as [-> <-].
  assert (Hn : en <> RtoC 0) by (intros ->; unfold Im in Hen; simpl in Hen; lra).
  assert (H0 : RtoC e0 <> RtoC 0) by (apply RtoC_neq_0; lra).
  assert (Hin : Forall (fun et => passive (fst et) /\ 0 <= snd et) inner).
  { clear -Hmid Hts. induction inner as [|[e t] l IH]; [constructor|]. cbn in *.
    inversion Hmid; subst. inversion Hts; subst. constructor; [split; assumption|auto]. }
  assert (Hnz : Forall (fun e => e <> RtoC 0) (map fst inner ++ [en])).
  { apply Forall_app. split; [|auto]. eapply Forall_impl; [|exact Hmid]. intros e [H _]. exact H. }
  rewrite refl_coef_qs_struct by exact Hnz.
  pose proof (flow_stack q inner (RtoC e0) en Hq Hin (conj Hn (Rlt_le _ _ Hen)) H0) as F. cbv zeta in F.
  set (M := Mqs q (RtoC e0) inner en) in *.
  assert (Hpos : 0 < Im en / Cmod en ^ 2) by (apply Rdiv_lt_0_compat; [exact Hen|now apply Cmod2_pos]).
  assert (Ha : c00 M <> RtoC 0).
  { intros Z. rewrite Z in F. unfold flow in F.
    assert (Z' : Im ((0 + c10 M) * Cconj ((0 - c10 M) / RtoC e0))%C = 0).
    { destruct (c10 M) as [x y]. unfold Im. simpl. field. lra. }
    rewrite Z' in F. lra. }
  rewrite cdiv_ok by exact Ha. eexists. split; [reflexivity|].
  rewrite (Im_r _ _ e0 He0 Ha). apply Rdiv_lt_0_compat.
  - apply Rmult_lt_0_compat; [exact He0|]. lra.
  - pose proof (Cmod2_pos _ Ha). lra.
Qed.

(** C14. With a merely passive substrate (Im eps >= 0), wherever the
    coefficient is finite its imaginary part is non-negative. *)
Lemma C14_passive_stack_proof :
  forall (e0 : R) (mid : list C) (en : C) (ts : list R) nu (q : R) (r : C),
  length mid = length ts -> 0 < e0 ->
  Forall (fun e => e <> RtoC 0 /\ 0 <= Im e) (mid ++ [en]) ->
  Forall (fun t => 0 <= t) ts -> 0 <= q ->
  refl_coef_qs (stack (RtoC e0 :: mid ++ [en]) ts nu) (rr q) = Ok (Some r) -> 0 <= Im r.
Proof.
  intros e0 mid en ts nu q r Hl He0 Hall Hts Hq Hr.
  destruct (stack_decomp (RtoC e0 :: mid ++ [en]) ts) as (a & inner & b & E & ->).
  { simpl. rewrite app_length. simpl. lia. }
  rewrite E in Hr. rewrite stack_struct in Hr.
  unfold eps_of in E. injection E as <- E. apply app_inj_tail in E. destruct E as [-> <-].
  assert (H0 : RtoC e0 <> RtoC 0) by (apply RtoC_neq_0; lra).
  assert (Hnz : Forall (fun e => e <> RtoC 0) (map fst inner ++ [en])).
  { eapply Forall_impl; [|exact Hall]. intros e [H _]. exact H. }
  apply Forall_app in Hall. destruct Hall as [Hmid Hen]. apply Forall_inv in Hen.
  assert (Hin : Forall (fun et => passive (fst et) /\ 0 <= snd et) inner).
  { clear -Hmid Hts. induction inner as [|[e t] l IH]; [constructor|]. cbn in *.
    inversion Hmid; subst. inversion Hts; subst. constructor; [split; assumption|auto]. }
  rewrite refl_coef_qs_struct in Hr by exact Hnz.
  pose proof (flow_stack q inner (RtoC e0) en Hq Hin Hen H0) as F. cbv zeta in F.
  set (M := Mqs q (RtoC e0) inner en) in *.
  injection Hr as Hr. apply cdiv_Some in Hr. destruct Hr as (x & y & Ex & Ey & Ha & ->).
  injection Ex as <-. injection Ey as <-.
  assert (Hpos : 0 <= Im en / Cmod en ^ 2).
  { apply Rmult_le_pos; [apply Hen|]. left. apply Rinv_0_lt_compat. apply Cmod2_pos, Hen. }
  rewrite (Im_r _ _ e0 He0 Ha). apply Rmult_le_pos.
  - apply Rmult_le_pos; lra.
  - left. apply Rinv_0_lt_compat. pose proof (Cmod2_pos _ Ha). lra.
Qed.

(** C14. Example: SiO2-like film (t = 30) on a lossy substrate, at any q. *)
Lemma C14_example_proof : forall q, 0 <= q ->
  exists r : C, refl_coef_qs (stack [RtoC 1; (-2, 1/10)%R; (11, 1/100)%R] [30] None) (rr q) = Ok (Some r)
                /\ 0 < Im r.
Proof.
  intros q Hq. apply (C14_lossy_substrate_absorbs_proof 1 [(-2, 1/10)%R] (11, 1/100)%R [30]);
    try (unfold Im; simpl; lra); try reflexivity.
  - constructor; [|constructor]. split; [apply C_neq_0; lra|unfold Im; simpl; lra].
  - constructor; [lra|constructor].
Qed.

(** ** Quadrature sums *)
Lemma sampled_pos_len lg s z n l : sampled_beta lg s z n = Ok l -> n <> O.
Proof. unfold sampled_beta. destruct n; [discriminate|auto]. Qed.

Lemma Rsum_app a b : Rsum (a ++ b) = Rsum a + Rsum b.
Proof. induction a; simpl; [ring|]. unfold Rsum in *. rewrite IHa. ring. Qed.

(** all sampled coefficients finite: explicit form *)
Lemma sampled_ok lg s (z : R) n (beta : R -> C) :
  n <> O -> z <> 0 ->
  (forall xw, In xw (lg n) -> refl_coef_qs s (rr (fst xw / (2 * z))) = Ok (Some (beta (fst xw / (2 * z))))) ->
  (exists b, refl_coef_qs s (rr z) = Ok b) ->
  sampled_beta lg s (rr z) n
  = Ok (map (fun xw => (fst xw, snd xw, Some (beta (fst xw / (2 * z))))) (lg n)).
Proof.
  intros Hn Hz H [b Hb]. unfold sampled_beta. destruct (Nat.eqb_spec n 0); [contradiction|].
  rewrite Hb. cbn [rbind]. apply mapM_ok. intros xw Hin.
  replace (rr (fst xw) / (rr 2 * rr z))%rv with (rr (fst xw / (2 * z))).
  - rewrite H by exact Hin. reflexivity.
  - unfold rmul, rr. cbn [olift2]. rewrite rdiv_ok by lra. reflexivity.
Qed.

Lemma refl_qs_ok_indep s q b : refl_coef_qs s q = Ok b -> forall q', exists b', refl_coef_qs s q' = Ok b'.
Proof.
  intros H q'. destruct (refl_coef_qs s q') as [b'|e] eqn:E; [eauto|].
  apply (refl_qs_raise_indep _ _ q) in E. congruence.
Qed.

Lemma above_ok lg D s (z : R) n (beta : R -> C) :
  dflt (d_n_lag D) n <> O -> z <> 0 ->
  (forall xw, In xw (lg (dflt (d_n_lag D) n)) ->
     refl_coef_qs s (rr (fst xw / (2 * z))) = Ok (Some (beta (fst xw / (2 * z))))) ->
  (exists b, refl_coef_qs s (rr z) = Ok b) ->
  refl_coef_qs_above_surf lg D s (rr z) n
  = Ok (Some (Csum (map (fun xw => RtoC (snd xw * fst xw) * beta (fst xw / (2 * z))%R)%C (lg (dflt (d_n_lag D) n))))).
Proof.
  intros Hn Hz H Hb. unfold refl_coef_qs_above_surf. rewrite (sampled_ok _ _ _ _ beta) by assumption.
  cbn [rbind]. f_equal. rewrite map_map.
  apply csum_map_Some. intros xw _. reflexivity.
Qed.

Lemma surf_ok lg D s (z : R) n (beta : R -> C) :
  dflt (d_n_lag D) n <> O -> z <> 0 ->
  (forall xw, In xw (lg (dflt (d_n_lag D) n)) ->
     refl_coef_qs s (rr (fst xw / (2 * z))) = Ok (Some (beta (fst xw / (2 * z))))) ->
  (exists b, refl_coef_qs s (rr z) = Ok b) ->
  surf_pot_and_field lg D s (rr z) n
  = Ok (Some (Csum (map (fun xw => RtoC (snd xw) * beta (fst xw / (2 * z))%R)%C (lg (dflt (d_n_lag D) n))) / RtoC (2 * z))%C,
        Some (Csum (map (fun xw => RtoC (snd xw * fst xw) * beta (fst xw / (2 * z))%R)%C (lg (dflt (d_n_lag D) n))) / RtoC (4 * z ^ 2))%C).
Proof.
  intros Hn Hz H Hb. unfold surf_pot_and_field. rewrite (sampled_ok _ _ _ _ beta) by assumption.
  cbn [rbind]. rewrite !map_map.
  rewrite (csum_map_Some _ (fun xw => RtoC (snd xw) * beta (fst xw / (2 * z))%R)%C) by (intros; reflexivity).
  rewrite (csum_map_Some _ (fun xw => RtoC (snd xw * fst xw) * beta (fst xw / (2 * z))%R)%C) by (intros; reflexivity).
  unfold rmul, rpow, rr, ofR. cbn [olift1 olift2].
  assert (0 < z ^ 2) by (pose proof (pow2_ge_0 z); pose proof (pow_nonzero z 2 Hz); lra).
  rewrite !cdiv_ok by (apply RtoC_neq_0; lra). reflexivity.
Qed.

Lemma Csum_const {A} (f : A -> R) (c : C) l : Csum (map (fun a => RtoC (f a) * c)%C l) = (RtoC (Rsum (map f l)) * c)%C.
Proof.
  induction l as [|a l IH]; simpl; [ring|]. rewrite IH. unfold Rsum. simpl. rewrite RtoC_plus. ring.
Qed.

(** bulk reflection coefficient *)
Lemma bulk_qs (e0 e1 : C) nu q : e1 <> RtoC 0 -> (e0 + e1 <> 0)%C ->
  refl_coef_qs (stack [e0; e1] [] nu) q = Ok (Some ((e1 - e0) / (e1 + e0))%C).
Proof.
  intros H1 H2. rewrite (proj1 (bulk_refl_any e0 e1 nu q H1)). unfold refl_coef_qs_single, csub, cadd.
  cbn [olift2]. rewrite cdiv_ok; [reflexivity|]. replace (e1 + e0)%C with (e0 + e1)%C by ring. exact H2.
Qed.

Lemma Cmod_sq_nz (z : C) : z <> RtoC 0 -> Cmod z <> 0.
Proof. intros H E. apply H. now apply Cmod_eq_0. Qed.

(** C23. On a bulk sample Gauss-Laguerre averaging is exact: with
    beta = (e1-e0)/(e1+e0), the effective coefficient is beta, the surface
    potential beta/(2 z), the field beta/(4 z^2) and (beta <> 0) the image
    charge beta at depth z, at every height and with every quadrature
    order. *)
Lemma C23_bulk_averages_exact_proof :
  forall (laggauss : laggauss_t) (D : Defaults) (e0 e1 : C) nu (z : R) (n_lag : option nat),
  let n := match n_lag with Some n => n | None => d_n_lag D end in
  n <> O -> laguerre_rule (laggauss n) ->
  e1 <> RtoC 0 -> (e0 + e1 <> 0)%C -> 0 < z ->
  let s := stack [e0; e1] [] nu in
  let beta := ((e1 - e0) / (e1 + e0))%C in
  refl_coef_qs_above_surf laggauss D s (rr z) n_lag = Ok (Some beta) /\
  surf_pot_and_field laggauss D s (rr z) n_lag
  = Ok (Some (beta / RtoC (2 * z))%C, Some (beta / RtoC (4 * z ^ 2))%C) /\
  (beta <> RtoC 0 -> image_depth_and_charge laggauss D s (rr z) n_lag = Ok (Some z, Some beta)).
Proof.
  intros lg D e0 e1 nu z n_lag n Hn (Hpos & Hw & Hwx) H1 H2 Hz s beta.
  assert (En : n = dflt (d_n_lag D) n_lag) by (unfold n, dflt; destruct n_lag; reflexivity).
  assert (HB : forall q, refl_coef_qs s q = Ok (Some beta)) by (intros q; apply bulk_qs; assumption).
  assert (A : refl_coef_qs_above_surf lg D s (rr z) n_lag = Ok (Some beta)).
  { rewrite (above_ok _ _ _ _ _ (fun _ => beta)); [|congruence|lra|intros; apply HB|eauto].
    rewrite <- En, (Csum_const (fun xw => snd xw * fst xw)), Hwx. do 2 f_equal. ring. }
  assert (S : surf_pot_and_field lg D s (rr z) n_lag
    = Ok (Some (beta / RtoC (2 * z))%C, Some (beta / RtoC (4 * z ^ 2))%C)).
  { rewrite (surf_ok _ _ _ _ _ (fun _ => beta)); [|congruence|lra|intros; apply HB|eauto].
    rewrite <- En, (Csum_const (fun xw => snd xw * fst xw)), (Csum_const snd), Hwx, Hw.
    do 2 f_equal; f_equal; f_equal; ring. }
  repeat split; auto.
  intros Hb. unfold image_depth_and_charge. rewrite S. cbn [rbind fst snd].
  assert (Hz2 : 0 < z ^ 2) by (apply pow_lt; lra).
  assert (R1 : RtoC (2 * z) <> RtoC 0) by (apply RtoC_neq_0; lra).
  assert (R2 : RtoC (4 * z ^ 2) <> RtoC 0) by (apply RtoC_neq_0; lra).
  assert (E2 : RtoC (4 * z ^ 2) = (RtoC (2 * z) * RtoC (2 * z))%C) by (rewrite <- RtoC_mult; f_equal; ring).
  assert (HE : (beta / RtoC (4 * z ^ 2) <> 0)%C) by (apply Cdiv_neq_0; auto).
  unfold cpown. cbn [olift1]. rewrite !cdiv_ok by exact HE.
  f_equal. f_equal.
  - replace (beta / RtoC (2 * z) / (beta / RtoC (4 * z ^ 2)))%C with (RtoC (2 * z))
      by (rewrite E2; field; auto).
    unfold cabs, rsub, rr. cbn [olift1 olift2]. rewrite Cmod_R, Rabs_pos_eq by lra. f_equal. ring.
  - f_equal. simpl Cpown. rewrite E2. field. auto.
Qed.

(** the hypotheses of C23/C24 are satisfiable: the one- and two-point rules *)
Definition laggauss12 : laggauss_t := fun n =>
  match n with
  | 1%nat => [(1, 1)]
  | 2%nat => [(2 - sqrt 2, (2 + sqrt 2) / 4); (2 + sqrt 2, (2 - sqrt 2) / 4)]
  | _ => []
  end.
Lemma laggauss12_rule : laguerre_rule (laggauss12 1%nat) /\ laguerre_rule (laggauss12 2%nat).
Proof.
  assert (H2 : sqrt 2 * sqrt 2 = 2) by (apply sqrt_sqrt; lra).
  assert (H0 : 0 < sqrt 2) by (apply sqrt_lt_R0; lra).
  assert (H3 : sqrt 2 < 2) by nra.
  split; repeat split; cbn; try lra; try nra.
  - repeat constructor; cbn; lra.
  - repeat constructor; cbn; lra.
Qed.
(** C23. Example: two-point rule, eps 1 | 3 *)
Lemma C23_example_proof :
  refl_coef_qs_above_surf laggauss12 defaults0 (stack [RtoC 1; RtoC 3] [] None) (rr 10) (Some 2%nat)
  = Ok (Some (RtoC (1/2))).
Proof.
  destruct (C23_bulk_averages_exact_proof laggauss12 defaults0 (RtoC 1) (RtoC 3) None 10 (Some 2%nat)) as [H _].
  - discriminate.
  - apply laggauss12_rule.
  - apply RtoC_neq_0; lra.
  - rewrite <- RtoC_plus. apply RtoC_neq_0; lra.
  - lra.
  - rewrite H. do 2 f_equal. rewrite <- RtoC_minus, <- RtoC_plus, <- RtoC_div by lra. f_equal. lra.
Qed.

(** ** C24 *)
Lemma sampled_inv lg s (z : R) n l : z <> 0 -> sampled_beta lg s (rr z) n = Ok l ->
  n <> O /\ exists beta : R * R -> CV,
    l = map (fun xw => (fst xw, snd xw, beta xw)) (lg n) /\
    (forall xw, In xw (lg n) -> refl_coef_qs s (rr (fst xw / (2 * z))) = Ok (beta xw)).
Proof.
  intros Hz. unfold sampled_beta. destruct (Nat.eqb_spec n 0) as [|Hn]; [discriminate|].
  destruct (refl_coef_qs s (rr z)) as [b|e] eqn:Eb; [|discriminate]. cbn [rbind]. intros H. split; [exact Hn|].
  exists (fun xw => match refl_coef_qs s (rr (fst xw / (2 * z))) with Ok b => b | Raise _ => None end).
  assert (K : forall xw : R * R, exists b, refl_coef_qs s (rr (fst xw / (2 * z))) = Ok b)
    by (intros xw; eapply refl_qs_ok_indep; exact Eb).
  split.
  - rewrite (mapM_ok _ (fun xw => (fst xw, snd xw, match refl_coef_qs s (rr (fst xw / (2 * z))) with Ok b => b | Raise _ => None end))) in H.
    + now injection H as <-.
    + intros xw _. replace (rr (fst xw) / (rr 2 * rr z))%rv with (rr (fst xw / (2 * z))).
      * destruct (K xw) as [b' ->]. reflexivity.
      * unfold rmul, rr. cbn [olift2]. rewrite rdiv_ok by lra. reflexivity.
  - intros xw _. destruct (K xw) as [b' ->]. reflexivity.
Qed.

Lemma above_inv lg D s (z : R) n_lag r : z <> 0 ->
  refl_coef_qs_above_surf lg D s (rr z) n_lag = Ok (Some r) ->
  let n := dflt (d_n_lag D) n_lag in
  exists beta : R * R -> C,
    r = Csum (map (fun xw => RtoC (snd xw * fst xw) * beta xw)%C (lg n)) /\
    (forall xw, In xw (lg n) -> refl_coef_qs s (rr (fst xw / (2 * z))) = Ok (Some (beta xw))).
Proof.
  intros Hz H n. unfold refl_coef_qs_above_surf in H. fold n in H.
  destruct (sampled_beta lg s (rr z) n) as [l|e] eqn:El; [|discriminate].
  destruct (sampled_inv _ _ _ _ _ Hz El) as (Hn & beta & -> & Hb).
  cbn [rbind] in H. rewrite map_map in H. injection H as H.
  exists (fun xw => match beta xw with Some b => b | None => RtoC 0 end).
  assert (K : forall rule r, csum (map (fun xw : R * R => ofR (rr (snd xw) * rr (fst xw))%rv * beta xw)%cv rule) = Some r ->
    r = Csum (map (fun xw => RtoC (snd xw * fst xw) * match beta xw with Some b => b | None => RtoC 0 end)%C rule) /\
    forall xw, In xw rule -> exists b, beta xw = Some b).
  { clear. induction rule as [|xw rule IH]; intros r H.
    - cbn in H. injection H as <-. split; [reflexivity|intros ? []].
    - cbn [map csum fold_right] in H. apply olift2_Some in H. destruct H as (a & b & Ha & Hb & ->).
      destruct (IH b Hb) as [-> K]. apply olift2_Some in Ha. destruct Ha as (c & d & Hc & Hd & ->).
      injection Hc as <-. cbn [map Csum fold_right]. rewrite Hd. split; [reflexivity|].
      intros yw [<-|Hy]; [eauto|auto]. }
  destruct (K _ _ H) as [-> K']. split; [reflexivity|].
  intros xw Hin. rewrite (Hb xw Hin). destruct (K' xw Hin) as [b ->]. reflexivity.
Qed.

Lemma weighted_bound (rule : list (R * R)) (f : R * R -> R) (m : R) :
  Forall (fun xw => 0 < fst xw /\ 0 < snd xw) rule ->
  (forall xw, In xw rule -> f xw <= m) ->
  Rsum (map (fun xw => snd xw * fst xw * f xw) rule) <= m * Rsum (map (fun xw => snd xw * fst xw) rule).
Proof.
  induction rule as [|xw rule IH]; intros Hp Hf; simpl; [lra|].
  apply Forall_cons_iff in Hp. destruct Hp as [[P1 P2] Hp].
  assert (f xw <= m) by (apply Hf; now left).
  assert (0 < snd xw * fst xw) by (now apply Rmult_lt_0_compat).
  assert (IH' := IH Hp (fun y Hy => Hf y (or_intror Hy))).
  unfold Rsum in *. simpl. nra.
Qed.

Lemma Re_Csum l : Re (Csum l) = Rsum (map Re l).
Proof. induction l as [|a l IH]; [reflexivity|]. cbn [map Csum fold_right]. unfold Rsum. simpl. unfold Rsum in IH. rewrite <- IH. reflexivity. Qed.
Lemma Im_Csum l : Im (Csum l) = Rsum (map Im l).
Proof. induction l as [|a l IH]; [reflexivity|]. cbn [map Csum fold_right]. unfold Rsum. simpl. unfold Rsum in IH. rewrite <- IH. reflexivity. Qed.

(** C24. The effective coefficient is a convex combination of the
    coefficients at the sampled momenta q = x/(2 z): any half plane or disc
    that contains all of them contains it. *)
Lemma C24_average_in_convex_hull_proof :
  forall (laggauss : laggauss_t) (D : Defaults) (s : sample) (z : R) (n_lag : option nat) (r : C),
  let n := match n_lag with Some n => n | None => d_n_lag D end in
  laguerre_rule (laggauss n) -> 0 < z ->
  refl_coef_qs_above_surf laggauss D s (rr z) n_lag = Ok (Some r) ->
  let sampled := fun b => exists x w, In (x, w) (laggauss n) /\
                          refl_coef_qs s (rr (x / (2 * z))) = Ok (Some b) in
  (forall a b c : R, (forall v, sampled v -> a * Re v + b * Im v <= c) -> a * Re r + b * Im r <= c) /\
  (forall (centre : C) (B : R), (forall v, sampled v -> Cmod (v - centre)%C <= B) -> Cmod (r - centre)%C <= B).
Proof.
  intros lg D s z n_lag r n (Hpos & Hw & Hwx) Hz Hr sampled.
  assert (En : n = dflt (d_n_lag D) n_lag) by (unfold n, dflt; destruct n_lag; reflexivity).
  destruct (above_inv lg D s z n_lag r) as (beta & -> & Hb); [lra|exact Hr|].
  rewrite <- En in *.
  assert (HS : forall xw, In xw (lg n) -> sampled (beta xw)).
  { intros [x w] Hin. exists x, w. split; [exact Hin|]. exact (Hb (x, w) Hin). }
  split.
  - intros a b c H. rewrite Re_Csum, Im_Csum, !map_map.
    replace (a * Rsum _ + b * Rsum _)
      with (Rsum (map (fun xw => snd xw * fst xw * (a * Re (beta xw) + b * Im (beta xw))) (lg n))).
    + eapply Rle_trans; [apply (weighted_bound (lg n) (fun xw => a * Re (beta xw) + b * Im (beta xw)) c Hpos)|].
      * intros xw Hin. apply H. auto.
      * rewrite Hwx. lra.
    + clear. induction (lg n) as [|xw l IH]; [cbn; ring|]. cbn [map]. unfold Rsum in *. simpl.
      rewrite IH. destruct (beta xw) as [p q]. unfold Re, Im. simpl. ring.
  - intros ctr B H.
    replace (Csum _ - ctr)%C with (Csum (map (fun xw => RtoC (snd xw * fst xw) * (beta xw - ctr))%C (lg n))).
    + eapply Rle_trans; [apply Csum_triang|].
      rewrite (map_ext_in _ (fun xw => snd xw * fst xw * Cmod (beta xw - ctr)%C)).
      2: { intros xw Hin. rewrite Cmod_mult, Cmod_R, Rabs_pos_eq; [reflexivity|].
        rewrite Forall_forall in Hpos. destruct (Hpos xw Hin). nra. }
      eapply Rle_trans; [apply (weighted_bound (lg n) (fun xw => Cmod (beta xw - ctr)%C) B Hpos)|].
      * intros xw Hin. apply H. auto.
      * rewrite Hwx. lra.
    + replace (Csum (map (fun xw => (RtoC (snd xw * fst xw) * beta xw)%C) (lg n)) - ctr)%C
        with (Csum (map (fun xw => (RtoC (snd xw * fst xw) * beta xw)%C) (lg n)) - RtoC (Rsum (map (fun xw => (snd xw * fst xw)%R) (lg n))) * ctr)%C
        by (rewrite Hwx; ring).
      clear. induction (lg n) as [|xw l IH]; [cbn; ring|]. cbn [map Csum fold_right].
      unfold Csum in IH. rewrite IH. unfold Rsum. simpl. rewrite RtoC_plus. ring.
Qed.

(** C24. It always equals 4 z^2 times the surface field (also when either is
    non-finite or raises). *)
Lemma C24_average_is_scaled_field_proof :
  forall (laggauss : laggauss_t) (D : Defaults) (s : sample) (z : R) (n_lag : option nat),
  z <> 0 ->
  refl_coef_qs_above_surf laggauss D s (rr z) n_lag
  = (let! pE := surf_pot_and_field laggauss D s (rr z) n_lag in
     Ok (rc (4 * z ^ 2) * snd pE)%cv).
Proof.
  intros lg D s z n Hz. unfold refl_coef_qs_above_surf, surf_pot_and_field.
  destruct (sampled_beta lg s (rr z) _) as [l|]; [|reflexivity]. cbn [rbind snd]. f_equal.
  assert (H : 0 < z ^ 2) by (pose proof (pow2_ge_0 z); pose proof (pow_nonzero z 2 Hz); lra).
  assert (R2 : RtoC (4 * z ^ 2) <> RtoC 0) by (apply RtoC_neq_0; lra).
  destruct (csum _) as [c|]; [|reflexivity].
  unfold rmul, rpow, rr, ofR, rc. cbn [olift1 olift2].
  rewrite cdiv_ok by exact R2. unfold cmul. cbn [olift2]. f_equal. field. exact R2.
Qed.

(** C14. The effective (height-averaged) coefficient of a passive stack over
    a lossy substrate is finite with positive imaginary part, at every charge
    height and quadrature order. *)
Lemma C14_average_absorbs_proof :
  forall (laggauss : laggauss_t) (D : Defaults) (e0 : R) (mid : list C) (en : C) (ts : list R) nu
    (z : R) (n_lag : option nat),
  let n := match n_lag with Some n => n | None => d_n_lag D end in
  n <> O -> laguerre_rule (laggauss n) ->
  length mid = length ts -> 0 < e0 ->
  Forall (fun e => e <> RtoC 0 /\ 0 <= Im e) mid -> 0 < Im en ->
  Forall (fun t => 0 <= t) ts -> 0 < z ->
  exists r : C,
    refl_coef_qs_above_surf laggauss D (stack (RtoC e0 :: mid ++ [en]) ts nu) (rr z) n_lag = Ok (Some r)
    /\ 0 < Im r.
Proof.
  intros lg D e0 mid en ts nu z n_lag n Hn (Hpos & Hw & Hwx) Hl He0 Hmid Hen Hts Hz.
  assert (En : n = dflt (d_n_lag D) n_lag) by (unfold n, dflt; destruct n_lag; reflexivity).
  set (s := stack (RtoC e0 :: mid ++ [en]) ts nu).
  set (beta := fun q => match refl_coef_qs s (rr q) with Ok (Some b) => b | _ => RtoC 0 end).
  assert (HB : forall q, 0 <= q -> refl_coef_qs s (rr q) = Ok (Some (beta q)) /\ 0 < Im (beta q)).
  { intros q Hq. destruct (C14_lossy_substrate_absorbs_proof e0 mid en ts nu q) as (r & E & Hr); auto.
    unfold beta. fold s in E. rewrite E. auto. }
  assert (Hxq : forall xw, In xw (lg n) -> 0 <= fst xw / (2 * z)).
  { intros xw Hin. rewrite Forall_forall in Hpos. destruct (Hpos xw Hin).
    left. apply Rdiv_lt_0_compat; lra. }
  rewrite (above_ok lg D s z n_lag beta).
  - eexists. split; [reflexivity|]. rewrite <- En, Im_Csum, map_map.
    assert (K : forall l, (forall xw, In xw l -> In xw (lg n)) -> l <> [] ->
       0 < Rsum (map (fun xw => Im (RtoC (snd xw * fst xw) * beta (fst xw / (2 * z))%R)%C) l)).
    { induction l as [|xw l IH]; intros Hsub Hne; [congruence|]. cbn [map]. unfold Rsum. cbn [fold_right].
      assert (Hin : In xw (lg n)) by (apply Hsub; now left).
      assert (H1 : 0 < Im (RtoC (snd xw * fst xw) * beta (fst xw / (2 * z))%R)%C).
      { destruct (HB _ (Hxq xw Hin)) as [_ Hi]. rewrite Forall_forall in Hpos. destruct (Hpos xw Hin).
        destruct (beta (fst xw / (2 * z))) as [p q]. unfold Im in *. simpl in *. assert (0 < snd xw * fst xw) by nra. nra. }
      destruct l as [|yw l].
      - cbn [map fold_right]. rewrite Rplus_0_r. exact H1.
      - assert (H2 := IH (fun y Hy => Hsub y (or_intror Hy)) ltac:(discriminate)). unfold Rsum in H2. lra. }
    apply K; [auto|]. intros E. rewrite E in Hw. cbn in Hw. lra.
  - congruence.
  - lra.
  - intros xw Hin. rewrite <- En in Hin. apply HB. auto.
  - exists (Some (beta z)). apply HB. lra.
Qed.
