(** * Proofs: graded lossless stacks, and the limits of the height of the charge *)
From Coq Require Import String Reals Lra Lia ZArith List Bool Sorted.
From Coquelicot Require Import Coquelicot.
From Coq Require Import List.
From Verif Require Import Num NumLemmas ModelBase ModelSample ModelTip StackLemmas Spec
  ProofsStackQS ProofsStackQS2 ProofsSym ProofsPassive SpecQuad ProofsQuad QuadConv ProofsQuad2 ProofsNlag ProofsImage SpecWave WaveLemmas.
Import ListNotations.
Open Scope R_scope.

(** the round trip factor with the clip *)
Definition cround (q : R) (_ : C) (t : R) : C := RtoC (exp (- 2 * clipR (q * t))).
Lemma cround_P q (l : C) t : True -> exists A, A <> RtoC 0 /\ Pqs q l t = pP A (A * cround q l t)%C.
Proof.
  intros _. exists (RtoC (exp (clipR (q * t)))). split.
  - apply RtoC_neq_0. pose proof (exp_pos (clipR (q * t))). lra.
  - unfold Pqs, cround. f_equal. rewrite <- RtoC_mult, <- exp_plus. f_equal. f_equal. ring.
Qed.
Lemma parratt_c_nonzero q : forall es ts r, parratt qs_iface (cround q) es ts r -> nonzero_below es.
Proof.
  unfold nonzero_below. induction 1; simpl in *; constructor; auto.
  - now destruct H.
  - now destruct H.
Qed.
Lemma refl_clipped (es : list C) ts nu q r :
  parratt qs_iface (cround q) es ts r -> refl_coef_qs (stack es ts nu) (rr q) = Ok (Some r).
Proof.
  intros H. pose proof (parratt_length _ _ _ _ _ H) as Hw. pose proof (parratt_c_nonzero _ _ _ _ H) as Hn.
  destruct (stack_decomp es ts Hw) as (e0 & inner & en & -> & ->).
  rewrite stack_struct, refl_coef_qs_struct by exact Hn.
  destruct (parratt_sound Tqs (Pqs q) _ _ qs_T_ok (fun _ => True) (cround_P q) inner e0 en r) as [H0 H1].
  - apply Forall_forall. trivial.
  - exact H.
  - f_equal. apply div_Some_r; assumption.
Qed.

(** the recursion over real permittivities *)
Fixpoint gr (q : R) (a b : R) (es ts : list R) : R :=
  match es, ts with
  | e :: es', t :: ts' => let x := gr q b e es' ts' * exp (- 2 * clipR (q * t)) in
                          ((b - a) / (b + a) + x) / (1 + (b - a) / (b + a) * x)
  | _, _ => (b - a) / (b + a)
  end.

Lemma clipR_mono x y : x <= y -> clipR x <= clipR y.
Proof. intros H. unfold clipR. apply Rle_min_compat_r. apply Rle_max_compat_r. exact H. Qed.
Lemma factor_range q t : 0 <= q -> 0 <= t -> 0 < exp (- 2 * clipR (q * t)) <= 1.
Proof.
  intros Hq Ht. split; [apply exp_pos|]. rewrite <- exp_0.
  assert (0 <= clipR (q * t)). { rewrite <- clipR_0. apply clipR_mono. apply Rmult_le_pos; assumption. }
  destruct (Req_dec (clipR (q * t)) 0) as [->|]; [rewrite Rmult_0_r; lra|]. apply Rlt_le, exp_increasing. lra.
Qed.
Lemma factor_mono q q' t : 0 <= t -> q <= q' -> exp (- 2 * clipR (q' * t)) <= exp (- 2 * clipR (q * t)).
Proof.
  intros Ht Hq. assert (H : clipR (q * t) <= clipR (q' * t)) by (apply clipR_mono, Rmult_le_compat_r; assumption).
  destruct (Req_dec (clipR (q * t)) (clipR (q' * t))) as [->|]; [lra|]. apply Rlt_le, exp_increasing. lra.
Qed.
(** composition of two coefficients of one sign, bounded by 1 *)
Definition comp (a x : R) : R := (a + x) / (1 + a * x).
Lemma comp_range s a x : s * s = 1 -> 0 <= s * a < 1 -> 0 <= s * x < 1 ->
  0 < 1 + a * x /\ s * a <= s * comp a x < 1.
Proof.
  intros Hs Ha Hx. assert (E : a * x = (s * a) * (s * x)) by (transitivity (a * x * (s * s)); [rewrite Hs; ring|ring]).
  assert (P : 0 <= (s * a) * (s * x)) by (apply Rmult_le_pos; lra).
  assert (D : 0 < 1 + a * x) by lra. split; [exact D|]. unfold comp.
  replace (s * ((a + x) / (1 + a * x))) with ((s * a + s * x) / (1 + (s * a) * (s * x))) by (rewrite <- E; field; lra).
  set (A := s * a) in *. set (X := s * x) in *. split.
  - apply (Rmult_le_reg_r (1 + A * X)); [lra|]. replace ((A + X) / (1 + A * X) * (1 + A * X)) with (A + X) by (field; lra). nra.
  - apply (Rmult_lt_reg_r (1 + A * X)); [lra|]. replace ((A + X) / (1 + A * X) * (1 + A * X)) with (A + X) by (field; lra). nra.
Qed.
Lemma comp_mono s a x y : s * s = 1 -> 0 <= s * a < 1 -> 0 <= s * x < 1 -> 0 <= s * y < 1 -> s * x <= s * y -> s * comp a x <= s * comp a y.
Proof.
  intros Hs Ha Hx Hy Hxy. destruct (comp_range s a x Hs Ha Hx) as [D1 _]. destruct (comp_range s a y Hs Ha Hy) as [D2 _].
  assert (E1 : a * x = (s * a) * (s * x)) by (transitivity (a * x * (s * s)); [rewrite Hs; ring|ring]).
  assert (E2 : a * y = (s * a) * (s * y)) by (transitivity (a * y * (s * s)); [rewrite Hs; ring|ring]).
  unfold comp.
  replace (s * ((a + x) / (1 + a * x))) with ((s * a + s * x) / (1 + (s * a) * (s * x))) by (rewrite <- E1; field; lra).
  replace (s * ((a + y) / (1 + a * y))) with ((s * a + s * y) / (1 + (s * a) * (s * y))) by (rewrite <- E2; field; lra).
  rewrite E1 in D1. rewrite E2 in D2. set (A := s * a) in *. set (X := s * x) in *. set (Y := s * y) in *.
  apply (Rmult_le_reg_r ((1 + A * X) * (1 + A * Y))); [apply Rmult_lt_0_compat; assumption|].
  replace ((A + X) / (1 + A * X) * ((1 + A * X) * (1 + A * Y))) with ((A + X) * (1 + A * Y)) by (field; lra).
  replace ((A + Y) / (1 + A * Y) * ((1 + A * X) * (1 + A * Y))) with ((A + Y) * (1 + A * X)) by (field; lra).
  assert (0 <= (1 - A * A) * (Y - X)); [|lra]. apply Rmult_le_pos; [|lra]. nra.
Qed.
Lemma contrast s a b : s = 1 \/ s = -1 -> 0 < a -> 0 < b -> s * a <= s * b -> 0 <= s * ((b - a) / (b + a)) < 1.
Proof.
  intros Hs Ha Hb H. replace (s * ((b - a) / (b + a))) with ((s * b - s * a) / (b + a)) by (field; lra). split.
  - apply Rdiv_le_0_compat; lra.
  - apply (Rmult_lt_reg_r (b + a)); [lra|]. replace ((s * b - s * a) / (b + a) * (b + a)) with (s * b - s * a) by (field; lra).
    destruct Hs as [-> | ->]; lra.
Qed.

Section Graded.
  Context (s : R) (Hs : s = 1 \/ s = -1).
  Definition ordered (a b : R) : Prop := s * a <= s * b.
  Lemma ss : s * s = 1. Proof. destruct Hs as [-> | ->]; ring. Qed.

  Lemma gr_comp q a b e es t ts : gr q a b (e :: es) (t :: ts)
    = comp ((b - a) / (b + a)) (gr q b e es ts * exp (- 2 * clipR (q * t))).
  Proof. reflexivity. Qed.
  Lemma gr_facts : forall es ts a b, length es = length ts -> 0 < a -> 0 < b -> Forall (fun e => 0 < e) es ->
    Sorted ordered (a :: b :: es) -> Forall (fun t => 0 <= t) ts ->
    (forall q, 0 <= q -> parratt qs_iface (cround q) (map RtoC (a :: b :: es)) ts (RtoC (gr q a b es ts)) /\
                         s * ((b - a) / (b + a)) <= s * gr q a b es ts < 1) /\
    (forall q q', 0 <= q -> q <= q' -> s * gr q' a b es ts <= s * gr q a b es ts).
  Proof.
    induction es as [|e es IH]; intros ts a b Hl Ha Hb He Hso Ht.
    - destruct ts; [|discriminate]. cbn [gr]. inversion Hso as [|? ? _ Hh]; subst. inversion Hh as [|? ? Hab]; subst.
      destruct (contrast s a b Hs Ha Hb Hab) as [C1 C2]. split.
      + intros q Hq. split; [|lra]. cbn [map]. constructor. unfold qs_iface. split; [apply RtoC_neq_0; lra|].
        rewrite <- RtoC_plus, <- RtoC_minus. split; [apply RtoC_neq_0; lra|]. rewrite <- RtoC_div by lra. reflexivity.
      + intros. lra.
    - destruct ts as [|t ts]; [discriminate|]. injection Hl as Hl.
      inversion He as [|? ? He1 He2]; subst. inversion Ht as [|? ? Ht1 Ht2]; subst.
      inversion Hso as [|? ? Hso' Hh]; subst. inversion Hh as [|? ? Hab]; subst.
      destruct (IH ts b e Hl Hb He1 He2 Hso' Ht2) as [I1 I2].
      assert (Hbe : ordered b e) by (inversion Hso' as [|? ? _ Hh2]; subst; now inversion Hh2).
      pose proof (contrast s a b Hs Ha Hb Hab) as CA. pose proof (contrast s b e Hs Hb He1 Hbe) as CB.
      assert (X : forall q, 0 <= q -> 0 <= s * (gr q b e es ts * exp (- 2 * clipR (q * t))) < 1).
      { intros q Hq. destruct (I1 q Hq) as [_ [G1 G2]]. destruct (factor_range q t Hq Ht1) as [F1 F2].
        replace (s * (gr q b e es ts * exp (- 2 * clipR (q * t)))) with (s * gr q b e es ts * exp (- 2 * clipR (q * t))) by ring.
        split; [apply Rmult_le_pos; lra|nra]. }
      split.
      + intros q Hq. destruct (I1 q Hq) as [G0 _]. specialize (X q Hq).
        destruct (comp_range s _ _ ss CA X) as [D R]. split; [|rewrite gr_comp; exact R].
        assert (Ei : RtoC (gr q a b (e :: es) (t :: ts))
          = ((RtoC ((b - a) / (b + a)) + RtoC (gr q b e es ts) * cround q (RtoC b) t)
             / (1 + RtoC ((b - a) / (b + a)) * (RtoC (gr q b e es ts) * cround q (RtoC b) t)))%C).
        { rewrite gr_comp. unfold comp, cround. rewrite <- !RtoC_mult, <- !RtoC_plus. apply RtoC_div. lra. }
        rewrite Ei. cbn [map]. apply parratt_layer.
        * unfold qs_iface. split; [apply RtoC_neq_0; lra|]. rewrite <- RtoC_plus, <- RtoC_minus.
          split; [apply RtoC_neq_0; lra|]. rewrite <- RtoC_div by lra. reflexivity.
        * exact G0.
        * unfold cround. rewrite <- !RtoC_mult, <- RtoC_plus. apply RtoC_neq_0. lra.
      + intros q q' Hq Hqq. rewrite !gr_comp. apply comp_mono; [exact ss|exact CA|apply X; lra|apply X; lra|].
        specialize (I2 q q' Hq Hqq). destruct (I1 q Hq) as [_ [G1 _]]. destruct (I1 q' ltac:(lra)) as [_ [G1' _]].
        pose proof (factor_mono q q' t Ht1 Hqq). destruct (factor_range q t Hq Ht1). destruct (factor_range q' t ltac:(lra) Ht1).
        rewrite <- !Rmult_assoc. apply Rmult_le_compat; lra.
  Qed.
End Graded.

Lemma gr_0 : forall es ts a b, length es = length ts -> 0 < a -> 0 < b -> Forall (fun e => 0 < e) es ->
  gr 0 a b es ts = (last es b - a) / (last es b + a) /\ 0 < last es b.
Proof.
  induction es as [|e es IH]; intros ts a b Hl Ha Hb He; [split; [reflexivity|exact Hb]|].
  destruct ts as [|t ts]; [discriminate|]. injection Hl as Hl. inversion He as [|? ? He1 He2]; subst.
  destruct (IH ts b e Hl Hb He1 He2) as [I1 I2].
  assert (E : last (e :: es) b = last es e).
  { clear. revert e b. induction es as [|x es IHl]; intros e b; [reflexivity|]. change (last (x :: es) b = last (x :: es) e). rewrite !(IHl x). reflexivity. }
  rewrite E. split; [|exact I2]. cbn [gr]. rewrite I1, Rmult_0_l, clipR_0, Rmult_0_r, exp_0, Rmult_1_r. set (x := last es e) in *.
  assert (0 < b + a) by lra. assert (0 < x + b) by lra. assert (0 < x + a) by lra.
  assert (D : 1 + (b - a) / (b + a) * ((x - b) / (x + b)) = 2 * b * (x + a) / ((b + a) * (x + b))) by (field; lra).
  assert (0 < 2 * b * (x + a) / ((b + a) * (x + b))).
  { apply Rdiv_lt_0_compat; [apply Rmult_lt_0_compat; lra|apply Rmult_lt_0_compat; assumption]. }
  rewrite D. field. repeat split; lra.
Qed.

(** C62. Lossless layers of monotone permittivity: the quasistatic coefficient is
    real, has the sign of the gradient, decreases in magnitude with the momentum,
    and lies between those of the first interface alone and of the substrate alone. *)
Lemma C62_graded_stack_proof :
  forall (sg e0 e1 : R) (es ts : list R) nu,
  sg = 1 \/ sg = -1 -> length es = length ts -> Forall (fun e => 0 < e) (e0 :: e1 :: es) ->
  Sorted (fun a b => sg * a <= sg * b) (e0 :: e1 :: es) -> Forall (fun t => 0 <= t) ts ->
  exists b : R -> R,
    (forall q, 0 <= q -> refl_coef_qs (stack (map RtoC (e0 :: e1 :: es)) ts nu) (rr q) = Ok (Some (RtoC (b q)))) /\
    (forall q q', 0 <= q -> q <= q' -> sg * b q' <= sg * b q) /\
    (forall q, 0 <= q -> 0 <= sg * ((e1 - e0) / (e1 + e0)) /\
                         sg * ((e1 - e0) / (e1 + e0)) <= sg * b q <= sg * ((last es e1 - e0) / (last es e1 + e0)) /\
                         sg * b q < 1).
Proof.
  intros sg e0 e1 es ts nu Hs Hl Hp Hso Ht. inversion Hp as [|? ? H0 Hp']; subst. inversion Hp' as [|? ? H1 Hes]; subst.
  destruct (gr_facts sg Hs es ts e0 e1 Hl H0 H1 Hes Hso Ht) as [F1 F2].
  exists (fun q => gr q e0 e1 es ts). split; [|split].
  - intros q Hq. apply refl_clipped. apply F1, Hq.
  - exact F2.
  - intros q Hq. destruct (F1 q Hq) as [_ [F3 F4]]. destruct (gr_0 es ts e0 e1 Hl H0 H1 Hes) as [G0 _].
    specialize (F2 0 q ltac:(lra) Hq). rewrite G0 in F2.
    assert (Hab : sg * e0 <= sg * e1) by (inversion Hso as [|? ? _ Hh]; subst; now inversion Hh).
    pose proof (contrast sg e0 e1 Hs H0 H1 Hab). lra.
Qed.

Lemma Rsum_le {A} (f g : A -> R) (l : list A) : (forall x, In x l -> f x <= g x) -> Rsum (map f l) <= Rsum (map g l).
Proof.
  unfold Rsum. induction l as [|x l IH]; intros H; cbn [map fold_right]; [lra|].
  assert (f x <= g x) by (apply H; now left). assert (K := IH (fun y Hy => H y (or_intror Hy))). lra.
Qed.
Lemma Rsum_scal {A} c (f : A -> R) (l : list A) : Rsum (map (fun x => c * f x) l) = c * Rsum (map f l).
Proof. unfold Rsum. induction l as [|x l IH]; cbn [map fold_right]; [ring|]. rewrite IH. ring. Qed.
Lemma Csum_RtoC {A} (f : A -> R) (l : list A) : Csum (map (fun x => RtoC (f x)) l) = RtoC (Rsum (map f l)).
Proof. unfold Rsum, Csum. induction l as [|x l IH]; cbn [map fold_right]; [reflexivity|]. rewrite IH, RtoC_plus. reflexivity. Qed.

(** C62. Hence the effective coefficient of refl_coef_qs_above_surf, with any
    number of nodes: between the same bounds, and increasing in magnitude with
    the height of the charge. *)
Lemma C62_graded_average_proof :
  forall (laggauss : laggauss_t) (D : Defaults) (n_lag : option nat) (sg e0 e1 : R) (es ts : list R) nu,
  let n := given_or (d_n_lag D) n_lag in
  n <> O -> laguerre_rule (laggauss n) ->
  sg = 1 \/ sg = -1 -> length es = length ts -> Forall (fun e => 0 < e) (e0 :: e1 :: es) ->
  Sorted (fun a b => sg * a <= sg * b) (e0 :: e1 :: es) -> Forall (fun t => 0 <= t) ts ->
  exists r : R -> R,
    (forall z, 0 < z -> refl_coef_qs_above_surf laggauss D (stack (map RtoC (e0 :: e1 :: es)) ts nu) (rr z) n_lag
                        = Ok (Some (RtoC (r z)))) /\
    (forall z z', 0 < z -> z <= z' -> sg * r z <= sg * r z') /\
    (forall z, 0 < z -> sg * ((e1 - e0) / (e1 + e0)) <= sg * r z <= sg * ((last es e1 - e0) / (last es e1 + e0))).
Proof.
  intros lg D nl sg e0 e1 es ts nu n Hn (Hpos & Hw & Hwx) Hs Hl Hp Hso Ht.
  destruct (C62_graded_stack_proof sg e0 e1 es ts nu Hs Hl Hp Hso Ht) as (b & B1 & B2 & B3).
  assert (En : n = dflt (d_n_lag D) nl) by reflexivity.
  assert (Q : forall z xw, 0 < z -> In xw (lg n) -> 0 <= fst xw / (2 * z) /\ 0 < snd xw * fst xw).
  { intros z xw Hz Hin. rewrite Forall_forall in Hpos. destruct (Hpos xw Hin). split.
    - apply Rlt_le, Rdiv_lt_0_compat; lra.
    - apply Rmult_lt_0_compat; lra. }
  exists (fun z => Rsum (map (fun xw => snd xw * fst xw * b (fst xw / (2 * z))) (lg n))). split; [|split].
  - intros z Hz. rewrite (above_ok lg D _ z nl (fun q => RtoC (b q))).
    + rewrite <- En, <- Csum_RtoC. do 3 f_equal. apply map_ext. intros xw. symmetry. apply RtoC_mult.
    + rewrite <- En. exact Hn.
    + lra.
    + rewrite <- En. intros xw Hin. apply B1, (Q z xw Hz Hin).
    + eexists. apply B1. lra.
  - intros z z' Hz Hzz. rewrite <- !Rsum_scal. apply Rsum_le. intros xw Hin. destruct (Q z' xw ltac:(lra) Hin) as [Q1 Q2].
    assert (K : sg * b (fst xw / (2 * z)) <= sg * b (fst xw / (2 * z'))).
    { apply B2; [exact Q1|]. unfold Rdiv. apply Rmult_le_compat_l.
      - rewrite Forall_forall in Hpos. destruct (Hpos xw Hin). lra.
      - apply Rinv_le_contravar; lra. }
    replace (sg * (snd xw * fst xw * b (fst xw / (2 * z)))) with (snd xw * fst xw * (sg * b (fst xw / (2 * z)))) by ring.
    replace (sg * (snd xw * fst xw * b (fst xw / (2 * z')))) with (snd xw * fst xw * (sg * b (fst xw / (2 * z')))) by ring.
    apply Rmult_le_compat_l; lra.
  - intros z Hz. set (lo := sg * ((e1 - e0) / (e1 + e0))) in *. set (hi := sg * ((last es e1 - e0) / (last es e1 + e0))) in *.
    rewrite <- Rsum_scal.
    replace lo with (lo * Rsum (map (fun xw => snd xw * fst xw) (lg n))) by (rewrite Hwx; ring).
    replace hi with (hi * Rsum (map (fun xw => snd xw * fst xw) (lg n))) by (rewrite Hwx; ring).
    rewrite <- !Rsum_scal. split; apply Rsum_le; intros xw Hin; destruct (Q z xw Hz Hin) as [Q1 Q2]; destruct (B3 _ Q1) as (_ & [K1 K2] & _).
    + replace (sg * (snd xw * fst xw * b (fst xw / (2 * z)))) with (snd xw * fst xw * (sg * b (fst xw / (2 * z)))) by ring.
      rewrite Rmult_comm. apply Rmult_le_compat_l; lra.
    + replace (sg * (snd xw * fst xw * b (fst xw / (2 * z)))) with (snd xw * fst xw * (sg * b (fst xw / (2 * z)))) by ring.
      rewrite (Rmult_comm hi). apply Rmult_le_compat_l; lra.
Qed.

Lemma Cl_Csum {A} (l : list A) (u : nat -> A -> C) (v : A -> C) :
  (forall x, In x l -> Cseq_lim (fun k => u k x) (v x)) -> Cseq_lim (fun k => Csum (map (u k) l)) (Csum (map v l)).
Proof.
  induction l as [|x l IH]; intros H; unfold Csum; cbn [map fold_right]; [apply Cl_const|].
  apply Cl_plus; [apply H; now left|]. apply IH. intros y Hy. apply H. now right.
Qed.
Lemma Cl_fcont f (u : nat -> R) (l : R) : fcont f l -> is_lim_seq u l -> Cseq_lim (fun k => f (u k)) (f l).
Proof. intros [H1 H2] H. split; [apply (is_lim_seq_continuous (fun x => Re (f x)))|apply (is_lim_seq_continuous (fun x => Im (f x)))]; assumption. Qed.

(** C62. Charge far above any stack (lossy or not): the averages and the image
    charge become those of the bare substrate, whatever lies between.  Stated
    along every sequence of heights that tends to infinity. *)
Lemma C62_high_charge_proof :
  forall (laggauss : laggauss_t) (D : Defaults) (n_lag : option nat)
         (e0 en : C) (mid : list C) (ts : list R) nu (b : R -> C) (z : nat -> R),
  let n := given_or (d_n_lag D) n_lag in
  let s := stack (e0 :: mid ++ [en]) ts nu in
  n <> O -> laguerre_rule (laggauss n) ->
  length mid = length ts -> Forall (fun e => e <> RtoC 0) mid -> en <> RtoC 0 ->
  (forall q, 0 <= q -> refl_coef_qs s (rr q) = Ok (Some (b q))) ->
  (forall k, 0 < z k) -> is_lim_seq z p_infty ->
  let beta := ((en - e0) / (en + e0))%C in
  exists (r phi E : nat -> C),
    (forall k, refl_coef_qs_above_surf laggauss D s (rr (z k)) n_lag = Ok (Some (r k)) /\
               surf_pot_and_field laggauss D s (rr (z k)) n_lag = Ok (Some (phi k), Some (E k))) /\
    Cseq_lim r beta /\
    Cseq_lim (fun k => RtoC (2 * z k) * phi k)%C beta /\
    Cseq_lim (fun k => RtoC (4 * z k ^ 2) * E k)%C beta /\
    (e0 <> en -> exists (K : nat) (d : nat -> R) (c : nat -> C),
      (forall k, (K <= k)%nat -> image_depth_and_charge laggauss D s (rr (z k)) n_lag = Ok (Some (d k), Some (c k))) /\
      is_lim_seq (fun k => d k / z k) 1 /\ Cseq_lim c beta).
Proof.
  intros lg D nl e0 en mid ts nu b z n s Hn (Hpos & Hw & Hwx) Hl Hm Hen Hb Hz Hinf beta.
  assert (En : n = dflt (d_n_lag D) nl) by reflexivity.
  (* the coefficient at zero momentum *)
  assert (B0 : b 0 = beta /\ (en + e0 <> 0)%C).
  { destruct (C09_zero_momentum_sees_only_ends_proof e0 mid en ts nu Hl Hm Hen) as [H0 _].
    fold s in H0. rewrite (Hb 0 (Rle_refl 0)) in H0. injection H0 as H0. unfold refl_coef_qs_single in H0. symmetry in H0.
    apply cdiv_Some in H0. destruct H0 as (x & y & Hx & Hy & Hy0 & Hr).
    unfold cadd, csub in *. cbn [olift2] in *. injection Hx as <-. injection Hy as <-. rewrite Hr. split; [|exact Hy0]. reflexivity. }
  destruct B0 as [B0 N0].
  assert (Cb : fcont (fun q => b (Rabs q)) 0).
  { destruct (stack_decomp (e0 :: mid ++ [en]) ts) as (a & inner & c & Es & Ets). { simpl. rewrite app_length. simpl. lia. }
    pose proof Hb as Hb'. unfold s in Hb'. rewrite Es, Ets, stack_struct in Hb'. 
    unfold eps_of in Es. injection Es as -> Es. apply app_inj_tail in Es. destruct Es as [Em ->].
    destruct (stack_beta a inner c nu b) as [H _]; [apply Forall_app; rewrite <- Em; auto|exact Hb'|]. apply H. lra. }
  assert (Zi : is_lim_seq (fun k => / z k) 0).
  { apply (is_lim_seq_inv z p_infty Hinf). discriminate. }
  assert (Bl : forall x, 0 < x -> Cseq_lim (fun k => b (x / (2 * z k))%R) beta).
  { intros x Hx. apply (Cl_ext (fun k => b (Rabs (x / 2 * / z k)))).
    - intros k. f_equal. rewrite Rabs_pos_eq.
      + field. pose proof (Hz k). lra.
      + apply Rmult_le_pos; [lra|]. apply Rlt_le, Rinv_0_lt_compat, Hz.
    - rewrite <- B0. rewrite <- (Rabs_R0) at 1. apply (Cl_fcont (fun q => b (Rabs q))); [exact Cb|].
      replace (Finite 0) with (Rbar_mult (x / 2) (Finite 0)) by (cbn; f_equal; ring). apply is_lim_seq_scal_l. exact Zi. }
  assert (Px : forall xw, In xw (lg n) -> 0 < fst xw) by (rewrite Forall_forall in Hpos; intros xw Hin; apply Hpos, Hin).
  assert (Q : forall k xw, In xw (lg n) -> refl_coef_qs s (rr (fst xw / (2 * z k))) = Ok (Some (b (fst xw / (2 * z k))%R))).
  { intros k xw Hin. apply Hb. apply Rlt_le, Rdiv_lt_0_compat; [apply Px, Hin|]. pose proof (Hz k). lra. }
  set (S1 := fun k => Csum (map (fun xw => RtoC (snd xw * fst xw) * b (fst xw / (2 * z k))%R)%C (lg n))).
  set (S0 := fun k => Csum (map (fun xw => RtoC (snd xw) * b (fst xw / (2 * z k))%R)%C (lg n))).
  assert (L1 : Cseq_lim S1 beta).
  { replace beta with (Csum (map (fun xw => RtoC (snd xw * fst xw) * beta)%C (lg n))).
    - unfold S1. apply Cl_Csum. intros xw Hin. apply Cl_mult; [apply Cl_const|]. apply Bl, Px, Hin.
    - rewrite (Csum_const (fun xw => snd xw * fst xw)), Hwx. ring. }
  assert (L0 : Cseq_lim S0 beta).
  { replace beta with (Csum (map (fun xw => RtoC (snd xw) * beta)%C (lg n))).
    - unfold S0. apply Cl_Csum. intros xw Hin. apply Cl_mult; [apply Cl_const|]. apply Bl, Px, Hin.
    - rewrite (Csum_const snd), Hw. ring. }
  assert (Z1 : forall k, RtoC (2 * z k) <> RtoC 0) by (intros k; apply RtoC_neq_0; pose proof (Hz k); lra).
  assert (Z2 : forall k, RtoC (4 * z k ^ 2) <> RtoC 0) by (intros k; apply RtoC_neq_0; pose proof (pow_lt _ 2 (Hz k)); lra).
  assert (HS : forall k, surf_pot_and_field lg D s (rr (z k)) nl = Ok (Some (S0 k / RtoC (2 * z k))%C, Some (S1 k / RtoC (4 * z k ^ 2))%C)).
  { intros k. rewrite (surf_ok lg D s (z k) nl b).
    - rewrite <- En. reflexivity.
    - rewrite <- En. exact Hn.
    - pose proof (Hz k). lra.
    - rewrite <- En. apply Q.
    - eexists. apply Hb, Rlt_le, Hz. }
  exists S1, (fun k => S0 k / RtoC (2 * z k))%C, (fun k => S1 k / RtoC (4 * z k ^ 2))%C. split; [|split; [exact L1|split; [|split]]].
  - intros k. split; [|apply HS]. rewrite (above_ok lg D s (z k) nl b).
    + rewrite <- En. reflexivity.
    + rewrite <- En. exact Hn.
    + pose proof (Hz k). lra.
    + rewrite <- En. apply Q.
    + eexists. apply Hb, Rlt_le, Hz.
  - apply (Cl_ext S0); [|exact L0]. intros k. field. apply Z1.
  - apply (Cl_ext S1); [|exact L1]. intros k. field. apply Z2.
  - intros Hne. assert (Hbeta : beta <> RtoC 0).
    { intros K. apply Hne. assert (K2 : (en - e0)%C = RtoC 0).
      { replace (en - e0)%C with (beta * (en + e0))%C by (unfold beta; field; exact N0). rewrite K. ring. }
      replace en with (en - e0 + e0)%C by ring. rewrite K2. ring. }
    destruct (Cl_nonzero _ _ Hbeta L1) as [K1 HK1]. exists K1.
    exists (fun k => Cmod (S0 k / S1 k * RtoC (2 * z k))%C - z k), (fun k => S0 k * S0 k / S1 k)%C. split; [|split].
    + intros k Hk. specialize (HK1 k Hk). unfold image_depth_and_charge. rewrite HS. cbn [rbind fst snd].
      assert (NE : (S1 k / RtoC (4 * z k ^ 2))%C <> RtoC 0).
      { intros X. apply HK1. replace (S1 k) with (S1 k / RtoC (4 * z k ^ 2) * RtoC (4 * z k ^ 2))%C by (field; apply Z2). rewrite X. ring. }
      assert (EZ : RtoC (4 * z k ^ 2) = (RtoC (2 * z k) * RtoC (2 * z k))%C) by (rewrite <- RtoC_mult; f_equal; ring).
      rewrite cdiv_ok by exact NE. unfold cpown. cbn [olift1]. rewrite cdiv_ok by exact NE. unfold cabs, rsub, rr. cbn [olift1 olift2 Cpown].
      do 2 f_equal; f_equal.
      * f_equal. f_equal. rewrite EZ. field. repeat split; try apply Z1. exact HK1.
      * rewrite EZ. field. repeat split; try apply Z1. exact HK1.
    + apply (is_lim_seq_ext (fun k => 2 * Cmod (S0 k / S1 k)%C - 1)).
      * intros k. rewrite Cmod_mult, Cmod_R, (Rabs_pos_eq (2 * z k)) by (pose proof (Hz k); lra). field. pose proof (Hz k). lra.
      * replace (Finite 1) with (Finite (2 * Cmod (beta / beta)%C - 1)).
        -- apply is_lim_seq_minus'; [|apply is_lim_seq_const].
           apply (is_lim_seq_scal_l _ 2 (Finite (Cmod (beta / beta)%C))). apply Cl_mod. apply Cl_div; assumption.
        -- f_equal. replace (beta / beta)%C with (RtoC 1) by (field; exact Hbeta). rewrite Cmod_1. ring.
    + apply (Cl_ext (fun k => S0 k * S0 k / S1 k)%C); [reflexivity|].
      replace beta with (beta * beta / beta)%C by (field; exact Hbeta).
      apply Cl_div; [exact Hbeta|apply Cl_mult; exact L0|exact L1].
Qed.

(** C62. Example: film of permittivity 2 on a substrate of 5, charge at height 10,
    two nodes: a real number between 1/3 (first interface) and 2/3 (substrate);
    from 10 to 20 it does not decrease. *)
Lemma C62_example_graded_proof :
  exists r r' : R,
  refl_coef_qs_above_surf laggauss12 defaults0 (stack [RtoC 1; RtoC 2; RtoC 5] [3] None) (rr 10) (Some 2%nat) = Ok (Some (RtoC r)) /\
  refl_coef_qs_above_surf laggauss12 defaults0 (stack [RtoC 1; RtoC 2; RtoC 5] [3] None) (rr 20) (Some 2%nat) = Ok (Some (RtoC r')) /\
  1 / 3 <= r <= r' /\ r' <= 2 / 3.
Proof.
  destruct (C62_graded_average_proof laggauss12 defaults0 (Some 2%nat) 1 1 2 [5] [3] None) as (r & R1 & R2 & R3).
  - discriminate.
  - apply laggauss12_rule.
  - left. reflexivity.
  - reflexivity.
  - repeat constructor; lra.
  - repeat constructor; lra.
  - repeat constructor; lra.
  - cbn [map last] in *. exists (r 10), (r 20). split; [apply R1; lra|]. split; [apply R1; lra|].
    pose proof (R2 10 20 ltac:(lra) ltac:(lra)). pose proof (R3 10 ltac:(lra)). pose proof (R3 20 ltac:(lra)).
    assert (1 * ((2 - 1) / (2 + 1)) = 1 / 3) by field. assert (1 * ((5 - 1) / (5 + 1)) = 2 / 3) by field. lra.
Qed.

(** C62. Example: the same film, charge at heights 1, 2, 3, ...: the image charge
    tends to 2/3 and its depth to that of the charge. *)
Lemma C62_example_high_proof :
  exists (K : nat) (d : nat -> R) (c : nat -> C),
  (forall k, (K <= k)%nat ->
     image_depth_and_charge laggauss12 defaults0 (stack [RtoC 1; RtoC 2; RtoC 5] [3] None) (rr (INR (S k))) (Some 2%nat)
     = Ok (Some (d k), Some (c k))) /\
  is_lim_seq (fun k => d k / INR (S k)) 1 /\ Cseq_lim c (RtoC (2 / 3)).
Proof.
  destruct (C62_graded_stack_proof 1 1 2 [5] [3] None) as (b & B1 & _).
  - left. reflexivity.
  - reflexivity.
  - repeat constructor; lra.
  - repeat constructor; lra.
  - repeat constructor; lra.
  - destruct (C62_high_charge_proof laggauss12 defaults0 (Some 2%nat) (RtoC 1) (RtoC 5) [RtoC 2] [3] None (fun q => RtoC (b q)) (fun k => INR (S k)))
      as (r & phi & E & _ & _ & _ & _ & H).
    + discriminate.
    + apply laggauss12_rule.
    + reflexivity.
    + repeat constructor. apply RtoC_neq_0. lra.
    + apply RtoC_neq_0. lra.
    + exact B1.
    + intros k. apply lt_0_INR. lia.
    + apply (is_lim_seq_incr_1 INR). apply is_lim_seq_INR.
    + destruct H as (K & d & c & H1 & H2 & H3).
      { intros X. apply RtoC_inj in X. lra. }
      exists K, d, c. split; [exact H1|]. split; [exact H2|].
      replace (RtoC (2 / 3)) with ((RtoC 5 - RtoC 1) / (RtoC 5 + RtoC 1))%C; [exact H3|].
      rewrite <- RtoC_minus, <- RtoC_plus, <- RtoC_div by lra. f_equal. field.
Qed.

(** C61. Example: the film again (graded, so one sign): potential and field at
    height 10 are exactly those of the image charge. *)
Lemma C61_example_film_proof :
  exists (d : R) (c : C),
    image_depth_and_charge laggauss12 defaults0 (stack [RtoC 1; RtoC 2; RtoC 5] [3] None) (rr 10) (Some 2%nat) = Ok (Some d, Some c) /\
    0 < d + 10 /\
    surf_pot_and_field laggauss12 defaults0 (stack [RtoC 1; RtoC 2; RtoC 5] [3] None) (rr 10) (Some 2%nat)
    = Ok (Some (charge_potential c (d + 10)), Some (charge_field c (d + 10))).
Proof.
  destruct (C62_graded_stack_proof 1 1 2 [5] [3] None) as (b & B1 & _ & B3).
  - left. reflexivity.
  - reflexivity.
  - repeat constructor; lra.
  - repeat constructor; lra.
  - repeat constructor; lra.
  - apply (C61_one_sign_proof laggauss12 defaults0 _ 10 (Some 2%nat) b 1).
    + discriminate.
    + apply laggauss12_rule.
    + lra.
    + left. reflexivity.
    + intros q Hq. split; [apply B1; exact Hq|]. destruct (B3 q Hq) as (_ & [H _] & _).
      assert (1 * ((2 - 1) / (2 + 1)) = 1 / 3) by field. lra.
Qed.

(** C61. Example: substrate of permittivity 3, charge at height 10: image charge
    1/2 at depth 10.  The returned potential, 1/40, is that of the image at
    distance 20, where the charge is; at the surface the image makes 1/20. *)
Lemma C61_example_bulk_proof :
  image_depth_and_charge laggauss12 defaults0 (stack [RtoC 1; RtoC 3] [] None) (rr 10) (Some 2%nat) = Ok (Some 10, Some (RtoC (1 / 2))) /\
  (exists E, surf_pot_and_field laggauss12 defaults0 (stack [RtoC 1; RtoC 3] [] None) (rr 10) (Some 2%nat) = Ok (Some (RtoC (1 / 40)), Some E)) /\
  charge_potential (RtoC (1 / 2)) (10 + 10) = RtoC (1 / 40) /\ charge_potential (RtoC (1 / 2)) 10 = RtoC (1 / 20).
Proof.
  destruct (C23_bulk_averages_exact_proof laggauss12 defaults0 (RtoC 1) (RtoC 3) None 10 (Some 2%nat)) as (_ & H1 & H2).
  - discriminate.
  - apply laggauss12_rule.
  - apply RtoC_neq_0; lra.
  - rewrite <- RtoC_plus. apply RtoC_neq_0; lra.
  - lra.
  - assert (EB : ((RtoC 3 - RtoC 1) / (RtoC 3 + RtoC 1))%C = RtoC (1 / 2)).
    { rewrite <- RtoC_minus, <- RtoC_plus, <- RtoC_div by lra. f_equal. lra. }
    rewrite EB in *. split; [apply H2, RtoC_neq_0; lra|]. split.
    + eexists. rewrite H1. do 3 f_equal. rewrite <- RtoC_div by lra. f_equal. lra.
    + unfold charge_potential. split; rewrite <- RtoC_div by lra; f_equal; lra.
Qed.
