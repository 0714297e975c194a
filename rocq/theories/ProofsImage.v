(** * Proofs: what the image charge of image_depth_and_charge stands for *)
From Coq Require Import String Reals Lra Lia ZArith List Bool.
From Coquelicot Require Import Rcomplements Complex.
From Verif Require Import Num NumLemmas ModelBase ModelSample ModelTip StackLemmas Spec
  ProofsStackQS ProofsStackQS2 ProofsSym ProofsPassive.
Import ListNotations.
Open Scope R_scope.

(** potential and vertical field, on the axis and at distance [l], of a point
    charge [c] (units in which a unit charge has potential 1/l) *)
Definition charge_potential (c : C) (l : R) : C := (c / RtoC l)%C.
Definition charge_field (c : C) (l : R) : C := (c / RtoC (l ^ 2))%C.

Lemma Cmod_sqr_div (a b : C) : b <> RtoC 0 -> Cmod (a * a / b)%C = Cmod a * Cmod a / Cmod b.
Proof. intros H. rewrite Cmod_div by exact H. rewrite Cmod_mult. reflexivity. Qed.

(** C61. Whenever potential and field are not zero, the image charge returned by
    image_depth_and_charge produces at the height of the inducing charge -- that
    is at distance d_image + z_Q -- a potential and a field of the magnitudes
    returned by surf_pot_and_field.  The potential itself is reproduced exactly
    when phi / E is a positive real number, the field itself exactly when it is
    a real number. *)
Lemma C61_image_charge_proof :
  forall (laggauss : laggauss_t) (D : Defaults) (s : sample) (z : R) (n_lag : option nat) (phi E : C),
  surf_pot_and_field laggauss D s (rr z) n_lag = Ok (Some phi, Some E) ->
  phi <> RtoC 0 -> E <> RtoC 0 ->
  exists (d : R) (c : C),
    image_depth_and_charge laggauss D s (rr z) n_lag = Ok (Some d, Some c) /\
    0 < d + z /\
    Cmod (charge_potential c (d + z)) = Cmod phi /\
    Cmod (charge_field c (d + z)) = Cmod E /\
    (charge_potential c (d + z) = phi <-> exists x : R, 0 < x /\ phi = (RtoC x * E)%C) /\
    (charge_field c (d + z) = E <-> exists x : R, phi = (RtoC x * E)%C).
Proof.
  intros lg D s z n phi E Hs Hp HE.
  set (l := Cmod (phi / E)%C).
  assert (Hl : 0 < l).
  { apply Cmod_gt_0. intros K. apply Hp. replace phi with (phi / E * E)%C by (field; exact HE). rewrite K. ring. }
  assert (Hl2 : 0 < l ^ 2) by (apply pow_lt; exact Hl).
  assert (Rl : RtoC l <> RtoC 0) by (apply RtoC_neq_0; lra).
  assert (Rl2 : RtoC (l ^ 2) <> RtoC 0) by (apply RtoC_neq_0; lra).
  assert (ME : 0 < Cmod E) by (apply Cmod_gt_0; exact HE).
  assert (El : l = Cmod phi / Cmod E) by (unfold l; apply Cmod_div; exact HE).
  exists (l - z), (phi * phi / E)%C. split.
  { unfold image_depth_and_charge. rewrite Hs. cbn [rbind fst snd]. rewrite cdiv_ok by exact HE.
    unfold cpown. cbn [olift1]. rewrite cdiv_ok by exact HE. unfold cabs, rsub, rr. cbn [olift1 olift2].
    do 3 f_equal. cbn [Cpown]. f_equal. ring. }
  replace (l - z + z) with l by ring. unfold charge_potential, charge_field.
  split; [exact Hl|]. split.
  { rewrite Cmod_div by exact Rl. rewrite Cmod_sqr_div by exact HE. rewrite Cmod_R, Rabs_pos_eq by lra. rewrite El.
    assert (Cmod phi <> 0) by (intros K; apply Hp, Cmod_eq_0, K). field. split; lra. }
  split.
  { rewrite Cmod_div by exact Rl2. rewrite Cmod_sqr_div by exact HE. rewrite Cmod_R, Rabs_pos_eq by lra. rewrite El.
    assert (Cmod phi <> 0) by (intros K; apply Hp, Cmod_eq_0, K). field. split; lra. }
  split; split.
  - intros K. exists l. split; [exact Hl|].
    assert (K2 : (phi / E)%C = RtoC l).
    { replace (phi / E)%C with (phi * phi / E / RtoC l * (RtoC l / phi))%C by (field; repeat split; assumption).
      rewrite K. field. exact Hp. }
    rewrite <- K2. field. exact HE.
  - intros (x & Hx & Ex).
    assert (Exl : l = x).
    { unfold l. rewrite Ex. replace (RtoC x * E / E)%C with (RtoC x) by (field; exact HE). rewrite Cmod_R, Rabs_pos_eq; lra. }
    rewrite Ex, Exl. field. split; [exact HE|]. rewrite <- Exl. exact Rl.
  - intros K. exists (Re (phi / E)%C).
    assert (K2 : (phi / E * (phi / E))%C = RtoC (l ^ 2)).
    { replace (phi / E * (phi / E))%C with (phi * phi / E / RtoC (l ^ 2) * (RtoC (l ^ 2) / E))%C by (field; split; assumption).
      rewrite K. field. exact HE. }
    set (w := (phi / E)%C) in *.
    assert (Eq : l ^ 2 = Re w * Re w + Im w * Im w).
    { unfold l. unfold Cmod. rewrite <- Rsqr_pow2, Rsqr_sqrt; unfold Re, Im; [ring|].
      pose proof (pow2_ge_0 (fst w)). pose proof (pow2_ge_0 (snd w)). lra. }
    assert (K3 : Re w * Re w - Im w * Im w = l ^ 2) by (exact (f_equal Re K2)).
    assert (K4 : Im w = 0) by (apply Rsqr_0_uniq; unfold Rsqr; lra).
    replace (RtoC (Re w)) with w by (apply injective_projections; [reflexivity|exact K4]).
    unfold w. field. exact HE.
  - intros (x & Ex).
    assert (Hx : x <> 0) by (intros K; apply Hp; rewrite Ex, K; ring).
    assert (Exl : l ^ 2 = x ^ 2).
    { unfold l. rewrite Ex. replace (RtoC x * E / E)%C with (RtoC x) by (field; exact HE). rewrite Cmod_R.
      rewrite <- !Rsqr_pow2. symmetry. apply Rsqr_abs. }
    rewrite Exl, Ex. replace (RtoC (x ^ 2)) with (RtoC x * RtoC x)%C by (rewrite <- RtoC_mult; f_equal; ring).
    field. split; [exact HE|]. apply RtoC_neq_0. exact Hx.
Qed.

(** C61. If the sample responds to every momentum with a real coefficient of one
    sign (lossless layers of increasing, or of decreasing, permittivity) the
    image charge reproduces both potential and field. *)
Lemma C61_one_sign_proof :
  forall (laggauss : laggauss_t) (D : Defaults) (s : sample) (z : R) (n_lag : option nat) (b : R -> R) (sg : R),
  let n := given_or (d_n_lag D) n_lag in
  n <> O -> laguerre_rule (laggauss n) -> 0 < z -> sg = 1 \/ sg = -1 ->
  (forall q, 0 <= q -> refl_coef_qs s (rr q) = Ok (Some (RtoC (b q))) /\ 0 < sg * b q) ->
  exists (d : R) (c : C),
    image_depth_and_charge laggauss D s (rr z) n_lag = Ok (Some d, Some c) /\ 0 < d + z /\
    surf_pot_and_field laggauss D s (rr z) n_lag
    = Ok (Some (charge_potential c (d + z)), Some (charge_field c (d + z))).
Proof.
  intros lg D s z nl b sg n Hn (Hpos & Hw & Hwx) Hz Hsg Hb.
  assert (En : n = dflt (d_n_lag D) nl) by reflexivity.
  assert (Hs : surf_pot_and_field lg D s (rr z) nl
     = Ok (Some (RtoC (Rsum (map (fun xw => snd xw * b (fst xw / (2 * z))) (lg n)) / (2 * z))),
           Some (RtoC (Rsum (map (fun xw => snd xw * fst xw * b (fst xw / (2 * z))) (lg n)) / (4 * z ^ 2))))).
  { assert (0 < z ^ 2) by (apply pow_lt; exact Hz).
    rewrite (surf_ok lg D s z nl (fun q => RtoC (b q))).
    - rewrite <- En. rewrite !RtoC_div by lra.
      assert (Q : forall f : R * R -> R, RtoC (Rsum (map (fun xw => f xw * b (fst xw / (2 * z))) (lg n)))
                = Csum (map (fun xw => RtoC (f xw) * RtoC (b (fst xw / (2 * z))%R))%C (lg n))).
      { intros f. generalize (lg n). clear. intros l. induction l as [|xw l IH]; [reflexivity|]. cbn [map Rsum Csum fold_right]. unfold Rsum, Csum in IH.
        rewrite RtoC_plus, IH, RtoC_mult. reflexivity. }
      rewrite (Q (fun xw => snd xw)), (Q (fun xw => snd xw * fst xw)). reflexivity.
    - rewrite <- En. exact Hn.
    - lra.
    - rewrite <- En. intros xw Hin. apply Hb. rewrite Forall_forall in Hpos. destruct (Hpos xw Hin).
      apply Rlt_le, Rdiv_lt_0_compat; lra.
    - eexists. apply Hb. lra. }
  set (P := Rsum (map (fun xw => snd xw * b (fst xw / (2 * z))) (lg n))) in *.
  set (F := Rsum (map (fun xw => snd xw * fst xw * b (fst xw / (2 * z))) (lg n))) in *.
  assert (Hne : lg n <> []) by (intros K; rewrite K in Hw; simpl in Hw; lra).
  assert (Pos : 0 < sg * P /\ 0 < sg * F).
  { unfold P, F. clear Hs P F Hw Hwx. destruct (lg n) as [|xw l]; [congruence|]. clear Hne.
    assert (Q : forall l, Forall (fun xw : R * R => 0 < fst xw /\ 0 < snd xw) l ->
       0 <= sg * Rsum (map (fun xw => snd xw * b (fst xw / (2 * z))) l) /\
       0 <= sg * Rsum (map (fun xw => snd xw * fst xw * b (fst xw / (2 * z))) l)).
    { induction 1 as [|y m [Hy1 Hy2] Hm [IH1 IH2]]; cbn [map Rsum fold_right]; [lra|].
      assert (Hq : 0 <= fst y / (2 * z)) by (apply Rlt_le, Rdiv_lt_0_compat; lra).
      destruct (Hb _ Hq) as [_ Hs]. unfold Rsum in *.
      assert (0 < snd y * (sg * b (fst y / (2 * z)))) by (apply Rmult_lt_0_compat; assumption).
      assert (0 < fst y * (snd y * (sg * b (fst y / (2 * z))))) by (apply Rmult_lt_0_compat; assumption).
      split; nra. }
    inversion Hpos as [|? ? [Hy1 Hy2] Hm]; subst. destruct (Q l Hm) as [Q1 Q2]. cbn [map Rsum fold_right].
    assert (Hq : 0 <= fst xw / (2 * z)) by (apply Rlt_le, Rdiv_lt_0_compat; lra).
    destruct (Hb _ Hq) as [_ Hs]. unfold Rsum in *.
    assert (0 < snd xw * (sg * b (fst xw / (2 * z)))) by (apply Rmult_lt_0_compat; assumption).
    assert (0 < fst xw * (snd xw * (sg * b (fst xw / (2 * z))))) by (apply Rmult_lt_0_compat; assumption).
    split; nra. }
  destruct Pos as [PP PF]. assert (NP : P <> 0) by nra. assert (NF : F <> 0) by nra.
  assert (Z2 : 0 < z ^ 2) by (apply pow_lt; exact Hz).
  assert (N1 : P / (2 * z) <> 0) by (apply Rmult_integral_contrapositive; split; [exact NP|apply Rinv_neq_0_compat; lra]).
  assert (N2 : F / (4 * z ^ 2) <> 0) by (apply Rmult_integral_contrapositive; split; [exact NF|apply Rinv_neq_0_compat; lra]).
  destruct (C61_image_charge_proof lg D s z nl _ _ Hs) as (d & c & H1 & H2 & _ & _ & H3 & H4); try (apply RtoC_neq_0; assumption).
  assert (X : RtoC (P / (2 * z)) = (RtoC (2 * z * (P / F)) * RtoC (F / (4 * z ^ 2)))%C).
  { rewrite <- RtoC_mult. f_equal. field. split; lra. }
  assert (PFp : 0 < P / F).
  { replace (P / F) with ((sg * P) / (sg * F)); [apply Rdiv_lt_0_compat; assumption|]. field. split; [exact NF|]. destruct Hsg; lra. }
  exists d, c. split; [exact H1|]. split; [exact H2|]. rewrite Hs. do 2 f_equal; symmetry; f_equal.
  - apply H3. exists (2 * z * (P / F)). split; [apply Rmult_lt_0_compat; lra|exact X].
  - apply H4. exists (2 * z * (P / F)). exact X.
Qed.

(** C61. The docstring of surf_pot_and_field speaks of the potential "at the
    sample surface".  For a bulk sample, whose image charge is beta at depth z_Q,
    the value returned is the potential of that image at height h above the
    surface if and only if h = z_Q: at the inducing charge, not at the surface. *)
Lemma C61_not_at_surface_refuted_proof :
  forall (laggauss : laggauss_t) (D : Defaults) (e0 e1 : C) nu (z : R) (n_lag : option nat),
  let n := given_or (d_n_lag D) n_lag in
  n <> O -> laguerre_rule (laggauss n) ->
  e1 <> RtoC 0 -> (e0 + e1 <> 0)%C -> e0 <> e1 -> 0 < z ->
  exists (c phi E : C),
    image_depth_and_charge laggauss D (stack [e0; e1] [] nu) (rr z) n_lag = Ok (Some z, Some c) /\
    surf_pot_and_field laggauss D (stack [e0; e1] [] nu) (rr z) n_lag = Ok (Some phi, Some E) /\
    forall h, 0 <= h -> (phi = charge_potential c (z + h) <-> h = z) /\ (E = charge_field c (z + h) <-> h = z).
Proof.
  intros lg D e0 e1 nu z nl n Hn Hr H1 H2 Hne Hz.
  set (beta := ((e1 - e0) / (e1 + e0))%C).
  assert (H2' : (e1 + e0 <> 0)%C) by (intros K; apply H2; rewrite Cplus_comm; exact K).
  assert (Hb : beta <> RtoC 0).
  { intros K. apply Hne. assert (K2 : (e1 - e0)%C = RtoC 0).
    { replace (e1 - e0)%C with (beta * (e1 + e0))%C by (unfold beta; field; exact H2'). rewrite K. ring. }
    replace e1 with (e1 - e0 + e0)%C by ring. rewrite K2. ring. }
  destruct (C23_bulk_averages_exact_proof lg D e0 e1 nu z nl Hn Hr H1 H2 Hz) as (_ & Hs & Hi).
  fold beta in Hs, Hi. exists beta, (beta / RtoC (2 * z))%C, (beta / RtoC (4 * z ^ 2))%C.
  split; [apply Hi; exact Hb|]. split; [exact Hs|]. intros h Hh. unfold charge_potential, charge_field.
  assert (Z2 : 0 < z ^ 2) by (apply pow_lt; exact Hz).
  assert (I : forall a b : R, a <> 0 -> b <> 0 -> (beta / RtoC a = beta / RtoC b)%C -> a = b).
  { intros a b Ha Hb0 K. apply RtoC_inj. assert (RtoC a <> RtoC 0) by now apply RtoC_neq_0. assert (RtoC b <> RtoC 0) by now apply RtoC_neq_0.
    replace (RtoC a) with (beta / (beta / RtoC a))%C by (field; split; assumption). rewrite K. field. split; assumption. }
  split; split.
  - intros K. apply I in K; lra.
  - intros ->. replace (z + z) with (2 * z) by ring. reflexivity.
  - intros K. assert (0 < (z + h) ^ 2) by (apply pow_lt; lra). apply I in K; [|lra|lra].
    assert ((2 * z) ^ 2 = (z + h) ^ 2) by (rewrite <- K; ring).
    assert (2 * z = z + h); [|lra]. apply Rsqr_inj; [lra|lra|]. rewrite !Rsqr_pow2. assumption.
  - intros ->. replace ((z + z) ^ 2) with (4 * z ^ 2) by ring. reflexivity.
Qed.
