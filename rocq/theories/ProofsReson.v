(** * Proofs: the resonance of tip and sample (C90) *)
From Coq Require Import String Reals Lra Lia ZArith List Bool.
From Coquelicot Require Import Rcomplements Complex.
From Verif Require Import Num NumLemmas ModelBase ModelSample ModelTip StackLemmas Spec SpecReson
  ProofsStackQS ProofsStackQS2 ProofsSym ProofsPassive ProofsTip ProofsTip2 ProofsTip3 ProofsPerm ProofsAbsorb.
Import ListNotations.
Open Scope R_scope.

Lemma coupling_C a h : h <> 0 -> (RtoC a / RtoC (16 * PI * h ^ 3))%C = RtoC (coupling a h).
Proof.
  intro H. unfold coupling. rewrite RtoC_div; [reflexivity|]. pose proof PI_RGT_0.
  apply Rmult_integral_contrapositive_currified; [lra|]. now apply pow_nonzero.
Qed.

(** pdm.eff_pol over a bulk sample *)
Lemma pdm_bulk_value D (e0 e1 : C) nu z_tip r_tip eps_tip alpha_tip a :
  let z := given_or (d_z_tip D) z_tip in let r := given_or (d_r_tip D) r_tip in
  tip_alpha r eps_tip alpha_tip (RtoC a) -> r + z <> 0 -> e1 <> RtoC 0 -> (e0 + e1 <> 0)%C ->
  pdm_eff_pol D (stack [e0; e1] [] nu) z_tip r_tip eps_tip alpha_tip
  = Ok (Some (RtoC a) / Some (1 - RtoC (coupling a (r + z)) * ((e1 - e0) / (e1 + e0)))%C)%cv.
Proof.
  intros z r Ha Hz H1 H2. unfold pdm_eff_pol. rewrite !dflt_given. fold z.
  rewrite (pdm_defaults_alpha D r_tip eps_tip alpha_tip _ Ha). cbn [rbind]. unfold rr at 1.
  rewrite (bulk_qs e0 e1 nu (Some 0) H1 H2). cbn [rbind fst snd]. fold r.
  rewrite (pdm_geom_ok z r _ Hz), (coupling_C a (r + z) Hz). unfold rc. cbn [csub cmul olift2]. reflexivity.
Qed.

Lemma cdiv_none (a b : C) : (Some a / Some b)%cv = None <-> b = RtoC 0.
Proof.
  unfold cdiv. cbn [olift2]. destruct (Ceq_dec b (RtoC 0)) as [E|N]; split; intro H; auto; try discriminate. contradiction.
Qed.

Lemma Re_sum (e0 : R) (e1 : C) : (RtoC e0 + e1 <> 0)%C -> (e1 + RtoC e0 <> 0)%C.
Proof. intro H. now rewrite Cplus_comm. Qed.

Lemma one_minus (e0 f : R) (e1 : C) : (RtoC e0 + e1 <> 0)%C ->
  (1 - RtoC f * ((e1 - RtoC e0) / (e1 + RtoC e0)))%C
  = ((RtoC (1 - f) * e1 + RtoC ((1 + f) * e0)) / (e1 + RtoC e0))%C.
Proof.
  intro H. apply Re_sum in H. rewrite RtoC_mult, RtoC_minus, RtoC_plus. field. exact H.
Qed.
Lemma lin_pole (e0 f : R) (e1 : C) : f <> 1 ->
  (RtoC (1 - f) * e1 + RtoC ((1 + f) * e0))%C = (RtoC (1 - f) * (e1 - RtoC (resonant_eps e0 f)))%C.
Proof.
  intro H. unfold resonant_eps. 
  replace (- e0 * (1 + f) / (1 - f)) with (- (((1 + f) * e0) / (1 - f))) by (field; lra).
  rewrite RtoC_opp, (RtoC_div ((1 + f) * e0)) by lra. field. apply RtoC_neq_0. lra.
Qed.

(** C90. Over a bulk sample of any complex permittivity the point dipole model with
    a real polarisability has one pole, at the (real, negative) permittivity
    [resonant_eps]: the response is not finite exactly there, and is
    [alpha / (1 - f) * (e1 + e0) / (e1 - resonant_eps)] elsewhere. *)
Lemma C90_pdm_pole_proof :
  forall (D : Defaults) (e0 : R) (e1 : C) nu z_tip r_tip eps_tip alpha_tip (alpha : R),
  let z := given_or (d_z_tip D) z_tip in let r := given_or (d_r_tip D) r_tip in
  let f := coupling alpha (r + z) in
  tip_alpha r eps_tip alpha_tip (RtoC alpha) -> r + z <> 0 -> f <> 1 ->
  e1 <> RtoC 0 -> (RtoC e0 + e1 <> 0)%C ->
  (pdm_eff_pol D (stack [RtoC e0; e1] [] nu) z_tip r_tip eps_tip alpha_tip = Ok None <-> e1 = RtoC (resonant_eps e0 f)) /\
  (e1 <> RtoC (resonant_eps e0 f) ->
   pdm_eff_pol D (stack [RtoC e0; e1] [] nu) z_tip r_tip eps_tip alpha_tip
   = Ok (Some (RtoC (alpha / (1 - f)) * (e1 + RtoC e0) / (e1 - RtoC (resonant_eps e0 f)))%C)).
Proof.
  intros D e0 e1 nu z_tip r_tip eps alpha_tip a z r f Ha Hz Hf H1 H2.
  rewrite (pdm_bulk_value D (RtoC e0) e1 nu z_tip r_tip eps alpha_tip a Ha Hz H1 H2). fold z r f.
  rewrite (one_minus e0 f e1 H2), (lin_pole e0 f e1 Hf). apply Re_sum in H2.
  assert (F : RtoC (1 - f) <> RtoC 0) by (apply RtoC_neq_0; lra).
  split; [split|].
  - intro E. injection E as E. apply cdiv_none in E. apply Csub_eq0.
    destruct (Ceq_dec (e1 - RtoC (resonant_eps e0 f)) 0) as [Z|N]; [exact Z|exfalso]. revert E. apply Cdiv_neq_0; [apply Cmult_neq_0; assumption|assumption].
  - intros ->. f_equal. apply cdiv_none. unfold Cdiv. ring.
  - intro N. assert (Ns : (e1 - RtoC (resonant_eps e0 f) <> 0)%C) by (intro E; apply N; now apply Csub_eq0).
    rewrite cdiv_ok.
    + do 2 f_equal. rewrite RtoC_div by lra. field. repeat split; assumption.
    + apply Cdiv_neq_0; [apply Cmult_neq_0; assumption|assumption].
Qed.

Lemma coupling_pos a h : 0 < a -> 0 < h -> 0 < coupling a h.
Proof.
  intros Ha Hh. unfold coupling. pose proof PI_RGT_0. apply Rdiv_lt_0_compat; [exact Ha|].
  apply Rmult_lt_0_compat; [lra|]. now apply pow_lt.
Qed.
Lemma coupling_decr a h h' : 0 < a -> 0 < h < h' -> coupling a h' < coupling a h.
Proof.
  intros Ha [Hh Hl]. unfold coupling, Rdiv. pose proof PI_RGT_0.
  assert (P : 0 < h ^ 3) by (apply pow_lt; lra). assert (Q : h ^ 3 < h' ^ 3) by (simpl; assert (h * h < h' * h') by (apply Rmult_gt_0_lt_compat; lra); assert (0 < h * h) by (apply Rmult_lt_0_compat; lra); rewrite !Rmult_1_r; apply Rmult_gt_0_lt_compat; lra).
  apply Rmult_lt_compat_l; [exact Ha|]. apply Rinv_lt_contravar.
  - apply Rmult_lt_0_compat; apply Rmult_lt_0_compat; lra.
  - apply Rmult_lt_compat_l; lra.
Qed.
Lemma resonant_shift e0 f : f <> 1 -> resonant_eps e0 f + e0 = - (2 * e0 * f / (1 - f)).
Proof. intro H. unfold resonant_eps. field. lra. Qed.
Lemma shift_incr f f' : f < f' < 1 -> f / (1 - f) < f' / (1 - f').
Proof.
  intros [H H1]. assert (E : f' / (1 - f') - f / (1 - f) = (f' - f) / ((1 - f') * (1 - f))) by (field; lra).
  assert (0 < (f' - f) / ((1 - f') * (1 - f))) by (apply Rdiv_lt_0_compat; [lra|apply Rmult_lt_0_compat; lra]). lra.
Qed.
Lemma resonant_below e0 f : 0 < e0 -> 0 < f < 1 -> resonant_eps e0 f < - e0.
Proof.
  intros He [Hf H1]. pose proof (resonant_shift e0 f ltac:(lra)).
  assert (0 < 2 * e0 * f / (1 - f)) by (apply Rdiv_lt_0_compat; [apply Rmult_lt_0_compat; lra|lra]). lra.
Qed.
Lemma resonant_decr e0 f f' : 0 < e0 -> f < f' < 1 -> resonant_eps e0 f' < resonant_eps e0 f.
Proof.
  intros He H. pose proof (resonant_shift e0 f ltac:(lra)). pose proof (resonant_shift e0 f' ltac:(lra)).
  pose proof (shift_incr f f' H). assert (e0 * (f / (1 - f)) < e0 * (f' / (1 - f'))) by (apply Rmult_lt_compat_l; assumption).
  replace (2 * e0 * f / (1 - f)) with (2 * (e0 * (f / (1 - f)))) in H0 by (field; lra).
  replace (2 * e0 * f' / (1 - f')) with (2 * (e0 * (f' / (1 - f')))) in H1 by (field; lra). lra.
Qed.

(** C90. For a positive coupling below one each height has exactly one lossless
    sample that resonates; its permittivity is below minus that of the environment. *)
Lemma C90_pdm_one_resonance_proof :
  forall (D : Defaults) (e0 : R) nu z_tip r_tip eps_tip alpha_tip (alpha : R),
  let z := given_or (d_z_tip D) z_tip in let r := given_or (d_r_tip D) r_tip in
  tip_alpha r eps_tip alpha_tip (RtoC alpha) -> 0 < e0 -> 0 < alpha -> 0 < r + z ->
  coupling alpha (r + z) < 1 ->
  exists e1 : R, e1 < - e0 /\
    forall e : R, e <> 0 -> e <> - e0 ->
      (pdm_eff_pol D (stack [RtoC e0; RtoC e] [] nu) z_tip r_tip eps_tip alpha_tip = Ok None <-> e = e1).
Proof.
  intros D e0 nu z_tip r_tip eps alpha_tip a z r Ha He Hp Hz Hf.
  pose proof (coupling_pos a (r + z) Hp Hz) as Hc.
  exists (resonant_eps e0 (coupling a (r + z))). split; [apply resonant_below; lra|]. intros e N0 N1.
  destruct (C90_pdm_pole_proof D e0 (RtoC e) nu z_tip r_tip eps alpha_tip a Ha) as [H _].
  - fold z r. lra.
  - fold z r. lra.
  - now apply RtoC_neq_0.
  - rewrite <- RtoC_plus. apply RtoC_neq_0. lra.
  - fold z r in H. rewrite H. split; [apply RtoC_inj|congruence].
Qed.

(** C90. The approach curve: at the smaller height the resonating lossless sample
    has the smaller permittivity, and all are below minus that of the environment. *)
Lemma C90_pdm_approach_proof :
  forall (D : Defaults) (e0 e1 e1' z z' : R) nu r_tip eps_tip alpha_tip (alpha : R),
  let r := given_or (d_r_tip D) r_tip in
  tip_alpha r eps_tip alpha_tip (RtoC alpha) -> 0 < e0 -> 0 < alpha -> 0 < r + z -> z < z' ->
  coupling alpha (r + z) < 1 -> e1 <> 0 -> e1 <> - e0 -> e1' <> 0 -> e1' <> - e0 ->
  pdm_eff_pol D (stack [RtoC e0; RtoC e1] [] nu) (Some z) r_tip eps_tip alpha_tip = Ok None ->
  pdm_eff_pol D (stack [RtoC e0; RtoC e1'] [] nu) (Some z') r_tip eps_tip alpha_tip = Ok None ->
  e1 < e1' < - e0.
Proof.
  intros D e0 e1 e1' z z' nu r_tip eps alpha_tip a r Ha He Hp Hz Hl Hf N0 N1 N0' N1' E E'.
  pose proof (coupling_pos a (r + z) Hp Hz) as Hc. pose proof (coupling_pos a (r + z') Hp ltac:(lra)) as Hc'.
  pose proof (coupling_decr a (r + z) (r + z') Hp ltac:(lra)) as Hd.
  destruct (C90_pdm_pole_proof D e0 (RtoC e1) nu (Some z) r_tip eps alpha_tip a Ha) as [[H _] _];
    cbn [given_or]; fold r; try lra; [now apply RtoC_neq_0|rewrite <- RtoC_plus; apply RtoC_neq_0; lra|].
  destruct (C90_pdm_pole_proof D e0 (RtoC e1') nu (Some z') r_tip eps alpha_tip a Ha) as [[H' _] _];
    cbn [given_or]; fold r; try lra; [now apply RtoC_neq_0|rewrite <- RtoC_plus; apply RtoC_neq_0; lra|].
  specialize (H E). specialize (H' E'). apply RtoC_inj in H, H'. cbn [given_or] in H, H'. fold r in H, H'. subst e1 e1'.
  split; [apply resonant_decr; lra|apply resonant_below; lra].
Qed.

(** C90. Sign: a lossless sample responds with a real number, positive unless its
    permittivity lies between the resonance and minus that of the environment. *)
Lemma C90_pdm_sign_proof :
  forall (D : Defaults) (e0 e1 : R) nu z_tip r_tip eps_tip alpha_tip (alpha : R),
  let z := given_or (d_z_tip D) z_tip in let r := given_or (d_r_tip D) r_tip in
  let f := coupling alpha (r + z) in
  tip_alpha r eps_tip alpha_tip (RtoC alpha) -> 0 < e0 -> 0 < alpha -> 0 < r + z -> f < 1 ->
  e1 <> 0 -> e1 <> - e0 -> e1 <> resonant_eps e0 f ->
  exists a : R, pdm_eff_pol D (stack [RtoC e0; RtoC e1] [] nu) z_tip r_tip eps_tip alpha_tip = Ok (Some (RtoC a)) /\
    (a < 0 <-> resonant_eps e0 f < e1 < - e0) /\ a <> 0.
Proof.
  intros D e0 e1 nu z_tip r_tip eps alpha_tip a z r f Ha He Hp Hz Hf N0 N1 Nr.
  pose proof (coupling_pos a (r + z) Hp Hz) as Hc. fold f in Hc.
  destruct (C90_pdm_pole_proof D e0 (RtoC e1) nu z_tip r_tip eps alpha_tip a Ha) as [_ H];
    fold z r f; try lra; [now apply RtoC_neq_0|rewrite <- RtoC_plus; apply RtoC_neq_0; lra|].
  fold z r f in H. pose proof (resonant_below e0 f He ltac:(lra)) as Hb. set (x := resonant_eps e0 f) in *.
  exists (a / (1 - f) * (e1 + e0) / (e1 - x)). rewrite H; [|intro E; apply Nr; now apply RtoC_inj].
  assert (P : 0 < a / (1 - f)) by (apply Rdiv_lt_0_compat; lra).
  split; [|split; [split|]].
  - rewrite <- RtoC_plus, <- RtoC_minus, <- RtoC_mult, <- RtoC_div by lra. reflexivity.
  - intro L. destruct (Rtotal_order e1 x) as [G|[G|G]]; [|lra|].
    + assert (0 < a / (1 - f) * (- (e1 + e0)) / (x - e1)) by (apply Rdiv_lt_0_compat; [apply Rmult_lt_0_compat; lra|lra]).
      replace (a / (1 - f) * (e1 + e0) / (e1 - x)) with (a / (1 - f) * (- (e1 + e0)) / (x - e1)) in L by (field; lra). lra.
    + split; [exact G|]. destruct (Rlt_le_dec e1 (- e0)) as [K|K]; [exact K|].
      assert (0 < a / (1 - f) * (e1 + e0) / (e1 - x)) by (apply Rdiv_lt_0_compat; [apply Rmult_lt_0_compat; lra|lra]). lra.
  - intros [G1 G2]. assert (0 < a / (1 - f) * (- (e1 + e0)) / (e1 - x)) by (apply Rdiv_lt_0_compat; [apply Rmult_lt_0_compat; lra|lra]).
    replace (a / (1 - f) * (e1 + e0) / (e1 - x)) with (- (a / (1 - f) * (- (e1 + e0)) / (e1 - x))) by (field; lra). lra.
  - apply Rmult_integral_contrapositive_currified; [apply Rmult_integral_contrapositive_currified; lra|apply Rinv_neq_0_compat; lra].
Qed.

(** C90. Loss: along a line of constant loss [g > 0] the absorption is a Lorentzian
    in the real part of the permittivity centred on the resonance of the lossless
    sample, of half width [g]. *)
Lemma C90_pdm_lorentzian_proof :
  forall (D : Defaults) (e0 x g : R) nu z_tip r_tip eps_tip alpha_tip (alpha : R),
  let z := given_or (d_z_tip D) z_tip in let r := given_or (d_r_tip D) r_tip in
  let f := coupling alpha (r + z) in
  tip_alpha r eps_tip alpha_tip (RtoC alpha) -> r + z <> 0 -> f <> 1 -> g <> 0 ->
  exists a : C, pdm_eff_pol D (stack [RtoC e0; (x, g)] [] nu) z_tip r_tip eps_tip alpha_tip = Ok (Some a) /\
    Im a = 2 * alpha * e0 * f / (1 - f) ^ 2 * (g / ((x - resonant_eps e0 f) ^ 2 + g ^ 2)).
Proof.
  intros D e0 x g nu z_tip r_tip eps alpha_tip a z r f Ha Hz Hf Hg.
  destruct (C90_pdm_pole_proof D e0 (x, g) nu z_tip r_tip eps alpha_tip a Ha) as [_ H]; fold z r f; try assumption.
  { intro E. apply (f_equal snd) in E. cbn in E. contradiction. }
  { intro E. apply (f_equal snd) in E. cbn in E. apply Hg. lra. }
  fold z r f in H. assert (N : ((x, g) : C) <> RtoC (resonant_eps e0 f)) by (intro E; apply (f_equal snd) in E; cbn in E; contradiction).
  eexists. split; [exact (H N)|].
  assert (Sh := resonant_shift e0 f Hf). set (x0 := resonant_eps e0 f) in *.
  assert (Q : 0 < (x - x0) ^ 2 + g ^ 2).
  { pose proof (pow2_ge_0 (x - x0)). assert (0 < g ^ 2) by (apply pow2_gt_0, Hg). lra. }
  replace x0 with (- e0 - 2 * e0 * f / (1 - f)) in Q |- * by lra.
  unfold Cdiv, Cinv, Cmult, Cminus, Cplus, Copp, RtoC, Im. cbn [fst snd]. field. repeat split; try lra.
  all: match goal with |- ?A <> 0 => replace A with (((x - (- e0 - 2 * e0 * f / (1 - f))) ^ 2 + g ^ 2) * (1 - f) ^ 2) by (field; lra) end.
  all: apply Rgt_not_eq, Rmult_lt_0_compat; [exact Q|apply pow2_gt_0; lra].
Qed.
