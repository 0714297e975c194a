(** * Proofs: the resonance of tip and sample (C90), oscillators, finite dipole model, harmonics *)
From Coq Require Import String Reals Lra Lia ZArith List Bool.
From Coquelicot Require Import Rcomplements Complex.
From Verif Require Import Num NumLemmas ModelBase ModelSample ModelTip StackLemmas Spec SpecReson DemodLemmas
  ProofsStackQS ProofsStackQS2 ProofsSym ProofsPassive ProofsTip ProofsTip2 ProofsTip3 ProofsPerm ProofsDemod ProofsTaylor ProofsAbsorb ProofsReson.
Import ListNotations.
Open Scope R_scope.

Lemma lossless_oscillator nu nu_j A f_j e : nu ^ 2 <> nu_j ^ 2 ->
  lorentz_perm nu nu_j 0 (Some A) None f_j (Some e) = Ok (Some (RtoC (e + A / (nu_j ^ 2 - nu ^ 2)))).
Proof.
  intro H. unfold lorentz_perm. cbn [rbind dflt]. f_equal. unfold rc, rr, ofR, rpow, rsub. cbn [olift1 olift2 csub cmul].
  assert (Z : (RtoC (nu_j ^ 2 - nu ^ 2) - (0, 1) * RtoC 0 * RtoC nu)%C = RtoC (nu_j ^ 2 - nu ^ 2)).
  { unfold Cminus, Cplus, Cmult, Copp, RtoC. cbn [fst snd]. f_equal; ring. }
  rewrite Z, cdiv_ok by (apply RtoC_neq_0; lra). cbn [cadd olift2]. rewrite <- RtoC_div, <- RtoC_plus by lra. reflexivity.
Qed.
Lemma resonant_nu_eq nu nu_j A e e0 f : 0 < e0 -> 0 < e -> 0 < f < 1 -> A <> 0 -> nu ^ 2 <> nu_j ^ 2 ->
  (e + A / (nu_j ^ 2 - nu ^ 2) = resonant_eps e0 f <-> nu ^ 2 = resonant_nu2 nu_j A e e0 f).
Proof.
  intros He0 He Hf HA Hn. pose proof (resonant_below e0 f He0 Hf). unfold resonant_nu2.
  set (x := resonant_eps e0 f) in *. set (u := nu ^ 2) in *. set (v := nu_j ^ 2) in *. split; intro E.
  - rewrite <- E. replace (e - (e + A / (v - u))) with (- (A / (v - u))) by ring. field. lra.
  - rewrite E. field. split; [lra|]. intro K. apply HA. lra.
Qed.

(** C90. A lossless oscillator (phonon) below the point dipole: the frequency at
    which tip and sample resonate. *)
Lemma C90_pdm_phonon_proof :
  forall (D : Defaults) (e0 nu nu_j A eps_inf : R) (e1 : C) f_j nu_vac z_tip r_tip eps_tip alpha_tip (alpha : R),
  let z := given_or (d_z_tip D) z_tip in let r := given_or (d_r_tip D) r_tip in
  let f := coupling alpha (r + z) in
  tip_alpha r eps_tip alpha_tip (RtoC alpha) -> 0 < e0 -> 0 < alpha -> 0 < r + z -> f < 1 ->
  0 < eps_inf -> A <> 0 -> nu ^ 2 <> nu_j ^ 2 ->
  lorentz_perm nu nu_j 0 (Some A) None f_j (Some eps_inf) = Ok (Some e1) ->
  e1 <> RtoC 0 -> (RtoC e0 + e1 <> 0)%C ->
  (pdm_eff_pol D (stack [RtoC e0; e1] [] nu_vac) z_tip r_tip eps_tip alpha_tip = Ok None
   <-> nu ^ 2 = resonant_nu2 nu_j A eps_inf e0 f).
Proof.
  intros D e0 nu nu_j A e e1 f_j nv z_tip r_tip eps alpha_tip a z r f Ha He Hp Hz Hf Hi HA Hn El N0 N1.
  pose proof (coupling_pos a (r + z) Hp Hz) as Hc. fold f in Hc.
  rewrite (lossless_oscillator nu nu_j A f_j e Hn) in El.
  assert (V : e1 = RtoC (e + A / (nu_j ^ 2 - nu ^ 2))) by (apply (f_equal (fun x => match x with Ok (Some y) => y | _ => e1 end)) in El; symmetry; exact El).
  destruct (C90_pdm_pole_proof D e0 e1 nv z_tip r_tip eps alpha_tip a Ha) as [H _]; fold z r f; try lra; try assumption.
  fold z r f in H. rewrite H, <- (resonant_nu_eq nu nu_j A e e0 f) by (assumption || lra).
  rewrite V. split; [apply RtoC_inj|congruence].
Qed.

Lemma nu2_incr nu_j A e e0 f f' : 0 < A -> 0 < e -> 0 < e0 -> 0 < f -> f < f' < 1 ->
  resonant_nu2 nu_j A e e0 f' < resonant_nu2 nu_j A e e0 f.
Proof.
  intros HA He He0 Hf Hff. pose proof (resonant_below e0 f He0 ltac:(lra)). pose proof (resonant_below e0 f' He0 ltac:(lra)).
  pose proof (resonant_decr e0 f f' He0 Hff). unfold resonant_nu2, Rdiv. apply Rplus_lt_compat_l.
  apply Rmult_lt_compat_l; [exact HA|]. apply Rinv_lt_contravar; [apply Rmult_lt_0_compat; lra|lra].
Qed.
Lemma nu2_below nu_j A e e0 f : 0 < A -> 0 < e -> 0 < e0 -> 0 < f < 1 ->
  resonant_nu2 nu_j A e e0 f < nu_j ^ 2 + A / (e + e0).
Proof.
  intros HA He He0 Hf. pose proof (resonant_below e0 f He0 Hf). unfold resonant_nu2, Rdiv. apply Rplus_lt_compat_l.
  apply Rmult_lt_compat_l; [exact HA|]. apply Rinv_lt_contravar; [apply Rmult_lt_0_compat; lra|lra].
Qed.

(** C90. Red shift: on approach the resonance of a lossless oscillator moves to lower
    frequencies, from the surface phonon frequency [nu_j^2 + A / (eps_inf + e0)] of
    the bare sample, never below [nu_j]. *)
Lemma C90_red_shift_proof :
  forall (D : Defaults) (e0 nu nu' nu_j A eps_inf z z' : R) (e1 e1' : C) f_j nu_vac r_tip eps_tip alpha_tip (alpha : R),
  let r := given_or (d_r_tip D) r_tip in
  tip_alpha r eps_tip alpha_tip (RtoC alpha) -> 0 < e0 -> 0 < alpha -> 0 < r + z -> z < z' ->
  coupling alpha (r + z) < 1 -> 0 < eps_inf -> 0 < A -> nu ^ 2 <> nu_j ^ 2 -> nu' ^ 2 <> nu_j ^ 2 ->
  lorentz_perm nu nu_j 0 (Some A) None f_j (Some eps_inf) = Ok (Some e1) ->
  lorentz_perm nu' nu_j 0 (Some A) None f_j (Some eps_inf) = Ok (Some e1') ->
  e1 <> RtoC 0 -> (RtoC e0 + e1 <> 0)%C -> e1' <> RtoC 0 -> (RtoC e0 + e1' <> 0)%C ->
  pdm_eff_pol D (stack [RtoC e0; e1] [] nu_vac) (Some z) r_tip eps_tip alpha_tip = Ok None ->
  pdm_eff_pol D (stack [RtoC e0; e1'] [] nu_vac) (Some z') r_tip eps_tip alpha_tip = Ok None ->
  nu_j ^ 2 < nu ^ 2 /\ nu ^ 2 < nu' ^ 2 /\ nu' ^ 2 < nu_j ^ 2 + A / (eps_inf + e0).
Proof.
  intros D e0 nu nu' nu_j A e z z' e1 e1' f_j nv r_tip eps alpha_tip a r Ha He Hp Hz Hl Hf Hi HA Hn Hn' El El' N0 N1 N0' N1' E E'.
  pose proof (coupling_pos a (r + z) Hp Hz) as Hc. pose proof (coupling_pos a (r + z') Hp ltac:(lra)) as Hc'.
  pose proof (coupling_decr a (r + z) (r + z') Hp ltac:(lra)) as Hd.
  apply (C90_pdm_phonon_proof D e0 nu nu_j A e e1 f_j nv (Some z) r_tip eps alpha_tip a) in E; cbn [given_or]; fold r; try assumption; try lra.
  apply (C90_pdm_phonon_proof D e0 nu' nu_j A e e1' f_j nv (Some z') r_tip eps alpha_tip a) in E'; cbn [given_or]; fold r; try assumption; try lra.
  cbn [given_or] in E, E'. fold r in E, E'. rewrite E, E'. split; [|split].
  - pose proof (resonant_below e0 (coupling a (r + z)) He ltac:(lra)). unfold resonant_nu2.
    assert (0 < A / (e - resonant_eps e0 (coupling a (r + z)))) by (apply Rdiv_lt_0_compat; lra). lra.
  - apply nu2_incr; lra.
  - apply nu2_below; lra.
Qed.

(** C90. A lossless free-electron metal (drude_perm): the resonance satisfies
    [nu^2 (eps_inf (1 - f) + e0 (1 + f)) = nu_plasma^2 (1 - f)], i.e.
    [nu_plasma^2 (1 - f) / 2] in vacuum. *)
Lemma C90_pdm_plasmon_proof :
  forall (D : Defaults) (e0 nu nu_plasma eps_inf : R) (e1 : C) nu_vac z_tip r_tip eps_tip alpha_tip (alpha : R),
  let z := given_or (d_z_tip D) z_tip in let r := given_or (d_r_tip D) r_tip in
  let f := coupling alpha (r + z) in
  tip_alpha r eps_tip alpha_tip (RtoC alpha) -> 0 < e0 -> 0 < alpha -> 0 < r + z -> f < 1 ->
  0 < eps_inf -> nu_plasma <> 0 -> nu <> 0 ->
  drude_perm nu nu_plasma 0 (Some eps_inf) = Ok (Some e1) ->
  e1 <> RtoC 0 -> (RtoC e0 + e1 <> 0)%C ->
  (pdm_eff_pol D (stack [RtoC e0; e1] [] nu_vac) z_tip r_tip eps_tip alpha_tip = Ok None
   <-> nu ^ 2 * (eps_inf * (1 - f) + e0 * (1 + f)) = nu_plasma ^ 2 * (1 - f)).
Proof.
  intros D e0 nu np e e1 nv z_tip r_tip eps alpha_tip a z r f Ha He Hp Hz Hf Hi HP Hn Ed N0 N1.
  pose proof (coupling_pos a (r + z) Hp Hz) as Hc. fold f in Hc.
  assert (Ep : 0 < np ^ 2) by (apply pow2_gt_0, HP). assert (En : 0 < nu ^ 2) by (apply pow2_gt_0, Hn).
  assert (El : lorentz_perm nu 0 0 (Some (np ^ 2)) None None (Some e) = Ok (Some e1)).
  { rewrite <- Ed. unfold drude_perm, lorentz_perm. cbn [rbind dflt]. do 4 f_equal. rewrite Rmult_1_l. reflexivity. }
  assert (S : 0 < e * (1 - f) + e0 * (1 + f)).
  { assert (0 < e * (1 - f)) by (apply Rmult_lt_0_compat; lra). assert (0 < e0 * (1 + f)) by (apply Rmult_lt_0_compat; lra). lra. }
  rewrite (C90_pdm_phonon_proof D e0 nu 0 (np ^ 2) e e1 None nv z_tip r_tip eps alpha_tip a) by (assumption || fold z r f; lra || (replace (0 ^ 2) with 0 by ring; lra)).
  fold z r f. unfold resonant_nu2, resonant_eps.
  replace (0 ^ 2 + np ^ 2 / (e - - e0 * (1 + f) / (1 - f))) with (np ^ 2 * (1 - f) / (e * (1 - f) + e0 * (1 + f))) by (field; split; lra).
  split; intro E.
  - rewrite E. field. lra.
  - rewrite <- E. field. lra.
Qed.

(** C90. The finite dipole model over a bulk sample of any complex permittivity: not
    finite exactly for the sample whose reflection is [1 / f_1]. *)
Lemma C90_fdm_pole_proof :
  forall (laggauss : laggauss_t) (D : Defaults) (e0 : R) (e1 : C) nu z_tip r_tip L_tip g_factor d_Q0 d_Q1 d_Qa n_lag method,
  let z := given_or (d_z_tip D) z_tip in let r := given_or (d_r_tip D) r_tip in
  let L := given_or (d_L_tip D) L_tip in let g := given_or (d_g_factor D) g_factor in
  let d0 := given_or (131 / 100 * L / (L + 2 * r)) d_Q0 in let d1 := given_or (d_d_Q1 D) d_Q1 in
  let f1 := fdm_f z d1 r L g in
  fdm_regular z d0 r L -> fdm_regular z d1 r L -> f1 <> RtoC 1 -> method = None \/ method = Some "bulk"%string ->
  e1 <> RtoC 0 -> (RtoC e0 + e1 <> 0)%C ->
  (fdm_eff_pol laggauss D (stack [RtoC e0; e1] [] nu) z_tip r_tip L_tip g_factor d_Q0 d_Q1 d_Qa n_lag method = Ok None
   <-> e1 = (- RtoC e0 * (1 + f1) / (1 - f1))%C) /\
  (0 < e0 -> 0 < Im g -> r + 4 * z + 2 * r * d1 < 4 * L -> r < 4 * L -> 0 <= Im e1 ->
   exists a, fdm_eff_pol laggauss D (stack [RtoC e0; e1] [] nu) z_tip r_tip L_tip g_factor d_Q0 d_Q1 d_Qa n_lag method = Ok (Some a)).
Proof.
  intros lg D e0 e1 nu z_tip r_tip L_tip gf d_Q0 d_Q1 d_Qa nl m z r L g d0 d1 f1 R0 R1 Hf Hm N0 N1.
  assert (E : fdm_eff_pol lg D (stack [RtoC e0; e1] [] nu) z_tip r_tip L_tip gf d_Q0 d_Q1 d_Qa nl m
    = Ok (rc 1 + Some ((e1 - RtoC e0) / (e1 + RtoC e0) * fdm_f z d0 r L g)%C / Some (2 * (1 - (e1 - RtoC e0) / (e1 + RtoC e0) * f1))%C)%cv).
  { pose proof (bulk_eff_pol lg D (stack [RtoC e0; e1] [] nu) z_tip r_tip L_tip gf d_Q0 d_Q1 d_Qa nl _ eq_refl (bulk_qs (RtoC e0) e1 nu (rr 0) N0 N1) R0 R1) as K.
    destruct Hm as [-> | ->]; exact K. }
  rewrite E. clear E. apply Re_sum in N1.
  assert (G : (1 - f1 <> 0)%C) by (intro Z; apply Hf; symmetry; now apply Csub_eq0).
  assert (I : ((rc 1 + Some ((e1 - RtoC e0) / (e1 + RtoC e0) * fdm_f z d0 r L g)%C / Some (2 * (1 - (e1 - RtoC e0) / (e1 + RtoC e0) * f1))%C)%cv = None
    <-> e1 = (- RtoC e0 * (1 + f1) / (1 - f1))%C)).
  { transitivity ((Some ((e1 - RtoC e0) / (e1 + RtoC e0) * fdm_f z d0 r L g)%C / Some (2 * (1 - (e1 - RtoC e0) / (e1 + RtoC e0) * f1))%C)%cv = None).
    - unfold rc. destruct (Some _ / Some _)%cv; cbn [cadd olift2]; split; congruence.
    - rewrite cdiv_none.
      replace (2 * (1 - (e1 - RtoC e0) / (e1 + RtoC e0) * f1))%C
        with (2 * (1 - f1) / (e1 + RtoC e0) * (e1 - (- RtoC e0 * (1 + f1) / (1 - f1))))%C by (field; split; assumption).
      split; intro Z.
      + apply Csub_eq0. destruct (Ceq_dec (e1 - - RtoC e0 * (1 + f1) / (1 - f1))%C 0) as [Y|Y]; [exact Y|exfalso].
        revert Z. apply Cmult_neq_0; [|exact Y]. apply Cdiv_neq_0; [|exact N1]. apply Cmult_neq_0; [apply C2_neq_0|exact G].
      + rewrite <- Z. ring. }
  split.
  - rewrite <- I. split; [intro Z; injection Z as Z; exact Z|intros ->; reflexivity].
  - intros He Hg H4 HL Hi.
    destruct (rc 1 + _)%cv as [a|] eqn:Q; [exists a; reflexivity|exfalso].
    pose proof (proj1 I eq_refl) as Qe. clear Q. rename Qe into Q. destruct R1 as (Hr & HL' & Hp1 & _).
    pose proof (ratio_pos z d1 r L Hr ltac:(lra) ltac:(lra)) as Q1.
    assert (F : 0 < Im f1) by (unfold f1; rewrite Im_fdm_f; apply Rmult_lt_0_compat; assumption).
    assert (V : Im e1 = - (2 * e0 * Im f1 / ((1 - Re f1) ^ 2 + Im f1 ^ 2))).
    { rewrite Q. destruct f1 as [u v]. unfold Cdiv, Cinv, Cmult, Cminus, Cplus, Copp, RtoC, Re, Im in *. cbn [fst snd] in *.
      assert (0 < v ^ 2) by (apply pow2_gt_0; lra). pose proof (pow2_ge_0 (1 - u)). field. repeat split; try (intro; nra). }
    assert (0 < 2 * e0 * Im f1 / ((1 - Re f1) ^ 2 + Im f1 ^ 2)).
    { assert (0 < Im f1 ^ 2) by (apply pow2_gt_0; lra). pose proof (pow2_ge_0 (1 - Re f1)).
      apply Rdiv_lt_0_compat; [apply Rmult_lt_0_compat; lra|lra]. }
    lra.
Qed.
