(** * Proofs: the order of the harmonics of the Taylor coefficients and series *)
From Coq Require Import String Reals Lra Lia ZArith List Bool.
From Coquelicot Require Import Rcomplements Complex.
From Verif Require Import Num NumLemmas LimLemmas ModelBase ModelSample ModelTip StackLemmas Spec
  ProofsStackQS ProofsPassive DemodLemmas ProofsDemod ProofsTip ProofsTip2 ProofsTip3
  ProofsTaylor PosDef ProofsContrast ProofsContrast2 PosPoly ProofsFirst ProofsFirst2 ProofsFirst3 UniMod ProofsHarm.
Import ListNotations.
Open Scope R_scope.

Lemma sgn_mod i x : 0 < x -> Cmod (RtoC (sgn_pow i * x)) = x.
Proof.
  intros Hx. rewrite Cmod_R. unfold sgn_pow. destruct (Z.even i).
  - rewrite Rmult_1_l. apply Rabs_pos_eq. lra.
  - rewrite <- Rabs_Ropp. replace (- (-1 * x)) with x by ring. apply Rabs_pos_eq. lra.
Qed.
Lemma Sm_lt (f g : nat -> R) M : (forall j, f j < g j) -> Sm f (S M) < Sm g (S M).
Proof. intros H. induction M as [|M IH]; cbn [Sm] in *; [pose proof (H O); lra|pose proof (H (S M)); lra]. Qed.
Lemma Sm_pos (f : nat -> R) M : (forall j, 0 < f j) -> 0 < Sm f (S M).
Proof. intros H. induction M as [|M IH]; cbn [Sm] in *; [pose proof (H O); lra|pose proof (H (S M)); lra]. Qed.

Section Q.
Context (N : nat) (HN : N <> O) (V F : nat -> R) (n m : Z).
Context (VD : forall j, dm N j V) (FD : forall j, dm N j F).
Context (VP : forall j, dom N j V) (FP : forall j, dom N j F).
Context (Hnm : (Z.abs n < Z.abs m)%Z) (Hm : (2 * Z.abs m <= Z.of_nat N)%Z).
Lemma VF_dm i j : dm N i (fun k => V k * F k ^ j).
Proof using HN VD FD.
  revert i. induction j as [|j IH]; intros i; [apply (dm_ext N i V); [intros; cbn [pow]; ring|apply VD]|].
  apply (dm_ext N i (fun k => F k * (V k * F k ^ j))); [intros; cbn [pow]; ring|]. apply dm_prod; [exact HN|apply FD|apply IH].
Qed.
Lemma q_order j : 0 < qj m N V F j < qj n N V F j.
Proof using HN VD FD VP FP Hnm Hm.
  split; [apply qj_pos; assumption|]. unfold qj. apply dm_lt; [exact HN|intros i; apply VF_dm|exact Hnm|exact Hm].
Qed.
Lemma tm_order M b : 0 < b -> 0 < tm (qj m N V F) (S M) b < tm (qj n N V F) (S M) b.
Proof using HN VD FD VP FP Hnm Hm.
  intros Hb. unfold tm. split.
  - apply (Sm_pos (fun j => qj m N V F j * b ^ S j)). intros j. apply Rmult_lt_0_compat; [apply q_order|now apply pow_lt].
  - apply (Sm_lt (fun j => qj m N V F j * b ^ S j) (fun j => qj n N V F j * b ^ S j)). intros j. apply Rmult_lt_compat_r; [now apply pow_lt|apply q_order].
Qed.
End Q.

(** C106. Point dipole model, lossless tip: every Taylor coefficient beyond the
    first, and every truncated series over a lossless sample (whatever the loop
    gain), is stronger in the lower harmonic. *)
Lemma C106_pdm_taylor_proof :
  forall (D : Defaults) (A_tip : R) (n m : Z) (z_tip r_tip : option R) (n_trapz : option nat)
    (eps_tip alpha_tip : option C) (alpha : R),
  let N := given_or (d_n_trapz D) n_trapz in let z := given_or (d_z_tip D) z_tip in
  let r := given_or (d_r_tip D) r_tip in
  tip_alpha r eps_tip alpha_tip (RtoC alpha) -> 0 < alpha -> N <> O -> 0 < A_tip -> 0 < r + z ->
  (Z.abs n < Z.abs m)%Z -> (2 * Z.abs m <= Z.of_nat N)%Z ->
  (forall j, exists c_n c_m : C,
     pdm_taylor_coef D z (S j) A_tip n (rr r) (Some (RtoC alpha)) n_trapz = Ok (Some c_n) /\
     pdm_taylor_coef D z (S j) A_tip m (rr r) (Some (RtoC alpha)) n_trapz = Ok (Some c_m) /\ 0 < Cmod c_m < Cmod c_n) /\
  (forall (s : sample) (b : R) (J : nat), refl_coef_qs s (rr 0) = Ok (Some (RtoC b)) -> 0 < b ->
   exists a_n a_m : C,
     pdm_eff_pol_n_taylor D s A_tip n z_tip r_tip eps_tip alpha_tip n_trapz (Some (S (S J))) = Ok (Some a_n) /\
     pdm_eff_pol_n_taylor D s A_tip m z_tip r_tip eps_tip alpha_tip n_trapz (Some (S (S J))) = Ok (Some a_m) /\ 0 < Cmod a_m < Cmod a_n).
Proof.
  intros D A n m z_tip r_tip nt et alt alpha N z r Ht Ha HN HA Hz Hnm Hm.
  set (F := pF D A nt z_tip r_tip alpha).
  assert (FD : forall j, dm N j F) by (intros j; unfold F, pF; now apply pdm_int_dm).
  assert (FP : forall j, dom N j F) by (intros j; unfold F, pF; now apply pdm_int_dom).
  split.
  - intros j. eexists. eexists. split; [apply (p_coef D A n nt z_tip r_tip alpha Ha HN HA Hz (S j))|].
    split; [apply (p_coef D A m nt z_tip r_tip alpha Ha HN HA Hz (S j))|]. cbn [cf]. fold N F.
    pose proof (q_order N HN F F n m FD FD FP FP Hnm Hm j). rewrite !sgn_mod by lra. assumption.
  - intros s b J Hb Pb. eexists. eexists. split; [apply (p_taylor D A n nt z_tip r_tip et alt alpha Ht Ha HN HA Hz s (S J) b Hb)|].
    split; [apply (p_taylor D A m nt z_tip r_tip et alt alpha Ht Ha HN HA Hz s (S J) b Hb)|]. fold N F. unfold pc0. fold N.
    rewrite <- !Rmult_plus_distr_l.
    pose proof (tm_order N HN F F n m FD FD FP FP Hnm Hm J b Pb) as T. pose proof (pd_1 N HN n) as Q1.
    assert (Q0 : harm N m (fun _ => 1) = 0).
    { replace (harm N m (fun _ => 1)) with (harm N (Z.abs m) (fun _ => 1)) by (destruct (Z.abs_eq_or_opp m) as [->| ->]; [reflexivity|apply harm_opp]).
      apply one_other; [exact HN|lia]. }
    rewrite !sgn_mod by lra. lra.
Qed.

(** C106. The same for the finite dipole model with a real g factor, the stroke
    below the sign changes of the geometry functions. *)
Lemma C106_fdm_taylor_proof :
  forall (laggauss : laggauss_t) (D : Defaults) (A_tip : R) (n m : Z) (n_trapz : option nat)
    (z_tip r_tip L_tip : option R) (g_factor : option C) (d_Q0 d_Q1 d_Qa : option R) (n_lag : option nat) (g : R),
  let N := given_or (d_n_trapz D) n_trapz in let z := given_or (d_z_tip D) z_tip in
  let r := given_or (d_r_tip D) r_tip in let L := given_or (d_L_tip D) L_tip in
  let d0 := given_or (131 / 100 * L / (L + 2 * r)) d_Q0 in let d1 := given_or (d_d_Q1 D) d_Q1 in
  given_or (d_g_factor D) g_factor = RtoC g ->
  N <> O -> 0 < A_tip -> 0 < r < 4 * L -> 0 < r + 4 * z + 2 * r * d0 -> 0 < r + 4 * z + 2 * r * d1 ->
  r + 2 * (z + 2 * A_tip) + r * d0 < 2 * L * g -> r + 4 * (z + 2 * A_tip) + 2 * r * d0 < 4 * L ->
  r + 2 * (z + 2 * A_tip) + r * d1 < 2 * L * g -> r + 4 * (z + 2 * A_tip) + 2 * r * d1 < 4 * L ->
  (Z.abs n < Z.abs m)%Z -> (2 * Z.abs m <= Z.of_nat N)%Z ->
  (forall j, exists c_n c_m : C,
     fdm_taylor_coef D z (S j) A_tip n (rr r) (rr L) (Some (RtoC g)) (rr d0) (rr d1) n_trapz = Ok (Some c_n) /\
     fdm_taylor_coef D z (S j) A_tip m (rr r) (rr L) (Some (RtoC g)) (rr d0) (rr d1) n_trapz = Ok (Some c_m) /\ 0 < Cmod c_m < Cmod c_n) /\
  (forall (s : sample) (b : R) (J : nat), multilayer s = false -> refl_coef_qs s (rr 0) = Ok (Some (RtoC b)) -> 0 < b ->
   exists a_n a_m : C,
     fdm_eff_pol_n_taylor laggauss D s A_tip n z_tip r_tip L_tip g_factor d_Q0 d_Q1 d_Qa n_lag None n_trapz (Some (S (S J))) = Ok (Some a_n) /\
     fdm_eff_pol_n_taylor laggauss D s A_tip m z_tip r_tip L_tip g_factor d_Q0 d_Q1 d_Qa n_lag None n_trapz (Some (S (S J))) = Ok (Some a_m) /\
     0 < Cmod a_m < Cmod a_n).
Proof.
  intros lg D A n m nt z_tip r_tip L_tip gf d_Q0 d_Q1 d_Qa n_lag g N z r L d0 d1 Hg HN HA [Hr HrL] P0 P1 G0 V0 G1 V1 Hnm Hm.
  assert (R0 : in_reach z A d0 r L g) by (repeat split; lra). assert (R1 : in_reach z A d1 r L g) by (repeat split; lra).
  assert (W0 : below r L g A z d0) by (split; [exact R0|split; assumption]). assert (W1 : below r L g A z d1) by (split; [exact R1|split; assumption]).
  assert (WL : 0 < ln (4 * L / r)) by (rewrite <- ln_1; apply ln_increasing; [lra|]; apply Rlt_div_r; lra).
  set (V := fV D A nt z_tip r_tip L_tip d_Q0 g). set (F := fF D A nt z_tip r_tip L_tip d_Q1 g).
  assert (VD : forall j, dm N j V) by (intros j; unfold V, fV; apply dm_scal; [lra|]; now apply ff_dm).
  assert (FD : forall j, dm N j F) by (intros j; unfold F, fF; now apply ff_dm).
  assert (VP : forall j, dom N j V) by (intros j; unfold V; now apply fV_dom).
  assert (FP : forall j, dom N j F) by (intros j; unfold F, fF; now apply ff_dom).
  split.
  - intros j. eexists. eexists. split; [apply (f_coef D A n nt z_tip r_tip L_tip d_Q0 d_Q1 g HN HA HrL R0 R1 (S j))|].
    split; [apply (f_coef D A m nt z_tip r_tip L_tip d_Q0 d_Q1 g HN HA HrL R0 R1 (S j))|]. cbn [cf]. fold N V F.
    pose proof (q_order N HN V F n m VD FD VP FP Hnm Hm j). rewrite !sgn_mod by lra. assumption.
  - intros s b J Ms Hb Pb.
    eexists. eexists. split; [apply (f_taylor lg D A n nt z_tip r_tip L_tip gf d_Q0 d_Q1 d_Qa n_lag g Hg HN HA HrL R0 R1 s (S J) b Ms Hb)|].
    split; [apply (f_taylor lg D A m nt z_tip r_tip L_tip gf d_Q0 d_Q1 d_Qa n_lag g Hg HN HA HrL R0 R1 s (S J) b Ms Hb)|]. fold N V F.
    pose proof (tm_order N HN V F n m VD FD VP FP Hnm Hm J b Pb) as T. unfold fc0.
    replace (Z.eqb m 0) with false by (symmetry; apply Z.eqb_neq; lia). rewrite Cplus_0_l. rewrite (sgn_mod m) by lra.
    destruct (Z.eqb_spec n 0) as [->|_].
    + rewrite <- RtoC_plus. replace (1 + sgn_pow 0 * tm (qj 0 N V F) (S J) b) with (sgn_pow 0 * (1 + tm (qj 0 N V F) (S J) b)) by (unfold sgn_pow; cbn; ring).
      rewrite sgn_mod by lra. lra.
    + rewrite Cplus_0_l, sgn_mod by lra. lra.
Qed.

(** C106, example: conducting sphere of 20 nm, amplitude 20 nm, default sampling:
    the fourth harmonic of the third Taylor coefficient is weaker than the second. *)
Lemma C106_taylor_example_proof :
  exists c_2 c_4 : C,
    pdm_taylor_coef defaults0 0 3 (20 / 10 ^ 9) 2 (rr (20 / 10 ^ 9)) (Some (RtoC (4 * PI * (20 / 10 ^ 9) ^ 3))) None = Ok (Some c_2) /\
    pdm_taylor_coef defaults0 0 3 (20 / 10 ^ 9) 4 (rr (20 / 10 ^ 9)) (Some (RtoC (4 * PI * (20 / 10 ^ 9) ^ 3))) None = Ok (Some c_4) /\
    0 < Cmod c_4 < Cmod c_2.
Proof.
  pose proof PI_RGT_0. assert (0 < (20 / 10 ^ 9) ^ 3) by (apply pow_lt; lra).
  apply (proj1 (C106_pdm_taylor_proof defaults0 (20 / 10 ^ 9) 2 4 (Some 0) (Some (20 / 10 ^ 9)) None None None (4 * PI * (20 / 10 ^ 9) ^ 3)
    (tip_conductor _) ltac:(apply Rmult_lt_0_compat; lra) ltac:(discriminate) ltac:(lra) ltac:(cbn [given_or]; lra) ltac:(cbn; lia) ltac:(cbn; lia)) 2%nat).
Qed.
