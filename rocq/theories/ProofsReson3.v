(** * Proofs: the resonance of tip and sample (C90), harmonics and examples *)
From Coq Require Import String Reals Lra Lia ZArith List Bool.
From Coquelicot Require Import Rcomplements Complex.
From Verif Require Import Num NumLemmas ModelBase ModelSample ModelTip StackLemmas Spec SpecReson DemodLemmas
  ProofsStackQS ProofsStackQS2 ProofsSym ProofsPassive ProofsTip ProofsTip2 ProofsTip3 ProofsPerm ProofsDemod ProofsTaylor ProofsAbsorb
  ProofsConsist3 ProofsReson ProofsReson2.
Import ListNotations.
Open Scope R_scope.

Lemma tip_h_range z A N k : 0 <= A -> z <= tip_height z A N k <= z + 2 * A.
Proof.
  intro HA. unfold tip_height. pose proof (COS_bound (2 * PI * INR k / INR N)) as [H1 H2].
  assert (0 <= A * (1 - cos (2 * PI * INR k / INR N))) by (apply Rmult_le_pos; lra).
  assert (A * (1 - cos (2 * PI * INR k / INR N)) <= A * 2) by (apply Rmult_le_compat_l; lra). lra.
Qed.

(** C90. A harmonic of the point dipole model over a lossless sample is not finite
    exactly if the sample resonates at one of the sampled heights. *)
Lemma C90_pdm_harmonics_proof :
  forall (D : Defaults) (e0 e1 A_tip : R) (n : Z) nu z_tip n_trapz r_tip eps_tip alpha_tip (alpha : R),
  let z := given_or (d_z_tip D) z_tip in let r := given_or (d_r_tip D) r_tip in
  let N := given_or (d_n_trapz D) n_trapz in
  tip_alpha r eps_tip alpha_tip (RtoC alpha) -> 0 < e0 -> 0 < alpha -> 0 < r + z -> 0 <= A_tip ->
  coupling alpha (r + z) < 1 -> N <> O -> e1 <> 0 -> e1 <> - e0 ->
  (pdm_eff_pol_n D (stack [RtoC e0; RtoC e1] [] nu) A_tip n z_tip n_trapz r_tip eps_tip alpha_tip = Ok None
   <-> exists k, (k < N)%nat /\ e1 = resonant_eps e0 (coupling alpha (r + tip_height z A_tip N k))) /\
  (e1 < resonant_eps e0 (coupling alpha (r + z)) \/ resonant_eps e0 (coupling alpha (r + (z + 2 * A_tip))) < e1 ->
   exists a, pdm_eff_pol_n D (stack [RtoC e0; RtoC e1] [] nu) A_tip n z_tip n_trapz r_tip eps_tip alpha_tip = Ok (Some a)).
Proof.
  intros D e0 e1 A n nu z_tip nt r_tip eps alpha_tip a z r N Ha He Hp Hz HA Hf HN N0 N1.
  assert (M0 : RtoC e1 <> RtoC 0) by now apply RtoC_neq_0.
  assert (M1 : (RtoC e0 + RtoC e1 <> 0)%C) by (rewrite <- RtoC_plus; apply RtoC_neq_0; lra).
  set (h := fun x => (Some (RtoC a) / Some (1 - RtoC (coupling a (r + x)) * ((RtoC e1 - RtoC e0) / (RtoC e1 + RtoC e0)))%C)%cv).
  assert (Hv : forall x, r + x <> 0 -> pdm_eff_pol D (stack [RtoC e0; RtoC e1] [] nu) (Some x) r_tip eps alpha_tip = Ok (h x)).
  { intros x Hx. exact (pdm_bulk_value D (RtoC e0) (RtoC e1) nu (Some x) r_tip eps alpha_tip a Ha Hx M0 M1). }
  assert (Hr : forall k, 0 < r + tip_height z A N k) by (intro k; pose proof (tip_h_range z A N k HA); lra).
  assert (Hc : forall x, z <= x -> coupling a (r + x) < 1).
  { intros x Hx. destruct Hx as [Hx|<-]; [|exact Hf]. pose proof (coupling_decr a (r + z) (r + x) Hp ltac:(lra)). lra. }
  assert (Hn : forall k, h (tip_height z A N k) = None <-> e1 = resonant_eps e0 (coupling a (r + tip_height z A N k))).
  { intro k. destruct (C90_pdm_pole_proof D e0 (RtoC e1) nu (Some (tip_height z A N k)) r_tip eps alpha_tip a Ha) as [K _];
      cbn [given_or]; fold r; try assumption.
    - pose proof (Hr k). lra.
    - pose proof (Hc (tip_height z A N k) ltac:(pose proof (tip_h_range z A N k HA); lra)). lra.
    - cbn [given_or] in K. fold r in K. rewrite Hv in K by (pose proof (Hr k); lra).
      split.
      + intro E. apply RtoC_inj, K. now rewrite E.
      + intro E. apply (f_equal RtoC) in E. apply K in E. injection E as E. exact E. }
  unfold pdm_eff_pol_n. rewrite dflt_given. fold z.
  assert (T : forall x, exists c, pdm_eff_pol D (stack [RtoC e0; RtoC e1] [] nu) (Some x) r_tip eps alpha_tip = Ok c).
  { intro x. unfold pdm_eff_pol. rewrite (pdm_defaults_alpha D r_tip eps alpha_tip _ Ha). cbn [rbind].
    rewrite (bulk_qs (RtoC e0) (RtoC e1) nu (rr 0) M0 M1). cbn [rbind]. eexists. reflexivity. }
  assert (EN : dflt (d_n_trapz D) nt = N) by apply dflt_given.
  rewrite (demod_mean D _ h (z + A) A n nt) ; [|rewrite EN; exact HN|apply T|].
  2:{ intros k Hk. rewrite height_tip. apply Hv. rewrite EN. pose proof (Hr k). lra. }
  unfold dmean. rewrite EN.
  assert (X : mean N (fun k => (h (height (z + A) A N k) * Some (ph n (node N k)))%cv) = None
    <-> exists k, (k < N)%nat /\ e1 = resonant_eps e0 (coupling a (r + tip_height z A N k))).
  { split.
    - intro E. destruct (mean_cases N (fun k => (h (height (z + A) A N k) * Some (ph n (node N k)))%cv) HN) as [[_ (k & Hk & Ek)]|(g & _ & Eg)]; [|congruence].
      exists k. split; [exact Hk|]. apply Hn. rewrite height_tip in Ek. destruct (h (tip_height z A N k)); [discriminate|reflexivity].
    - intros (k & Hk & Ek). apply (mean_None N _ k Hk). rewrite height_tip. apply Hn in Ek. rewrite Ek. reflexivity. }
  split.
  - rewrite <- X. split; [intro E; injection E as E; exact E|intros ->; reflexivity].
  - intro Ho. destruct (mean N _) as [v|] eqn:Em; [exists v; reflexivity|exfalso].
    destruct (proj1 X eq_refl) as (k & Hk & Ek). pose proof (tip_h_range z A N k HA) as [B1 B2].
    assert (Hpos : forall x, z <= x -> 0 < coupling a (r + x)) by (intros x Hx; apply coupling_pos; lra).
    assert (mono : forall x y, z <= x -> x <= y -> resonant_eps e0 (coupling a (r + x)) <= resonant_eps e0 (coupling a (r + y))).
    { intros x y Hx [Hy|<-]; [|lra]. left. apply resonant_decr; [exact He|]. split; [apply coupling_decr; lra|now apply Hc]. }
    pose proof (mono z _ ltac:(lra) B1). pose proof (mono _ _ B1 B2). lra.
Qed.

(** C90. The default conducting sphere touching the surface resonates with a sample
    of permittivity -5/3: the response is not finite for every lossless sample. *)
Lemma C90_always_finite_refuted_proof :
  ~ (forall (D : Defaults) (e1 : R), e1 <> 0 -> e1 <> -1 -> 0 < d_r_tip D ->
       exists a, pdm_eff_pol D (stack [RtoC 1; RtoC e1] [] None) (Some 0) None None None = Ok (Some a)).
Proof.
  intro H. pose proof PI_RGT_0 as HP.
  destruct (H defaults0 (-5 / 3) ltac:(lra) ltac:(lra)) as [a Ea]; [cbn; lra|].
  assert (R1 : 0 < d_r_tip defaults0) by (cbn; lra).
  assert (F : coupling (4 * PI * d_r_tip defaults0 ^ 3) (d_r_tip defaults0 + 0) = 1 / 4).
  { unfold coupling. rewrite Rplus_0_r. field. split; lra. }
  destruct (C90_pdm_pole_proof defaults0 1 (RtoC (-5 / 3)) None (Some 0) None None None (4 * PI * d_r_tip defaults0 ^ 3) (tip_conductor _)) as [[_ K] _];
    cbn [given_or]; try rewrite F; try lra.
  - apply RtoC_neq_0. lra.
  - rewrite <- RtoC_plus. apply RtoC_neq_0. lra.
  - cbn [given_or] in K. rewrite F in K. rewrite K in Ea; [discriminate|]. f_equal. unfold resonant_eps. field.
Qed.

(** C90. Concrete cases: the sphere in contact (coupling 1/4), a metal with plasma
    frequency 2 and background 7/3 at frequency 1, and a finite dipole tip with a
    real [g_factor] over permittivity -3. *)
Lemma C90_contact_example_proof :
  coupling (4 * PI * d_r_tip defaults0 ^ 3) (d_r_tip defaults0 + 0) = 1 / 4 /\ resonant_eps 1 (1 / 4) = - 5 / 3 /\
  drude_perm 1 2 0 (Some (7 / 3)) = Ok (Some (RtoC (- 5 / 3))) /\
  pdm_eff_pol defaults0 (stack [RtoC 1; RtoC (- 5 / 3)] [] None) (Some 0) None None None = Ok None /\
  (forall lg D, fdm_regular 0 (1 / 2) 1 1 /\ fdm_f 0 (1 / 2) 1 1 (RtoC (7 / 4)) = RtoC (1 / 2) /\
     fdm_eff_pol lg D (stack [RtoC 1; RtoC (-3)] [] None) (Some 0) (Some 1) (Some 1) (Some (RtoC (7 / 4))) (Some (1 / 2)) (Some (1 / 2)) None None None
     = Ok None).
Proof.
  pose proof PI_RGT_0 as HP. assert (R1 : 0 < d_r_tip defaults0) by (cbn; lra).
  assert (F : coupling (4 * PI * d_r_tip defaults0 ^ 3) (d_r_tip defaults0 + 0) = 1 / 4).
  { unfold coupling. rewrite Rplus_0_r. field. split; lra. }
  split; [exact F|]. split; [unfold resonant_eps; field|]. split; [|split].
  - pose proof (lossless_oscillator 1 0 4 None (7 / 3) ltac:(lra)) as K.
    transitivity (lorentz_perm 1 0 0 (Some 4) None None (Some (7 / 3))).
    + unfold drude_perm, lorentz_perm. cbn [rbind dflt]. do 4 f_equal. unfold rc. do 2 f_equal. ring.
    + rewrite K. do 3 f_equal. field.
  - destruct (C90_pdm_pole_proof defaults0 1 (RtoC (-5 / 3)) None (Some 0) None None None (4 * PI * d_r_tip defaults0 ^ 3) (tip_conductor _)) as [[_ K] _];
      cbn [given_or]; try rewrite F; try lra.
    + apply RtoC_neq_0. lra.
    + rewrite <- RtoC_plus. apply RtoC_neq_0. lra.
    + cbn [given_or] in K. rewrite F in K. apply K. f_equal. unfold resonant_eps. field.
  - intros lg D. assert (R0 : fdm_regular 0 (1 / 2) 1 1) by (unfold fdm_regular; lra).
    assert (E : fdm_f 0 (1 / 2) 1 1 (RtoC (7 / 4)) = RtoC (1 / 2)).
    { rewrite f_at_0, <- RtoC_minus, <- RtoC_mult. f_equal. field. }
    split; [exact R0|]. split; [exact E|].
    destruct (C90_fdm_pole_proof lg D 1 (RtoC (-3)) None (Some 0) (Some 1) (Some 1) (Some (RtoC (7 / 4))) (Some (1 / 2)) (Some (1 / 2)) None None None R0 R0) as [[_ K] _].
    + cbn [given_or]. rewrite E. intro Z. apply RtoC_inj in Z. lra.
    + now left.
    + apply RtoC_neq_0. lra.
    + rewrite <- RtoC_plus. apply RtoC_neq_0. lra.
    + cbn [given_or] in K. apply K. rewrite E, <- RtoC_plus, <- RtoC_minus, <- RtoC_opp, <- RtoC_mult, <- RtoC_div by lra. f_equal. field.
Qed.
