(** * Proofs: contrast of absorbing samples in the point dipole model *)
From Coq Require Import String Reals Lra Lia ZArith List Bool.
From Coquelicot Require Import Rcomplements Complex.
From Verif Require Import Num NumLemmas LimLemmas ModelBase ModelSample ModelTip StackLemmas Spec
  ProofsStackQS ProofsStackQS2 ProofsBulkFF ProofsSym ProofsPassive DemodLemmas ProofsDemod ProofsTip ProofsTip2 ProofsTip3
  ProofsTaylor PosDef ProofsContrast ProofsContrast2 SpecMajor Majorant.
Import ListNotations.
Open Scope R_scope.

Lemma tmean_complex z A n N (g : R -> C) : N <> O ->
  tmean z A n N g = (RtoC (sgn_pow n) * hC N n (fun k => g (tip_height z A N k)))%C.
Proof.
  intros HN. rewrite (tmean_ext z A n N g (fun x => RtoC (Re (g x)) + (0, 1)%R * RtoC (Im (g x)))%C).
  2:{ intros k _. unfold Re, Im. apply injective_projections; cbn; ring. }
  rewrite (tmean_plus z A n N (fun x => RtoC (Re (g x))) (fun x => (0, 1)%R * RtoC (Im (g x)))%C).
  rewrite (tmean_scal z A n N (0, 1)%R (fun x => RtoC (Im (g x)))).
  rewrite (tmean_real z A n N (fun x => Re (g x)) HN), (tmean_real z A n N (fun x => Im (g x)) HN).
  unfold hC. apply injective_projections; cbn; ring.
Qed.
Lemma cosine_harm z A n N f : cosine z A n N f = harm N n (fun k => f (tip_height z A N k)).
Proof. reflexivity. Qed.
Lemma sgn_sq n : sgn_pow n * sgn_pow n = 1.
Proof. unfold sgn_pow. destruct (Z.even n); ring. Qed.
Lemma sgn_abs n : Rabs (sgn_pow n) = 1.
Proof. unfold sgn_pow. destruct (Z.even n); [apply Rabs_R1|]. rewrite Rabs_left; lra. Qed.
Lemma sgn_Cmod n w : Cmod (RtoC (sgn_pow n) * w)%C = Cmod w.
Proof. rewrite Cmod_mult, Cmod_R, sgn_abs. ring. Qed.
(** consequences of a two-sided estimate *)
Lemma two_sided (w v : C) c d : 0 <= c -> Cmod (w - RtoC c * v)%C <= (d - c) * Cmod v -> (2 * c - d) * Cmod v <= Cmod w <= d * Cmod v.
Proof.
  intros Hc H. assert (E : Cmod (RtoC c * v)%C = c * Cmod v) by (rewrite Cmod_mult, Cmod_R, Rabs_pos_eq by exact Hc; reflexivity).
  pose proof (Cmod_triangle (w - RtoC c * v)%C (RtoC c * v)%C) as T1. replace (w - RtoC c * v + RtoC c * v)%C with w in T1 by ring.
  pose proof (Cmod_triangle w (- (w - RtoC c * v))%C) as T2. replace (w + - (w - RtoC c * v))%C with (RtoC c * v)%C in T2 by ring. rewrite Cmod_opp in T2. split; lra.
Qed.
Lemma c1_le_d1 N F G rho n : N <> O -> 0 <= rho -> pd N F -> mult N G -> (forall k, (k < N)%nat -> Rabs (rho * G k) < 1) ->
  c1 N F n <= d1 N F G rho n.
Proof.
  intros HN Hr HF HG Hb. enough (0 <= d1 N F G rho n - c1 N F n) by lra. unfold d1, c1. rewrite <- harm_minus.
  apply (pd_ext N (fun k => (rho * G k) * (/ (1 - rho * G k) * (/ (1 - rho * G k) * F k) + / (1 - rho * G k) * F k))).
  - intros k Hk. specialize (Hb k Hk). apply Rabs_lt_between in Hb. field. lra.
  - assert (M : mult N (fun k => / (1 - rho * G k))) by (apply mult_geo; [exact HN|now apply mult_scal|exact Hb]).
    apply (mult_scal N rho G Hr HG). apply pd_plus; [apply M, M|apply M]; exact HF.
Qed.

(** ** Point dipole model *)
Section PDM.
Context (alpha r z A : R) (N : nat) (HN : N <> O) (Ha : 0 < alpha) (HA : 0 < A) (Hz : 0 < r + z).
Let g := pdm_int alpha r z A N.
Let F := fun k => alpha * g k.
Lemma g_eq k : g k = dipole alpha r (tip_height z A N k).
Proof using Ha HA Hz. unfold g, dipole. now apply pdm_int_eq. Qed.
Lemma g_mult : mult N g.
Proof using HN Ha HA Hz. apply (dom_mult N 0). now apply pdm_int_dom. Qed.
Lemma F_pd : pd N F.
Proof using HN Ha HA Hz. apply pd_scal; [lra|]. apply mult_pd; [exact HN|exact g_mult]. Qed.
Lemma F_pos n : 0 < harm N n F.
Proof using HN Ha HA Hz. unfold F. rewrite harm_scal. apply Rmult_lt_0_compat; [exact Ha|]. apply dom_harm; [exact HN|]. now apply pdm_int_dom. Qed.
End PDM.
(** value of the harmonic over an absorbing sample *)
Lemma pdm_value D s A n z_tip nt r_tip eps_tip alt alpha (b : C) rho :
  let N := given_or (d_n_trapz D) nt in let z := given_or (d_z_tip D) z_tip in
  let r := given_or (d_r_tip D) r_tip in
  tip_alpha r eps_tip alt (RtoC alpha) -> 0 < alpha -> refl_coef_qs s (rr 0) = Ok (Some b) -> N <> O ->
  0 < A -> 0 < r + z -> (Cmod b <= rho /\ alpha * rho < 16 * PI * (r + z) ^ 3 \/ forall k, (1 - b * RtoC (pdm_int alpha r z A N k) <> 0)%C) ->
  pdm_eff_pol_n D s A n z_tip nt r_tip eps_tip alt
  = Ok (Some (RtoC (sgn_pow n) * hC N n (fun k => RtoC alpha + loop (fun k => (alpha * pdm_int alpha r z A N k)%R) (pdm_int alpha r z A N) b k))%C).
Proof.
  intros N z r Ht Ha Hb HN HA Hz Hs.
  assert (X : forall k, 0 < r + tip_height z A N k).
  { intros k. rewrite tip_height_cs. pose proof (cs_bound N k). nra. }
  assert (EF : forall k, (1 - RtoC alpha / RtoC (16 * PI * (r + tip_height z A N k) ^ 3) * b = 1 - b * RtoC (pdm_int alpha r z A N k))%C).
  { intros k. rewrite pdm_int_eq by assumption. specialize (X k). set (x := r + tip_height z A N k) in *. assert (0 < x ^ 3) by (apply pow_lt; lra). pose proof PI_RGT_0.
    assert (0 < 16 * PI * x ^ 3) by (apply Rmult_lt_0_compat; lra).
    rewrite <- (RtoC_div alpha) by lra. ring. }
  assert (NZ : forall k, (k < N)%nat -> (1 - b * RtoC (pdm_int alpha r z A N k) <> 0)%C).
  { destruct Hs as [[Hs1 Hs2]|Hs]; [|intros k _; apply Hs]. pose proof (Cmod_ge_0 b).
    intros k Hk. apply (den N (pdm_int alpha r z A N) rho); [|exact Hs1|exact Hk]. intros i _. apply pdm_int_bound; auto. lra. }
  rewrite (pdm_n_value D s A n z_tip nt r_tip eps_tip alt (RtoC alpha) b Ht Hb HN).
  2:{ intros k Hk. fold N z r. split; [pose proof (X k); lra|]. rewrite EF. now apply NZ. }
  fold N z r. f_equal. f_equal. rewrite tmean_complex by exact HN. f_equal. apply hC_ext. intros k Hk. rewrite EF. unfold loop. rewrite RtoC_mult. field. now apply NZ.
Qed.
Lemma pdm_bounded alpha r z A N rho : 0 < alpha -> 0 < A -> 0 < r + z -> 0 <= rho -> alpha * rho < 16 * PI * (r + z) ^ 3 ->
  forall k, (k < N)%nat -> Rabs (rho * pdm_int alpha r z A N k) < 1.
Proof. intros. apply pdm_int_bound; auto. Qed.
Lemma pdm_c alpha r z A N n : 0 < alpha -> 0 < A -> 0 < r + z ->
  cosine z A n N (fun x => alpha * dipole alpha r x) = c1 N (fun k => alpha * pdm_int alpha r z A N k) n.
Proof. intros. unfold c1. rewrite cosine_harm. apply harm_ext. intros k _. rewrite g_eq; auto. Qed.
Lemma pdm_d alpha r z A N n rho : 0 < alpha -> 0 < A -> 0 < r + z ->
  cosine z A n N (fun x => alpha * dipole alpha r x / (1 - rho * dipole alpha r x) ^ 2)
  = d1 N (fun k => alpha * pdm_int alpha r z A N k) (pdm_int alpha r z A N) rho n.
Proof. intros. unfold d1. rewrite cosine_harm. apply harm_ext. intros k _. rewrite g_eq; auto. Qed.

(** C97. Point dipole model with a real tip over two arbitrary, possibly
    absorbing, samples whose complex quasistatic reflection coefficients have
    modulus at most rho, the loop gain staying below 1.  With c and d the n-th
    cosine coefficients of alpha g and of alpha g/(1 - rho g)^2 along the stroke
    (g the dipole coupling), the difference of the n-th harmonics is (-1)^n c
    times the difference of the reflection coefficients up to d - c times its
    modulus.  For every harmonic and number of samples. *)
Lemma C97_pdm_contrast_proof :
  forall (D : Defaults) (s1 s2 : sample) (A_tip : R) (n : Z) (z_tip r_tip : option R) (n_trapz : option nat)
    (eps_tip alpha_tip : option C) (alpha rho : R) (b1 b2 : C),
  let N := given_or (d_n_trapz D) n_trapz in let z := given_or (d_z_tip D) z_tip in
  let r := given_or (d_r_tip D) r_tip in
  tip_alpha r eps_tip alpha_tip (RtoC alpha) -> 0 < alpha ->
  refl_coef_qs s1 (rr 0) = Ok (Some b1) -> refl_coef_qs s2 (rr 0) = Ok (Some b2) ->
  N <> O -> 0 < A_tip -> 0 < r + z -> Cmod b1 <= rho -> Cmod b2 <= rho -> alpha * rho < 16 * PI * (r + z) ^ 3 ->
  let c := cosine z A_tip n N (fun x => alpha * dipole alpha r x) in
  let d := cosine z A_tip n N (fun x => alpha * dipole alpha r x / (1 - rho * dipole alpha r x) ^ 2) in
  0 < c <= d /\
  exists a1 a2 : C,
    pdm_eff_pol_n D s1 A_tip n z_tip n_trapz r_tip eps_tip alpha_tip = Ok (Some a1) /\
    pdm_eff_pol_n D s2 A_tip n z_tip n_trapz r_tip eps_tip alpha_tip = Ok (Some a2) /\
    Cmod (a1 - a2 - RtoC (sgn_pow n * c) * (b1 - b2))%C <= (d - c) * Cmod (b1 - b2)%C /\
    (2 * c - d) * Cmod (b1 - b2)%C <= Cmod (a1 - a2)%C <= d * Cmod (b1 - b2)%C.
Proof.
  intros D s1 s2 A n z_tip r_tip nt et alt alpha rho b1 b2 N z r Ht Ha H1 H2 HN HA Hz Hb1 Hb2 Hs c d.
  assert (Hr : 0 <= rho) by (pose proof (Cmod_ge_0 b1); lra).
  assert (GM := g_mult alpha r z A N HN Ha HA Hz). assert (FP := F_pd alpha r z A N HN Ha HA Hz). cbv zeta in GM, FP.
  assert (GB := pdm_bounded alpha r z A N rho Ha HA Hz Hr Hs).
  set (F := fun k => alpha * pdm_int alpha r z A N k) in *. set (G := pdm_int alpha r z A N) in *.
  assert (Ec : c = c1 N F n) by (now apply pdm_c). assert (Ed : d = d1 N F G rho n) by (now apply pdm_d).
  assert (Pc : 0 < c) by (rewrite Ec; exact (F_pos alpha r z A N HN Ha HA Hz n)).
  split; [split; [exact Pc|rewrite Ec, Ed; now apply c1_le_d1]|].
  eexists. eexists. split; [|split].
  - apply (pdm_value D s1 A n z_tip nt r_tip et alt alpha b1 rho); auto.
  - apply (pdm_value D s2 A n z_tip nt r_tip et alt alpha b2 rho); auto.
  - fold N z r. fold G. fold F. assert (L := loop_diff N HN F G rho FP GM GB b1 b2 n Hb1 Hb2). rewrite <- Ec, <- Ed in L.
    rewrite !(hC_plus N n (fun _ => RtoC alpha)).
    set (W := (hC N n (loop F G b1) - hC N n (loop F G b2))%C) in *.
    set (K := hC N n (fun _ => RtoC alpha)).
    replace (RtoC (sgn_pow n) * (K + hC N n (loop F G b1)) - RtoC (sgn_pow n) * (K + hC N n (loop F G b2)))%C with (RtoC (sgn_pow n) * W)%C by (unfold W; ring).
    split.
    + rewrite RtoC_mult. replace (RtoC (sgn_pow n) * W - RtoC (sgn_pow n) * RtoC c * (b1 - b2))%C with (RtoC (sgn_pow n) * (W - RtoC c * (b1 - b2)))%C by ring.
      rewrite sgn_Cmod. exact L.
    + rewrite sgn_Cmod. apply two_sided; [lra|exact L].
Qed.

(** C97. Phase: the imaginary part of (-1)^n times the harmonic is c times the
    imaginary part of the reflection coefficient up to a relative error d/c - 1;
    in particular absorption shows up with its own sign as soon as d < 2 c. *)
Lemma C97_pdm_phase_proof :
  forall (D : Defaults) (s : sample) (A_tip : R) (n : Z) (z_tip r_tip : option R) (n_trapz : option nat)
    (eps_tip alpha_tip : option C) (alpha rho : R) (b : C),
  let N := given_or (d_n_trapz D) n_trapz in let z := given_or (d_z_tip D) z_tip in
  let r := given_or (d_r_tip D) r_tip in
  tip_alpha r eps_tip alpha_tip (RtoC alpha) -> 0 < alpha ->
  refl_coef_qs s (rr 0) = Ok (Some b) ->
  N <> O -> 0 < A_tip -> 0 < r + z -> Cmod b <= rho -> alpha * rho < 16 * PI * (r + z) ^ 3 ->
  let c := cosine z A_tip n N (fun x => alpha * dipole alpha r x) in
  let d := cosine z A_tip n N (fun x => alpha * dipole alpha r x / (1 - rho * dipole alpha r x) ^ 2) in
  exists a : C,
    pdm_eff_pol_n D s A_tip n z_tip n_trapz r_tip eps_tip alpha_tip = Ok (Some a) /\
    Rabs (sgn_pow n * Im a - c * Im b) <= (d - c) * Rabs (Im b) /\
    (0 < Im b -> d < 2 * c -> 0 < sgn_pow n * Im a).
Proof.
  intros D s A n z_tip r_tip nt et alt alpha rho b N z r Ht Ha H1 HN HA Hz Hb1 Hs c d.
  assert (Hr : 0 <= rho) by (pose proof (Cmod_ge_0 b); lra).
  assert (GM := g_mult alpha r z A N HN Ha HA Hz). assert (FP := F_pd alpha r z A N HN Ha HA Hz). cbv zeta in GM, FP.
  assert (GB := pdm_bounded alpha r z A N rho Ha HA Hz Hr Hs).
  set (F := fun k => alpha * pdm_int alpha r z A N k) in *. set (G := pdm_int alpha r z A N) in *.
  assert (Ec : c = c1 N F n) by (now apply pdm_c). assert (Ed : d = d1 N F G rho n) by (now apply pdm_d).
  eexists. split; [apply (pdm_value D s A n z_tip nt r_tip et alt alpha b rho); auto|].
  fold N z r. fold G. fold F. assert (L := loop_phase N HN F G rho FP GM GB b n Hb1). rewrite <- Ec, <- Ed in L.
  rewrite (hC_plus N n (fun _ => RtoC alpha)), (hC_real N n (fun _ => alpha)).
  assert (E : sgn_pow n * Im (RtoC (sgn_pow n) * (RtoC (harm N n (fun _ => alpha)) + hC N n (loop F G b)))%C = Im (hC N n (loop F G b))).
  { replace (Im (RtoC (sgn_pow n) * (RtoC (harm N n (fun _ => alpha)) + hC N n (loop F G b)))%C) with (sgn_pow n * Im (hC N n (loop F G b))) by (unfold Im; cbn; ring).
    rewrite <- Rmult_assoc, sgn_sq. ring. }
  rewrite E. split; [exact L|]. intros Pb Hd. rewrite (Rabs_pos_eq (Im b)) in L by lra. apply Rabs_le_between in L. nra.
Qed.

(** C97. No absorbing sample gives a larger harmonic than the lossless sample
    with the same modulus of the reflection coefficient. *)
Lemma C97_pdm_bound_proof :
  forall (D : Defaults) (s s0 : sample) (A_tip : R) (n : Z) (z_tip r_tip : option R) (n_trapz : option nat)
    (eps_tip alpha_tip : option C) (alpha rho : R) (b : C),
  let N := given_or (d_n_trapz D) n_trapz in let z := given_or (d_z_tip D) z_tip in
  let r := given_or (d_r_tip D) r_tip in
  tip_alpha r eps_tip alpha_tip (RtoC alpha) -> 0 < alpha ->
  refl_coef_qs s (rr 0) = Ok (Some b) -> refl_coef_qs s0 (rr 0) = Ok (Some (RtoC rho)) ->
  N <> O -> 0 < A_tip -> 0 < r + z -> Cmod b <= rho -> alpha * rho < 16 * PI * (r + z) ^ 3 ->
  exists a a0 : C,
    pdm_eff_pol_n D s A_tip n z_tip n_trapz r_tip eps_tip alpha_tip = Ok (Some a) /\
    pdm_eff_pol_n D s0 A_tip n z_tip n_trapz r_tip eps_tip alpha_tip = Ok (Some a0) /\
    Cmod a <= Cmod a0.
Proof.
  intros D s s0 A n z_tip r_tip nt et alt alpha rho b N z r Ht Ha H1 H2 HN HA Hz Hb1 Hs.
  assert (Hr : 0 <= rho) by (pose proof (Cmod_ge_0 b); lra).
  assert (GM := g_mult alpha r z A N HN Ha HA Hz). assert (FP := F_pd alpha r z A N HN Ha HA Hz). cbv zeta in GM, FP.
  assert (GB := pdm_bounded alpha r z A N rho Ha HA Hz Hr Hs).
  assert (Hb2 : Cmod (RtoC rho) <= rho) by (rewrite Cmod_R, Rabs_pos_eq; lra).
  eexists. eexists. split; [apply (pdm_value D s A n z_tip nt r_tip et alt alpha b rho); auto|].
  split; [apply (pdm_value D s0 A n z_tip nt r_tip et alt alpha (RtoC rho) rho); auto|].
  fold N z r. set (F := fun k => alpha * pdm_int alpha r z A N k) in *. set (G := pdm_int alpha r z A N) in *.
  rewrite !sgn_Cmod.
  assert (PA : leq N (fun _ => RtoC alpha) (fun _ => alpha)) by (apply (leq_real N (fun _ => alpha)), mult_pd; [exact HN|apply mult_const; lra]).
  assert (L := leq_plus N _ _ _ _ PA (loop_maj N HN F G rho FP GM GB b Hb1)).
  eapply Rle_trans; [apply L|].
  rewrite (hC_ext N n (fun k => RtoC alpha + loop F G (RtoC rho) k)%C (fun k => RtoC (alpha + rho * F k / (1 - rho * G k)))).
  - rewrite (hC_real N n (fun k => alpha + rho * F k / (1 - rho * G k))), Cmod_R. apply Rle_abs.
  - intros k Hk. unfold loop. specialize (GB k Hk). apply Rabs_lt_between in GB.
    rewrite <- !RtoC_mult, <- RtoC_minus, <- RtoC_div, <- RtoC_plus by lra. f_equal. field. lra.
Qed.

(** C97. Below the threshold, d < 2 c, two bulk samples of arbitrary complex
    permittivity under the same medium giving the same value of one harmonic
    are the same material. *)
Lemma C97_pdm_unique_proof :
  forall (D : Defaults) (e0 e1 e2 : C) nu1 nu2 (A_tip : R) (n : Z) (z_tip r_tip : option R) (n_trapz : option nat)
    (eps_tip alpha_tip : option C) (alpha rho : R),
  let N := given_or (d_n_trapz D) n_trapz in let z := given_or (d_z_tip D) z_tip in
  let r := given_or (d_r_tip D) r_tip in
  tip_alpha r eps_tip alpha_tip (RtoC alpha) -> 0 < alpha ->
  e0 <> RtoC 0 -> e1 <> RtoC 0 -> e2 <> RtoC 0 -> (e0 + e1 <> 0)%C -> (e0 + e2 <> 0)%C ->
  N <> O -> 0 < A_tip -> 0 < r + z ->
  Cmod ((e1 - e0) / (e1 + e0))%C <= rho -> Cmod ((e2 - e0) / (e2 + e0))%C <= rho -> alpha * rho < 16 * PI * (r + z) ^ 3 ->
  cosine z A_tip n N (fun x => alpha * dipole alpha r x / (1 - rho * dipole alpha r x) ^ 2) < 2 * cosine z A_tip n N (fun x => alpha * dipole alpha r x) ->
  pdm_eff_pol_n D (stack [e0; e1] [] nu1) A_tip n z_tip n_trapz r_tip eps_tip alpha_tip
    = pdm_eff_pol_n D (stack [e0; e2] [] nu2) A_tip n z_tip n_trapz r_tip eps_tip alpha_tip -> e1 = e2.
Proof.
  intros D e0 e1 e2 nu1 nu2 A n z_tip r_tip nt et alt alpha rho N z r Ht Ha H0 H1 H2 S1 S2 HN HA Hz Hb1 Hb2 Hs Hd HE.
  destruct (C97_pdm_contrast_proof D _ _ A n z_tip r_tip nt et alt alpha rho _ _ Ht Ha (bulk_qs e0 e1 nu1 (rr 0) H1 S1) (bulk_qs e0 e2 nu2 (rr 0) H2 S2) HN HA Hz Hb1 Hb2 Hs)
    as (_ & a1 & a2 & E1 & E2 & _ & L & _).
  fold N z r in L. rewrite HE, E2 in E1. assert (Ea : a1 = a2) by congruence. rewrite Ea in L. replace (a2 - a2)%C with (RtoC 0) in L by ring. rewrite Cmod_0 in L.
  assert (Z : Cmod ((e1 - e0) / (e1 + e0) - (e2 - e0) / (e2 + e0))%C = 0).
  { pose proof (Cmod_ge_0 ((e1 - e0) / (e1 + e0) - (e2 - e0) / (e2 + e0))%C) as P. destruct (Rle_lt_or_eq_dec _ _ P) as [Q|Q]; [|now symmetry].
    exfalso. revert L. apply Rlt_not_le, Rmult_lt_0_compat; [lra|exact Q]. }
  apply Cmod_eq_0 in Z.
  assert (S1' : (e1 + e0 <> 0)%C) by (intros E; apply S1; rewrite <- E; ring). assert (S2' : (e2 + e0 <> 0)%C) by (intros E; apply S2; rewrite <- E; ring).
  assert (K : ((e1 - e0) / (e1 + e0) - (e2 - e0) / (e2 + e0) = 2 * e0 * (e1 - e2) / ((e1 + e0) * (e2 + e0)))%C) by (field; auto).
  rewrite K in Z. assert (Q : (2 * e0 * (e1 - e2))%C = RtoC 0).
  { replace (2 * e0 * (e1 - e2))%C with (2 * e0 * (e1 - e2) / ((e1 + e0) * (e2 + e0)) * ((e1 + e0) * (e2 + e0)))%C by (field; auto). rewrite Z. ring. }
  assert (Q' : (e1 - e2)%C = RtoC 0).
  { destruct (Ceq_dec (e1 - e2) (RtoC 0)) as [E|E]; [exact E|exfalso]. revert Q. apply Cmult_neq_0; [apply Cmult_neq_0; [apply RtoC_neq_0; lra|exact H0]|exact E]. }
  replace e1 with (e1 - e2 + e2)%C by ring. rewrite Q'. ring.
Qed.
