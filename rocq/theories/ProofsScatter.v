(** * Proofs: normalised spectra with the far-field correction *)
From Coq Require Import String Reals Lra Lia ZArith List Bool.
From Coquelicot Require Import Rcomplements Complex.
From Verif Require Import Num NumLemmas ModelBase ModelSample ModelTip StackLemmas Spec
  ProofsStackQS ProofsStackQS2 ProofsStackFF ProofsStackFF2 ProofsBulkFF SpecFresnel SpecWave WaveLemmas
  ProofsFresnel ProofsWave2 ProofsMode ProofsSym ProofsTip4 ModelScatter SpecScatter.
Import ListNotations.
Open Scope R_scope.

Lemma polar_mult a b x y : (polar a x * polar b y)%C = polar (a * b) (x + y).
Proof. apply C_eq; unfold polar, Re, Im; simpl; rewrite ?cos_plus, ?sin_plus; ring. Qed.
Lemma polar_div a b x y : b <> 0 -> (polar a x / polar b y)%C = polar (a / b) (x - y).
Proof.
  intros H. assert (E : (polar b y <> 0)%C).
  { intros Q. injection Q as Q1 Q2. pose proof (sin2_cos2 y) as S1. unfold Rsqr in S1.
    assert (cos y = 0) by (apply Rmult_integral in Q1; destruct Q1; [contradiction|assumption]).
    assert (sin y = 0) by (apply Rmult_integral in Q2; destruct Q2; [contradiction|assumption]). nra. }
  assert (F : (polar (a / b) (x - y) * polar b y = polar a x)%C).
  { rewrite polar_mult. f_equal; field; exact H. }
  rewrite <- F. field. exact E.
Qed.

(** a number within c of 1 *)
Lemma disk_polar (c : R) (r : C) : Rabs c < 1 -> Cmod r <= 1 ->
  exists rho psi : R, (1 + RtoC c * r)%C = polar rho psi /\ 1 - Rabs c <= rho <= 1 + Rabs c /\ Rabs psi <= asin (Rabs c).
Proof.
  intros Hc Hr. set (d := Rabs c) in *. assert (Hd : 0 <= d) by apply Rabs_pos.
  assert (D2 : c ^ 2 = d ^ 2) by (unfold d; rewrite <- Rsqr_pow2, <- Rsqr_pow2; apply Rsqr_abs).
  set (z := (1 + RtoC c * r)%C). set (X := Re z). set (Y := Im z).
  assert (R2 : Re r ^ 2 + Im r ^ 2 <= 1).
  { pose proof (Cmod_ge_0 r). assert (E : Cmod r ^ 2 = Re r ^ 2 + Im r ^ 2).
    { unfold Cmod. rewrite pow2_sqrt by (assert (0 <= fst r ^ 2) by apply pow2_ge_0; assert (0 <= snd r ^ 2) by apply pow2_ge_0; lra). reflexivity. }
    rewrite <- E. simpl. nra. }
  assert (EX : X = 1 + c * Re r) by (unfold X, z, Re; simpl; ring).
  assert (EY : Y = c * Im r) by (unfold Y, z, Im; simpl; ring).
  assert (B : (X - 1) ^ 2 + Y ^ 2 <= d ^ 2).
  { rewrite EX, EY. replace ((1 + c * Re r - 1) ^ 2 + (c * Im r) ^ 2) with (c ^ 2 * (Re r ^ 2 + Im r ^ 2)) by ring.
    rewrite D2. assert (0 <= d ^ 2) by apply pow2_ge_0. nra. }
  assert (P : 1 - d <= X).
  { apply Rnot_lt_le. intros Q. assert (d ^ 2 < (X - 1) ^ 2) by nra. assert (0 <= Y ^ 2) by apply pow2_ge_0. lra. }
  assert (HX : 0 < X) by lra.
  assert (MZ : Cmod z ^ 2 = X ^ 2 + Y ^ 2).
  { unfold Cmod. rewrite pow2_sqrt by (assert (0 <= fst z ^ 2) by apply pow2_ge_0; assert (0 <= snd z ^ 2) by apply pow2_ge_0; lra). reflexivity. }
  exists (Cmod z), (atan (Y / X)).
  assert (SQ : sqrt (1 + (Y / X)²) = Cmod z / X).
  { apply Rsqr_inj; [apply sqrt_pos|apply Rdiv_le_0_compat; [apply Cmod_ge_0|lra]|].
    rewrite Rsqr_sqrt by (pose proof (Rle_0_sqr (Y / X)); lra).
    unfold Rsqr. replace (Cmod z / X * (Cmod z / X)) with (Cmod z ^ 2 / X ^ 2) by (field; lra). rewrite MZ. field. lra. }
  assert (MP : 0 < Cmod z).
  { pose proof (Cmod_ge_0 z). destruct (Req_dec (Cmod z) 0) as [Q|Q]; [|lra]. rewrite Q in MZ. simpl in MZ. assert (0 <= Y ^ 2) by apply pow2_ge_0. assert (0 < X ^ 2) by (apply pow_lt; lra). simpl in *. lra. }
  split; [|split].
  - unfold polar. rewrite cos_atan, sin_atan, SQ. transitivity (X, Y); [apply surjective_pairing|].
    f_equal; field; split; lra.
  - split.
    + apply Rsqr_incr_0_var; [|lra]. rewrite !Rsqr_pow2, MZ. assert (0 <= Y ^ 2) by apply pow2_ge_0.
      assert ((1 - d) ^ 2 <= X ^ 2) by (apply pow_incr; lra). lra.
    + unfold z. eapply Rle_trans; [apply Cmod_triangle|]. rewrite Cmod_1, Cmod_mult, Cmod_R. fold d.
      pose proof (Cmod_ge_0 r). assert (d * Cmod r <= d * 1) by (apply Rmult_le_compat_l; lra). lra.
  - rewrite asin_atan by lra.
    assert (SP : 0 < sqrt (1 - d²)) by (apply sqrt_lt_R0; unfold Rsqr; nra).
    assert (SS : sqrt (1 - d²) ^ 2 = 1 - d ^ 2) by (rewrite pow2_sqrt by (unfold Rsqr; nra); unfold Rsqr; ring).
    set (w := sqrt (1 - d²)) in *.
    assert (K : Rabs (Y / X) <= d / w).
    { apply Rsqr_incr_0_var; [|apply Rdiv_le_0_compat; lra]. rewrite <- Rsqr_abs, !Rsqr_pow2.
      replace ((Y / X) ^ 2) with (Y ^ 2 / X ^ 2) by (field; lra).
      replace ((d / w) ^ 2) with (d ^ 2 / w ^ 2) by (field; lra). rewrite SS.
      assert (0 < X ^ 2) by (apply pow_lt; lra). assert (0 < 1 - d ^ 2) by nra.
      apply Rmult_le_reg_r with (X ^ 2 * (1 - d ^ 2)); [nra|].
      replace (Y ^ 2 / X ^ 2 * (X ^ 2 * (1 - d ^ 2))) with (Y ^ 2 * (1 - d ^ 2)) by (field; lra).
      replace (d ^ 2 / (1 - d ^ 2) * (X ^ 2 * (1 - d ^ 2))) with (d ^ 2 * X ^ 2) by (field; lra).
      assert (Y ^ 2 * (1 - d ^ 2) <= (d ^ 2 - (X - 1) ^ 2) * (1 - d ^ 2)) by (apply Rmult_le_compat_r; lra).
      assert (0 <= (X - (1 - d ^ 2)) ^ 2) by apply pow2_ge_0.
      replace (d ^ 2 * X ^ 2) with ((d ^ 2 - (X - 1) ^ 2) * (1 - d ^ 2) + (X - (1 - d ^ 2)) ^ 2) by ring. lra. }
    assert (AM : forall x y, x <= y -> atan x <= atan y).
    { intros x y [Q|Q]; [left; now apply atan_increasing|subst; lra]. }
    apply Rabs_le_between in K. destruct K as [K1 K2]. apply Rabs_le. split.
    + rewrite <- atan_opp. now apply AM.
    + now apply AM.
Qed.

Lemma theta_call es ts (nu th : R) pl :
  refl_coef (stack es ts (Some nu)) None (Some th) None pl = refl_coef (stack es ts (Some nu)) (Some (nu * sin (Rabs th))) None (Some nu) pl.
Proof. reflexivity. Qed.
Lemma sin_abs_sq th : sin (Rabs th) ^ 2 = sin th ^ 2.
Proof. unfold Rabs. destruct (Rcase_abs th); [rewrite sin_neg; ring|reflexivity]. Qed.

Lemma passive_refl (p : bool) (e0 nu th : R) mid en ts :
  0 < nu -> 0 < e0 -> sin th ^ 2 < e0 -> passive_below p th mid en ts ->
  exists r : C, refl_coef (stack (RtoC e0 :: mid ++ [en]) ts (Some nu)) None (Some th) None (pol p) = Ok (Some r) /\ Cmod r <= 1.
Proof.
  intros Hnu He0 Hth (HL & Ht & Hm & Hp & Hi). rewrite theta_call. set (q := nu * sin (Rabs th)).
  assert (Q2 : q ^ 2 = nu ^ 2 * sin th ^ 2) by (unfold q; rewrite Rpow_mult_distr, sin_abs_sq; ring).
  assert (N2 : 0 < nu ^ 2) by (apply pow_lt; exact Hnu).
  set (k0 := sqrt (e0 * nu ^ 2 - q ^ 2)).
  assert (W : 0 < e0 * nu ^ 2 - q ^ 2) by (rewrite Q2; nra).
  assert (P0 : 0 < k0) by (apply sqrt_lt_R0; exact W).
  assert (K0 : k0 ^ 2 = e0 * nu ^ 2 - q ^ 2) by (apply pow2_sqrt; lra).
  assert (Hm' : Forall (fun e => (e * RtoC (nu ^ 2) - RtoC (q ^ 2) <> 0)%C) mid).
  { eapply Forall_impl; [|exact Hm]. intros e He Z. apply He. rewrite Q2, RtoC_mult in Z.
    assert (NZ : RtoC (nu ^ 2) <> RtoC 0) by (apply RtoC_neq_0; lra).
    assert (G : ((e - RtoC (sin th ^ 2)) * RtoC (nu ^ 2) = 0)%C) by (rewrite <- Z; ring).
    destruct (Ceq_dec e (RtoC (sin th ^ 2))) as [|NE]; [assumption|]. exfalso.
    assert (NE' : (e - RtoC (sin th ^ 2) <> 0)%C).
    { intros Z'. apply NE. replace e with ((e - RtoC (sin th ^ 2)) + RtoC (sin th ^ 2))%C by ring. rewrite Z'. ring. }
    now apply (Cmult_neq_0 _ _ NE' NZ). }
  destruct (C72_propagating_finite_proof p e0 mid en ts (Some nu) nu q k0) as (r & t & R & T); auto.
  exists r. split; [exact R|].
  assert (KZ : exists kn, is_kz nu q en kn /\ principal kn).
  { exists (kz nu q en). split; [apply kz_is_kz|apply kz_principal]. }
  destruct KZ as (kn & A & B).
  destruct (C56_reflects_at_most_everything_proof p e0 mid en ts (Some nu) nu q k0 kn r t) as [U _]; auto.
Qed.

Lemma scattered_val c r a : scattered c (Some r) (Some a) = Some ((1 + RtoC c * r) * (1 + RtoC c * r) * a)%C.
Proof. unfold scattered. cbn. f_equal. ring. Qed.

Lemma scattered_ratio c r a r' a' : (1 + RtoC c * r' <> 0)%C -> a' <> RtoC 0 ->
  (scattered c (Some r) (Some a) / scattered c (Some r') (Some a'))%cv
  = Some ((1 + RtoC c * r) / (1 + RtoC c * r') * ((1 + RtoC c * r) / (1 + RtoC c * r')) * (a / a'))%C.
Proof.
  intros H Ha. rewrite !scattered_val, cdiv_ok.
  - f_equal. field. split; assumption.
  - apply Cmult_neq_0; [apply Cmult_neq_0|]; assumption.
Qed.

(** C95. The far-field correction of the guide is bounded: for samples and references
    that do not amplify light, any angle at which the beam reaches them and any |c_r| < 1,
    the corrected contrast exists and differs from the uncorrected one by a factor between
    ((1-c)/(1+c))^2 and ((1+c)/(1-c))^2 in modulus and by at most 4 arcsin c in phase. *)
Lemma C95_bounded_correction_proof :
  forall (signal : sample -> res CV) (p : bool) (e0 e0' nu theta c_r : R) (mid mid' : list C) (en en' : C) (ts ts' : list R) (a a' : C),
  let s := stack (RtoC e0 :: mid ++ [en]) ts (Some nu) in
  let ref := stack (RtoC e0' :: mid' ++ [en']) ts' (Some nu) in
  let c := Rabs c_r in
  0 < nu -> 0 < e0 -> 0 < e0' -> sin theta ^ 2 < e0 -> sin theta ^ 2 < e0' -> c < 1 ->
  passive_below p theta mid en ts -> passive_below p theta mid' en' ts' ->
  signal s = Ok (Some a) -> signal ref = Ok (Some a') -> a' <> RtoC 0 ->
  exists rho phi : R,
    uncorrected signal s ref = Ok (Some (a / a')%C) /\
    normalised signal s ref (Some theta) c_r (pol p) = Ok (Some (polar rho phi * (a / a'))%C) /\
    ((1 - c) / (1 + c)) ^ 2 <= rho <= ((1 + c) / (1 - c)) ^ 2 /\ Rabs phi <= 4 * asin c.
Proof.
  intros signal p e0 e0' nu th c_r mid mid' en en' ts ts' a a' s ref c Hnu He He' Hs Hs' Hc HP HP' Ea Ea' Hne.
  destruct (passive_refl p e0 nu th mid en ts Hnu He Hs HP) as (r & Er & Mr).
  destruct (passive_refl p e0' nu th mid' en' ts' Hnu He' Hs' HP') as (r' & Er' & Mr').
  destruct (disk_polar c_r r Hc Mr) as (rho & psi & Ez & [L1 L2] & Bp).
  destruct (disk_polar c_r r' Hc Mr') as (rho' & psi' & Ez' & [L1' L2'] & Bp').
  fold c in L1, L2, L1', L2', Bp, Bp'. assert (C0 : 0 <= c) by apply Rabs_pos.
  assert (NZ : (1 + RtoC c_r * r' <> 0)%C).
  { intros Z. assert (M : Cmod (1 + RtoC c_r * r')%C = 0) by (rewrite Z; apply Cmod_0).
    assert (T : Cmod (RtoC 1) <= Cmod (1 + RtoC c_r * r')%C + Cmod (- (RtoC c_r * r'))%C).
    { eapply Rle_trans; [|apply Cmod_triangle]. right. f_equal. ring. }
    rewrite M, Cmod_1, Cmod_opp, Cmod_mult, Cmod_R in T. fold c in T. pose proof (Cmod_ge_0 r').
    assert (c * Cmod r' <= c * 1) by (apply Rmult_le_compat_l; lra). lra. }
  exists ((rho / rho') ^ 2), (2 * (psi - psi')).
  unfold normalised, uncorrected. fold s in Er. fold ref in Er'. rewrite Ea, Ea', Er, Er'. cbn [rbind].
  rewrite scattered_ratio by assumption. rewrite cdiv_ok by assumption.
  split; [reflexivity|]. split; [|split].
  - do 2 f_equal. f_equal. rewrite Ez, Ez', polar_div, polar_mult by lra. f_equal; ring.
  - assert (A : 0 < (1 - c) / (1 + c)) by (apply Rdiv_lt_0_compat; lra).
    assert (B : (1 - c) / (1 + c) <= rho / rho').
    { apply Rmult_le_reg_r with (rho' * (1 + c)); [apply Rmult_lt_0_compat; lra|].
      replace ((1 - c) / (1 + c) * (rho' * (1 + c))) with ((1 - c) * rho') by (field; lra).
      replace (rho / rho' * (rho' * (1 + c))) with (rho * (1 + c)) by (field; lra). nra. }
    assert (B' : rho / rho' <= (1 + c) / (1 - c)).
    { apply Rmult_le_reg_r with (rho' * (1 - c)); [apply Rmult_lt_0_compat; lra|].
      replace ((1 + c) / (1 - c) * (rho' * (1 - c))) with ((1 + c) * rho') by (field; lra).
      replace (rho / rho' * (rho' * (1 - c))) with (rho * (1 - c)) by (field; lra). nra. }
    split; apply pow_incr; lra.
  - rewrite Rabs_mult, Rabs_pos_eq by lra. pose proof (Rabs_triang psi (- psi')) as T. rewrite Rabs_Ropp in T.
    unfold Rminus. lra.
Qed.

(** C95. A sample measured against itself: the contrast is exactly 1, unless the
    harmonic vanishes (nothing but environment below the tip), when it is nan. *)
Lemma C95_self_reference_proof :
  forall (signal : sample -> res CV) (p : bool) (e0 nu theta c_r : R) (mid : list C) (en : C) (ts : list R) (a : C),
  let s := stack (RtoC e0 :: mid ++ [en]) ts (Some nu) in
  0 < nu -> 0 < e0 -> sin theta ^ 2 < e0 -> Rabs c_r < 1 -> passive_below p theta mid en ts ->
  signal s = Ok (Some a) ->
  (a <> RtoC 0 -> normalised signal s s (Some theta) c_r (pol p) = Ok (Some (RtoC 1))) /\
  (a = RtoC 0 -> normalised signal s s (Some theta) c_r (pol p) = Ok None).
Proof.
  intros signal p e0 nu th c_r mid en ts a s Hnu He Hs Hc HP Ea.
  destruct (passive_refl p e0 nu th mid en ts Hnu He Hs HP) as (r & Er & Mr). fold s in Er.
  unfold normalised. rewrite Ea, Er. cbn [rbind]. split; intros H.
  - destruct (disk_polar c_r r Hc Mr) as (rho & psi & Ez & [L1 L2] & Bp).
    assert (NZ : (1 + RtoC c_r * r <> 0)%C).
    { rewrite Ez. intros Z. assert (Q : (polar 1 0 / polar rho psi * polar rho psi)%C = polar 1 0).
      { rewrite polar_div, polar_mult by lra. f_equal; field; lra. }
      rewrite Z in Q. injection Q as Q _. unfold polar in Q. simpl in Q. rewrite cos_0 in Q. lra. }
    rewrite scattered_ratio by assumption. do 2 f_equal. field. split; assumption.
  - subst a. rewrite scattered_val. replace ((1 + RtoC c_r * r) * (1 + RtoC c_r * r) * RtoC 0)%C with (RtoC 0) by ring.
    f_equal. unfold cdiv. cbn. destruct (Ceq_dec (RtoC 0) (RtoC 0)) as [_|N]; [reflexivity|now destruct N].
Qed.

Lemma units_normalised :
  forall (signal signal' : sample -> res CV) (k : R) (f : CV -> CV) (s ref : sample) (theta : option R) (c_r : R) (polarization : string),
  0 < k -> nu_vac s <> None -> nu_vac ref <> None ->
  (exists x : R, x <> 0 /\ forall v, f v = (rc x * v)%cv) ->
  signal' (rescale_sample k s) = map_res f (signal s) -> signal' (rescale_sample k ref) = map_res f (signal ref) ->
  normalised signal' (rescale_sample k s) (rescale_sample k ref) theta c_r polarization
  = normalised signal s ref theta c_r polarization.
Proof.
  intros signal signal' k f s ref th c_r pl Hk Hs Href (x & Hx & Hf) E E'. unfold normalised. rewrite E, E'.
  destruct (C17_units_far_field_proof k s None th None pl Hk (or_intror Hs)) as [F _]. cbn [per_length] in F.
  destruct (C17_units_far_field_proof k ref None th None pl Hk (or_intror Href)) as [F' _]. cbn [per_length] in F'.
  rewrite F, F'.
  destruct (signal s) as [a|]; cbn [map_res rbind]; [|reflexivity].
  destruct (refl_coef s None th None pl) as [r|]; cbn [rbind]; [|reflexivity].
  destruct (signal ref) as [a'|]; cbn [map_res rbind]; [|reflexivity].
  destruct (refl_coef ref None th None pl) as [r'|]; cbn [rbind]; [|reflexivity].
  rewrite !Hf. f_equal.
  assert (Sw : forall r a, scattered c_r r (rc x * a)%cv = (rc x * scattered c_r r a)%cv).
  { intros [u|] [v|]; unfold scattered; cbn; try reflexivity. f_equal. ring. }
  rewrite !Sw. apply cdiv_scale. exact Hx.
Qed.

Lemma map_res_id {A} (x : res A) : map_res (fun v => v) x = x.
Proof. now destruct x. Qed.

(** C95. Units of length cancel from the whole calculation, with the finite-dipole
    and with the point-dipole signal. *)
Lemma C95_units_proof :
  forall (laggauss : laggauss_t) (k : R) (D : Defaults) (s ref : sample) (A_tip : R) (n : Z) (z_tip r_tip L_tip : option R)
    (g_factor : option C) (d_Q0 d_Q1 d_Qa : option R) (n_lag n_trapz : option nat) (method : option string) (eps_tip alpha_tip : option C)
    (theta : option R) (c_r : R) (polarization : string),
  let D' := rescale_defaults k D in let s' := rescale_sample k s in let ref' := rescale_sample k ref in
  let z' := in_length k z_tip in let r' := in_length k r_tip in let L' := in_length k L_tip in let a' := in_volume k alpha_tip in
  0 < k -> nu_vac s <> None -> nu_vac ref <> None -> given_or (d_L_tip D) L_tip + 2 * given_or (d_r_tip D) r_tip <> 0 ->
  normalised (fun x => fdm_eff_pol_n laggauss D' x (k * A_tip) n z' n_trapz r' L' g_factor d_Q0 d_Q1 d_Qa n_lag method) s' ref' theta c_r polarization
  = normalised (fun x => fdm_eff_pol_n laggauss D x A_tip n z_tip n_trapz r_tip L_tip g_factor d_Q0 d_Q1 d_Qa n_lag method) s ref theta c_r polarization /\
  normalised (fun x => pdm_eff_pol_n D' x (k * A_tip) n z' n_trapz r' eps_tip a') s' ref' theta c_r polarization
  = normalised (fun x => pdm_eff_pol_n D x A_tip n z_tip n_trapz r_tip eps_tip alpha_tip) s ref theta c_r polarization.
Proof.
  intros lg k D s ref A n z r L g d0 d1 da nl nt m et at_ th c pl D' s' ref' z' r' L' a' Hk Hs Hr HL. split.
  - apply (units_normalised _ _ k (fun v => v)); try assumption.
    + exists 1. split; [lra|]. intros [v|]; cbn; [f_equal; ring|reflexivity].
    + destruct (C42_fdm_units_proof lg k D s A n z r L g d0 d1 da nl nt None m None Hk HL) as (_ & E & _). rewrite map_res_id. exact E.
    + destruct (C42_fdm_units_proof lg k D ref A n z r L g d0 d1 da nl nt None m None Hk HL) as (_ & E & _). rewrite map_res_id. exact E.
  - apply (units_normalised _ _ k (fun v => rc (k ^ 3) * v)%cv); try assumption.
    + exists (k ^ 3). split; [apply pow_nonzero; lra|]. reflexivity.
    + destruct (C42_pdm_units_proof k D s A n z r et at_ nt None None Hk) as (_ & E & _). exact E.
    + destruct (C42_pdm_units_proof k D ref A n z r et at_ nt None None Hk) as (_ & E & _). exact E.
Qed.
