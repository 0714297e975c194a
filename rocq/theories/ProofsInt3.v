From Coq Require Import String Reals Lra Lia ZArith List Bool.
From Coquelicot Require Import Rcomplements Complex.
From Verif Require Import Num ModelBase ModelSample ModelTip ModelInt SpecInt ProofsInt ProofsInt2.
Import ListNotations.
Open Scope R_scope.

Lemma wrap_neg w d : (0 < w)%nat -> (0 < d < 2 ^ Z.of_nat w)%Z -> wrap (Word w false) (- d) = (2 ^ Z.of_nat w - d)%Z.
Proof.
  intros Hw H. rewrite (wrap_mod w false (- d) (2 ^ Z.of_nat w - d)) by (exists (-1)%Z; lia).
  apply wrap_id; [exact Hw|cbn [fits]; lia].
Qed.

Lemma oscillator_C (e A d g v : R) : d <> 0 ->
  (RtoC e + RtoC A / (RtoC d - Ci * RtoC g * RtoC v))%C
  = (e + A * d / (d ^ 2 + (g * v) ^ 2), A * (g * v) / (d ^ 2 + (g * v) ^ 2)).
Proof.
  intros H. assert (0 < d ^ 2 + (g * v) ^ 2).
  { assert (0 < d ^ 2) by (apply pow2_gt_0, H). pose proof (pow2_ge_0 (g * v)). lra. }
  replace (RtoC d - Ci * RtoC g * RtoC v)%C with ((d, - (g * v)) : C)
    by (unfold RtoC, Ci; apply injective_projections; cbn; ring).
  unfold RtoC. apply injective_projections; cbn; field; nra.
Qed.
Lemma oscillator_val e A d g v : d <> 0 ->
  (rc e + rc A / (rc d - Some (0, 1)%R * rc g * rc v))%cv
  = Some (e + A * d / (d ^ 2 + (g * v) ^ 2), A * (g * v) / (d ^ 2 + (g * v) ^ 2)).
Proof.
  intros H. assert (0 < d ^ 2 + (g * v) ^ 2).
  { assert (0 < d ^ 2) by (apply pow2_gt_0, H). pose proof (pow2_ge_0 (g * v)). lra. }
  unfold rc. cbn [csub cmul cadd cdiv olift2].
  destruct (Ceq_dec _ _) as [E|_].
  { apply (f_equal fst) in E. cbn in E. exfalso. apply H. lra. }
  cbn [cadd olift2]. f_equal.
  replace (RtoC d - (0, 1) * RtoC g * RtoC v)%C with ((d, - (g * v)) : C)
    by (unfold RtoC; apply injective_projections; cbn; ring).
  unfold RtoC. apply injective_projections; cbn; field; nra.
Qed.

(** Unsigned integers: above the resonance the detuning nu_j^2 - nu^2 is negative and
    is stored as 2^bits - (nu^2 - nu_j^2).  The oscillator then looks as if it were
    far below resonance: its contribution has the wrong sign. *)
Lemma C88_unsigned_lorentz_proof : forall w nu nu_j gamma_j A_j eps_inf, (0 < w)%nat ->
  (0 <= nu_j < nu)%Z -> (nu ^ 2 < 2 ^ Z.of_nat w)%Z -> 0 < real_of A_j ->
  exists e1 e2 : C,
    i_lorentz_perm (Word w false) (I nu) (I nu_j) gamma_j (Some A_j) None None (Some eps_inf) = Ok (Some e1) /\
    lorentz_perm (IZR nu) (IZR nu_j) (real_of gamma_j) (Some (real_of A_j)) None None (Some (real_of eps_inf)) = Ok (Some e2) /\
    e1 = (RtoC (real_of eps_inf)
          + RtoC (real_of A_j) / (RtoC (IZR (2 ^ Z.of_nat w) - (IZR nu ^ 2 - IZR nu_j ^ 2))
                                  - Ci * RtoC (real_of gamma_j) * RtoC (IZR nu)))%C /\
    Re e2 < real_of eps_inf < Re e1.
Proof.
  intros w nu nu_j g A e Hw Hn Hf HA.
  assert (N2 : val (n_sub (Word w false) (n_pow (Word w false) (I nu_j) 2) (n_pow (Word w false) (I nu) 2))
               = IZR (2 ^ Z.of_nat w) - (IZR nu ^ 2 - IZR nu_j ^ 2)).
  { cbn [n_pow n_sub val]. change (Z.of_nat 2) with 2%Z.
    rewrite !(wrap_id (Word w false) (_ ^ 2)) by (try exact Hw; cbn [fits]; nia).
    replace (nu_j ^ 2 - nu ^ 2)%Z with (- (nu ^ 2 - nu_j ^ 2))%Z by ring.
    rewrite wrap_neg by (try exact Hw; nia).
    rewrite !minus_IZR. change 2%Z with (Z.of_nat 2) at 2 3. now rewrite <- !pow_IZR. }
  assert (Dpos : 0 < IZR (2 ^ Z.of_nat w) - (IZR nu ^ 2 - IZR nu_j ^ 2)).
  { rewrite !pow_IZR. change (Z.of_nat 2) with 2%Z. rewrite <- !minus_IZR. apply IZR_lt. nia. }
  assert (Dneg : IZR nu_j ^ 2 - IZR nu ^ 2 < 0).
  { rewrite !pow_IZR. change (Z.of_nat 2) with 2%Z. rewrite <- !minus_IZR. apply IZR_lt. nia. }
  set (d := IZR (2 ^ Z.of_nat w) - (IZR nu ^ 2 - IZR nu_j ^ 2)) in *.
  set (d' := IZR nu_j ^ 2 - IZR nu ^ 2) in *.
  unfold i_lorentz_perm, lorentz_perm. cbn [dflt rbind]. rewrite N2.
  change (ofR (rr (IZR nu_j) ^ 2 - rr (IZR nu) ^ 2)%rv) with (rc d').
  rewrite !val_real_of. cbn [real_of]. rewrite (oscillator_val (real_of e) (real_of A) d) by lra.
  rewrite (oscillator_val (real_of e) (real_of A) d') by lra.
  assert (Q : forall x, x <> 0 -> 0 < x ^ 2 + (real_of g * IZR nu) ^ 2).
  { intros x Hx. assert (0 < x ^ 2) by (apply pow2_gt_0, Hx). pose proof (pow2_ge_0 (real_of g * IZR nu)). lra. }
  pose proof (Q d ltac:(lra)) as Q1. pose proof (Q d' ltac:(lra)) as Q2.
  eexists. eexists. split; [reflexivity|]. split; [reflexivity|]. split.
  - symmetry. apply oscillator_C. lra.
  - cbn [Re fst]. change (val g * val (I nu)) with (real_of g * IZR nu). split.
    + assert (real_of A * d' / (d' ^ 2 + (real_of g * IZR nu) ^ 2) < 0); [|lra].
      rewrite <- (Ropp_involutive d') at 1. unfold Rdiv. pose proof (Rinv_0_lt_compat _ Q2) as Q3.
      assert (D1 : 0 < - d') by lra.
      pose proof (Rmult_lt_0_compat _ _ (Rmult_lt_0_compat _ (- d') HA D1) Q3). lra.
    + assert (0 < real_of A * d / (d ^ 2 + (real_of g * IZR nu) ^ 2)); [|lra].
      apply Rdiv_lt_0_compat; [apply Rmult_lt_0_compat; assumption|exact Q1].
Qed.

(** A metal described with unsigned wavenumbers looks like a dielectric: the Drude
    contribution, negative at every frequency, comes out positive. *)
Lemma C88_unsigned_drude_proof : forall w nu nu_plasma gamma eps_inf, (0 < w)%nat ->
  (0 < nu)%Z -> (nu ^ 2 < 2 ^ Z.of_nat w)%Z ->
  power_fits (Word w false) 2 nu_plasma -> real_of nu_plasma <> 0 ->
  exists e1 e2 : C,
    i_drude_perm (Word w false) (I nu) nu_plasma gamma (Some eps_inf) = Ok (Some e1) /\
    drude_perm (IZR nu) (real_of nu_plasma) (real_of gamma) (Some (real_of eps_inf)) = Ok (Some e2) /\
    Re e2 < real_of eps_inf < Re e1.
Proof.
  intros w nu p g e Hw Hn Hf Hp Np.
  assert (PA : 0 < real_of p ^ 2) by (apply pow2_gt_0, Np).
  destruct (C88_unsigned_lorentz_proof w nu 0 g (F (real_of p ^ 2)) e Hw ltac:(lia) Hf PA) as (e1 & e2 & E1 & E2 & _ & B).
  exists e1, e2. split; [|split; [|exact B]].
  - rewrite <- E1. unfold i_drude_perm, i_lorentz_perm. cbn [dflt rbind].
    replace (val (n_mul (Word w false) (F 1) (n_pow (Word w false) p 2))) with (val (F (real_of p ^ 2))); [reflexivity|].
    cbn [val]. rewrite mul_ok by (try exact Hw; try exact Logic.I; destruct p; exact Logic.I).
    cbn [real_of]. rewrite <- (pow_ok (Word w false) 2 p Hw Hp).
    rewrite val_real_of. ring.
  - rewrite <- E2. unfold drude_perm, lorentz_perm. cbn [dflt rbind real_of].
    replace (1 * real_of p ^ 2) with (real_of p ^ 2) by ring. reflexivity.
Qed.

(** Unsigned permittivities in [refl_coef_qs_single]: going from the denser to the
    thinner medium the coefficient should be negative (and at least -1); it comes
    out positive, and larger than one unless the permittivities take up half of the
    range. *)
Lemma C88_unsigned_interface_proof : forall w eps_i eps_j, (0 < w)%nat ->
  (0 <= eps_j < eps_i)%Z -> (eps_i + eps_j < 2 ^ Z.of_nat w)%Z ->
  exists b : R,
    i_refl_coef_qs_single (Word w false) (I eps_i) (I eps_j) = rc b /\
    b = (IZR (2 ^ Z.of_nat w) - (IZR eps_i - IZR eps_j)) / (IZR eps_i + IZR eps_j) /\ 0 < b /\
    ((2 * eps_i < 2 ^ Z.of_nat w)%Z -> 1 < b) /\
    exists b', refl_coef_qs_single (rc (IZR eps_i)) (rc (IZR eps_j)) = rc b' /\ -1 <= b' < 0.
Proof.
  intros w x y Hw Hxy Hs.
  assert (P : 0 < IZR x + IZR y) by (rewrite <- plus_IZR; apply IZR_lt; lia).
  assert (N : 0 < IZR (2 ^ Z.of_nat w) - (IZR x - IZR y)) by (rewrite <- !minus_IZR; apply IZR_lt; lia).
  assert (Dv : forall a b, b <> 0 -> (rc a / rc b)%cv = rc (a / b)).
  { intros a b Hb. unfold rc. cbn. destruct (Ceq_dec _ _) as [E|_].
    - exfalso. apply Hb. now apply (f_equal fst) in E.
    - f_equal. now rewrite RtoC_div. }
  eexists. split; [|split; [reflexivity|]].
  - unfold i_refl_coef_qs_single. cbn [n_sub n_add val].
    replace (y - x)%Z with (- (x - y))%Z by ring. rewrite wrap_neg by (try exact Hw; lia).
    rewrite wrap_id by (try exact Hw; cbn [fits]; lia).
    rewrite !minus_IZR, plus_IZR, Dv by lra. f_equal. field. lra.
  - split; [apply Rdiv_lt_0_compat; lra|]. split.
    + intros H2. apply (Rmult_lt_reg_r (IZR x + IZR y)); [exact P|].
      unfold Rdiv. rewrite Rmult_assoc, Rinv_l, Rmult_1_r by lra.
      apply IZR_lt in H2. rewrite mult_IZR in H2. lra.
    + exists ((IZR y - IZR x) / (IZR y + IZR x)). split.
      * unfold refl_coef_qs_single. rewrite <- Dv by lra. unfold rc. cbn [csub cadd olift2].
        now rewrite RtoC_minus, RtoC_plus.
      * assert (H0 : 0 <= IZR y) by (apply IZR_le; lia). assert (H1 : IZR y < IZR x) by (apply IZR_lt; lia). split.
        -- apply (Rmult_le_reg_r (IZR y + IZR x)); [lra|]. unfold Rdiv. rewrite Rmult_assoc, Rinv_l by lra. lra.
        -- apply (Rmult_lt_reg_r (IZR y + IZR x)); [lra|]. unfold Rdiv. rewrite Rmult_assoc, Rinv_l by lra. lra.
Qed.

(** Point-dipole model with integer radius and height: where the cube of their sum
    is a multiple of 2^bits, the polarisability is not finite.  (Radius and height
    in nanometres and 32-bit integers: wherever they add up to a multiple of 2048.) *)
Lemma C88_point_dipole_lost_proof : forall w sg D s r z eps_tip alpha_tip x, (0 < w)%nat ->
  same_bits w ((r + z) ^ 3) 0 ->
  i_pdm_eff_pol (Word w sg) D s (Some (I z)) (Some (I r)) eps_tip alpha_tip = Ok x -> x = None.
Proof.
  intros w sg D s r z e a x Hw Hb. unfold i_pdm_eff_pol. cbn [dflt].
  destruct (i_pdm_defaults (Word w sg) D (Some (I r)) e a) as [[r' al]|] eqn:Ed; cbn [rbind]; [|discriminate].
  assert (r' = I r) as ->.
  { unfold i_pdm_defaults in Ed. cbn [dflt] in Ed. destruct e, a; try discriminate; now injection Ed. }
  cbn [fst snd].
  assert (E : val (n_pow (Word w sg) (n_add (Word w sg) (I r) (I z)) 3) = 0).
  { cbn [n_add n_pow val]. destruct (wrap_low w sg (r + z)) as [k ->].
    change (Z.of_nat 3) with 3%Z. destruct Hb as [m Hb].
    rewrite (wrap_mod w sg _ 0).
    - rewrite wrap_id; [reflexivity|exact Hw|]. pose proof (pow2_pos w). destruct sg; cbn; lia.
    - set (y := (r + z)%Z) in *. set (M := (2 ^ Z.of_nat w)%Z) in *.
      exists (m + (3 * y ^ 2 * k + 3 * y * k ^ 2 * M + k ^ 3 * M ^ 2))%Z. lia. }
  assert (G : i_pdm_geom_func (Word w sg) (I z) (I r) al = None).
  { unfold i_pdm_geom_func. rewrite E. replace (16 * PI * 0) with 0 by ring. apply cdiv_zero. }
  rewrite G. destruct (refl_coef_qs s (rr 0)); cbn [rbind]; [|discriminate].
  intros H. injection H as <-. cbn [cmul olift2]. destruct al; reflexivity.
Qed.
