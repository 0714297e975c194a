From Coq Require Import String Reals Lra Lia ZArith List Bool.
From Coquelicot Require Import Rcomplements Complex.
From Verif Require Import Num ModelBase ModelSample ModelTip ModelInt SpecInt.
Import ListNotations.
Open Scope R_scope.

Lemma pow2_pos w : (0 < 2 ^ Z.of_nat w)%Z.
Proof. apply Z.pow_pos_nonneg; lia. Qed.
Lemma half_pow2 w : (0 < w)%nat -> (2 * (2 ^ Z.of_nat w / 2) = 2 ^ Z.of_nat w)%Z.
Proof.
  destruct w; [lia|intros _]. rewrite Nat2Z.inj_succ, Z.pow_succ_r by lia.
  rewrite (Z.mul_comm 2 (2 ^ Z.of_nat w)), Z.div_mul by lia. lia.
Qed.

Lemma wrap_low w sg z : exists k, (wrap (Word w sg) z = z + k * 2 ^ Z.of_nat w)%Z.
Proof.
  pose proof (pow2_pos w). destruct sg; cbn [wrap].
  - set (h := (2 ^ Z.of_nat w / 2)%Z). exists (- ((z + h) / 2 ^ Z.of_nat w))%Z.
    pose proof (Z_div_mod_eq_full (z + h) (2 ^ Z.of_nat w)). lia.
  - exists (- (z / 2 ^ Z.of_nat w))%Z.
    pose proof (Z_div_mod_eq_full z (2 ^ Z.of_nat w)). lia.
Qed.
Lemma wrap_fits w sg z : (0 < w)%nat -> fits (Word w sg) (wrap (Word w sg) z).
Proof.
  intros Hw. pose proof (pow2_pos w) as P. pose proof (half_pow2 w Hw) as H. destruct sg; cbn [wrap fits].
  - set (h := (2 ^ Z.of_nat w / 2)%Z) in *.
    pose proof (Z.mod_pos_bound (z + h) (2 ^ Z.of_nat w) P). lia.
  - apply Z.mod_pos_bound, P.
Qed.
Lemma wrap_id t z : match t with Word w _ => (0 < w)%nat | _ => True end -> fits t z -> wrap t z = z.
Proof.
  destruct t as [|w [|]]; cbn [wrap fits]; intros Hw F; [reflexivity| |].
  - pose proof (half_pow2 w Hw). rewrite Z.mod_small; lia.
  - apply Z.mod_small, F.
Qed.
Lemma wrap_mod w sg x y : same_bits w x y -> wrap (Word w sg) x = wrap (Word w sg) y.
Proof.
  intros [k E]. assert (x = y + k * 2 ^ Z.of_nat w)%Z as -> by lia.
  destruct sg; cbn [wrap].
  - replace (y + k * 2 ^ Z.of_nat w + 2 ^ Z.of_nat w / 2)%Z
      with (y + 2 ^ Z.of_nat w / 2 + k * 2 ^ Z.of_nat w)%Z by ring.
    rewrite Z_mod_plus_full. reflexivity.
  - rewrite Z_mod_plus_full. reflexivity.
Qed.

(** NumPy integers keep the low bits: what is stored fits, and differs from the
    exact result by a multiple of 2^bits; results that fit are exact. *)
Lemma C88_low_bits_proof : forall (w : nat) (sg : bool) (z : Z), (0 < w)%nat ->
  fits (Word w sg) (wrap (Word w sg) z) /\
  same_bits w (wrap (Word w sg) z) z /\
  (fits (Word w sg) z -> wrap (Word w sg) z = z) /\
  (forall z', fits (Word w sg) z' -> same_bits w z' z -> z' = wrap (Word w sg) z).
Proof.
  intros w sg z Hw. split; [apply wrap_fits, Hw|]. split; [|split].
  - destruct (wrap_low w sg z) as [k E]. exists k. lia.
  - apply wrap_id, Hw.
  - intros z' F' S. rewrite <- (wrap_mod w sg z' z S). symmetry. apply wrap_id; assumption.
Qed.

Definition tok (t : itype) : Prop := match t with Word w _ => (0 < w)%nat | Unbounded => True end.

Lemma val_real_of n : val n = real_of n. Proof. destruct n; reflexivity. Qed.
Lemma pow_ok t k n : tok t -> power_fits t k n -> val (n_pow t n k) = real_of n ^ k.
Proof.
  intros T P. destruct n; cbn [n_pow val real_of]; [|reflexivity].
  rewrite wrap_id by assumption. now rewrite <- pow_IZR.
Qed.
Lemma mul_ok t a b : tok t -> product_fits t a b -> val (n_mul t a b) = real_of a * real_of b.
Proof.
  intros T P. destruct a, b; cbn [n_mul val real_of]; try reflexivity.
  rewrite wrap_id by assumption. apply mult_IZR.
Qed.
Lemma add_ok t a b : tok t -> sum_fits t a b -> val (n_add t a b) = real_of a + real_of b.
Proof.
  intros T P. destruct a, b; cbn [n_add val real_of]; try reflexivity.
  rewrite wrap_id by assumption. apply plus_IZR.
Qed.

Lemma to_float_in_floats s : to_float s = in_floats s.
Proof.
  unfold to_float, in_floats. rewrite (map_ext val real_of val_real_of). f_equal.
Qed.

(** ** In range *)
Lemma combine_map_right {A B D} (g : B -> D) : forall (l : list A) (m : list B),
  combine l (map g m) = map (fun p => (fst p, g (snd p))) (combine l m).
Proof. induction l as [|a l IH]; intros [|b m]; cbn; [reflexivity..|]. now rewrite IH. Qed.
Lemma i_transfer_float t s q th nu pol : tok t ->
  opt_ok (power_fits t 2) q -> opt_ok (power_fits t 2) nu -> opt_ok (power_fits t 2) (i_nu_vac s) ->
  i_transfer_matrix t s q th nu pol
  = transfer_matrix (in_floats s) (option_map real_of q) th (option_map real_of nu) pol.
Proof.
  intros T Hq Hn Hs. unfold i_transfer_matrix, transfer_matrix.
  assert (exists v, power_fits t 2 v /\ i_resolve_nu s nu = Ok v /\ resolve_nu (in_floats s) (option_map real_of nu) = Ok (real_of v)
    \/ exists e, i_resolve_nu s nu = Raise e /\ resolve_nu (in_floats s) (option_map real_of nu) = Raise e) as Hv.
  { unfold i_resolve_nu, resolve_nu. destruct nu as [v|]; cbn [option_map].
    - exists v. left. cbn in Hn. auto.
    - cbn [in_floats nu_vac]. destruct (i_nu_vac s) as [v|]; cbn [option_map].
      + exists v. left. cbn in Hs. auto.
      + rewrite to_float_in_floats. destruct (multilayer (in_floats s)).
        * exists (F 0). right. eexists. eauto.
        * exists (F 1). left. cbn. auto. }
  destruct Hv as [v [(Pv & -> & ->)|(e & -> & ->)]]; cbn [rbind]; [|reflexivity].
  assert (exists x, power_fits t 2 x /\ i_resolve_q v q th = Ok x /\ resolve_q (real_of v) (option_map real_of q) th = Ok (real_of x)
    \/ exists e, i_resolve_q v q th = Raise e /\ resolve_q (real_of v) (option_map real_of q) th = Raise e) as Hx.
  { unfold i_resolve_q, resolve_q. destruct th as [a|], q as [x|]; cbn [option_map].
    - exists (F 0). right. eexists. eauto.
    - exists (F (val v * sin (Rabs a))). left. cbn [power_fits]. rewrite val_real_of. cbn [real_of]. auto.
    - exists x. left. cbn in Hq. auto.
    - exists (F 0). left. cbn. auto. }
  destruct Hx as [x [(Px & -> & ->)|(e & -> & ->)]]; cbn [rbind]; [|reflexivity].
  unfold n_layers, multilayer, n_layers. cbn [in_floats eps_stack t_stack].
  destruct (Nat.eqb (length (i_eps_stack s)) 0); [reflexivity|].
  replace (map (fun e => csqrt (e * rc (val (n_pow t v 2)) - rc (val (n_pow t x 2)))%cv) (i_eps_stack s))
    with (map (nu_z_of (real_of v) (real_of x)) (i_eps_stack s)).
  2:{ apply map_ext. intros e. unfold nu_z_of. rewrite !pow_ok by assumption. reflexivity. }
  destruct (if String.eqb pol "p" then Ok true else if String.eqb pol "s" then Ok false else Raise (ValueError msg_pol)); cbn [rbind]; [|reflexivity].
  destruct (map trans_matrix _) as [|T0 Ts]; [reflexivity|].
  destruct (Nat.ltb 2 _); [|reflexivity].
  do 3 f_equal. rewrite combine_map_right. rewrite map_map. apply map_ext. intros [y d]. reflexivity.
Qed.

(** Far field: as long as the squares of the wavenumber and of the in-plane
    momentum fit into the integer type, integers give what the equal floats give. *)
Lemma C88_far_field_in_range_proof : forall t s q theta_in nu pol,
  match t with Word w _ => (0 < w)%nat | Unbounded => True end ->
  opt_ok (power_fits t 2) q -> opt_ok (power_fits t 2) nu -> opt_ok (power_fits t 2) (i_nu_vac s) ->
  i_transfer_matrix t s q theta_in nu pol
    = transfer_matrix (in_floats s) (option_map real_of q) theta_in (option_map real_of nu) pol /\
  i_refl_coef t s q theta_in nu pol
    = refl_coef (in_floats s) (option_map real_of q) theta_in (option_map real_of nu) pol /\
  i_trans_coef t s q theta_in nu pol
    = trans_coef (in_floats s) (option_map real_of q) theta_in (option_map real_of nu) pol.
Proof.
  intros t s q th nu pol T Hq Hn Hs.
  pose proof (i_transfer_float t s q th nu pol T Hq Hn Hs) as E.
  unfold i_refl_coef, i_trans_coef, refl_coef, trans_coef. rewrite E. auto.
Qed.

Lemma i_transfer_qs_float t s q : tok t -> Forall (product_fits t q) (i_t_stack s) ->
  i_transfer_matrix_qs t s q = transfer_matrix_qs (in_floats s) (rr (real_of q)).
Proof.
  intros T H. unfold i_transfer_matrix_qs, transfer_matrix_qs. rewrite to_float_in_floats.
  destruct (trans_matrices_qs (in_floats s)) as [|T0 Ts]; [reflexivity|].
  destruct (multilayer (in_floats s)); [|reflexivity].
  do 3 f_equal. unfold prop_matrices_qs. cbn [in_floats t_stack]. rewrite map_map.
  apply map_ext_in. intros d Hd. rewrite Forall_forall in H. rewrite mul_ok by auto. reflexivity.
Qed.

(** Quasistatic coefficients and surface potential: as long as the products of the
    momentum (or height) with the thicknesses, twice the height and its square fit. *)
Lemma C88_near_field_in_range_proof : forall t s q,
  match t with Word w _ => (0 < w)%nat | Unbounded => True end ->
  Forall (product_fits t q) (i_t_stack s) ->
  i_refl_coef_qs t s q = refl_coef_qs (in_floats s) (rr (real_of q)) /\
  i_trans_coef_qs t s q = trans_coef_qs (in_floats s) (rr (real_of q)) /\
  (forall laggauss D n_lag,
     (forall z, q = I z -> fits t (2 * z) /\ fits t (z ^ 2) /\ fits t (4 * z ^ 2)) ->
     i_surf_pot_and_field t laggauss D s q n_lag
     = surf_pot_and_field laggauss D (in_floats s) (rr (real_of q)) n_lag).
Proof.
  intros t s q T H. pose proof (i_transfer_qs_float t s q T H) as E.
  assert (R : i_refl_coef_qs t s q = refl_coef_qs (in_floats s) (rr (real_of q)))
    by (unfold i_refl_coef_qs, refl_coef_qs; now rewrite E).
  split; [exact R|]. split; [unfold i_trans_coef_qs, trans_coef_qs; now rewrite E|].
  intros lg D n_lag HZ.
  assert (H2 : product_fits t (I 2) q) by (destruct q as [z|]; [apply (HZ z eq_refl)|exact Logic.I]).
  assert (P2 : power_fits t 2 q) by (destruct q as [z|]; [apply (HZ z eq_refl)|exact Logic.I]).
  assert (H4 : product_fits t (I 4) (n_pow t q 2)).
  { destruct q as [z|]; [|exact Logic.I]. cbn [n_pow product_fits].
    rewrite (wrap_id t (z ^ Z.of_nat 2) T P2). apply (HZ z eq_refl). }
  unfold i_surf_pot_and_field, surf_pot_and_field, sampled_beta.
  rewrite R. change (to_float s) with (in_floats s). rewrite (mul_ok t (I 2) q T H2), (mul_ok t (I 4) _ T H4).
  replace (real_of (n_pow t q 2)) with (real_of q ^ 2) by exact (eq_sym (pow_ok t 2 q T P2)).
  destruct (Nat.eqb (dflt (d_n_lag D) n_lag) 0); [reflexivity|].
  destruct (refl_coef_qs (in_floats s) (rr (real_of q))); reflexivity.
Qed.

(** Permittivity models and interface coefficients *)
Lemma C88_permittivity_in_range_proof : forall t nu nu_j gamma_j A_j nu_plasma f_j eps_inf eps_i eps_j,
  match t with Word w _ => (0 < w)%nat | Unbounded => True end ->
  (power_fits t 2 nu -> power_fits t 2 nu_j -> opt_ok (power_fits t 2) nu_plasma ->
   (forall x y, nu = I x -> nu_j = I y -> fits t (y ^ 2 - x ^ 2)) ->
   (forall x y, f_j = Some (I x) -> nu_plasma = Some (I y) -> fits t (x * y ^ 2)) ->
   i_lorentz_perm t nu nu_j gamma_j A_j nu_plasma f_j eps_inf
   = lorentz_perm (real_of nu) (real_of nu_j) (real_of gamma_j) (option_map real_of A_j)
       (option_map real_of nu_plasma) (option_map real_of f_j) (option_map real_of eps_inf)) /\
  ((forall x y, eps_i = I x -> eps_j = I y -> fits t (y - x) /\ fits t (y + x)) ->
   i_refl_coef_qs_single t eps_i eps_j
   = refl_coef_qs_single (rc (real_of eps_i)) (rc (real_of eps_j))).
Proof.
  intros t nu nu_j g A_j nu_p f_j e_inf e_i e_j T. split.
  - intros P1 P2 P3 Hd Hf. unfold i_lorentz_perm, lorentz_perm.
    replace (val (n_sub t (n_pow t nu_j 2) (n_pow t nu 2))) with (real_of nu_j ^ 2 - real_of nu ^ 2).
    2:{ destruct nu as [x|x], nu_j as [y|y]; cbn [n_pow n_sub real_of val]; cbn [power_fits] in P1, P2;
          rewrite ?(wrap_id t _ T P1), ?(wrap_id t _ T P2), <- ?pow_IZR; try reflexivity.
        rewrite wrap_id; [now rewrite minus_IZR, <- !pow_IZR|exact T|].
        apply (Hd x y); reflexivity. }
    assert (K : forall p, nu_p = Some p -> val (n_mul t (dflt (F 1) f_j) (n_pow t p 2)) = dflt 1 (option_map real_of f_j) * real_of p ^ 2).
    { intros p ->. cbn in P3. destruct f_j as [f|]; cbn [dflt option_map].
      - rewrite mul_ok, <- (val_real_of (n_pow t p 2)), pow_ok; auto.
        destruct f as [x|x], p as [y|y]; cbn [n_pow product_fits]; try exact Logic.I.
        cbn [power_fits] in P3. rewrite wrap_id by auto. apply (Hf x y); reflexivity.
      - rewrite mul_ok, <- (val_real_of (n_pow t p 2)), pow_ok; auto; try (destruct p; exact Logic.I). }
    replace (val (dflt (F 1) e_inf)) with (dflt 1 (option_map real_of e_inf)) by (destruct e_inf as [[|]|]; reflexivity).
    destruct A_j as [a|], nu_p as [p|]; cbn [option_map rbind]; try reflexivity.
    rewrite (K p) by reflexivity. reflexivity.
  - intros H. unfold i_refl_coef_qs_single, refl_coef_qs_single.
    destruct e_i as [x|x], e_j as [y|y]; cbn [n_sub n_add real_of val];
      try (unfold rc; cbn [cadd csub olift2]; now rewrite <- RtoC_minus, <- RtoC_plus).
    destruct (H x y eq_refl eq_refl). rewrite !wrap_id by assumption.
    unfold rc; cbn [cadd csub olift2]. rewrite minus_IZR, plus_IZR. now rewrite <- RtoC_minus, <- RtoC_plus.
Qed.

(** Point-dipole model: as long as the cubes of the radius and of the distance of
    the dipole fit *)
Lemma C88_point_dipole_in_range_proof : forall t D s z_tip r_tip eps_tip alpha_tip,
  match t with Word w _ => (0 < w)%nat | Unbounded => True end ->
  opt_ok (power_fits t 3) r_tip ->
  (forall r z, r_tip = Some (I r) -> z_tip = Some (I z) -> fits t (r + z) /\ fits t ((r + z) ^ 3)) ->
  i_pdm_eff_pol t D s z_tip r_tip eps_tip alpha_tip
    = pdm_eff_pol D s (option_map real_of z_tip) (option_map real_of r_tip) eps_tip alpha_tip /\
  forall a, i_pdm_refl_coef_qs_from_eff_pol t D a z_tip r_tip eps_tip alpha_tip
    = pdm_refl_coef_qs_from_eff_pol D a (option_map real_of z_tip) (option_map real_of r_tip) eps_tip alpha_tip.
Proof.
  intros t D s z r e a T Pr Hrz.
  assert (Ed : match i_pdm_defaults t D r e a, pdm_defaults D (option_map real_of r) e a with
               | Ok x, Ok y => fst x = dflt (F (d_r_tip D)) r /\ fst y = dflt (d_r_tip D) (option_map real_of r) /\ snd x = snd y
               | Raise x, Raise y => x = y
               | _, _ => False end).
  { unfold i_pdm_defaults, pdm_defaults.
    assert (E3 : rc (4 * PI * val (n_pow t (dflt (F (d_r_tip D)) r) 3))
                 = ofR (rr 4 * rr PI * rr (dflt (d_r_tip D) (option_map real_of r)) ^ 3)%rv).
    { destruct r as [v|]; cbn [dflt option_map].
      - rewrite pow_ok by assumption. reflexivity.
      - reflexivity. }
    rewrite E3. destruct e, a; cbn [fst snd]; auto. }
  assert (Eg : forall al, i_pdm_geom_func t (dflt (F (d_z_tip D)) z) (dflt (F (d_r_tip D)) r) al
               = pdm_geom_func (rr (dflt (d_z_tip D) (option_map real_of z))) (rr (dflt (d_r_tip D) (option_map real_of r))) al).
  { intros al. unfold i_pdm_geom_func, pdm_geom_func.
    assert (E : val (n_pow t (n_add t (dflt (F (d_r_tip D)) r) (dflt (F (d_z_tip D)) z)) 3)
                = (dflt (d_r_tip D) (option_map real_of r) + dflt (d_z_tip D) (option_map real_of z)) ^ 3).
    { destruct r as [[r|r]|], z as [[z|z]|]; cbn [dflt option_map n_add n_pow val real_of]; try reflexivity.
      destruct (Hrz r z eq_refl eq_refl) as [F1 F2].
      rewrite (wrap_id t (r + z) T F1), (wrap_id t ((r + z) ^ Z.of_nat 3) T F2). now rewrite <- pow_IZR, plus_IZR. }
    rewrite E. reflexivity. }
  split; [|intros al].
  - unfold i_pdm_eff_pol, pdm_eff_pol.
    destruct (i_pdm_defaults t D r e a) as [x|], (pdm_defaults D (option_map real_of r) e a) as [y|]; try contradiction;
      cbn [rbind]; [|now subst].
    destruct Ed as (-> & -> & ->). destruct (refl_coef_qs s (rr 0)); cbn [rbind]; [|reflexivity].
    now rewrite Eg.
  - unfold i_pdm_refl_coef_qs_from_eff_pol, pdm_refl_coef_qs_from_eff_pol.
    destruct (i_pdm_defaults t D r e a) as [x|], (pdm_defaults D (option_map real_of r) e a) as [y|]; try contradiction;
      cbn [rbind]; [|now subst].
    destruct Ed as (-> & -> & ->). now rewrite Eg.
Qed.
