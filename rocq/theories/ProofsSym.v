(** * Proofs: conjugation symmetry and independence of the length unit (samples) *)
From Coq Require Import String Reals Lra Lia ZArith List Bool.
From Coquelicot Require Import Rcomplements Complex.
From Verif Require Import Num NumLemmas ModelBase ModelSample ModelTip StackLemmas Spec
  ProofsStackQS ProofsStackQS2 ProofsStackFF ProofsStackFF2 ProofsBulkFF.
Import ListNotations.
Open Scope R_scope.

(** ** Conjugation commutes with every operation *)
Lemma Cconj_plus (a b : C) : Cconj (a + b)%C = (Cconj a + Cconj b)%C.
Proof. apply C_eq; unfold Cconj, Re, Im; simpl; ring. Qed.
Lemma Cconj_minus (a b : C) : Cconj (a - b)%C = (Cconj a - Cconj b)%C.
Proof. apply C_eq; unfold Cconj, Re, Im; simpl; ring. Qed.
Lemma Cconj_mult (a b : C) : Cconj (a * b)%C = (Cconj a * Cconj b)%C.
Proof. apply C_eq; unfold Cconj, Re, Im; simpl; ring. Qed.
Lemma Cconj_R (a : R) : Cconj (RtoC a) = RtoC a.
Proof. apply C_eq; unfold Cconj, Re, Im; simpl; ring. Qed.
Lemma Cconj_invol (a : C) : Cconj (Cconj a) = a.
Proof. apply C_eq; unfold Cconj, Re, Im; simpl; ring. Qed.
Lemma Cconj_0 (a : C) : Cconj a = RtoC 0 -> a = RtoC 0.
Proof. intros H. rewrite <- (Cconj_invol a), H. apply Cconj_R. Qed.
Lemma Cconj_div (a b : C) : b <> RtoC 0 -> Cconj (a / b)%C = (Cconj a / Cconj b)%C.
Proof.
  intros H. assert (H' : Cconj b <> RtoC 0) by (intros E; apply H; now apply Cconj_0).
  symmetry. apply Cdiv_eq; [exact H'|]. rewrite <- Cconj_mult. f_equal. field. exact H.
Qed.
Lemma Cmod_conj (a : C) : Cmod (Cconj a) = Cmod a.
Proof. unfold Cmod, Cconj. simpl. f_equal. ring. Qed.

Lemma conjV_add a b : conjV (a + b)%cv = (conjV a + conjV b)%cv.
Proof. destruct a, b; try reflexivity. unfold cadd, conjV. cbn [olift2]. now rewrite Cconj_plus. Qed.
Lemma conjV_sub a b : conjV (a - b)%cv = (conjV a - conjV b)%cv.
Proof. destruct a, b; try reflexivity. unfold csub, conjV. cbn [olift2]. now rewrite Cconj_minus. Qed.
Lemma conjV_mul a b : conjV (a * b)%cv = (conjV a * conjV b)%cv.
Proof. destruct a, b; try reflexivity. unfold cmul, conjV. cbn [olift2]. now rewrite Cconj_mult. Qed.
Lemma conjV_div a b : conjV (a / b)%cv = (conjV a / conjV b)%cv.
Proof.
  destruct a as [a|], b as [b|]; try reflexivity.
  cbn [conjV]. destruct (Ceq_dec b 0) as [->|E].
  - rewrite Cconj_R, !cdiv_zero. reflexivity.
  - rewrite !cdiv_ok; [now rewrite <- Cconj_div|intros E'; apply E; now apply Cconj_0|exact E].
Qed.
Lemma conjV_rc a : conjV (rc a) = rc a.
Proof. unfold rc, conjV. now rewrite Cconj_R. Qed.
Lemma conjV_ofR a : conjV (ofR a) = ofR a.
Proof. destruct a; [|reflexivity]. unfold ofR, conjV. cbn [olift1]. now rewrite Cconj_R. Qed.
Lemma conjV_exp_R a : conjV (cexp (ofR a)) = cexp (ofR a).
Proof. destruct a; [|reflexivity]. unfold ofR, cexp, conjV. cbn [olift1]. now rewrite Cexp_R, Cconj_R. Qed.
Lemma Cpown_conj a n : Cpown (Cconj a) n = Cconj (Cpown a n).
Proof. induction n; simpl; [now rewrite Cconj_R|]. now rewrite IHn, Cconj_mult. Qed.
Lemma conjV_pow a n : conjV (a ^ n)%cv = (conjV a ^ n)%cv.
Proof. destruct a; [|reflexivity]. unfold cpown, conjV. cbn [olift1]. now rewrite Cpown_conj. Qed.
Lemma conjV_sum l : conjV (csum l) = csum (map conjV l).
Proof.
  induction l as [|a l IH]; simpl; [apply conjV_rc|]. unfold csum in *. now rewrite conjV_add, IH.
Qed.
Lemma cabs_conjV a : cabs (conjV a) = cabs a.
Proof. destruct a; [|reflexivity]. unfold cabs, conjV. cbn [olift1]. now rewrite Cmod_conj. Qed.
Lemma conjV_invol a : conjV (conjV a) = a.
Proof. destruct a; [|reflexivity]. cbn. now rewrite Cconj_invol. Qed.

Definition conjM (M : mat) : mat := mkMat (conjV (m00 M)) (conjV (m01 M)) (conjV (m10 M)) (conjV (m11 M)).
Lemma conjM_mul A B : conjM (mmul A B) = mmul (conjM A) (conjM B).
Proof. unfold conjM, mmul. cbn [m00 m01 m10 m11]. now rewrite !conjV_add, !conjV_mul. Qed.
Lemma conjM_trans x : conjM (trans_matrix x) = trans_matrix (conjV x).
Proof.
  unfold conjM, trans_matrix. cbn [m00 m01 m10 m11].
  now rewrite !conjV_div, !conjV_add, !conjV_mul, !conjV_rc.
Qed.
Lemma conjM_prop a b : conjM (prop_matrix a b) = prop_matrix (conjV a) (conjV b).
Proof.
  unfold conjM, prop_matrix. cbn [m00 m01 m10 m11]. now rewrite !conjV_mul, !conjV_rc.
Qed.
Lemma conjM_chain l : forall M,
  conjM (chain M l) = chain (conjM M) (map (fun tp => (conjM (fst tp), conjM (snd tp))) l).
Proof.
  induction l as [|[T P] l IH]; intros M; [reflexivity|].
  cbn [chain fold_left map fst snd]. fold (chain (mmul (mmul M P) T) l).
  rewrite IH, !conjM_mul. reflexivity.
Qed.

Lemma conj_layers s : n_layers (conj_sample s) = n_layers s.
Proof. unfold n_layers, conj_sample. cbn. apply map_length. Qed.
Lemma conj_multilayer s : multilayer (conj_sample s) = multilayer s.
Proof. unfold multilayer. now rewrite conj_layers. Qed.

Lemma removelast_map {A B} (f : A -> B) l : removelast (map f l) = map f (removelast l).
Proof.
  induction l as [|a [|b l] IH]; [reflexivity|reflexivity|].
  cbn [map removelast] in *. now rewrite IH.
Qed.
Lemma tl_map {A B} (f : A -> B) l : tl (map f l) = map f (tl l).
Proof. destruct l; reflexivity. Qed.
Lemma combine_map2 {A B A' B'} (f : A -> A') (g : B -> B') l : forall m,
  combine (map f l) (map g m) = map (fun p => (f (fst p), g (snd p))) (combine l m).
Proof. induction l as [|a l IH]; intros [|b m]; simpl; congruence. Qed.

Lemma conj_Ts s : trans_matrices_qs (conj_sample s) = map conjM (trans_matrices_qs s).
Proof.
  unfold trans_matrices_qs, conj_sample. cbn [eps_stack].
  rewrite removelast_map, tl_map, combine_map2, !map_map. apply map_ext. intros [a b]. cbn [fst snd].
  now rewrite conjM_trans, conjV_div.
Qed.
Lemma conj_Ps s q : prop_matrices_qs (conj_sample s) q = map conjM (prop_matrices_qs s q).
Proof.
  unfold prop_matrices_qs, conj_sample. cbn [t_stack]. rewrite map_map. apply map_ext. intros t.
  now rewrite conjM_prop, !conjV_exp_R.
Qed.

Lemma conj_transfer_qs s q : transfer_matrix_qs (conj_sample s) q = map_res conjM (transfer_matrix_qs s q).
Proof.
  unfold transfer_matrix_qs. rewrite conj_Ts, conj_Ps, conj_multilayer.
  destruct (trans_matrices_qs s) as [|T0 Ts]; [reflexivity|]. cbn [map].
  destruct (multilayer s); cbn [map_res].
  - rewrite conjM_chain, combine_map2. reflexivity.
  - f_equal. unfold conjM. cbn [m00 m01 m10 m11]. now rewrite !conjV_mul, !conjV_rc.
Qed.

(** C15. Conjugating every permittivity conjugates the quasistatic
    reflection and transmission coefficients, for every sample and momentum
    (non-finite results stay non-finite, exceptions stay the same). *)
Lemma C15_conj_refl_trans_qs_proof :
  forall (s : sample) (q : RV),
  refl_coef_qs (conj_sample s) q = map_res conjV (refl_coef_qs s q) /\
  trans_coef_qs (conj_sample s) q = map_res conjV (trans_coef_qs s q).
Proof.
  intros s q. unfold refl_coef_qs, trans_coef_qs. rewrite conj_transfer_qs.
  destruct (transfer_matrix_qs s q) as [M|]; [|split; reflexivity]. cbn [map_res rbind conjM m10 m00].
  now rewrite !conjV_div, conjV_rc.
Qed.

Lemma conj_sampled lg s z n :
  sampled_beta lg (conj_sample s) z n
  = map_res (map (fun p => match p with (x, w, b) => (x, w, conjV b) end)) (sampled_beta lg s z n).
Proof.
  unfold sampled_beta. destruct (Nat.eqb n 0); [reflexivity|].
  rewrite (proj1 (C15_conj_refl_trans_qs_proof s z)).
  destruct (refl_coef_qs s z) as [b0|]; [|reflexivity]. cbn [map_res rbind].
  induction (lg n) as [|[x w] l IH]; [reflexivity|]. cbn [mapM fst snd].
  rewrite (proj1 (C15_conj_refl_trans_qs_proof s _)).
  destruct (refl_coef_qs s _) as [b|]; [|reflexivity]. cbn [map_res rbind].
  rewrite IH. clear IH. destruct (mapM _ l) as [l'|]; reflexivity.
Qed.

(** C15. ... the height-dependent averages ... *)
Lemma C15_conj_averages_proof :
  forall (laggauss : laggauss_t) (D : Defaults) (s : sample) (z_Q : RV) (n_lag : option nat),
  refl_coef_qs_above_surf laggauss D (conj_sample s) z_Q n_lag
  = map_res conjV (refl_coef_qs_above_surf laggauss D s z_Q n_lag) /\
  surf_pot_and_field laggauss D (conj_sample s) z_Q n_lag
  = map_res (fun p => (conjV (fst p), conjV (snd p))) (surf_pot_and_field laggauss D s z_Q n_lag) /\
  image_depth_and_charge laggauss D (conj_sample s) z_Q n_lag
  = map_res (fun p => (fst p, conjV (snd p))) (image_depth_and_charge laggauss D s z_Q n_lag).
Proof.
  intros lg D s z n.
  assert (S : surf_pot_and_field lg D (conj_sample s) z n
    = map_res (fun p => (conjV (fst p), conjV (snd p))) (surf_pot_and_field lg D s z n)).
  { unfold surf_pot_and_field. rewrite conj_sampled.
    destruct (sampled_beta _ _ _ _) as [l|]; [|reflexivity]. cbn [map_res rbind fst snd].
    rewrite !conjV_div, !conjV_sum, !conjV_ofR, !map_map. do 2 f_equal; f_equal; f_equal; apply map_ext;
      intros [[x w] b]; now rewrite conjV_mul, ?conjV_rc, ?conjV_ofR. }
  repeat split.
  - unfold refl_coef_qs_above_surf. rewrite conj_sampled.
    destruct (sampled_beta _ _ _ _) as [l|]; [|reflexivity]. cbn [map_res rbind].
    rewrite conjV_sum, !map_map. do 2 f_equal. apply map_ext.
    intros [[x w] b]. now rewrite conjV_mul, ?conjV_ofR.
  - exact S.
  - unfold image_depth_and_charge. rewrite S.
    destruct (surf_pot_and_field lg D s z n) as [[phi E]|]; [|reflexivity]. cbn [map_res rbind fst snd].
    now rewrite <- conjV_div, cabs_conjV, <- conjV_pow, <- conjV_div.
Qed.

Lemma conj_geom z d r L g : fdm_geom_func z d r L (conjV g) = conjV (fdm_geom_func z d r L g).
Proof. unfold fdm_geom_func. now rewrite conjV_div, conjV_mul, conjV_sub, !conjV_ofR. Qed.
Lemma conj_geom_multi z d r L g : fdm_geom_func_multi z d r L (conjV g) = conjV (fdm_geom_func_multi z d r L g).
Proof. unfold fdm_geom_func_multi. now rewrite conjV_div, conjV_mul, conjV_sub, !conjV_ofR. Qed.

(** C15. ... and the effective polarizability of both tip models (with the
    conjugate g_factor / tip material). *)
Lemma C15_conj_fdm_eff_pol_proof :
  forall (laggauss : laggauss_t) (D : Defaults) (s : sample) (z_tip r_tip L_tip : option R) (g : C)
    (d_Q0 d_Q1 d_Qa : option R) (n_lag : option nat) (method : option string),
  fdm_eff_pol laggauss D (conj_sample s) z_tip r_tip L_tip (Some (Cconj g)) d_Q0 d_Q1 d_Qa n_lag method
  = map_res conjV (fdm_eff_pol laggauss D s z_tip r_tip L_tip (Some g) d_Q0 d_Q1 d_Qa n_lag method).
Proof.
  intros lg D s z r L g d0 d1 da n m. unfold fdm_eff_pol, fdm_defaults. cbn [dflt].
  rewrite conj_multilayer. change (Some (Cconj g)) with (conjV (Some g)).
  rewrite !conj_geom. rewrite (proj1 (C15_conj_refl_trans_qs_proof s (rr 0))).
  match goal with |- context [if String.eqb ?m "bulk" then _ else _] => generalize m end. intros me.
  destruct (String.eqb me "bulk").
  { destruct (multilayer s); [reflexivity|].
    destruct (refl_coef_qs s (rr 0)) as [b|]; [|reflexivity]. cbn [map_res rbind].
    now rewrite conjV_add, conjV_div, !conjV_mul, conjV_sub, conjV_mul, !conjV_rc. }
  destruct (String.eqb me "multi").
  { rewrite !(proj2 (proj2 (C15_conj_averages_proof lg D s _ n))).
    destruct (image_depth_and_charge lg D s _ n) as [[i0 b0]|]; [|reflexivity]. cbn [map_res rbind fst snd].
    destruct (image_depth_and_charge lg D s _ n) as [[i1 b1]|]; [|reflexivity]. cbn [map_res rbind fst snd].
    rewrite !conj_geom_multi.
    now rewrite conjV_add, conjV_div, !conjV_mul, conjV_sub, conjV_mul, !conjV_rc. }
  destruct (String.eqb me "Q_ave"); [|reflexivity].
  rewrite (proj1 (C15_conj_averages_proof lg D s _ n)).
  destruct (refl_coef_qs_above_surf lg D s _ n) as [b|]; [|reflexivity]. cbn [map_res rbind].
  now rewrite conjV_add, conjV_div, !conjV_mul, conjV_sub, conjV_mul, !conjV_rc.
Qed.


Lemma conj_pdm_defaults D r eps alpha :
  pdm_defaults D r (conjO eps) (conjO alpha)
  = map_res (fun p => (fst p, conjV (snd p))) (pdm_defaults D r eps alpha).
Proof.
  unfold pdm_defaults. destruct eps as [e|], alpha as [a|]; try reflexivity; cbn [conjO map_res fst snd].
  - change (Some (Cconj e)) with (conjV (Some e)).
    now rewrite conjV_div, conjV_mul, conjV_sub, conjV_add, !conjV_rc, conjV_ofR.
  - now rewrite conjV_ofR.
Qed.

Lemma C15_conj_pdm_eff_pol_proof :
  forall (D : Defaults) (s : sample) (z_tip r_tip : option R) (eps_tip alpha_tip : option C),
  pdm_eff_pol D (conj_sample s) z_tip r_tip (conjO eps_tip) (conjO alpha_tip)
  = map_res conjV (pdm_eff_pol D s z_tip r_tip eps_tip alpha_tip).
Proof.
  intros. unfold pdm_eff_pol. rewrite conj_pdm_defaults.
  destruct (pdm_defaults _ _ _ _) as [[r a]|]; [|reflexivity]. cbn [map_res rbind fst snd].
  rewrite (proj1 (C15_conj_refl_trans_qs_proof s (rr 0))).
  destruct (refl_coef_qs s (rr 0)) as [b|]; [|reflexivity]. cbn [map_res rbind].
  unfold pdm_geom_func. now rewrite conjV_div, conjV_sub, conjV_mul, conjV_div, conjV_rc, conjV_ofR.
Qed.

Lemma real_conj_sample s : real_sample s -> conj_sample s = s.
Proof.
  intros H. destruct s as [es ts nu]. unfold conj_sample, real_sample in *. cbn in *. f_equal.
  induction H as [|e es [x ->] _ IH]; [reflexivity|]. cbn [map]. now rewrite conjV_rc, IH.
Qed.
Lemma conj_fix_real z : conjV (Some z) = Some z -> z = RtoC (Re z).
Proof.
  intros H. injection H as H. apply (f_equal snd) in H. destruct z as [a b]. cbn in H.
  unfold RtoC, Re. simpl. f_equal. lra.
Qed.

(** C15. In particular a lossless sample (all permittivities real) has real
    responses wherever they are finite: the reflection coefficient at each
    momentum, its height averages, and both effective polarizabilities (for a
    real g_factor, resp. a perfectly conducting tip). *)
Lemma C15_lossless_is_real_proof :
  forall (laggauss : laggauss_t) (D : Defaults) (s : sample), real_sample s ->
  (forall q z, refl_coef_qs s q = Ok (Some z) -> Im z = 0) /\
  (forall z_Q n_lag z, refl_coef_qs_above_surf laggauss D s z_Q n_lag = Ok (Some z) -> Im z = 0) /\
  (forall z_tip r_tip L_tip (g : R) d_Q0 d_Q1 d_Qa n_lag method z,
     fdm_eff_pol laggauss D s z_tip r_tip L_tip (Some (RtoC g)) d_Q0 d_Q1 d_Qa n_lag method = Ok (Some z) ->
     Im z = 0) /\
  (forall z_tip r_tip z, pdm_eff_pol D s z_tip r_tip None None = Ok (Some z) -> Im z = 0).
Proof.
  intros lg D s Hs.
  assert (K : forall z, map_res conjV (Ok (Some z)) = Ok (Some z) -> Im z = 0).
  { intros z H. cbn [map_res] in H. injection H as H.
    destruct z as [a b]. unfold Cconj in H. cbn in H. injection H as H. unfold Im. simpl. lra. }
  repeat split; intros.
  - apply K. rewrite <- H. rewrite <- (proj1 (C15_conj_refl_trans_qs_proof s q)).
    now rewrite real_conj_sample.
  - apply K. rewrite <- H. rewrite <- (proj1 (C15_conj_averages_proof lg D s z_Q n_lag)).
    now rewrite real_conj_sample.
  - apply K. rewrite <- H, <- C15_conj_fdm_eff_pol_proof, Cconj_R, real_conj_sample by assumption. reflexivity.
  - apply K. rewrite <- H, <- C15_conj_pdm_eff_pol_proof, real_conj_sample by assumption. reflexivity.
Qed.

(** ** C17: units *)
Lemma rescale_layers k s : n_layers (rescale_sample k s) = n_layers s.
Proof. reflexivity. Qed.

Definition per_lengthV (k : R) (q : RV) : RV := match q with Some v => Some (v / k) | None => None end.

Lemma rescale_Ps k s q : k <> 0 -> prop_matrices_qs (rescale_sample k s) (per_lengthV k q) = prop_matrices_qs s q.
Proof.
  intros Hk. unfold prop_matrices_qs, rescale_sample. cbn [t_stack]. rewrite map_map. apply map_ext. intros t.
  replace (per_lengthV k q * rr (k * t))%rv with (q * rr t)%rv; [reflexivity|].
  destruct q as [q|]; [|reflexivity]. unfold rmul, rr. cbn. f_equal. field. exact Hk.
Qed.
Lemma rescale_transfer_qs k s q : k <> 0 ->
  transfer_matrix_qs (rescale_sample k s) (per_lengthV k q) = transfer_matrix_qs s q.
Proof.
  intros Hk. unfold transfer_matrix_qs. rewrite rescale_Ps by exact Hk. reflexivity.
Qed.

(** C17. Quasistatic coefficients depend on momentum and thicknesses only
    through their products. *)
Lemma C17_units_refl_trans_qs_proof :
  forall (k : R) (s : sample) (q : R), 0 < k ->
  refl_coef_qs (rescale_sample k s) (rr (q / k)) = refl_coef_qs s (rr q) /\
  trans_coef_qs (rescale_sample k s) (rr (q / k)) = trans_coef_qs s (rr q).
Proof.
  intros k s q Hk. unfold refl_coef_qs, trans_coef_qs.
  change (rr (q / k)) with (per_lengthV k (rr q)).
  rewrite rescale_transfer_qs by lra. auto.
Qed.

Lemma nu_z_per k nu q e : 0 < k -> nu_z_of (nu / k) (q / k) e = (rc (/ k) * nu_z_of nu q e)%cv.
Proof.
  intros Hk. unfold Rdiv. rewrite !(Rmult_comm _ (/ k)). apply nu_z_scale. now apply Rinv_0_lt_compat.
Qed.

Lemma map_rc_nth c (l : list CV) i : nth i (map (fun x => rc c * x)%cv l) None = (rc c * nth i l None)%cv.
Proof. exact (map_nth (fun x => rc c * x)%cv l None i). Qed.

(** C17. Far field: angles stay, momenta and wavenumbers are per length.
    The wavenumber must be known (a bulk sample without any uses the number 1
    in whatever unit, see C19). *)
Lemma C17_units_far_field_proof :
  forall (k : R) (s : sample) (q theta_in nu : option R) (polarization : string), 0 < k ->
  (nu <> None \/ nu_vac s <> None) ->
  refl_coef (rescale_sample k s) (per_length k q) theta_in (per_length k nu) polarization
  = refl_coef s q theta_in nu polarization /\
  trans_coef (rescale_sample k s) (per_length k q) theta_in (per_length k nu) polarization
  = trans_coef s q theta_in nu polarization.
Proof.
  intros k s q th nu pl Hk Hnu.
  assert (E : transfer_matrix (rescale_sample k s) (per_length k q) th (per_length k nu) pl
              = transfer_matrix s q th nu pl).
  { unfold transfer_matrix.
    assert (Hn : exists v, resolve_nu s nu = Ok v /\ resolve_nu (rescale_sample k s) (per_length k nu) = Ok (v / k)).
    { unfold resolve_nu, rescale_sample. cbn [nu_vac]. destruct nu as [v|]; [eexists; split; reflexivity|].
      destruct Hnu as [Hnu|Hnu]; [congruence|]. destruct (nu_vac s) as [v|]; [|congruence].
      eexists; split; reflexivity. }
    destruct Hn as (v & -> & ->). cbn [rbind].
    assert (Hq : (exists u, resolve_q v q th = Ok u /\ resolve_q (v / k) (per_length k q) th = Ok (u / k)) \/
                 (exists e, resolve_q v q th = Raise e /\ resolve_q (v / k) (per_length k q) th = Raise e)).
    { unfold resolve_q, per_length. destruct th as [t|], q as [u|].
      - right. eauto.
      - left. eexists. split; [reflexivity|]. f_equal. field. lra.
      - left. eexists. split; reflexivity.
      - left. exists 0. split; [reflexivity|]. f_equal. field. lra. }
    destruct Hq as [(u & -> & ->)|(e & -> & ->)]; [|reflexivity]. cbn [rbind].
    rewrite rescale_layers. destruct (Nat.eqb (n_layers s) 0); [reflexivity|].
    destruct (if String.eqb pl "p" then _ else _) as [p|]; [|reflexivity]. cbn [rbind].
    change (eps_stack (rescale_sample k s)) with (eps_stack s).
    change (multilayer (rescale_sample k s)) with (multilayer s).
    replace (map (nu_z_of (v / k) (u / k)) (eps_stack s))
      with (map (fun x => rc (/ k) * x)%cv (map (nu_z_of v u) (eps_stack s))).
    2:{ rewrite map_map. apply map_ext. intros e. symmetry. now apply nu_z_per. }
    set (Z := map (nu_z_of v u) (eps_stack s)).
    replace (map (trans_factor p (eps_stack s) (map (fun x => rc (/ k) * x)%cv Z)) (seq 0 (n_layers s - 1)))
      with (map (trans_factor p (eps_stack s) Z) (seq 0 (n_layers s - 1))).
    2:{ apply map_ext. intros i. unfold trans_factor. rewrite !map_rc_nth.
        assert (Hk' : / k <> 0) by (apply Rinv_neq_0_compat; lra).
        destruct p; [rewrite !(cmul_swap _ (rc (/ k)))|]; now rewrite cdiv_scale. }
    destruct (map trans_matrix _) as [|T0 Ts]; [reflexivity|].
    destruct (multilayer s); [|reflexivity]. do 3 f_equal.
    unfold rescale_sample. cbn [t_stack].
    rewrite tl_map, removelast_map, combine_map2, map_map. apply map_ext. intros [z t]. cbn [fst snd].
    replace (rc (/ k) * z * rc (k * t))%cv with (z * rc t)%cv; [reflexivity|].
    destruct z as [z|]; [|reflexivity]. unfold rc, cmul. cbn [olift2]. f_equal.
    rewrite RtoC_mult, RtoC_inv by lra. field. apply RtoC_neq_0. lra. }
  unfold refl_coef, trans_coef. rewrite E. auto.
Qed.

Lemma refl_qs_raise_indep s q q' e : refl_coef_qs s q = Raise e -> refl_coef_qs s q' = Raise e.
Proof.
  unfold refl_coef_qs, transfer_matrix_qs. destruct (trans_matrices_qs s); [auto|].
  destruct (multilayer s); discriminate.
Qed.

Lemma rescale_sampled k lg s z n : 0 < k ->
  sampled_beta lg (rescale_sample k s) (rr (k * z)) n = sampled_beta lg s (rr z) n.
Proof.
  intros Hk. unfold sampled_beta. destruct (Nat.eqb n 0); [reflexivity|].
  assert (HR : forall q, refl_coef_qs (rescale_sample k s) (per_lengthV k q) = refl_coef_qs s q).
  { intros q. unfold refl_coef_qs. rewrite rescale_transfer_qs by lra. reflexivity. }
  assert (HM : forall l, mapM (fun xw => let! b := refl_coef_qs (rescale_sample k s) (rr (fst xw) / (rr 2 * rr (k * z)))%rv in
                  Ok (fst xw, snd xw, b)) l
       = mapM (fun xw : R * R => let! b := refl_coef_qs s (rr (fst xw) / (rr 2 * rr z))%rv in Ok (fst xw, snd xw, b)) l).
  { intros l. apply mapM_ext. intros [x w] _. cbn [fst snd].
    rewrite <- (HR (rr x / (rr 2 * rr z))%rv). do 2 f_equal.
    unfold rmul, rr. cbn [olift2].
    destruct (Req_EM_T z 0) as [->|Hz].
    - replace (2 * (k * 0)) with 0 by ring. replace (2 * 0) with 0 by ring.
      unfold rdiv, per_lengthV. destruct (Req_EM_T 0 0); congruence.
    - rewrite !rdiv_ok by (repeat apply Rmult_integral_contrapositive_currified; lra).
      cbn. f_equal. field. lra. }
  rewrite HM.
  destruct (refl_coef_qs s (rr z)) as [b|e] eqn:E1.
  - destruct (refl_coef_qs (rescale_sample k s) (rr (k * z))) as [b'|e'] eqn:E2; [reflexivity|].
    apply (refl_qs_raise_indep _ _ (per_lengthV k (rr z))) in E2. rewrite HR in E2. congruence.
  - assert (E2 : refl_coef_qs (rescale_sample k s) (rr (k * z)) = Raise e).
    { apply (refl_qs_raise_indep _ (per_lengthV k (rr z))). rewrite HR. exact E1. }
    rewrite E2. reflexivity.
Qed.

(** C17. Height averages: the effective coefficient and the image charge do
    not change, the potential scales like 1/length, the field like
    1/length^2, the image depth like length. *)
Lemma C17_units_averages_proof :
  forall (laggauss : laggauss_t) (D : Defaults) (k : R) (s : sample) (z_Q : R) (n_lag : option nat),
  0 < k ->
  refl_coef_qs_above_surf laggauss D (rescale_sample k s) (rr (k * z_Q)) n_lag
  = refl_coef_qs_above_surf laggauss D s (rr z_Q) n_lag /\
  surf_pot_and_field laggauss D (rescale_sample k s) (rr (k * z_Q)) n_lag
  = map_res (fun pE => (fst pE / rc k, snd pE / rc (k ^ 2))%cv)
            (surf_pot_and_field laggauss D s (rr z_Q) n_lag) /\
  image_depth_and_charge laggauss D (rescale_sample k s) (rr (k * z_Q)) n_lag
  = map_res (fun db => (rr k * fst db, snd db)%rv)
            (image_depth_and_charge laggauss D s (rr z_Q) n_lag).
Proof.
  intros lg D k s z n Hk.
  assert (Hk2 : 0 < k ^ 2) by (apply pow_lt; lra).
  assert (Hdiv : forall (x : CV) (a b : R), 0 < a -> (x / rc (a * b))%cv = (x / rc b / rc a)%cv).
  { intros [x|] a b Ha; [|reflexivity]. unfold rc. destruct (Req_EM_T b 0) as [->|Hb].
    - rewrite Rmult_0_r, !cdiv_zero. reflexivity.
    - rewrite !cdiv_ok by (apply RtoC_neq_0; try apply Rmult_integral_contrapositive_currified; lra).
      f_equal. rewrite RtoC_mult. field. split; apply RtoC_neq_0; lra. }
  assert (S : surf_pot_and_field lg D (rescale_sample k s) (rr (k * z)) n
    = map_res (fun pE => (fst pE / rc k, snd pE / rc (k ^ 2))%cv) (surf_pot_and_field lg D s (rr z) n)).
  { unfold surf_pot_and_field. rewrite rescale_sampled by exact Hk.
    destruct (sampled_beta _ _ _ _) as [l|]; [|reflexivity]. cbn [map_res rbind fst snd].
    do 2 f_equal.
    - change (ofR (rr 2 * rr (k * z))%rv) with (rc (2 * (k * z))).
      change (ofR (rr 2 * rr z)%rv) with (rc (2 * z)).
      replace (2 * (k * z)) with (k * (2 * z)) by ring. apply Hdiv. exact Hk.
    - change (ofR (rr 4 * rr (k * z) ^ 2)%rv) with (rc (4 * (k * z) ^ 2)).
      change (ofR (rr 4 * rr z ^ 2)%rv) with (rc (4 * z ^ 2)).
      replace (4 * (k * z) ^ 2) with (k ^ 2 * (4 * z ^ 2)) by ring. apply Hdiv. exact Hk2. }
  repeat split.
  - unfold refl_coef_qs_above_surf. rewrite rescale_sampled by exact Hk. reflexivity.
  - exact S.
  - unfold image_depth_and_charge. rewrite S.
    destruct (surf_pot_and_field lg D s (rr z) n) as [[phi E]|]; [|reflexivity]. cbn [map_res rbind fst snd].
    assert (Hk2' : RtoC (k ^ 2) <> RtoC 0) by (apply RtoC_neq_0; lra).
    assert (Hk' : RtoC k <> RtoC 0) by (apply RtoC_neq_0; lra).
    destruct E as [E|]; [|rewrite !cdiv_None_r; reflexivity].
    unfold rc. rewrite (cdiv_ok E) by auto.
    destruct phi as [phi|]; [|reflexivity]. rewrite (cdiv_ok phi (RtoC k)) by auto.
    destruct (Ceq_dec E 0) as [->|HE].
    + replace (0 / RtoC (k ^ 2))%C with (RtoC 0) by (field; auto). rewrite !cdiv_zero. reflexivity.
    + assert (HE' : (E / RtoC (k ^ 2) <> 0)%C) by (apply Cdiv_neq_0; auto).
      unfold cpown. cbn [olift1]. rewrite !cdiv_ok by auto.
      assert (HK : RtoC (k ^ 2) = (RtoC k * RtoC k)%C) by (rewrite <- RtoC_mult; f_equal; ring).
      f_equal. f_equal.
      * unfold cabs, rsub, rmul, rr. cbn [olift1 olift2]. f_equal.
        replace (phi / RtoC k / (E / RtoC (k ^ 2)))%C with (RtoC k * (phi / E))%C.
        -- rewrite Cmod_mult, Cmod_R, Rabs_pos_eq by lra. ring.
        -- rewrite HK in *. field. auto.
      * f_equal. simpl Cpown. rewrite HK in *. field. auto.
Qed.
