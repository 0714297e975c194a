(** * Proofs: conventions of the root-finding inverses (C83) *)
From Coq Require Import String Reals Lra Lia ZArith List Bool.
From Coquelicot Require Import Rcomplements Complex.
From Verif Require Import Num NumLemmas ModelBase ModelSample ModelTip NArr SpecArr NArrLemmas ModelObj ModelArr ModelArrTip ModelInv
  Spec SpecConv SpecInv ProofsTip3 ProofsTip4 ProofsInv5.
From Coq Require Import FunctionalExtensionality.
Import ListNotations.
Open Scope R_scope.

Lemma arr_ext {A} s (f g : list nat -> A) : (forall i, f i = g i) -> mkArr s f = mkArr s g.
Proof. intro H. f_equal. now apply functional_extensionality. Qed.
(** a ufunc applied to transformed arguments *)
Lemma lift2_hom {A B E A' B' E'} (f : A' -> B' -> E') (f0 : A -> B -> E) h h' h'' a b :
  (forall x y, f (h x) (h' y) = h'' (f0 x y)) ->
  lift2 f (lift1 h a) (lift1 h' b) = lift1 h'' (lift2 f0 a b).
Proof.
  intro H. destruct a as [a|], b as [b|]; cbn; try reflexivity. unfold amap2, amap. cbn.
  destruct (bshape _ _); cbn; [|reflexivity]. f_equal. apply arr_ext. intro i. apply H.
Qed.
Lemma lift2_inv {A B E A' B'} (f : A' -> B' -> E) (f0 : A -> B -> E) h h' a b :
  (forall x y, f (h x) (h' y) = f0 x y) ->
  lift2 f (lift1 h a) (lift1 h' b) = lift2 f0 a b.
Proof.
  intro H. rewrite (lift2_hom f f0 h h' (fun x => x) a b H).
  destruct (lift2 f0 a b) as [[s g]|]; reflexivity.
Qed.

(** ** Units *)
Definition ks (k : R) (x : RV) : RV := (rr k * x)%rv.
Lemma ks_div k a b : k <> 0 -> rdiv (ks k a) (ks k b) = rdiv a b.
Proof.
  intro Hk. destruct a as [a|], b as [b|]; try reflexivity.
  apply (rdiv_scale k a b Hk).
Qed.
Ltac rvsolve := intros; repeat match goal with x : RV |- _ => destruct x end;
  unfold ks, radd, rmul, rr; cbn [olift2]; try reflexivity; f_equal; ring.
Lemma geom_a_scale k (z d r L : arr RV) g : k <> 0 ->
  fdm_geom_func_a (amap (ks k) z) d (amap (ks k) r) (amap (ks k) L) g = fdm_geom_func_a z d r L g.
Proof.
  intro Hk. unfold fdm_geom_func_a.
  change (@amap2) with (fun A B E (f : A -> B -> E) a b => lift2 f (Ok a) (Ok b)). cbv beta.
  change (Ok (amap (ks k) z)) with (lift1 (ks k) (Ok z)).
  change (Ok (amap (ks k) r)) with (lift1 (ks k) (Ok r)).
  change (Ok (amap (ks k) L)) with (lift1 (ks k) (Ok L)).
  assert (Ed : Ok d = lift1 (fun x => x) (Ok d)) by (destruct d; reflexivity).
  replace (Ok (amap (fun L0 => (rr 2 * L0)%rv) (amap (ks k) L))) with (lift1 (ks k) (Ok (amap (fun L0 => (rr 2 * L0)%rv) L))).
  2: { cbn. f_equal. apply arr_ext. intro i. cbn. destruct (at_ L i); unfold ks, rmul, rr; cbn [olift2]; [f_equal; ring|reflexivity]. }
  replace (Ok (amap (fun L0 => (rr 4 * L0)%rv) (amap (ks k) L))) with (lift1 (ks k) (Ok (amap (fun L0 => (rr 4 * L0)%rv) L))).
  2: { cbn. f_equal. apply arr_ext. intro i. cbn. destruct (at_ L i); unfold ks, rmul, rr; cbn [olift2]; [f_equal; ring|reflexivity]. }
  rewrite Ed.
  rewrite !(lift2_hom (fun r0 z0 => (r0 + rr 2 * z0)%rv) (fun r0 z0 => (r0 + rr 2 * z0)%rv) (ks k) (ks k) (ks k)) by rvsolve.
  rewrite !(lift2_hom (fun r0 z0 => (r0 + rr 4 * z0)%rv) (fun r0 z0 => (r0 + rr 4 * z0)%rv) (ks k) (ks k) (ks k)) by rvsolve.
  rewrite !(lift2_hom rmul rmul (fun x => x) (ks k) (ks k)) by rvsolve.
  rewrite !(lift2_hom (fun d0 r0 => (rr 2 * d0 * r0)%rv) (fun d0 r0 => (rr 2 * d0 * r0)%rv) (fun x => x) (ks k) (ks k)) by rvsolve.
  rewrite !(lift2_hom radd radd (ks k) (ks k) (ks k)) by rvsolve.
  rewrite !(lift2_inv rdiv rdiv (ks k) (ks k)) by (intros; now apply ks_div).
  rewrite (lift2_inv (fun L0 r0 => (rr 4 * L0 / r0)%rv) (fun L0 r0 => (rr 4 * L0 / r0)%rv) (ks k) (ks k)).
  - rewrite <- Ed. reflexivity.
  - intros x y. rewrite <- (ks_div k (rr 4 * x)%rv y Hk). f_equal. rvsolve.
Qed.
Lemma taylor_a_scale k z j r L g d0 d1 : k <> 0 ->
  fdm_geom_func_taylor_a (amap (ks k) z) j (amap (ks k) r) (amap (ks k) L) g d0 d1 = fdm_geom_func_taylor_a z j r L g d0 d1.
Proof. intro Hk. unfold fdm_geom_func_taylor_a. now rewrite !geom_a_scale. Qed.
Lemma rr_lengths k a : amap rr (lengths_in k a) = amap (ks k) (amap rr a).
Proof. reflexivity. Qed.

Lemma lengths_plus k a b :
  amap2 Rplus (lengths_in k a) (lengths_in k b) = lift1 (Rmult k) (amap2 Rplus a b).
Proof. apply (lift2_hom Rplus Rplus (Rmult k) (Rmult k) (Rmult k) (Ok a) (Ok b)). intros; ring. Qed.
Lemma demod_a_scale k D (f g : arr R -> res (arr CV)) x0 A n nt : (forall x, g (lengths_in k x) = f x) ->
  demod_a (rescale_defaults k D) g (lengths_in k x0) (lengths_in k A) n nt = demod_a D f x0 A n nt.
Proof.
  intro H. unfold demod_a. change (d_n_trapz (rescale_defaults k D)) with (d_n_trapz D).
  change (amap2 (fun x a => x + 0 * a) (lengths_in k x0) (lengths_in k A))
    with (lift2 (fun x a => x + 0 * a) (lift1 (Rmult k) (Ok x0)) (lift1 (Rmult k) (Ok A))).
  rewrite (lift2_hom _ (fun x a => x + 0 * a) (Rmult k) (Rmult k) (Rmult k)) by (intros; ring).
  change (lift2 (fun x a => x + 0 * a) (Ok x0) (Ok A)) with (amap2 (fun x a => x + 0 * a) x0 A).
  destruct (amap2 (fun x a => x + 0 * a) x0 A) as [c|]; [|reflexivity]. cbn [lift1 rbind].
  change (amap (Rmult k) c) with (lengths_in k c). rewrite H.
  destruct (f c) as [fc|]; [|reflexivity]. cbn [rbind].
  set (th := pad_for_broadcasting _ _ _).
  replace (amap2 (fun t a => cos t * a) th (lengths_in k A))
    with (lift1 (Rmult k) (amap2 (fun t a => cos t * a) th A)).
  2: { symmetry. assert (Et : Ok th = lift1 (fun x => x) (Ok th)) by (destruct th; reflexivity).
       change (amap2 (fun t a => cos t * a) th (lengths_in k A))
         with (lift2 (fun t a => cos t * a) (Ok th) (lift1 (Rmult k) (Ok A))).
       rewrite Et at 1. apply (lift2_hom _ (fun t a => cos t * a)). intros; ring. }
  change (Ok (lengths_in k x0)) with (lift1 (Rmult k) (Ok x0)).
  rewrite (lift2_hom Rplus Rplus (Rmult k) (Rmult k) (Rmult k)) by (intros; ring).
  destruct (lift2 Rplus (Ok x0) _) as [x|]; [|reflexivity]. cbn [lift1 rbind].
  change (amap (Rmult k) x) with (lengths_in k x). now rewrite H.
Qed.
Lemma fdm_coef_a_scale k D z j A n r L g d0 d1 nt : k <> 0 ->
  fdm_taylor_coef_a (rescale_defaults k D) (lengths_in k z) j (lengths_in k A) n
    (amap (ks k) r) (amap (ks k) L) g d0 d1 nt
  = fdm_taylor_coef_a D z j A n r L g d0 d1 nt.
Proof.
  intro Hk. unfold fdm_taylor_coef_a. rewrite lengths_plus.
  destruct (amap2 Rplus z A) as [z0|]; [|reflexivity]. cbn [lift1 rbind].
  change (amap (Rmult k) z0) with (lengths_in k z0).
  rewrite (demod_a_scale k D (fun z => fdm_geom_func_taylor_a (amap rr z) j r L g d0 d1)); [reflexivity|].
  intro x. rewrite rr_lengths. now apply taylor_a_scale.
Qed.
Lemma darr_lengths k d o : darr (k * d) (option_map (lengths_in k) o) = lengths_in k (darr d o).
Proof. destruct o; reflexivity. Qed.
Lemma d_Q0_scale k L r : k <> 0 ->
  lift2 rdiv (Ok (amap (fun L => (rr (131 / 100) * rr L)%rv) (lengths_in k L)))
    (amap2 (fun L r => (rr L + rr 2 * rr r)%rv) (lengths_in k L) (lengths_in k r))
  = lift2 rdiv (Ok (amap (fun L => (rr (131 / 100) * rr L)%rv) L)) (amap2 (fun L r => (rr L + rr 2 * rr r)%rv) L r).
Proof.
  intro Hk.
  replace (Ok (amap (fun L => (rr (131 / 100) * rr L)%rv) (lengths_in k L)))
    with (lift1 (ks k) (Ok (amap (fun L => (rr (131 / 100) * rr L)%rv) L))).
  2: { cbn. f_equal. apply arr_ext. intro i. cbn. unfold ks, rmul, rr. cbn [olift2]. f_equal. ring. }
  change (amap2 (fun L r => (rr L + rr 2 * rr r)%rv) (lengths_in k L) (lengths_in k r))
    with (lift2 (fun L r => (rr L + rr 2 * rr r)%rv) (lift1 (Rmult k) (Ok L)) (lift1 (Rmult k) (Ok r))).
  rewrite (lift2_hom _ (fun L r => (rr L + rr 2 * rr r)%rv) (Rmult k) (Rmult k) (ks k)) by rvsolve.
  apply lift2_inv. intros; now apply ks_div.
Qed.

(** C83. Finite dipole model, the inversion of measured harmonics: measuring
    all lengths (arrays, amplitude, stored defaults) in a unit k times smaller
    changes neither the roots nor the mask. *)
Lemma C83_fdm_units_proof :
  forall eig_roots argsort_bool argsort_real (k : R) (D : Defaults) (alpha_eff_n : arr CV) (A_tip : arr R) (n : arr Z)
    (z_tip r_tip L_tip : option (arr R)) (g_factor : option (arr C)) (d_Q0 d_Q1 : option (arr R))
    (n_trapz n_tayl : option nat) (beta_threshold : option R) (rej_im rej_abs : bool) (eps_env : option (arr C)),
  0 < k ->
  fdm_refl_coef_qs_from_eff_pol_n eig_roots argsort_bool argsort_real (rescale_defaults k D) alpha_eff_n
    (lengths_in k A_tip) n (option_map (lengths_in k) z_tip) (option_map (lengths_in k) r_tip)
    (option_map (lengths_in k) L_tip) g_factor d_Q0 d_Q1 n_trapz n_tayl beta_threshold rej_im rej_abs eps_env
  = fdm_refl_coef_qs_from_eff_pol_n eig_roots argsort_bool argsort_real D alpha_eff_n A_tip n z_tip r_tip L_tip
      g_factor d_Q0 d_Q1 n_trapz n_tayl beta_threshold rej_im rej_abs eps_env.
Proof.
  intros eig ab ar k D al A n z r L g d0 d1 nt ny bt ri ra env Hk. assert (Hk' : k <> 0) by lra.
  unfold fdm_refl_coef_qs_from_eff_pol_n, fdm_defaults_a.
  cbn [rescale_defaults d_z_tip d_r_tip d_L_tip d_g_factor d_d_Q1 d_d_Qa d_n_tayl d_beta_threshold d_eps_env].
  rewrite !darr_lengths. set (z' := darr _ z). set (r' := darr _ r). set (L' := darr _ L).
  rewrite d_Q0_scale by exact Hk'.
  assert (HQ : exists q, match d0 with Some d => Ok (amap rr d) | None =>
             lift2 rdiv (Ok (amap (fun L : R => (rr (131 / 100) * rr L)%rv) L'))
               (amap2 (fun L r : R => (rr L + rr 2 * rr r)%rv) L' r') end = q) by eauto.
  destruct HQ as [q HQ]. rewrite HQ. destruct q as [dq|e]; [|reflexivity].
  cbn [rbind]. change (shp (lengths_in k z')) with (shp z'). change (shp (lengths_in k r')) with (shp r').
  change (shp (lengths_in k L')) with (shp L'). change (shp (lengths_in k A)) with (shp A).
  rewrite !rr_lengths, fdm_coef_a_scale by exact Hk'. reflexivity.
Qed.

(** ** Point dipole model *)
Lemma cdiv_scale (k : C) (a b : CV) : k <> RtoC 0 -> cdiv (Some k * a)%cv (Some k * b)%cv = cdiv a b.
Proof.
  intro Hk. destruct a as [a|], b as [b|]; try reflexivity. unfold cmul, cdiv. cbn [olift2].
  destruct (Ceq_dec b (RtoC 0)) as [->|Hb]; destruct (Ceq_dec (k * _)%C (RtoC 0)) as [E|E].
  - reflexivity.
  - exfalso. apply E. ring.
  - exfalso. now apply (Cmult_neq_0 _ _ Hk Hb).
  - f_equal. field. auto.
Qed.
Definition vs (k : R) (x : CV) : CV := (rc (k ^ 3) * x)%cv.
Lemma pdm_geom_a_scale k z r al : k <> 0 ->
  pdm_geom_func_a (amap (ks k) z) (amap (ks k) r) (amap (vs k) al) = pdm_geom_func_a z r al.
Proof.
  intro Hk. unfold pdm_geom_func_a.
  change (amap2 radd (amap (ks k) r) (amap (ks k) z)) with (lift2 radd (lift1 (ks k) (Ok r)) (lift1 (ks k) (Ok z))).
  rewrite (lift2_hom radd radd (ks k) (ks k) (ks k)) by rvsolve.
  change (Ok (amap (vs k) al)) with (lift1 (vs k) (Ok al)).
  change (lift2 radd (Ok r) (Ok z)) with (amap2 radd r z).
  destruct (amap2 radd r z) as [s|]; [|reflexivity].
  replace (lift1 (fun s0 => ofR (rr 16 * rr PI * s0 ^ 3)%rv) (lift1 (ks k) (Ok s)))
    with (lift1 (vs k) (lift1 (fun s0 => ofR (rr 16 * rr PI * s0 ^ 3)%rv) (Ok s))).
  - apply lift2_inv. intros x y. unfold vs. apply cdiv_scale. intro E. apply RtoC_inj in E. now apply (pow_nonzero k 3).
  - cbn [lift1 rbind]. f_equal. apply arr_ext. intro i. cbn [at_ amap]. destruct (at_ s i) as [x|]; [|reflexivity].
    unfold vs, ks, rmul, rr, rc, ofR, cmul. cbn [rpow olift1 olift2]. f_equal. rewrite <- RtoC_mult. f_equal. ring.
Qed.
Lemma pdm_defaults_a_scale k D r e a :
  pdm_defaults_a (rescale_defaults k D) (option_map (lengths_in k) r) e (option_map (volumes_in k) a)
  = match pdm_defaults_a D r e a with Ok p => Ok (lengths_in k (fst p), amap (vs k) (snd p)) | Raise x => Raise x end.
Proof.
  unfold pdm_defaults_a. cbn [rescale_defaults d_r_tip]. rewrite darr_lengths. set (r' := darr _ r).
  assert (ES : amap (fun r => ofR (rr 4 * rr PI * rr r ^ 3)%rv) (lengths_in k r')
             = amap (vs k) (amap (fun r => ofR (rr 4 * rr PI * rr r ^ 3)%rv) r')).
  { apply arr_ext. intro i. cbn [at_ amap]. unfold vs, rmul, rr, rc, ofR, cmul. cbn [lengths_in at_ rpow olift1 olift2].
    f_equal. rewrite <- RtoC_mult. f_equal. ring. }
  destruct e as [e|], a as [a|]; cbn [option_map]; try reflexivity.
  - rewrite ES. set (S := amap _ r').
    assert (Ee : Ok e = lift1 (fun x => x) (Ok e)) by (destruct e; reflexivity).
    change (amap2 (fun s e => (s * (Some e - rc 1))%cv) (amap (vs k) S) e)
      with (lift2 (fun s e => (s * (Some e - rc 1))%cv) (lift1 (vs k) (Ok S)) (Ok e)).
    rewrite Ee at 1. rewrite (lift2_hom _ (fun s e => (s * (Some e - rc 1))%cv) (vs k) (fun x => x) (vs k)).
    2: { intros x y. unfold vs, rc, cmul, csub. destruct x; cbn [olift2]; [f_equal; ring|reflexivity]. }
    set (den := amap (fun e => (Some e + rc 2)%cv) e).
    assert (Ed : Ok den = lift1 (fun x => x) (Ok den)) by (destruct den; reflexivity).
    rewrite Ed at 1. rewrite (lift2_hom cdiv cdiv (vs k) (fun x => x) (vs k)).
    2: { intros x y. unfold vs, rc, cmul, cdiv. destruct x, y; cbn [olift2]; try reflexivity.
         destruct (Ceq_dec _ _); cbn [olift2]; [reflexivity|]. f_equal. field. auto. }
    change (lift2 (fun s e => (s * (Some e - rc 1))%cv) (Ok S) (Ok e)) with (amap2 (fun s e => (s * (Some e - rc 1))%cv) S e).
    destruct (lift2 cdiv _ (Ok den)); reflexivity.
  - rewrite ES. reflexivity.
Qed.
(** C83. Point dipole model: likewise, with alpha_tip a volume.  The measured
    harmonics are not converted although eff_pol_n returns volumes: the
    inversion takes them in units of alpha_tip. *)
Lemma C83_pdm_units_proof :
  forall eig_roots argsort_bool argsort_real (k : R) (D : Defaults) (alpha_eff_n : arr CV) (A_tip : arr R) (n : arr Z)
    (z_tip r_tip : option (arr R)) (eps_tip alpha_tip : option (arr C))
    (n_trapz n_tayl : option nat) (beta_threshold : option R) (rej_im rej_abs : bool) (eps_env : option (arr C)),
  0 < k ->
  pdm_refl_coef_qs_from_eff_pol_n eig_roots argsort_bool argsort_real (rescale_defaults k D) alpha_eff_n
    (lengths_in k A_tip) n (option_map (lengths_in k) z_tip) (option_map (lengths_in k) r_tip)
    eps_tip (option_map (volumes_in k) alpha_tip) n_trapz n_tayl beta_threshold rej_im rej_abs eps_env
  = pdm_refl_coef_qs_from_eff_pol_n eig_roots argsort_bool argsort_real D alpha_eff_n A_tip n z_tip r_tip
      eps_tip alpha_tip n_trapz n_tayl beta_threshold rej_im rej_abs eps_env.
Proof.
  intros eig ab ar k D al A n z r e a nt ny bt ri ra env Hk. assert (Hk' : k <> 0) by lra.
  unfold pdm_refl_coef_qs_from_eff_pol_n. rewrite pdm_defaults_a_scale.
  cbn [rescale_defaults d_z_tip d_n_tayl d_beta_threshold d_eps_env]. rewrite darr_lengths. set (z' := darr _ z).
  destruct (pdm_defaults_a D r e a) as [[r' a']|]; [|reflexivity]. cbn [rbind fst snd].
  change (shp (lengths_in k z')) with (shp z'). change (shp (lengths_in k r')) with (shp r').
  change (shp (amap (vs k) a')) with (shp a'). change (shp (lengths_in k A)) with (shp A).
  set (j := pad_for_broadcasting _ _ _).
  assert (E : pdm_taylor_coef_a (rescale_defaults k D) (lengths_in k z') j (lengths_in k A) n
      (amap rr (lengths_in k r')) (amap (vs k) a') nt = pdm_taylor_coef_a D z' j A n (amap rr r') a' nt).
  { unfold pdm_taylor_coef_a. rewrite lengths_plus. destruct (amap2 Rplus z' A) as [z0|]; [|reflexivity].
    cbn [lift1 rbind]. change (amap (Rmult k) z0) with (lengths_in k z0).
    apply demod_a_scale. intro x. rewrite !rr_lengths. now rewrite pdm_geom_a_scale. }
  rewrite E. reflexivity.
Qed.

(** ** Defaults and tip material *)
Lemma dflt_given_or {A} (d : A) o : dflt d o = given_or d o. Proof. destruct o; reflexivity. Qed.
Lemma filled_darr {A} (d : A) o : filled d o = darr d o. Proof. destruct o; reflexivity. Qed.
Lemma demod_a_table D D' f x0 A n nt :
  demod_a D f x0 A n nt = demod_a D' f x0 A n (Some (given_or (d_n_trapz D) nt)).
Proof. destruct nt; reflexivity. Qed.
Lemma d_Q0_filled S (L r : arr R) : joint [shp L; shp r] S -> (forall i, entry L i + 2 * entry r i <> 0) ->
  lift2 rdiv (Ok (amap (fun L => (rr (131 / 100) * rr L)%rv) L)) (amap2 (fun L r => (rr L + rr 2 * rr r)%rv) L r)
  = Ok (amap rr (charge_position S L r)).
Proof.
  intros HJ H. apply bshapes_spec in HJ. cbn in HJ.
  assert (HB : bshape (shp L) (shp r) = Some S) by (destruct (shp r); exact HJ).
  destruct (fits_bshape _ _ _ HB) as [FL Fr].
  unfold amap2 at 1. rewrite HB. cbn [lift2 rbind]. unfold amap2. cbn [shp amap].
  assert (HS : bshape (shp L) S = Some S).
  {
    assert (J : joint [shp L; S] S).
    { split; [|split].
      - intros s [<-|[<-|[]]]; [exact FL|]. split; [lia|auto].
      - intro k. right. exists S. split; [now right; left|reflexivity].
      - right. exists S. split; [now right; left|reflexivity]. }
    apply bshapes_spec in J. cbn in J. destruct S; exact J. }
  rewrite HS. f_equal. apply arr_ext. intro i. cbn [at_ amap charge_position].
  rewrite !(bidx_fits _ S) by assumption. rewrite <- !entry_bidx.
  unfold rmul, radd, rr, rdiv. cbn [olift2]. destruct (Req_EM_T _ 0) as [E|E]; [now destruct (H i)|].
  reflexivity.
Qed.
(** C83. The inversion of measured harmonics, finite dipole model: whatever
    subset of the arguments is left out, the result is that of the call with
    the missing ones filled in from the current table - d_Q0 from the r_tip and
    L_tip in use - and then the table does not matter. *)
Lemma C83_fdm_defaults_proof :
  forall eig_roots argsort_bool argsort_real (D D' : Defaults) (alpha_eff_n : arr CV) (A_tip : arr R) (n : arr Z)
    (z_tip r_tip L_tip : option (arr R)) (g_factor : option (arr C)) (d_Q0 d_Q1 : option (arr R))
    (n_trapz n_tayl : option nat) (beta_threshold : option R) (rej_im rej_abs : bool) (eps_env : option (arr C))
    (S : list nat),
  let r := filled (d_r_tip D) r_tip in let L := filled (d_L_tip D) L_tip in
  joint [shp L; shp r] S -> (forall i, entry L i + 2 * entry r i <> 0) ->
  fdm_refl_coef_qs_from_eff_pol_n eig_roots argsort_bool argsort_real D alpha_eff_n A_tip n z_tip r_tip L_tip
    g_factor d_Q0 d_Q1 n_trapz n_tayl beta_threshold rej_im rej_abs eps_env
  = fdm_refl_coef_qs_from_eff_pol_n eig_roots argsort_bool argsort_real D' alpha_eff_n A_tip n
      (Some (filled (d_z_tip D) z_tip)) (Some r) (Some L) (Some (filled (d_g_factor D) g_factor))
      (Some (match d_Q0 with Some d => d | None => charge_position S L r end)) (Some (filled (d_d_Q1 D) d_Q1))
      (Some (given_or (d_n_trapz D) n_trapz)) (Some (given_or (d_n_tayl D) n_tayl))
      (Some (given_or (d_beta_threshold D) beta_threshold)) rej_im rej_abs (Some (filled (d_eps_env D) eps_env)).
Proof.
  intros eig ab ar D D' al A n z r_tip L_tip g d0 d1 nt ny bt ri ra env S r L HJ H.
  unfold fdm_refl_coef_qs_from_eff_pol_n, fdm_defaults_a. unfold r, L in *. change (@filled) with (@darr) in *.
  rewrite !dflt_given_or. cbn [darr].
  assert (HQ : match d0 with Some d => Ok (amap rr d) | None =>
             lift2 rdiv (Ok (amap (fun L : R => (rr (131 / 100) * rr L)%rv) (darr (d_L_tip D) L_tip)))
               (amap2 (fun L r : R => (rr L + rr 2 * rr r)%rv) (darr (d_L_tip D) L_tip) (darr (d_r_tip D) r_tip)) end
     = Ok (amap rr (match d0 with Some d => d | None => charge_position S (darr (d_L_tip D) L_tip) (darr (d_r_tip D) r_tip) end))).
  { destruct d0; [reflexivity|]. now apply d_Q0_filled. }
  rewrite HQ. cbn [rbind]. unfold fdm_taylor_coef_a.
  destruct (amap2 Rplus (darr (d_z_tip D) z) A) as [z0|]; [|reflexivity]. cbn [rbind].
  rewrite (demod_a_table D D'). reflexivity.
Qed.
(** C83. Point dipole model: likewise. *)
Lemma C83_pdm_defaults_proof :
  forall eig_roots argsort_bool argsort_real (D D' : Defaults) (alpha_eff_n : arr CV) (A_tip : arr R) (n : arr Z)
    (z_tip r_tip : option (arr R)) (eps_tip alpha_tip : option (arr C))
    (n_trapz n_tayl : option nat) (beta_threshold : option R) (rej_im rej_abs : bool) (eps_env : option (arr C)),
  pdm_refl_coef_qs_from_eff_pol_n eig_roots argsort_bool argsort_real D alpha_eff_n A_tip n z_tip r_tip
    eps_tip alpha_tip n_trapz n_tayl beta_threshold rej_im rej_abs eps_env
  = pdm_refl_coef_qs_from_eff_pol_n eig_roots argsort_bool argsort_real D' alpha_eff_n A_tip n
      (Some (filled (d_z_tip D) z_tip)) (Some (filled (d_r_tip D) r_tip)) eps_tip alpha_tip
      (Some (given_or (d_n_trapz D) n_trapz)) (Some (given_or (d_n_tayl D) n_tayl))
      (Some (given_or (d_beta_threshold D) beta_threshold)) rej_im rej_abs (Some (filled (d_eps_env D) eps_env)).
Proof.
  intros. unfold pdm_refl_coef_qs_from_eff_pol_n. change (@filled) with (@darr). rewrite !dflt_given_or.
  replace (pdm_defaults_a D' (Some (darr (d_r_tip D) r_tip)) eps_tip alpha_tip)
    with (pdm_defaults_a D r_tip eps_tip alpha_tip) by reflexivity.
  destruct (pdm_defaults_a D r_tip eps_tip alpha_tip) as [[r a]|]; [|reflexivity]. cbn [rbind darr fst snd dflt].
  unfold pdm_taylor_coef_a. destruct (amap2 Rplus (darr (d_z_tip D) z_tip) A_tip) as [z0|]; [|reflexivity]. cbn [rbind].
  rewrite (demod_a_table D D'). reflexivity.
Qed.
(** C83. Tip material in the point dipole inversion: neither argument is a
    perfectly conducting sphere, eps_tip a dielectric one, each result being
    that for the polarizability of the sphere; giving both raises. *)
Lemma C83_pdm_material_proof :
  forall eig_roots argsort_bool argsort_real (D : Defaults) (alpha_eff_n : arr CV) (A_tip : arr R) (n : arr Z)
    (z_tip r_tip : option (arr R)) (n_trapz n_tayl : option nat) (beta_threshold : option R) (rej_im rej_abs : bool)
    (eps_env : option (arr C)),
  let r := filled (d_r_tip D) r_tip in
  let invert eps_tip alpha_tip := pdm_refl_coef_qs_from_eff_pol_n eig_roots argsort_bool argsort_real D alpha_eff_n
    A_tip n z_tip r_tip eps_tip alpha_tip n_trapz n_tayl beta_threshold rej_im rej_abs eps_env in
  invert None None = invert None (Some (conductor_polarizability r)) /\
  (forall e S, joint [shp r; shp e] S -> (forall i, (entry e i <> -(2))%C) ->
     invert (Some e) None = invert None (Some (sphere_polarizability S r e))) /\
  (forall e a, invert (Some e) (Some a) = Raise (ValueError "Either `alpha_tip` or `eps_tip` must be None.")).
Proof.
  intros eig ab ar D al A n z r_tip nt ny bt ri ra env r invert.
  assert (HE : forall e a e' a', pdm_defaults_a D r_tip e a = pdm_defaults_a D r_tip e' a' -> invert e a = invert e' a').
  { intros e a e' a' E. unfold invert, pdm_refl_coef_qs_from_eff_pol_n. now rewrite E. }
  assert (Er : darr (d_r_tip D) r_tip = r) by reflexivity.
  split; [|split].
  - apply HE. unfold pdm_defaults_a. rewrite Er. reflexivity.
  - intros e S HJ H. apply HE. unfold pdm_defaults_a. rewrite Er.
    apply bshapes_spec in HJ. cbn in HJ. assert (HB : bshape (shp r) (shp e) = Some S) by (destruct (shp e); exact HJ).
    destruct (fits_bshape _ _ _ HB) as [Fr Fe].
    unfold amap2 at 1. cbn [shp amap]. rewrite HB. cbn [lift2 rbind]. unfold amap2. cbn [shp amap].
    assert (HS : bshape S (shp e) = Some S).
    { assert (J : joint [S; shp e] S).
      { split; [|split].
        - intros s [<-|[<-|[]]]; [|exact Fe]. split; [lia|auto].
        - intro k. right. exists S. split; [now left|reflexivity].
        - right. exists S. split; [now left|reflexivity]. }
      apply bshapes_spec in J. cbn in J. destruct (shp e); exact J. }
    rewrite HS. cbn [rbind]. do 2 f_equal. apply arr_ext. intro i. cbn [at_ amap sphere_polarizability].
    rewrite !(bidx_fits _ S) by assumption. rewrite <- !entry_bidx.
    unfold cmul, cadd, csub, cdiv, rc, ofR, rmul, rr. cbn [rpow olift1 olift2].
    destruct (Ceq_dec _ (RtoC 0)) as [E|E].
    + exfalso. apply (H i). replace (entry e i) with ((entry e i + 2) - 2)%C by ring. rewrite E. ring.
    + f_equal. field. exact E.
  - intros. reflexivity.
Qed.

(** C83. Example: the tip entirely from a table in which it is 20 nm long, no
    argument but the charge position: the reflection coefficient 1/2 is found
    for the first element. *)
Lemma C83_example_proof :
  let D := mkDefaults (RtoC 1) 0 20 20 (RtoC (11 / 4)) (1 / 2) (1 / 2) 1 1 3 1 in
  let alpha := mkArr [2%nat] (fun i => if Nat.eqb (hd O i) 0 then Some (RtoC (11 / 8)) else Some (RtoC 1)) in
  (exists eig sb sr, library eig sb sr) /\
  forall eig sb sr, library eig sb sr ->
  exists r, fdm_refl_coef_qs_from_eff_pol_n eig sb sr D alpha (scalar 0) (scalar 0%Z) None None None None
      (Some (scalar (1 / 2))) None None None None true false None = Ok r /\
    In (Some (RtoC (1 / 2))) (unmasked r [O]).
Proof.
  intros D alpha. split; [exact (proj1 (C31_example_proof D))|]. intros eig sb sr LIB.
  destruct (C30_example_proof D eig sb sr LIB) as [_ (r & ER & _ & HI)]. exists r. split; [|exact HI].
  rewrite <- ER. set (D0 := mkDefaults (RtoC 1) 0 1 1 (RtoC (11 / 4)) (1 / 2) (1 / 2) 1 1 3 1).
  replace D with (rescale_defaults 20 D0) at 1
    by (unfold D, D0, rescale_defaults; cbn [d_eps_env d_z_tip d_r_tip d_L_tip d_g_factor d_d_Q1 d_d_Qa d_n_trapz d_n_lag d_n_tayl d_beta_threshold]; f_equal; ring).
  replace (scalar 0) with (lengths_in 20 (scalar 0)) at 1 by (apply arr_ext; intro; cbn; ring).
  etransitivity; [apply (C83_fdm_units_proof eig sb sr 20 D0 alpha (scalar 0) (scalar 0%Z) None None None); lra|].
  etransitivity; [apply (C83_fdm_defaults_proof eig sb sr D0 D alpha (scalar 0) (scalar 0%Z) None None None None
    (Some (scalar (1 / 2))) None None None None true false None [])|].
  - apply bshapes_spec. reflexivity.
  - intro i. cbn. lra.
  - reflexivity.
Qed.
