(** * Sequences as arguments (C87): heights, oscillation centre, inverses *)
From Coq Require Import String Reals Lra Lia ZArith List Bool FunctionalExtensionality.
From Coquelicot Require Import Rcomplements Complex.
From Verif Require Import Num NumLemmas ModelBase ModelSample ModelTip NArr SpecArr NArrLemmas ModelObj
  ModelArr SpecObj ArrSample ProofsArr ProofsArr2 ModelArrTip ProofsArrTip ProofsArrTip2 ProofsArrTip3 ProofsArrTip4
  ProofsArrTip5 ProofsArrTip6 ModelInv ModelSeq SpecSeq ProofsSeq ProofsSeq2.
Import ListNotations.
Open Scope R_scope.

(** ** Charge heights *)
Lemma pad_ndim : forall A (d : A) l s t, length s = length t ->
  pad_for_broadcasting d l [s] = pad_for_broadcasting d l [t].
Proof. intros A d l s t H. unfold pad_for_broadcasting, ndim_max. cbn [map fold_right]. rewrite H. reflexivity. Qed.

Lemma joint2_length : forall a b k m S T, bshapes [a; b; [k]] = Some S -> bshapes [a; b; [m]] = Some T -> length S = length T.
Proof. intros a b k m S T H1 H2. rewrite (joint_length _ _ H1), (joint_length _ _ H2). reflexivity. Qed.

Lemma half_double : forall x : RV, (rr 2 * (x / rr 2))%rv = x.
Proof.
  intros [x|]; [|reflexivity]. assert (E : (Some x / rr 2)%rv = Some (x / 2)) by (unfold rr, rdiv; destruct (Req_EM_T 2 0); [exfalso; lra|reflexivity]).
  rewrite E. unfold rr, rmul, olift2. apply f_equal. field.
Qed.
Lemma double_half : forall zs : list RV,
  amap (fun z => (rr 2 * z)%rv) (amap (fun z => (z / rr 2)%rv) (arr1 (A:=RV) None (zs ++ zs))) = arr1 (A:=RV) None (zs ++ zs).
Proof.
  intro zs. unfold amap, arr1. cbn [shp at_]. f_equal. extensionality i. apply half_double.
Qed.

Lemma refl_p_seq : forall o zs, consistent o -> (many_layers o = false \/ t_shape o <> []) ->
  refl_coef_qs_p o (Seq zs) = refl_coef_qs_a o (arr1 (A:=RV) None zs).
Proof.
  intros o zs Hc H. unfold refl_coef_qs_p. destruct (multilayer_at o Hc) as [-> _]. cbn [rbind].
  assert (E : many_layers o && match o_t o with Some t => Nat.eqb (length (lsh t)) 0 | None => false end = false).
  { destruct H as [->|H]; [reflexivity|]. unfold t_shape in H. destruct (o_t o) as [t|]; [|apply andb_false_r].
    destruct (lsh t); [contradiction|apply andb_false_r]. }
  rewrite E. reflexivity.
Qed.
Lemma refl_p_scalar : forall o zs, consistent o -> many_layers o = true -> t_shape o = [] ->
  refl_coef_qs_p o (Seq zs) = Raise TypeError.
Proof.
  intros o zs Hc H Ht. unfold refl_coef_qs_p. destruct (multilayer_at o Hc) as [-> _]. cbn [rbind]. rewrite H.
  unfold t_shape in Ht. destruct Hc as (e & t & _ & Et & _). rewrite Et in *. rewrite Ht. reflexivity.
Qed.

(** C87, charge heights as a sequence: [refl_coef_qs_above_surf] computes
    [2 * z_Q], which repeats a list.  For multilayer samples with thicknesses
    that are numbers this is a TypeError; otherwise the call returns twice as
    many values as heights, each for HALF the height it stands for. *)
Lemma C87_heights_doubled_proof : forall lag (D : Defaults) o (zs : list RV) n_lag, consistent o ->
  (match n_lag with Some n => n | None => d_n_lag D end) <> O ->
  (many_layers o = true -> t_shape o = [] ->
     refl_coef_qs_above_surf_p lag D o (Seq zs) n_lag = Raise TypeError) /\
  (many_layers o = false \/ t_shape o <> [] -> compatible [eps_shape o; t_shape o; [length zs]] ->
     vectorised [eps_shape o; t_shape o; [2 * length zs]%nat]
       (fun i => refl_coef_qs_above_surf lag D (sample_at o i) (item (A:=RV) None (zs ++ zs) i / rr 2)%rv n_lag)
       (refl_coef_qs_above_surf_p lag D o (Seq zs) n_lag)).
Proof.
  intros lag D o zs n_lag Hc Hn.
  change (match n_lag with Some n => n | None => d_n_lag D end) with (dflt (d_n_lag D) n_lag) in Hn.
  assert (En : Nat.eqb (dflt (d_n_lag D) n_lag) 0 = false) by (apply Nat.eqb_neq, Hn).
  split.
  - intros Hm Ht. unfold refl_coef_qs_above_surf_p, sampled_beta_p. rewrite En, (refl_p_scalar _ _ Hc Hm Ht). reflexivity.
  - intros Hm Hk.
    set (h := amap (fun z => (z / rr 2)%rv) (arr1 (A:=RV) None (zs ++ zs))).
    assert (Sh : shp h = [2 * length zs]%nat) by (cbn [h amap arr1 shp]; rewrite app_length; f_equal; lia).
    rewrite <- Sh.
    apply compatible_joint in Hk. destruct Hk as [S1 J1]. apply bshapes_spec in J1.
    destruct (above_elementwise lag D o h n_lag Hc Hn) as (g & V & Eg).
    assert (Eg' : forall i, refl_coef_qs_above_surf lag D (sample_at o i) (item (A:=RV) None (zs ++ zs) i / rr 2)%rv n_lag = Ok (g i)).
    { intro i. rewrite <- (Eg i). f_equal. rewrite entry_bidx. unfold h. cbn [amap at_].
      rewrite <- (entry_arr1 RV None (zs ++ zs) i), entry_bidx. reflexivity. }
    apply (vec_vectorised _ _ _ g); [|exact Eg']. clear Eg Eg'.
    destruct (refl_qs_elementwise o (arr1 (A:=RV) None zs) Hc) as (g1 & V1 & _).
    unfold vec in V1. change (shp (arr1 (A:=RV) None zs)) with [@length RV zs] in V1. rewrite J1 in V1. destruct V1 as (r1 & Er1 & Sr1 & _).
    assert (Ep : sampled_beta_p lag o (Seq zs) (dflt (d_n_lag D) n_lag)
       = (let x := pad_for_broadcasting None (map (fun xw => rr (fst xw)) (lag (dflt (d_n_lag D) n_lag))) [shp r1] in
          let w := pad_for_broadcasting None (map (fun xw => rr (snd xw)) (lag (dflt (d_n_lag D) n_lag))) [shp r1] in
          let! q := amap2 rdiv x (amap (fun z => (rr 2 * z)%rv) h) in
          let! b := refl_coef_qs_a o q in
          Ok (x, w, b))).
    { unfold sampled_beta_p. rewrite En, (refl_p_seq _ _ Hc Hm). rewrite Er1. cbn [rbind]. unfold h. rewrite double_half.
      cbn [pimul repeat concat]. rewrite app_nil_r. reflexivity. }
    destruct (bshapes [eps_shape o; t_shape o; shp h]) as [S2|] eqn:E2.
    + assert (E : sampled_beta_p lag o (Seq zs) (dflt (d_n_lag D) n_lag) = sampled_beta_a lag o h (dflt (d_n_lag D) n_lag)).
      { rewrite Ep. unfold sampled_beta_a. rewrite En.
        destruct (refl_qs_elementwise o h Hc) as (g2 & V2 & _). unfold vec in V2. rewrite E2 in V2.
        destruct V2 as (r2 & Er2 & Sr2 & _). rewrite Er2. cbn [rbind].
        rewrite Sh in E2. pose proof (joint2_length _ _ _ _ _ _ J1 E2) as Hl.
        rewrite !(pad_ndim _ _ _ (shp r1) (shp r2)) by (rewrite Sr1, Sr2; exact Hl). reflexivity. }
      unfold refl_coef_qs_above_surf_p. rewrite E. exact V.
    + unfold vec. rewrite E2. unfold refl_coef_qs_above_surf_p. rewrite Ep. cbn zeta.
      set (x := pad_for_broadcasting None (map (fun xw => rr (fst xw)) (lag (dflt (d_n_lag D) n_lag))) [shp r1]).
      assert (Vq : vec [shp x; shp h] (fun i => (entry x i / (rr 2 * entry h i))%rv) (amap2 rdiv x (amap (fun z => (rr 2 * z)%rv) h))).
      { pose proof (vec_amap _ _ (fun z => (rr 2 * z)%rv) _ _ _ (vec_arr _ h)) as Vz. cbn [rbind] in Vz.
        exact (vec_amap2' _ _ _ rdiv _ _ _ _ _ _ (vec_arr _ x) Vz). }
      destruct (amap2 rdiv x (amap (fun z => (rr 2 * z)%rv) h)) as [q|e] eqn:Eq.
      2: { destruct (vec_raise _ _ _ _ Vq) as (_ & m & ->). exists m. reflexivity. }
      cbn [rbind].
      destruct (refl_qs_elementwise o q Hc) as (gb & Vb & _).
      assert (N : bshapes [eps_shape o; t_shape o; shp q] = None).
      { pose proof (vec_ok _ _ _ _ Vq) as [Bq _].
        rewrite (bshapes_incl _ ([eps_shape o; t_shape o] ++ [shp q])) by (cbn; apply incl_refl).
        rewrite (bshapes_subst _ _ _ Bq).
        apply (bshapes_none_incl [eps_shape o; t_shape o; shp h]); [isolve|exact E2]. }
      unfold vec in Vb. rewrite N in Vb. destruct Vb as (m & ->). exists m. reflexivity.
Qed.

(** C87: potential, field and image charge of a sequence of heights always
    raise ([z_Q**2] of a list is not defined) *)
Lemma C87_potential_rejected_proof : forall lag (D : Defaults) o (zs : list RV) n_lag,
  (exists e, surf_pot_and_field_p lag D o (Seq zs) n_lag = Raise e) /\
  (exists e, image_depth_and_charge_p lag D o (Seq zs) n_lag = Raise e).
Proof.
  intros lag D o zs n_lag.
  assert (H : exists e, surf_pot_and_field_p lag D o (Seq zs) n_lag = Raise e).
  { unfold surf_pot_and_field_p.
    destruct (sampled_beta_p _ _ _ _) as [[[x w] b]|e]; cbn [rbind]; [|eexists; reflexivity].
    destruct (amap2 _ w b) as [s1|e]; cbn [rbind]; [|eexists; reflexivity].
    destruct (amap2 _ (sum_axis0 s1) _) as [phi|e]; cbn [rbind]; [|eexists; reflexivity].
    destruct (amap2 _ w x) as [wx|e]; cbn [rbind]; [|eexists; reflexivity].
    destruct (amap2 _ wx b) as [s2|e]; cbn [rbind]; [|eexists; reflexivity].
    cbn [psqr rbind]. eexists; reflexivity. }
  split; [exact H|]. unfold image_depth_and_charge_p. destruct H as [e ->]. eexists; reflexivity.
Qed.

(** ** Oscillation centre *)
(** C87: a sequence cannot be added to a number, so one of the two heights
    given as a sequence and the other as a number (or left to its default)
    raises, in every demodulated function *)
Lemma C87_centre_rejected_proof : forall lag (D : Defaults) o A n z n_trapz n_tayl,
  (seq_opt z /\ (exists a, A = Num a)) \/ (is_seq A /\ (z = None \/ exists x, z = Some (Num x))) ->
  (forall r L g d_Q0 d_Q1 d_Qa n_lag method,
     fdm_eff_pol_n_p lag D o A n z n_trapz r L g d_Q0 d_Q1 d_Qa n_lag method = Raise TypeError) /\
  (forall r eps_tip alpha_tip, pdm_eff_pol_n_p D o A n z n_trapz r eps_tip alpha_tip = Raise TypeError) /\
  (forall r L g d_Q0 d_Q1 d_Qa n_lag method, exists e,
     fdm_eff_pol_n_taylor_p lag D o A n z r L g d_Q0 d_Q1 d_Qa n_lag method n_trapz n_tayl = Raise e) /\
  (forall r eps_tip alpha_tip, exists e,
     pdm_eff_pol_n_taylor_p D o A n z r eps_tip alpha_tip n_trapz n_tayl = Raise e) /\
  (forall eig sb sr alpha r L g d_Q0 d_Q1 th b1 b2 ee, exists e,
     fdm_refl_coef_qs_from_eff_pol_n_p eig sb sr D alpha A n z r L g d_Q0 d_Q1 n_trapz n_tayl th b1 b2 ee = Raise e).
Proof.
  intros lag D o A n z nt ntay H.
  assert (E : padd 0 Rplus (pdflt (d_z_tip D) z) A = Raise TypeError).
  { destruct H as [[H [a ->]]|[H [->|[x ->]]]].
    - destruct z as [[x|l|b]|]; try destruct H. reflexivity.
    - destruct A; try destruct H. reflexivity.
    - destruct A; try destruct H. reflexivity. }
  split; [|split; [|split; [|split]]]; intros.
  - unfold fdm_eff_pol_n_p. rewrite E. reflexivity.
  - unfold pdm_eff_pol_n_p. rewrite E. reflexivity.
  - unfold fdm_eff_pol_n_taylor_p, fdm_taylor_coef_p.
    destruct (fdm_defaults_a D r L g d_Q0 d_Q1 d_Qa) as [[[[[[r' L'] g'] d0'] d1'] da']|e]; [|eexists; reflexivity].
    cbn [rbind]. destruct (get_multilayer o) as [mu|e]; [|eexists; reflexivity]. cbn [rbind].
    rewrite E. match goal with |- exists e, rbind ?x _ = _ => destruct x; eexists; reflexivity end.
  - unfold pdm_eff_pol_n_taylor_p, pdm_taylor_coef_p.
    destruct (pdm_defaults_a D r eps_tip alpha_tip); [|eexists; reflexivity]. cbn [rbind].
    destruct (refl_coef_qs_a o _); [|eexists; reflexivity]. cbn [rbind]. rewrite E. eexists; reflexivity.
  - unfold fdm_refl_coef_qs_from_eff_pol_n_p, fdm_taylor_coef_p.
    destruct (fdm_defaults_a D r L g d_Q0 d_Q1 None) as [[[[[[r' L'] g'] d0'] d1'] da']|e]; [|eexists; reflexivity].
    cbn [rbind]. rewrite E. eexists; reflexivity.
Qed.

Lemma demod_broadcast_error : forall D f x_0 x_a n nt, bshape (shp x_0) (shp x_a) = None ->
  demod_a D f x_0 x_a n nt = Raise (ValueError msg_broadcast).
Proof. intros D f x_0 x_a n nt H. unfold demod_a, amap2. rewrite H. reflexivity. Qed.
Lemma bdim_longer : forall k m, (1 <= k)%nat -> (2 <= m)%nat -> bdim (k + m) m = None.
Proof.
  intros k m Hk Hm. unfold bdim.
  rewrite (proj2 (Nat.eqb_neq (k + m) m)), (proj2 (Nat.eqb_neq (k + m) 1)), (proj2 (Nat.eqb_neq m 1)) by lia. reflexivity.
Qed.

(** C87: tip heights AND amplitudes given as sequences are concatenated, not
    added.  With two or more amplitudes that is a ValueError; with a single
    amplitude [a] the call returns one value more than there are heights: the
    k-th is the one for the height z_k - a, and the last one is for contact. *)
Lemma C87_centre_concatenated_proof : forall lag (D : Defaults) o (zs : list R) n n_trapz, zs <> [] ->
  (forall amps, (2 <= length amps)%nat ->
   (forall r L g d_Q0 d_Q1 d_Qa n_lag method, exists m,
     fdm_eff_pol_n_p lag D o (Seq amps) n (Some (Seq zs)) n_trapz r L g d_Q0 d_Q1 d_Qa n_lag method = Raise (ValueError m)) /\
   (forall r eps_tip alpha_tip, exists m,
     pdm_eff_pol_n_p D o (Seq amps) n (Some (Seq zs)) n_trapz r eps_tip alpha_tip = Raise (ValueError m))) /\
  (forall a, let z := mkArr [S (length zs)] (fun i => nth (hd O i) (zs ++ [a]) 0 - a) in
   let A := mkArr [1%nat] (fun _ => a) in
   (forall r L g d_Q0 d_Q1 d_Qa n_lag method,
     fdm_eff_pol_n_p lag D o (Seq [a]) n (Some (Seq zs)) n_trapz r L g d_Q0 d_Q1 d_Qa n_lag method
     = fdm_eff_pol_n_a lag D o A (as_array 0%Z n) (Some z) n_trapz r L g d_Q0 d_Q1 d_Qa n_lag method) /\
   (forall r eps_tip alpha_tip,
     pdm_eff_pol_n_p D o (Seq [a]) n (Some (Seq zs)) n_trapz r eps_tip alpha_tip
     = pdm_eff_pol_n_a D o A (as_array 0%Z n) (Some z) n_trapz r eps_tip alpha_tip)).
Proof.
  intros lag D o zs n nt Hz. split.
  - intros amps Ha.
    assert (E : forall f, demod_a D f (asanyarray 0 (Seq (zs ++ amps))) (asanyarray 0 (Seq amps)) (asanyarray 0%Z n) nt
                = Raise (ValueError msg_broadcast)).
    { intro f. apply demod_broadcast_error. cbn [asanyarray arr1 shp bshape]. rewrite app_length, bdim_longer; [reflexivity| |exact Ha].
      destruct zs; [contradiction|cbn; lia]. }
    split; intros; exists msg_broadcast; [unfold fdm_eff_pol_n_p|unfold pdm_eff_pol_n_p]; cbn [pdflt padd rbind]; apply E.
  - intros a z A.
    assert (Ez : amap2 Rplus z A = Ok (arr1 0 (zs ++ [a]))).
    { unfold amap2, z, A. cbn [shp bshape]. rewrite bdim_1_r. f_equal. unfold arr1. rewrite app_length. cbn [length]. rewrite Nat.add_1_r.
      f_equal. extensionality i. cbn [at_ bidx].
      assert (E : Nat.eqb (S (length zs)) 1 = false) by (apply Nat.eqb_neq; destruct zs; [contradiction|cbn; lia]).
      rewrite E. cbn [hd]. ring. }
    assert (EA : forall f x, demod_a D f x (arr1 0 [a]) (as_array 0%Z n) nt = demod_a D f x A (as_array 0%Z n) nt).
    { intros f x. unfold demod_a.
      assert (E2 : forall (B E : Type) (h : B -> R -> E) (y : arr B), amap2 h y (arr1 0 [a]) = amap2 h y A).
      { intros B E h y. unfold amap2, arr1, A. cbn [shp length]. destruct (bshape (shp y) [1%nat]); [|reflexivity].
        f_equal. }
      rewrite !E2. reflexivity. }
    split; intros; [unfold fdm_eff_pol_n_p, fdm_eff_pol_n_a|unfold pdm_eff_pol_n_p, pdm_eff_pol_n_a];
      cbn [pdflt padd rbind darr]; rewrite Ez; cbn [rbind]; apply EA.
Qed.
