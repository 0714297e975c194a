(** * Calls while the defaults are being changed (C93) *)
From Coq Require Import String Reals Lra Lia ZArith List Bool.
From Coquelicot Require Import Complex.
From Verif Require Import Num NumLemmas ModelBase ModelSample ModelTip ModelCache ModelThread SpecThread ProofsThread.
Import ListNotations.
Open Scope R_scope.

Lemma held_mono {A} sched (attr : Defaults -> A) i j i' j' a :
  (i' <= i)%nat -> (j <= j')%nat -> attribute_held sched i j attr a -> attribute_held sched i' j' attr a.
Proof. intros H H' (k & K & E). exists k. split; [lia|exact E]. Qed.
Lemma held_at {A} sched (attr : Defaults -> A) i j k : (i <= k <= j)%nat -> attribute_held sched i j attr (attr (sched k)).
Proof. intro H. now exists k. Qed.
Lemma assembled_at sched i j k : (i <= k <= j)%nat -> assembled sched i j (sched k).
Proof. intro H. unfold assembled. repeat split; now apply held_at. Qed.
Lemma assembled_mono sched i j i' j' D : (i' <= i)%nat -> (j <= j')%nat -> assembled sched i j D -> assembled sched i' j' D.
Proof. intros H H' K. unfold assembled in *. decompose [and] K. repeat split; eapply held_mono; eauto. Qed.

Definition set_z (z : R) (D : Defaults) : Defaults :=
  mkDefaults (d_eps_env D) z (d_r_tip D) (d_L_tip D) (d_g_factor D) (d_d_Q1 D) (d_d_Qa D) (d_n_trapz D) (d_n_lag D) (d_n_tayl D) (d_beta_threshold D).
Definition set_N (N : nat) (D : Defaults) : Defaults :=
  mkDefaults (d_eps_env D) (d_z_tip D) (d_r_tip D) (d_L_tip D) (d_g_factor D) (d_d_Q1 D) (d_d_Qa D) N (d_n_lag D) (d_n_tayl D) (d_beta_threshold D).
Definition set_J (J : nat) (D : Defaults) : Defaults :=
  mkDefaults (d_eps_env D) (d_z_tip D) (d_r_tip D) (d_L_tip D) (d_g_factor D) (d_d_Q1 D) (d_d_Qa D) (d_n_trapz D) (d_n_lag D) J (d_beta_threshold D).
Definition set_l (l : nat) (D : Defaults) : Defaults :=
  mkDefaults (d_eps_env D) (d_z_tip D) (d_r_tip D) (d_L_tip D) (d_g_factor D) (d_d_Q1 D) (d_d_Qa D) (d_n_trapz D) l (d_n_tayl D) (d_beta_threshold D).
Lemma assembled_z sched i j D z : assembled sched i j D -> attribute_held sched i j d_z_tip z -> assembled sched i j (set_z z D).
Proof. unfold assembled. intros K H. decompose [and] K. cbn. tauto. Qed.
Lemma assembled_N sched i j D N : assembled sched i j D -> attribute_held sched i j d_n_trapz N -> assembled sched i j (set_N N D).
Proof. unfold assembled. intros K H. decompose [and] K. cbn. tauto. Qed.

Definition mono {A} (m : thr A) : Prop := forall i, (i <= snd (m i))%nat.
Lemma mono_pure {A} (r : res A) : mono (tpure r).
Proof. intro i. cbn. lia. Qed.
Lemma mono_or {A} sched (attr : Defaults -> A) o : mono (or_default sched attr o).
Proof. intro i. rewrite or_default_eq. apply tick_le. Qed.
Lemma mono_bind {A B} (m : thr A) (f : A -> thr B) : mono m -> (forall a, mono (f a)) -> mono (tbind m f).
Proof.
  intros H K i. unfold tbind. specialize (H i). destruct (m i) as [[a|e] j]; cbn in *; [|exact H]. specialize (K a j). lia.
Qed.
Ltac mono := repeat (first [apply mono_pure | apply mono_or | apply mono_bind; [|intro] |
   match goal with |- mono (match ?x with _ => _ end) => destruct x end | progress cbv beta iota zeta]).
Lemma mono_above lg sched s zs n : mono (t_above_surf lg sched s zs n).
Proof. unfold t_above_surf. mono. Qed.
Lemma mono_image lg sched s zs n : mono (t_image lg sched s zs n).
Proof. unfold t_image, t_surf_pot. mono. Qed.
Lemma mono_fdm_defaults sched r L g d0 d1 da : mono (t_fdm_defaults sched r L g d0 d1 da).
Proof. unfold t_fdm_defaults. mono. Qed.
Lemma mono_pdm_defaults sched r e a : mono (t_pdm_defaults sched r e a).
Proof. unfold t_pdm_defaults. mono. Qed.
Lemma mono_fdm_heights lg sched s zs r L g d0 d1 da n m : mono (t_fdm_heights lg sched s zs r L g d0 d1 da n m).
Proof.
  unfold t_fdm_heights. apply mono_bind; [apply mono_fdm_defaults|intros [[[[[r' L'] g'] d0'] d1'] da']].
  set (mm := match m with None => _ | Some m => m end).
  destruct (String.eqb mm "bulk"); [|destruct (String.eqb mm "multi"); [|destruct (String.eqb mm "Q_ave")]].
  - apply mono_pure.
  - apply mono_bind; [apply mono_image|intro]. apply mono_bind; [apply mono_image|intro]. apply mono_pure.
  - apply mono_bind; [apply mono_above|intro]. apply mono_pure.
  - apply mono_pure.
Qed.
Lemma mono_pdm_heights sched s zs r e a : mono (t_pdm_heights sched s zs r e a).
Proof. unfold t_pdm_heights. apply mono_bind; [apply mono_pdm_defaults|intro]. apply mono_pure. Qed.

Definition steady (sched : nat -> Defaults) (i j : nat) : Prop :=
  forall k k', (i <= k <= j)%nat -> (i <= k' <= j)%nat -> d_n_lag (sched k) = d_n_lag (sched k').
Lemma steady_sub sched i j i' j' : (i' <= i)%nat -> (j <= j')%nat -> steady sched i' j' -> steady sched i j.
Proof. intros H H' S k k' K K'. apply S; lia. Qed.

(** ** Functions of all heights *)
Definition tracks (sched : nat -> Defaults) (twice : bool) (f : list R -> thr (list CV)) (F : Defaults -> R -> res CV) : Prop :=
  forall zs i, zs <> [] -> (twice = true -> steady sched i (snd (f zs i))) ->
  exists D0, assembled sched i (snd (f zs i)) D0 /\ forall D, agree D D0 -> fst (f zs i) = mapM (F D) zs.

Lemma fdm_D lg D D' s z r L g d0 d1 da n m : agree D D' ->
  fdm_eff_pol lg D s (Some z) r L g d0 d1 da n m = fdm_eff_pol lg D' s (Some z) r L g d0 d1 da n m.
Proof.
  intros (Er & EL & Eg & E1 & Ea & El). unfold fdm_eff_pol, fdm_defaults, image_depth_and_charge, surf_pot_and_field, refl_coef_qs_above_surf.
  cbn [dflt]. now rewrite Er, EL, Eg, E1, Ea, El.
Qed.
Lemma fdm_tracks lg sched s r L g d0 d1 da n m :
  tracks sched (match n with None => is_multi s m | Some _ => false end)
    (fun zs => t_fdm_heights lg sched s zs r L g d0 d1 da n m)
    (fun D z => fdm_eff_pol lg D s (Some z) r L g d0 d1 da n m).
Proof.
  intros zs i N S. destruct (fdm_heights lg sched s zs r L g d0 d1 da n m i N) as (Le & kr & kL & kg & k1 & ka & kl & H1 & H2 & H3 & H4 & H5 & H6 & E).
  - intros M Hn. apply S. subst n. exact M.
  - exists (D_of sched i kr kL kg k1 ka i kl i). split.
    + apply assembled_D_of; lia.
    + intros D A. rewrite (E i i i). apply mapM_ext. intro z. symmetry. now apply fdm_D.
Qed.
Lemma t_pdm_defaults_eq sched r e a i :
  t_pdm_defaults sched r e a i = (pdm_defaults (sched i) r e a, tick r i).
Proof. unfold t_pdm_defaults. rewrite (tbind_ok _ _ _ _ _ (or_default_eq sched d_r_tip r i)). reflexivity. Qed.
Lemma pdm_defaults_D D D' r e a : d_r_tip D = d_r_tip D' -> pdm_defaults D r e a = pdm_defaults D' r e a.
Proof. intro E. unfold pdm_defaults. now rewrite E. Qed.
Lemma pdm_heights_eq sched s zs r e a i : zs <> [] ->
  t_pdm_heights sched s zs r e a i = (mapM (fun z => pdm_eff_pol (sched i) s (Some z) r e a) zs, tick r i).
Proof.
  intro N. unfold t_pdm_heights, tbind, pdm_eff_pol. rewrite t_pdm_defaults_eq.
  destruct (pdm_defaults (sched i) r e a) as [ra|ex]; cbn [rbind dflt tpure].
  - unfold tpure. f_equal. destruct (refl_coef_qs s (rr 0)); cbn [rbind]; symmetry; [apply mapM_pure|now apply mapM_raise].
  - f_equal. symmetry. now apply mapM_raise.
Qed.
Lemma pdm_tracks sched s r e a :
  tracks sched false (fun zs => t_pdm_heights sched s zs r e a) (fun D z => pdm_eff_pol D s (Some z) r e a).
Proof.
  intros zs i N _. rewrite (pdm_heights_eq sched s zs r e a i N). cbn [fst snd]. exists (sched i). split.
  - apply assembled_at. pose proof (tick_le r i). lia.
  - intros D A. apply mapM_ext. intro z. unfold pdm_eff_pol. cbn [dflt]. destruct A as (Er & _). now rewrite (pdm_defaults_D _ _ _ _ _ Er).
Qed.
Lemma pdm_uniform D s r e a : uniform (fun z => pdm_eff_pol D s (Some z) r e a).
Proof.
  unfold pdm_eff_pol. cbn [dflt]. destruct (pdm_defaults D r e a) as [ra|ex]; [|exists (Raise ex), (fun _ => None); reflexivity].
  destruct (refl_coef_qs s (rr 0)) as [b|ex]; [|exists (Raise ex), (fun _ => None); reflexivity].
  eexists (Ok tt), (fun z => _). reflexivity.
Qed.

Lemma agree_refl D : agree D D.
Proof. unfold agree. tauto. Qed.
Lemma agree_N D N : agree (set_N N D) D.
Proof. unfold agree. cbn. tauto. Qed.
Lemma agree_z D z : agree (set_z z D) D.
Proof. unfold agree. cbn. tauto. Qed.
Lemma agree_trans D D' D'' : agree D D' -> agree D' D'' -> agree D D''.
Proof. unfold agree. intuition congruence. Qed.

Lemma thetas_nonempty N : thetas N <> [].
Proof. unfold thetas. rewrite Nat.add_1_r. discriminate. Qed.
Lemma demod_tracks sched twice f F x0 a n N i :
  tracks sched twice f F -> (forall D, uniform (F D)) -> (forall zs, mono (f zs)) ->
  (twice = true -> steady sched i (snd (t_demod sched f x0 a n N i))) ->
  (i <= snd (t_demod sched f x0 a n N i))%nat /\
  exists D0, assembled sched i (snd (t_demod sched f x0 a n N i)) D0 /\
    forall D, agree D D0 -> d_n_trapz D = d_n_trapz D0 -> fst (t_demod sched f x0 a n N i) = demod D (F D) x0 a n N.
Proof.
  intros T U M. unfold t_demod. rewrite (tbind_ok _ _ _ _ _ (or_default_eq sched d_n_trapz N i)).
  set (i1 := tick N i). pose proof (tick_le N i) as L1. fold i1 in L1. set (N' := dflt (d_n_trapz (sched i)) N).
  intro S. set (c := x0 + 0 * a) in *.
  pose proof (M [c] i1) as L2. pose proof (T [c] i1 ltac:(discriminate)) as T1.
  destruct (f [c] i1) as [r1 i2] eqn:E1. cbn [fst snd] in L2, T1.
  destruct r1 as [l1|e].
  - rewrite (tbind_ok _ _ _ _ _ E1) in *. set (zs := map (fun theta => x0 + cos theta * a) (thetas N')) in *.
    assert (Nz : zs <> []) by (unfold zs; intro Z; apply map_eq_nil in Z; now apply thetas_nonempty in Z).
    pose proof (M zs i2) as L3. pose proof (T zs i2 Nz) as T2. destruct (f zs i2) as [r2 i3] eqn:E2. cbn [fst snd] in L3, T2.
    assert (Sn : snd (tbind (f zs) (fun fs => tpure (Ok (trapezoid (map (fun p => demod_integrand n (fst p) (snd p)) (combine fs (thetas N'))) / rc (INR N'))%cv)) i2) = i3).
    { unfold tbind. rewrite E2. destruct r2; reflexivity. }
    rewrite Sn in *. split; [lia|].
    destruct T2 as (D2 & A2 & H2). { intro t. eapply steady_sub; [| |exact (S t)]; lia. }
    exists (set_N (d_n_trapz (sched i)) D2). split.
    { apply assembled_N; [eapply assembled_mono; [| |exact A2]; lia|]. apply held_at. lia. }
    intros D AD ND. cbn in ND.
    assert (AD2 : agree D D2) by (eapply agree_trans; [exact AD|apply agree_N]).
    unfold demod. rewrite ND. fold N'. specialize (H2 D AD2). unfold zs in H2. rewrite mapM_map in H2.
    fold c. destruct (F D c) as [b|ex] eqn:Ec; cbn [rbind].
    + rewrite <- H2. unfold tbind. rewrite E2. destruct r2; reflexivity.
    + destruct (U D) as (G & g & Hg). rewrite Hg in Ec. destruct G; [discriminate|]. cbn [rbind] in Ec.
      assert (H2' : r2 = Raise ex).
      { rewrite H2. transitivity (mapM (fun _ : R => Raise ex : res CV) (thetas N')); [|apply mapM_raise, thetas_nonempty].
        apply mapM_ext. intro th. rewrite Hg. cbn [rbind]. exact Ec. }
      clear H2. subst r2. unfold tbind. rewrite E2. cbn. reflexivity.
  - rewrite (tbind_raise _ _ _ _ _ E1) in *. cbn [fst snd] in *. split; [lia|].
    destruct T1 as (D1 & A1 & H1). { intro t. eapply steady_sub; [| |exact (S t)]; lia. }
    exists (set_N (d_n_trapz (sched i)) D1). split.
    { apply assembled_N; [eapply assembled_mono; [| |exact A1]; lia|]. apply held_at. lia. }
    intros D AD ND. assert (AD2 : agree D D1) by (eapply agree_trans; [exact AD|apply agree_N]).
    specialize (H1 D AD2). cbn [mapM] in H1. unfold demod. fold c. destruct (F D c) as [b|ex]; cbn [rbind] in *; congruence.
Qed.
Lemma demod_const D D' f x0 a n N : dflt (d_n_trapz D) N = dflt (d_n_trapz D') N -> demod D f x0 a n N = demod D' f x0 a n N.
Proof. unfold demod. intro E. now rewrite E. Qed.
Lemma demod_given D D' f x0 a n N : demod D f x0 a n N = demod D' f x0 a n (Some (dflt (d_n_trapz D) N)).
Proof. reflexivity. Qed.

Section Main.
Variable lg : laggauss_t.
Variable sched : nat -> Defaults.

Lemma tmap_eq {A} (f : A -> value) (m : thr A) i :
  tmap f m i = (rbind (fst (m i)) (fun a => Ok (f a)), snd (m i)).
Proof. unfold tmap, tbind. destruct (m i) as [[a|e] j]; reflexivity. Qed.

Lemma only_ok {A B} (f : A -> B) (r : res (list A)) (d : A) (r1 : res A) :
  r = rbind r1 (fun a => Ok [a]) -> rbind r (fun l => Ok (f (only d l))) = rbind r1 (fun a => Ok (f a)).
Proof. intros ->. destruct r1; reflexivity. Qed.

(** C93. Whatever other threads do to the defaults meanwhile, a call returns, or raises, what it would with some fixed
    defaults, each attribute of which was in force at some instant of the call; calls of the "multi" method that
    take the default [n_lag] need that attribute to stay. *)
Lemma assembled_main c i :
  let j := snd (threaded lg sched c i) in
  (reads_n_lag_twice c = true -> steady sched i j) ->
  exists D, assembled sched i j D /\ fst (threaded lg sched c i) = alone lg D c.
Proof.
  intro j; unfold j; clear j. destruct c; cbn [threaded]; rewrite tmap_eq; cbn [fst snd alone].
  - intros _. rewrite t_above_eq. cbn [fst snd]. exists (sched i). pose proof (tick_le n_lag i). split; [apply assembled_at; lia|].
    cbn [mapM]. destruct (refl_coef_qs_above_surf lg (sched i) s (rr z_Q) n_lag); reflexivity.
  - intros _. rewrite t_surf_eq. cbn [fst snd]. exists (sched i). pose proof (tick_le n_lag i). split; [apply assembled_at; lia|].
    cbn [mapM]. destruct (surf_pot_and_field lg (sched i) s (rr z_Q) n_lag); reflexivity.
  - intros _. rewrite t_image_eq. cbn [fst snd]. exists (sched i). pose proof (tick_le n_lag i). split; [apply assembled_at; lia|].
    cbn [mapM]. destruct (image_depth_and_charge lg (sched i) s (rr z_Q) n_lag); reflexivity.
  - (* fdm.eff_pol *)
    unfold t_fdm_eff_pol. rewrite (tbind_ok _ _ _ _ _ (or_default_eq sched d_z_tip z_tip i)).
    set (i1 := tick z_tip i). pose proof (tick_le z_tip i) as L1. fold i1 in L1. set (z := dflt (d_z_tip (sched i)) z_tip).
    pose proof (fdm_tracks lg sched s r_tip L_tip g_factor d_Q0 d_Q1 d_Qa n_lag method [z] i1 ltac:(discriminate)) as T. cbv beta in T.
    pose proof (mono_fdm_heights lg sched s [z] r_tip L_tip g_factor d_Q0 d_Q1 d_Qa n_lag method i1) as L2.
    set (m := tbind _ _ i1). intro S.
    assert (Em : m = (rbind (fst (t_fdm_heights lg sched s [z] r_tip L_tip g_factor d_Q0 d_Q1 d_Qa n_lag method i1)) (fun l => Ok (only None l)),
                      snd (t_fdm_heights lg sched s [z] r_tip L_tip g_factor d_Q0 d_Q1 d_Qa n_lag method i1))).
    { unfold m, tbind. destruct (t_fdm_heights lg sched s [z] r_tip L_tip g_factor d_Q0 d_Q1 d_Qa n_lag method i1) as [[?|?] ?]; reflexivity. }
    clearbody m. subst m. cbn [fst snd] in *.
    destruct T as (D0 & A & H).
    { intro t. eapply steady_sub; [| |apply S]; [lia|lia|]. unfold reads_n_lag_twice, is_multi in *. destruct n_lag; [discriminate|exact t]. }
    exists (set_z (d_z_tip (sched i)) D0). split.
    { apply assembled_z; [eapply assembled_mono; [| |exact A]; lia|apply held_at; lia]. }
    rewrite (H _ (agree_z D0 (d_z_tip (sched i)))). cbn [mapM].
    change (fdm_eff_pol lg (set_z (d_z_tip (sched i)) D0) s z_tip r_tip L_tip g_factor d_Q0 d_Q1 d_Qa n_lag method) with
           (fdm_eff_pol lg (set_z (d_z_tip (sched i)) D0) s (Some z) r_tip L_tip g_factor d_Q0 d_Q1 d_Qa n_lag method).
    destruct (fdm_eff_pol lg _ s (Some z) r_tip L_tip g_factor d_Q0 d_Q1 d_Qa n_lag method); reflexivity.
  - (* fdm.eff_pol_n *)
    unfold t_fdm_eff_pol_n. rewrite (tbind_ok _ _ _ _ _ (or_default_eq sched d_z_tip z_tip i)).
    set (i1 := tick z_tip i). pose proof (tick_le z_tip i) as L1. fold i1 in L1. set (z := dflt (d_z_tip (sched i)) z_tip). intro S.
    destruct (demod_tracks sched _ _ _ (z + A_tip) A_tip n n_trapz i1
      (fdm_tracks lg sched s r_tip L_tip g_factor d_Q0 d_Q1 d_Qa n_lag method)
      (fun D => fdm_uniform lg D s r_tip L_tip g_factor d_Q0 d_Q1 d_Qa n_lag method)
      (fun zs => mono_fdm_heights lg sched s zs r_tip L_tip g_factor d_Q0 d_Q1 d_Qa n_lag method)) as (L2 & D0 & A & H).
    { intro t. eapply steady_sub; [| |apply S]; [lia|lia|]. unfold reads_n_lag_twice, is_multi in *. destruct n_lag; [discriminate|exact t]. }
    exists (set_z (d_z_tip (sched i)) D0). split.
    { apply assembled_z; [eapply assembled_mono; [| |exact A]; lia|apply held_at; lia]. }
    rewrite (H _ (agree_z D0 (d_z_tip (sched i))) eq_refl). reflexivity.
  - (* fdm Taylor *)
    intros _. unfold t_fdm_eff_pol_n_taylor. rewrite (tbind_ok _ _ _ _ _ (or_default_eq sched d_z_tip z_tip i)).
    set (i0 := tick z_tip i).
    rewrite (tbind_ok _ _ _ _ _ (t_fdm_defaults_eq sched r_tip L_tip g_factor d_Q0 d_Q1 d_Qa i0)). cbv beta iota zeta.
    set (iL := tick r_tip i0). set (ig := tick L_tip iL). set (i1 := tick g_factor ig). set (ia := tick d_Q1 i1). set (iJ := tick d_Qa ia).
    rewrite (tbind_ok _ _ _ _ _ (or_default_eq sched d_n_tayl n_tayl iJ)). set (il := tick n_tayl iJ).
    assert (i <= i0 /\ i0 <= iL /\ iL <= ig /\ ig <= i1 /\ i1 <= ia /\ ia <= iJ /\ iJ <= il)%nat as (H0 & H1 & H2 & H3 & H4 & H5 & H6)
      by (repeat split; apply tick_le).
    set (mm := match method with None => _ | Some m => m end).
    set (d0' := match d_Q0 with None => _ | Some d => rr d end).
    set (z := dflt (d_z_tip (sched i)) z_tip).
    set (B := if String.eqb mm "bulk" then _ else _).
    assert (HB : exists iN, (il <= iN)%nat /\ B il =
      ((if String.eqb mm "bulk" then if multilayer s then Raise (ValueError msg_bulk_multi) else refl_coef_qs s (rr 0)
        else if String.eqb mm "Q_ave" then refl_coef_qs_above_surf lg (sched il) s (rr z + rr (dflt (d_r_tip (sched i0)) r_tip) * rr (dflt (d_d_Qa (sched ia)) d_Qa))%rv n_lag
        else Raise (ValueError msg_method_taylor)), iN)).
    { unfold B. destruct (String.eqb mm "bulk"); [exists il; split; [lia|reflexivity]|]. destruct (String.eqb mm "Q_ave").
      - exists (tick n_lag il). split; [apply tick_le|]. unfold tbind. rewrite t_above_eq. cbn [mapM].
        destruct (refl_coef_qs_above_surf lg (sched il) s _ n_lag); reflexivity.
      - exists il. split; [lia|reflexivity]. }
    destruct HB as (iN & LN & HB). clearbody B. pose proof (tick_le n_trapz iN) as H7.
    set (Dn := D_of sched i i0 iL ig i1 ia iN il iJ).
    assert (Ec : forall r, r = fdm_eff_pol_n_taylor lg Dn s A_tip n z_tip r_tip L_tip g_factor d_Q0 d_Q1 d_Qa n_lag method n_trapz n_tayl ->
      rbind r (fun a => Ok (VC a)) = rbind (fdm_eff_pol_n_taylor lg Dn s A_tip n z_tip r_tip L_tip g_factor d_Q0 d_Q1 d_Qa n_lag method n_trapz n_tayl) (fun a => Ok (VC a)))
      by (intros r ->; reflexivity).
    set (beta := if String.eqb mm "bulk" then _ else _) in HB.
    destruct beta as [b|e] eqn:Eb.
    + rewrite (tbind_ok _ _ _ _ _ HB). rewrite (tbind_ok _ _ _ _ _ (or_default_eq sched d_n_trapz n_trapz iN)). cbn [tpure fst snd].
      exists Dn. split; [apply assembled_D_of; lia|]. apply Ec. unfold fdm_eff_pol_n_taylor, Dn.
      cbn [fdm_defaults D_of d_z_tip d_r_tip d_L_tip d_g_factor d_d_Q1 d_d_Qa]. unfold fdm_defaults.
      cbv beta iota zeta. fold mm. cbn [D_of d_z_tip d_r_tip d_L_tip d_g_factor d_d_Q1 d_d_Qa].
      rewrite (above_D lg (D_of sched i i0 iL ig i1 ia iN il iJ) (sched il) _ _ n_lag eq_refl). fold z.
      unfold beta in Eb. rewrite Eb. cbn [rbind]. reflexivity.
    + rewrite (tbind_raise _ _ _ _ _ HB). cbn [fst snd]. exists Dn. split; [apply assembled_D_of; lia|]. apply Ec. unfold fdm_eff_pol_n_taylor, Dn.
      unfold fdm_defaults.
      cbv beta iota zeta. fold mm. cbn [D_of d_z_tip d_r_tip d_L_tip d_g_factor d_d_Q1 d_d_Qa].
      rewrite (above_D lg (D_of sched i i0 iL ig i1 ia iN il iJ) (sched il) _ _ n_lag eq_refl). fold z.
      unfold beta in Eb. rewrite Eb. cbn [rbind]. reflexivity.
  - (* fdm inverse *)
    intros _. unfold t_fdm_refl_coef_qs_from_eff_pol. rewrite (tbind_ok _ _ _ _ _ (or_default_eq sched d_z_tip z_tip i)).
    set (i0 := tick z_tip i).
    rewrite (tbind_ok _ _ _ _ _ (t_fdm_defaults_eq sched r_tip L_tip g_factor d_Q0 d_Q1 None i0)). cbv beta iota zeta.
    set (iL := tick r_tip i0). set (ig := tick L_tip iL). set (i1 := tick g_factor ig). set (ia := tick d_Q1 i1).
    assert (i <= i0 /\ i0 <= iL /\ iL <= ig /\ ig <= i1 /\ i1 <= ia)%nat as (H0 & H1 & H2 & H3 & H4) by (repeat split; apply tick_le).
    cbn [tpure fst snd tick]. exists (D_of sched i i0 iL ig i1 ia i i i). split; [apply assembled_D_of; lia|]. reflexivity.
  - (* pdm.eff_pol *)
    intros _. unfold t_pdm_eff_pol. rewrite (tbind_ok _ _ _ _ _ (or_default_eq sched d_z_tip z_tip i)).
    set (i1 := tick z_tip i). pose proof (tick_le z_tip i) as L1. fold i1 in L1. pose proof (tick_le r_tip i1) as L2. set (z := dflt (d_z_tip (sched i)) z_tip).
    exists (set_z (d_z_tip (sched i)) (sched i1)).
    change (pdm_eff_pol (set_z (d_z_tip (sched i)) (sched i1)) s z_tip r_tip eps_tip alpha_tip) with (pdm_eff_pol (sched i1) s (Some z) r_tip eps_tip alpha_tip).
    unfold tbind. rewrite (pdm_heights_eq sched s [z] r_tip eps_tip alpha_tip i1) by discriminate. cbn [mapM].
    destruct (pdm_eff_pol (sched i1) s (Some z) r_tip eps_tip alpha_tip); cbn [rbind tpure fst snd];
    (split; [|reflexivity]); apply assembled_z; try (apply held_at; lia); apply assembled_at; lia.
  - (* pdm.eff_pol_n *)
    intros _. unfold t_pdm_eff_pol_n. rewrite (tbind_ok _ _ _ _ _ (or_default_eq sched d_z_tip z_tip i)).
    set (i1 := tick z_tip i). pose proof (tick_le z_tip i) as L1. fold i1 in L1. set (z := dflt (d_z_tip (sched i)) z_tip).
    destruct (demod_tracks sched _ _ _ (z + A_tip) A_tip n n_trapz i1
      (pdm_tracks sched s r_tip eps_tip alpha_tip) (fun D => pdm_uniform D s r_tip eps_tip alpha_tip)
      (fun zs => mono_pdm_heights sched s zs r_tip eps_tip alpha_tip)) as (L2 & D0 & A & H); [discriminate|].
    exists (set_z (d_z_tip (sched i)) D0). split.
    { apply assembled_z; [eapply assembled_mono; [| |exact A]; lia|apply held_at; lia]. }
    rewrite (H _ (agree_z D0 (d_z_tip (sched i))) eq_refl). reflexivity.
  - (* pdm Taylor *)
    intros _. unfold t_pdm_eff_pol_n_taylor. rewrite (tbind_ok _ _ _ _ _ (or_default_eq sched d_z_tip z_tip i)).
    set (i0 := tick z_tip i). pose proof (tick_le z_tip i) as L0. fold i0 in L0. set (iJ := tick r_tip i0). pose proof (tick_le r_tip i0) as L1. fold iJ in L1.
    set (iN := tick n_tayl iJ). pose proof (tick_le n_tayl iJ) as L2. fold iN in L2. pose proof (tick_le n_trapz iN) as L3.
    pose proof (t_pdm_defaults_eq sched r_tip eps_tip alpha_tip i0) as E. fold iJ in E.
    destruct (pdm_defaults (sched i0) r_tip eps_tip alpha_tip) as [ra|e] eqn:Ed.
    2: { rewrite (tbind_raise _ _ _ _ _ E); cbn [fst snd rbind]. exists (D_of sched i i0 i0 i0 i0 i0 i0 i0 i0).
         unfold pdm_eff_pol_n_taylor. rewrite (pdm_defaults_D (D_of sched i i0 i0 i0 i0 i0 i0 i0 i0) (sched i0) r_tip eps_tip alpha_tip eq_refl), Ed.
         split; [apply assembled_D_of; lia|reflexivity]. }
    set (Dn := D_of sched i i0 i0 i0 i0 i0 iN i0 iJ). exists Dn. unfold pdm_eff_pol_n_taylor.
    rewrite (pdm_defaults_D Dn (sched i0) r_tip eps_tip alpha_tip eq_refl), Ed.
    rewrite (tbind_ok _ _ _ _ _ E). rewrite (tbind_ok _ _ _ _ _ (or_default_eq sched d_n_tayl n_tayl iJ)). fold iN. cbn [rbind].
    destruct (refl_coef_qs s (rr 0)) as [b|e]; [|unfold tbind; cbn [tpure fst snd rbind]; split; [apply assembled_D_of; lia|reflexivity]].
    rewrite (tbind_ok (tpure (Ok b)) _ iN b iN eq_refl). rewrite (tbind_ok _ _ _ _ _ (or_default_eq sched d_n_trapz n_trapz iN)). cbn [tpure fst snd rbind].
    split; [apply assembled_D_of; lia|]. reflexivity.
  - (* pdm inverse *)
    intros _. unfold t_pdm_refl_coef_qs_from_eff_pol. rewrite (tbind_ok _ _ _ _ _ (or_default_eq sched d_z_tip z_tip i)).
    set (i0 := tick z_tip i). pose proof (tick_le z_tip i) as L0. fold i0 in L0. pose proof (tick_le r_tip i0) as L1.
    set (Dn := D_of sched i i0 i0 i0 i0 i0 i0 i0 i0).
    pose proof (t_pdm_defaults_eq sched r_tip eps_tip alpha_tip i0) as E.
    rewrite <- (pdm_defaults_D Dn (sched i0) r_tip eps_tip alpha_tip eq_refl) in E.
    exists Dn. unfold pdm_refl_coef_qs_from_eff_pol.
    destruct (pdm_defaults Dn r_tip eps_tip alpha_tip) as [ra|e]; [rewrite (tbind_ok _ _ _ _ _ E)|rewrite (tbind_raise _ _ _ _ _ E)];
    cbn [tpure fst snd rbind]; (split; [apply assembled_D_of; lia|reflexivity]).
Qed.
End Main.
