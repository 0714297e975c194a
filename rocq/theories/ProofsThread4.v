(** * Proofs: the root-finding inverses while another thread changes the defaults *)
From Coq Require Import String Reals Lra Lia ZArith List Bool.
From Coquelicot Require Import Complex.
From Verif Require Import Num NumLemmas ModelBase ModelSample ModelTip NArr ModelObj ModelArr ModelArrTip ModelInv ModelCache ModelThread SpecThread ModelThreadInv SpecThreadInv ProofsThread.
Import ListNotations.
Open Scope R_scope.

Lemma or_default_a_eq {A} sched (attr : Defaults -> A) o i : or_default_a sched attr o i = (Ok (darr (attr (sched i)) o), tick o i).
Proof. destruct o; reflexivity. Qed.

Section Reads.
Variable sched : nat -> Defaults.
Definition mixed (ke kz kr kL kg k1 ka kN kJ kb : nat) : Defaults :=
  mkDefaults (d_eps_env (sched ke)) (d_z_tip (sched kz)) (d_r_tip (sched kr)) (d_L_tip (sched kL)) (d_g_factor (sched kg))
    (d_d_Q1 (sched k1)) (d_d_Qa (sched ka)) (d_n_trapz (sched kN)) (d_n_lag (sched kz)) (d_n_tayl (sched kJ)) (d_beta_threshold (sched kb)).
Lemma assembled_mixed i j ke kz kr kL kg k1 ka kN kJ kb :
  (i <= ke <= j -> i <= kz <= j -> i <= kr <= j -> i <= kL <= j -> i <= kg <= j -> i <= k1 <= j -> i <= ka <= j ->
   i <= kN <= j -> i <= kJ <= j -> i <= kb <= j -> assembled sched i j (mixed ke kz kr kL kg k1 ka kN kJ kb))%nat.
Proof.
  intros. unfold assembled, attribute_held, mixed; cbn.
  repeat split; eexists; (split; [|reflexivity]); assumption.
Qed.
End Reads.

Lemma roots_main er ab ar sched c i :
  exists D, assembled sched i (snd (roots_threaded er ab ar sched c i)) D /\
    fst (roots_threaded er ab ar sched c i) = roots_alone er ab ar D c /\
    (i <= snd (roots_threaded er ab ar sched c i))%nat.
Proof.
  pose (good := fun p : res (arr CV * arr bool) * nat => exists D, assembled sched i (snd p) D /\ fst p = roots_alone er ab ar D c /\ (i <= snd p)%nat).
  change (good (roots_threaded er ab ar sched c i)).
  destruct c as [a A n z r L g d0 d1 N J t b1 b2 e|a A n z r e1 a1 N J t b1 b2 e]; cbn [roots_threaded].
  - unfold t_fdm_roots, t_fdm_defaults_a. unfold tbind at 1. rewrite or_default_a_eq. cbn beta iota.
    set (i0 := tick z i). assert (H0 := tick_le z i). fold i0 in H0.
    unfold tbind at 1 2. rewrite or_default_a_eq. cbn beta iota. set (i1 := tick r i0). assert (H1 := tick_le r i0). fold i1 in H1.
    unfold tbind at 1. rewrite or_default_a_eq. cbn beta iota. set (i2 := tick L i1). assert (H2 := tick_le L i1). fold i2 in H2.
    unfold tbind at 1. rewrite or_default_a_eq. cbn beta iota. set (i3 := tick g i2). assert (H3 := tick_le g i2). fold i3 in H3.
    unfold tbind at 1. unfold tpure at 1.
    destruct (match d0 with None => _ | Some d => _ end) as [q0|err] eqn:Eq.
    2:{ unfold good; cbn [fst snd roots_alone]. exists (mixed sched i i i0 i1 i2 i i i i i). split; [apply assembled_mixed; lia|]. split; [|lia].
        unfold fdm_refl_coef_qs_from_eff_pol_n, fdm_defaults_a. cbn [mixed d_r_tip d_L_tip d_g_factor]. rewrite Eq. reflexivity. }
    unfold tbind at 1. rewrite or_default_a_eq. cbn beta iota. set (i4 := tick d1 i3). assert (H4 := tick_le d1 i3). fold i4 in H4.
    unfold tbind at 1. rewrite or_default_a_eq. cbn beta iota. set (i5 := tick None i4). assert (H5 := tick_le (@None (arr R)) i4). fold i5 in H5.
    unfold tpure at 1. cbn beta iota.
    unfold tbind at 1. rewrite or_default_eq. cbn beta iota. set (i6 := tick J i5). assert (H6 := tick_le J i5). fold i6 in H6.
    unfold tbind at 1. rewrite or_default_eq. cbn beta iota. set (i7 := tick t i6). assert (H7 := tick_le t i6). fold i7 in H7.
    unfold tbind at 1. rewrite or_default_a_eq. cbn beta iota. set (i8 := tick e i7). assert (H8 := tick_le e i7). fold i8 in H8.
    unfold tbind at 1. unfold tpure at 1.
    set (Dn := mixed sched i7 i i0 i1 i2 i3 i4 i8 i5 i6).
    assert (ED : fdm_defaults_a Dn r L g d0 d1 None = Ok (darr (d_r_tip (sched i0)) r, darr (d_L_tip (sched i1)) L, darr (d_g_factor (sched i2)) g, q0, darr (d_d_Q1 (sched i3)) d1, scalar (d_d_Qa (sched i4)))).
    { unfold fdm_defaults_a, Dn. cbn [mixed d_r_tip d_L_tip d_g_factor d_d_Q1 d_d_Qa]. rewrite Eq. reflexivity. }
    destruct (amap2 Rplus (darr (d_z_tip (sched i)) z) A) as [z0|err] eqn:Ez.
    2:{ unfold good; cbn [fst snd roots_alone]. exists (mixed sched i7 i i0 i1 i2 i3 i4 i i5 i6). split; [apply assembled_mixed; lia|]. split; [|lia].
        unfold fdm_refl_coef_qs_from_eff_pol_n.
        change (fdm_defaults_a (mixed sched i7 i i0 i1 i2 i3 i4 i i5 i6) r L g d0 d1 None) with (fdm_defaults_a Dn r L g d0 d1 None). rewrite ED. cbn [rbind].
        unfold fdm_taylor_coef_a. cbn [mixed d_z_tip]. rewrite Ez. reflexivity. }
    unfold tbind at 1. rewrite or_default_eq. cbn beta iota. set (i9 := tick N i8). assert (H9 := tick_le N i8). fold i9 in H9.
    unfold tpure, good. cbn [fst snd roots_alone]. exists Dn. split; [apply assembled_mixed; lia|]. split; [|lia].
    unfold fdm_refl_coef_qs_from_eff_pol_n. rewrite ED. reflexivity.
  - unfold t_pdm_roots, t_pdm_defaults_a. unfold tbind at 1. rewrite or_default_a_eq. cbn beta iota.
    set (i0 := tick z i). assert (H0 := tick_le z i). fold i0 in H0.
    unfold tbind at 1 2. rewrite or_default_a_eq. cbn beta iota. set (i1 := tick r i0). assert (H1 := tick_le r i0). fold i1 in H1.
    unfold tpure at 1.
    assert (EP : forall D, d_r_tip D = d_r_tip (sched i0) -> pdm_defaults_a D r e1 a1 = pdm_defaults_a (sched i0) r e1 a1) by (intros D E; unfold pdm_defaults_a; now rewrite E).
    change (match e1 with None => _ | Some eps => _ end) with (pdm_defaults_a (sched i0) r e1 a1).
    destruct (pdm_defaults_a (sched i0) r e1 a1) as [ra|err] eqn:Ep.
    2:{ unfold good; cbn [fst snd roots_alone]. exists (mixed sched i i i0 i i i i i i i). split; [apply assembled_mixed; lia|]. split; [|lia].
        unfold pdm_refl_coef_qs_from_eff_pol_n. rewrite EP by reflexivity. reflexivity. }
    unfold tbind at 1. rewrite or_default_eq. cbn beta iota. set (i6 := tick J i1). assert (H6 := tick_le J i1). fold i6 in H6.
    unfold tbind at 1. rewrite or_default_eq. cbn beta iota. set (i7 := tick t i6). assert (H7 := tick_le t i6). fold i7 in H7.
    unfold tbind at 1. rewrite or_default_a_eq. cbn beta iota. set (i8 := tick e i7). assert (H8 := tick_le e i7). fold i8 in H8.
    unfold tbind at 1. unfold tpure at 1.
    destruct (amap2 Rplus (darr (d_z_tip (sched i)) z) A) as [z0|err] eqn:Ez.
    2:{ unfold good; cbn [fst snd roots_alone]. exists (mixed sched i7 i i0 i i i i i i1 i6). split; [apply assembled_mixed; lia|]. split; [|lia].
        unfold pdm_refl_coef_qs_from_eff_pol_n. rewrite EP by reflexivity. cbn [rbind]. unfold pdm_taylor_coef_a. cbn [mixed d_z_tip]. rewrite Ez. reflexivity. }
    unfold tbind at 1. rewrite or_default_eq. cbn beta iota. set (i9 := tick N i8). assert (H9 := tick_le N i8). fold i9 in H9.
    unfold tpure, good. cbn [fst snd roots_alone]. exists (mixed sched i7 i i0 i i i i i8 i1 i6). split; [apply assembled_mixed; lia|]. split; [|lia].
    unfold pdm_refl_coef_qs_from_eff_pol_n. rewrite EP by reflexivity. reflexivity.
Qed.

(** C93. The root-finding inverses, for array arguments and whatever the solver and
    the sorts do: under any schedule the result is that of a state of the defaults
    every attribute of which was current at some instant of the call. *)
Lemma C93_roots_assembled_proof :
  forall eig_roots argsort_bool argsort_real (sched : nat -> Defaults) (c : rcall) (i : nat),
  let j := snd (roots_threaded eig_roots argsort_bool argsort_real sched c i) in
  exists D, assembled sched i j D /\
    fst (roots_threaded eig_roots argsort_bool argsort_real sched c i) = roots_alone eig_roots argsort_bool argsort_real D c.
Proof. intros er ab ar sched c i j. destruct (roots_main er ab ar sched c i) as (D & A & E & _). now exists D. Qed.

(** C93. Undisturbed calls, and one assignment to one attribute: the result is that
    from before it or that from after it. *)
Lemma C93_roots_one_assignment_proof :
  forall eig_roots argsort_bool argsort_real (sched : nat -> Defaults) (c : rcall) (i : nat) (D1 D2 : Defaults),
  one_attribute D1 D2 ->
  (forall k, (i <= k <= snd (roots_threaded eig_roots argsort_bool argsort_real sched c i))%nat -> sched k = D1 \/ sched k = D2) ->
  fst (roots_threaded eig_roots argsort_bool argsort_real sched c i) = roots_alone eig_roots argsort_bool argsort_real D1 c \/
  fst (roots_threaded eig_roots argsort_bool argsort_real sched c i) = roots_alone eig_roots argsort_bool argsort_real D2 c.
Proof.
  intros er ab ar sched c i D1 D2 O H. destruct (roots_main er ab ar sched c i) as (D' & A & E & _). set (j := snd _) in *.
  rewrite E. clear E. enough (D' = D1 \/ D' = D2) as [-> | ->] by auto.
  assert (Q : forall (X : Type) (attr : Defaults -> X) x, attribute_held sched i j attr x -> x = attr D1 \/ x = attr D2).
  { intros X attr x (k & K & ->). destruct (H k K) as [-> | ->]; auto. }
  unfold assembled in A. destruct A as (A1 & A2 & A3 & A4 & A5 & A6 & A7 & A8 & A9 & A10 & A11).
  apply Q in A1, A2, A3, A4, A5, A6, A7, A8, A9, A10, A11. clear Q H.
  destruct D' as [e0 z0 r0 L0 g0 d10 da0 N0 l0 J0 b0]. destruct O; cbn in *;
    repeat match goal with A : ?x = ?y \/ ?x = ?y |- _ => assert (x = y) by tauto; clear A; subst end;
    match goal with A : _ \/ _ |- _ => destruct A; subst; auto end.
Qed.

(** C93. Calls with all arguments given do not depend on the defaults at all. *)
Lemma C93_roots_explicit_proof :
  forall eig_roots argsort_bool argsort_real (sched : nat -> Defaults) (c : rcall) (i : nat) (D : Defaults),
  roots_given c = true ->
  fst (roots_threaded eig_roots argsort_bool argsort_real sched c i) = roots_alone eig_roots argsort_bool argsort_real D c.
Proof.
  intros er ab ar sched c i D G. destruct (roots_main er ab ar sched c i) as (D' & _ & -> & _).
  destruct c; cbn in G; rewrite ?andb_true_iff in G;
    repeat match goal with G : _ /\ _ |- _ => destruct G end;
    repeat match goal with G : is_given ?o = true |- _ => destruct o; [clear G|discriminate G] end; try reflexivity.
  cbn [roots_alone]. unfold fdm_refl_coef_qs_from_eff_pol_n, fdm_defaults_a. cbn [darr]. destruct d_Q0; cbn [rbind]; [reflexivity|].
  destruct (lift2 _ _ _); reflexivity.
Qed.

(** C93, example: the threshold is read before the environment. If both are changed
    between the two reads the call uses the old threshold with the new environment,
    a state that never existed. *)
Lemma C93_roots_example_proof :
  forall eig_roots argsort_bool argsort_real (D : Defaults) (alpha_eff_n : arr CV) (A_tip : arr R) (n : arr Z) (z r : R),
  let with_ b e := mkDefaults e (d_z_tip D) (d_r_tip D) (d_L_tip D) (d_g_factor D) (d_d_Q1 D) (d_d_Qa D) (d_n_trapz D) (d_n_lag D) (d_n_tayl D) b in
  let sched k := match k with O => with_ 2 (RtoC 1) | S _ => with_ 1 (RtoC 3) end in
  let c := RPdm alpha_eff_n A_tip n (Some (scalar z)) (Some (scalar r)) None None (Some 32%nat) (Some 16%nat) None true true None in
  A_tip = scalar 1 ->
  fst (roots_threaded eig_roots argsort_bool argsort_real sched c 0%nat) = roots_alone eig_roots argsort_bool argsort_real (with_ 2 (RtoC 3)) c /\
  snd (roots_threaded eig_roots argsort_bool argsort_real sched c 0%nat) = 2%nat.
Proof. intros er ab ar D a A n z r w s c ->. split; reflexivity. Qed.
