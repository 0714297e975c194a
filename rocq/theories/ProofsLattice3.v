(** * Proofs: superlattices (C94), averages, tip, and the wrong average *)
From Coq Require Import String Reals Lra Lia ZArith List Bool.
From Coquelicot Require Import Coquelicot.
From Coq Require Import List.
From Verif Require Import Num NumLemmas ModelBase ModelSample ModelTip StackLemmas Spec SpecQuad SpecThin SpecLattice
  ProofsStackQS ProofsStackQS2 ProofsSym ProofsPassive Laguerre Laguerre2 QuadConv ProofsQuad ProofsQuad2 ProofsFilm ProofsTip ProofsTip3 ProofsAbsorb ProofsThin ProofsThin2 ProofsThin4 ProofsCompare ProofsEx ProofsInv5 ProofsConsist3 ProofsLattice ProofsLattice2.
Import ListNotations.
Open Scope R_scope.

Definition val (s : sample) (q : R) : C := match refl_coef_qs s (rr q) with Ok (Some v) => v | _ => RtoC 0 end.
Lemma val_ok s q v : refl_coef_qs s (rr q) = Ok (Some v) -> val s q = v.
Proof. unfold val. now intros ->. Qed.

(** |r| < 1 for a lossless stack *)
Lemma val_unit e0 l ts nu q : length l = S (length ts) -> Forall (fun e => 0 < e) (e0 :: l) -> Forall (fun t => 0 <= t) ts -> 0 <= q ->
  refl_coef_qs (stack (map RtoC (e0 :: l)) ts nu) (rr q) = Ok (Some (val (stack (map RtoC (e0 :: l)) ts nu) q)) /\ Cmod (val (stack (map RtoC (e0 :: l)) ts nu) q) <= 1.
Proof.
  intros Hl Hp Ht Hq. pose proof (refl_xl e0 l ts nu q Hl Hp Ht Hq) as E. rewrite (val_ok _ _ _ E). split; [exact E|].
  inversion Hp as [|? ? P0 Pl]; subst. rewrite Cmod_R. apply Rabs_le.
  assert (Nl : l <> []) by (destruct l; discriminate).
  pose proof (contrast_range e0 (xl q l ts) P0 (xl_pos q l ts Hq Nl Pl Ht)). lra.
Qed.
Lemma periods_pos e0 es m M c N : (0 < N)%nat -> 0 < e0 -> 0 < m -> m <= es <= M -> Forall (fun l => m <= fst l <= M /\ 0 <= snd l) c ->
  length (map fst (periods N c) ++ [es]) = S (length (map snd (periods N c))) /\
  Forall (fun e => 0 < e) (e0 :: map fst (periods N c) ++ [es]) /\ Forall (fun t => 0 <= t) (map snd (periods N c)).
Proof.
  intros HN H0 Hm Hes Hc. rewrite Forall_forall in Hc. split; [rewrite app_length, !map_length; simpl; lia|]. split.
  - constructor; [exact H0|]. apply Forall_app. split; [|constructor; [lra|constructor]]. apply Forall_forall. intros e He. apply in_map_iff in He.
    destruct He as (l & <- & Hl). apply in_periods in Hl. destruct Hl as (k & Hk & ->). cbn [fst]. pose proof (Hc k Hk). lra.
  - apply Forall_forall. intros t Ht. apply in_map_iff in Ht. destruct Ht as (l & <- & Hl). apply in_periods in Hl. destruct Hl as (k & Hk & ->). cbn [snd].
    apply Rdiv_le_0_compat; [now apply Hc|now apply lt_0_INR].
Qed.
Lemma above_val lg D s z n_lag : let n := given_or (d_n_lag D) n_lag in
  (2 <= n)%nat -> documented_rule n (lg n) -> 0 < z ->
  (forall q, 0 <= q -> refl_coef_qs s (rr q) = Ok (Some (val s q)) /\ Cmod (val s q) <= 1) ->
  refl_coef_qs_above_surf lg D s (rr z) n_lag = Ok (Some (Csum (map (fun xw => RtoC (snd xw * fst xw) * val s (fst xw / (2 * z)))%C (lg n)))) /\
  Cmod (Csum (map (fun xw => RtoC (snd xw * fst xw) * val s (fst xw / (2 * z)))%C (lg n))) <= 1.
Proof.
  intros n Hn HD Hz Hv. destruct (rule_moments n (lg n) Hn HD) as (Hp & M1 & _).
  assert (Q : forall xw, In xw (lg n) -> 0 <= fst xw / (2 * z)) by (intros xw Hin; destruct (Hp xw Hin); left; apply Rdiv_lt_0_compat; lra).
  split.
  - apply (above_ok lg D s z n_lag (val s)).
    + change (dflt (d_n_lag D) n_lag) with n. lia.
    + lra.
    + intros xw Hin. apply Hv. now apply Q.
    + eexists. apply Hv. lra.
  - match goal with |- Cmod ?a <= _ => replace a with (a - RtoC 0)%C by ring end.
    eapply Rle_trans; [apply (Csum_dev (fun xw => snd xw * fst xw) (fun xw => val s (fst xw / (2 * z))) (RtoC 0) (fun _ => 1) (lg n))|].
    + intros xw Hin. destruct (Hp xw Hin). apply Rmult_le_pos; lra.
    + intros xw Hin. replace (val s (fst xw / (2 * z)) - RtoC 0)%C with (val s (fst xw / (2 * z))) by ring. apply Hv. now apply Q.
    + exact M1.
    + right. etransitivity; [|exact M1]. f_equal. apply map_ext. intros; ring.
Qed.

Section Average.
  Variables (lg : laggauss_t) (D : Defaults) (c : list (R * R)) (e0 es m M z : R) (nu nu' : option R) (N : nat) (n_lag : option nat).
  Let n := given_or (d_n_lag D) n_lag.
  Let super := stack (map RtoC (e0 :: map fst (periods N c) ++ [es])) (map snd (periods N c)) nu.
  Let film := stack [RtoC e0; RtoC (film_eps c); RtoC es] [film_thickness c] nu'.
  Let bound := 9 / 2 * (M / m) ^ 4 * ((total_thickness c / z) ^ 2 / INR N) + (M / m) ^ 2 * exp (- 2 * MAX_EXP_ARG).
  Lemma average_main : (2 <= n)%nat -> documented_rule n (lg n) ->
    (0 < N)%nat -> 0 < e0 -> 0 < m -> m <= es <= M -> Forall (fun l => m <= fst l <= M /\ 0 <= snd l) c -> 0 < total_thickness c -> 0 < z ->
    exists B B' : C, refl_coef_qs_above_surf lg D super (rr z) n_lag = Ok (Some B) /\ refl_coef_qs_above_surf lg D film (rr z) n_lag = Ok (Some B') /\
      Cmod B <= 1 /\ Cmod B' <= 1 /\ Cmod (B - B')%C <= bound.
  Proof.
    intros Hn HD HN H0 Hm Hes Hc HT Hz.
    assert (VS : forall q, 0 <= q -> refl_coef_qs super (rr q) = Ok (Some (val super q)) /\ Cmod (val super q) <= 1).
    { intros q Hq. destruct (periods_pos e0 es m M c N HN H0 Hm Hes Hc) as (A1 & A2 & A3). now apply val_unit. }
    assert (VF : forall q, 0 <= q -> refl_coef_qs film (rr q) = Ok (Some (val film q)) /\ Cmod (val film q) <= 1).
    { intros q Hq. destruct (film_facts m M Hm c Hc HT) as (F1 & F2 & _). unfold inb in F1. unfold film.
      apply (val_unit e0 [film_eps c; es] [film_thickness c] nu' q); [reflexivity| | |exact Hq].
      - repeat constructor; lra.
      - constructor; [|constructor]. unfold film_thickness. fold (stretch c). apply Rmult_le_pos; lra. }
    destruct (above_val lg D super z n_lag Hn HD Hz VS) as [E1 U1]. destruct (above_val lg D film z n_lag Hn HD Hz VF) as [E2 U2]. fold n in E1, U1, E2, U2.
    eexists. eexists. split; [exact E1|]. split; [exact E2|]. split; [exact U1|]. split; [exact U2|].
    destruct (rule_moments n (lg n) Hn HD) as (Hp & M1 & _ & M3).
    assert (PN : 0 < INR N) by now apply lt_0_INR.
    eapply Rle_trans.
    - apply (Csum_dev1 (fun xw => snd xw * fst xw) (fun xw => val super (fst xw / (2 * z))) (fun xw => val film (fst xw / (2 * z)))
        (fun xw => 3 / 4 * (M / m) ^ 4 * ((total_thickness c / z) ^ 2 / INR N) * fst xw ^ 2 + (M / m) ^ 2 * exp (- 2 * MAX_EXP_ARG)) (lg n)).
      + intros xw Hin. destruct (Hp xw Hin). apply Rmult_le_pos; lra.
      + intros xw Hin. assert (Q : 0 <= fst xw / (2 * z)) by (destruct (Hp xw Hin); left; apply Rdiv_lt_0_compat; lra).
        destruct (C94_effective_film_proof c e0 es m M (fst xw / (2 * z)) nu nu' N HN H0 Hm Hes Hc HT Q) as (r & r' & R1 & R2 & R3 & _).
        fold super in R1. fold film in R2. rewrite (val_ok _ _ _ R1), (val_ok _ _ _ R2). rewrite <- RtoC_minus, Cmod_R.
        eapply Rle_trans; [exact R3|]. right. field. lra.
      + reflexivity.
    - right. transitivity (Rsum (map (fun xw => (3 / 4 * (M / m) ^ 4 * ((total_thickness c / z) ^ 2 / INR N)) * (snd xw * fst xw * fst xw ^ 2)) (lg n))
        + Rsum (map (fun xw => (M / m) ^ 2 * exp (- 2 * MAX_EXP_ARG) * (snd xw * fst xw)) (lg n))).
      + clear. induction (lg n) as [|x l IH]; unfold Rsum in *; cbn [map fold_right]; [ring|]. rewrite IH. ring.
      + rewrite !Rsum_scal, M1, M3. unfold bound. field. split; lra.
  Qed.
End Average.

(** C94. The averaged coefficient at height [z], documented rule of at least two
    nodes: the difference is at most [9/2 (M/m)^4 (T/z)^2 / N] plus the floor the
    clip leaves, whatever the number of nodes. *)
Lemma C94_average_proof :
  forall (laggauss : laggauss_t) (D : Defaults) (c : list (R * R)) (e0 es m M z : R) nu nu' (N : nat) n_lag,
  let n := given_or (d_n_lag D) n_lag in
  (2 <= n)%nat -> documented_rule n (laggauss n) ->
  (0 < N)%nat -> 0 < e0 -> 0 < m -> m <= es <= M -> Forall (fun l => m <= fst l <= M /\ 0 <= snd l) c -> 0 < total_thickness c -> 0 < z ->
  exists B B' : C,
    refl_coef_qs_above_surf laggauss D (stack (map RtoC (e0 :: map fst (periods N c) ++ [es])) (map snd (periods N c)) nu) (rr z) n_lag = Ok (Some B) /\
    refl_coef_qs_above_surf laggauss D (stack [RtoC e0; RtoC (film_eps c); RtoC es] [film_thickness c] nu') (rr z) n_lag = Ok (Some B') /\
    Cmod (B - B')%C <= 9 / 2 * (M / m) ^ 4 * ((total_thickness c / z) ^ 2 / INR N) + (M / m) ^ 2 * exp (- 2 * MAX_EXP_ARG).
Proof.
  intros. destruct (average_main laggauss D c e0 es m M z nu nu' N n_lag) as (B & B' & E1 & E2 & _ & _ & E3); try assumption.
  exists B, B'. auto.
Qed.

(** C94. So does the finite dipole model (method Q_ave): a tip cannot tell a fine
    superlattice from the single film. *)
Lemma C94_fdm_proof :
  forall (laggauss : laggauss_t) (D : Defaults) (c : list (R * R)) (e0 es m M p : R) nu nu' (N : nat) z_tip r_tip L_tip g_factor d_Q0 d_Q1 d_Qa n_lag,
  let n := given_or (d_n_lag D) n_lag in
  let z := given_or (d_z_tip D) z_tip in let r := given_or (d_r_tip D) r_tip in let L := given_or (d_L_tip D) L_tip in
  let d0 := given_or (131 / 100 * L / (L + 2 * r)) d_Q0 in let d1 := given_or (d_d_Q1 D) d_Q1 in
  let g := given_or (d_g_factor D) g_factor in let zQ := z + r * given_or (d_d_Qa D) d_Qa in
  (2 <= n)%nat -> documented_rule n (laggauss n) ->
  (0 < N)%nat -> 0 < e0 -> 0 < m -> m <= es <= M -> Forall (fun l => m <= fst l <= M /\ 0 <= snd l) c -> 0 < total_thickness c -> 0 < zQ ->
  fdm_regular z d0 r L -> fdm_regular z d1 r L -> Cmod (fdm_f z d1 r L g) <= p -> p < 1 ->
  exists a a' : C,
    fdm_eff_pol laggauss D (stack (map RtoC (e0 :: map fst (periods N c) ++ [es])) (map snd (periods N c)) nu) z_tip r_tip L_tip g_factor d_Q0 d_Q1 d_Qa n_lag (Some "Q_ave"%string) = Ok (Some a) /\
    fdm_eff_pol laggauss D (stack [RtoC e0; RtoC (film_eps c); RtoC es] [film_thickness c] nu') z_tip r_tip L_tip g_factor d_Q0 d_Q1 d_Qa n_lag (Some "Q_ave"%string) = Ok (Some a') /\
    Cmod (a - a')%C <= Cmod (fdm_f z d0 r L g) / (2 * (1 - p) ^ 2) * (9 / 2 * (M / m) ^ 4 * ((total_thickness c / zQ) ^ 2 / INR N) + (M / m) ^ 2 * exp (- 2 * MAX_EXP_ARG)).
Proof.
  intros lg D c e0 es m M p nu nu' N z_tip r_tip L_tip gf d_Q0 d_Q1 d_Qa nl n z r L d0 d1 g zQ Hn HD HN H0 Hm Hes Hc HT Hz R0 R1 Hp Hp1.
  destruct (average_main lg D c e0 es m M zQ nu nu' N nl Hn HD HN H0 Hm Hes Hc HT Hz) as (B & B' & EB & EB' & UB & UB' & DB).
  rewrite (qave_eff_pol lg D _ z_tip r_tip L_tip gf d_Q0 d_Q1 d_Qa nl B EB R0 R1).
  rewrite (qave_eff_pol lg D _ z_tip r_tip L_tip gf d_Q0 d_Q1 d_Qa nl B' EB' R0 R1).
  fold z r L d0 d1 g.
  assert (U : forall w : C, Cmod w <= 1 -> Cmod w * Cmod (fdm_f z d1 r L g) <= p).
  { intros w Hw. apply Rle_trans with (1 * Cmod (fdm_f z d1 r L g)); [apply Rmult_le_compat_r; [apply Cmod_ge_0|exact Hw]|lra]. }
  destruct (signal_diff B B' (fdm_f z d0 r L g) (fdm_f z d1 r L g) p (U B UB) (U B' UB') Hp1) as (a & a' & Ea & Ea' & Da).
  exists a, a'. rewrite Ea, Ea'. split; [reflexivity|]. split; [reflexivity|].
  eapply Rle_trans; [exact Da|]. apply Rmult_le_compat_l; [|exact DB].
  apply Rmult_le_pos; [apply Cmod_ge_0|]. left. apply Rinv_0_lt_compat. apply Rmult_lt_0_compat; [lra|apply pow_lt; lra].
Qed.

(** C94. The film is not the one of the mean permittivity: for one superlattice the
    coefficient stays away from that of a film of the mean permittivity and the
    total thickness, however fine the periods. *)
Lemma C94_mean_permittivity_refuted_proof :
  ~ (forall (c : list (R * R)) (e0 es q delta : R), 0 < e0 -> 0 < es -> Forall (fun l => 0 < fst l /\ 0 <= snd l) c -> 0 < total_thickness c -> 0 <= q -> 0 < delta ->
     exists N r r', (0 < N)%nat /\ (forall k, (N <= k)%nat ->
       refl_coef_qs (stack (map RtoC (e0 :: map fst (periods k c) ++ [es])) (map snd (periods k c)) None) (rr q) = Ok (Some (RtoC (r k)))) /\
       refl_coef_qs (stack [RtoC e0; RtoC (mean_eps c); RtoC es] [total_thickness c] None) (rr q) = Ok (Some (RtoC r')) /\
       forall k, (N <= k)%nat -> Rabs (r k - r') <= delta).
Proof.
  intros H. set (c := [(1, 1); (9, 1)]).
  assert (T : total_thickness c = 2) by (unfold total_thickness, c; simpl; ring).
  assert (P : mean_eps c = 5) by (unfold mean_eps; rewrite T; unfold c; simpl; field).
  assert (Sv : mean_inv_eps c = 5 / 9) by (unfold mean_inv_eps; rewrite T; unfold c; simpl; field).
  assert (B : film_eps c = 3).
  { unfold film_eps. rewrite P, Sv. replace (5 / (5 / 9)) with (3 * 3) by field. apply sqrt_square. lra. }
  destruct (H c 1 3 1 (1 / 40)) as (N & r & r' & HN & E1 & E2 & E3); try lra.
  { unfold c. repeat constructor; simpl; lra. }
  clear H. assert (Big : exists k, (N <= k)%nat /\ 3 * 9 ^ 4 * 4 * 40 <= INR k).
  { destruct (nfloor_ex (3 * 9 ^ 4 * 4 * 40) ltac:(lra)) as [k0 [_ Hk]]. rewrite <- S_INR in Hk. set (k := S k0) in *. exists (max N k). split; [lia|]. apply Rle_trans with (INR k); [lra|apply le_INR; lia]. }
  destruct Big as (k & Hk & Hbig). specialize (E1 k Hk). specialize (E3 k Hk).
  assert (Pk : 0 < INR k) by (apply lt_0_INR; lia).
  destruct (C94_effective_film_proof c 1 3 1 9 1 None None k ltac:(lia) ltac:(lra) ltac:(lra) ltac:(lra)) as (a & a' & A1 & A2 & A3 & _).
  { unfold c. repeat constructor; simpl; lra. }
  { lra. } { lra. }
  rewrite A1 in E1. injection E1 as E1. subst a. rewrite T in A3.
  assert (Fp : 0 <= film_thickness c).
  { unfold film_thickness. rewrite T. apply Rmult_le_pos; [lra|apply sqrt_pos]. }
  assert (F1 : a' = 1 / 2).
  { rewrite B in A2. pose proof (refl_xl 1 [3; 3] [film_thickness c] None 1 eq_refl) as Q.
    specialize (Q ltac:(repeat constructor; lra) ltac:(constructor; [exact Fp|constructor]) ltac:(lra)). cbn [map] in Q. rewrite A2 in Q. injection Q as Q. rewrite Q.
    cbn [xl xe]. rewrite seen_same; [field|lra|]. apply hyp_range; lra. }
  assert (F2 : 3 / 5 <= r').
  { rewrite P, T in E2. pose proof (refl_xl 1 [5; 3] [2] None 1 eq_refl) as Q.
    specialize (Q ltac:(repeat constructor; lra) ltac:(constructor; [lra|constructor]) ltac:(lra)). cbn [map] in Q. rewrite E2 in Q. injection Q as Q. rewrite Q.
    cbn [xl xe]. assert (HM : 2 <= MAX_EXP_ARG) by (pose proof MAX_16; lra). rewrite hyp_noclip by lra.
    assert (Th : 2 / 3 <= th (1 * 2) < 1).
    { split; [|apply th_range; lra]. unfold th. replace (-2 * (1 * 2)) with (- (4)) by ring. pose proof (exp_ineq1_le 4). rewrite exp_Ropp. pose proof (exp_pos 4).
      assert (I : / exp 4 <= / 5) by (apply Rinv_le_contravar; lra). assert (0 < / exp 4) by now apply Rinv_0_lt_compat. rewrite <- Rle_div_r; lra. }
    set (t := th (1 * 2)) in *. unfold seen. replace ((5 * (3 + 5 * t) / (5 + 3 * t) - 1) / (5 * (3 + 5 * t) / (5 + 3 * t) + 1)) with ((10 + 22 * t) / (20 + 28 * t)) by (field; lra).
    rewrite <- Rle_div_r; lra. }
  assert (F3 : 3 * (9 / 1) ^ 4 * ((1 * 2) ^ 2 / INR k) <= 1 / 40).
  { replace (3 * (9 / 1) ^ 4 * ((1 * 2) ^ 2 / INR k)) with (3 * 9 ^ 4 * 4 / INR k) by (field; lra). rewrite Rle_div_l; lra. }
  pose proof clip_floor as F. replace ((/ 2) ^ 40) with (/ 1099511627776) in F by (simpl; field).
  subst a'. apply Rabs_le_between in A3. apply Rabs_le_between in E3. lra.
Qed.

(** C94. A concrete superlattice: a thousand periods of permittivities 2 and 8 on a
    substrate of permittivity 4 (the geometric mean). *)
Lemma C94_superlattice_example_proof :
  exists r : R,
  refl_coef_qs (stack (map RtoC (1 :: map fst (periods 1000 [(2, 1); (8, 1)]) ++ [4])) (map snd (periods 1000 [(2, 1); (8, 1)])) None) (rr (1 / 10)) = Ok (Some (RtoC r)) /\
  film_eps [(2, 1); (8, 1)] = 4 /\ film_thickness [(2, 1); (8, 1)] = 5 / 2 /\
  Rabs (r - 3 / 5) <= 1 / 32.
Proof.
  set (c := [(2, 1); (8, 1)]).
  assert (T : total_thickness c = 2) by (unfold total_thickness, c; simpl; ring).
  assert (P : mean_eps c = 5) by (unfold mean_eps; rewrite T; unfold c; simpl; field).
  assert (Sv : mean_inv_eps c = 5 / 16) by (unfold mean_inv_eps; rewrite T; unfold c; simpl; field).
  assert (B : film_eps c = 4).
  { unfold film_eps. rewrite P, Sv. replace (5 / (5 / 16)) with (4 * 4) by field. apply sqrt_square. lra. }
  assert (F : film_thickness c = 5 / 2).
  { unfold film_thickness. rewrite T, P, Sv. replace (5 * (5 / 16)) with (5 / 4 * (5 / 4)) by field. rewrite sqrt_square by lra. field. }
  destruct (C94_effective_film_proof c 1 4 2 8 (1 / 10) None None 1000 ltac:(lia) ltac:(lra) ltac:(lra) ltac:(lra)) as (r & r' & A1 & A2 & _ & A3).
  { unfold c. repeat constructor; simpl; lra. }
  { lra. } { lra. }
  exists r. split; [exact A1|]. split; [exact B|]. split; [exact F|].
  assert (HM : 2 <= MAX_EXP_ARG) by (pose proof MAX_16; lra).
  specialize (A3 ltac:(rewrite F; lra)). rewrite T in A3.
  assert (E : r' = 3 / 5).
  { rewrite B, F in A2. pose proof (refl_xl 1 [4; 4] [5 / 2] None (1 / 10) eq_refl) as Q.
    specialize (Q ltac:(repeat constructor; lra) ltac:(constructor; [lra|constructor]) ltac:(lra)). cbn [map] in Q. rewrite A2 in Q. injection Q as Q. rewrite Q.
    cbn [xl xe]. rewrite seen_same; [field|lra|]. apply hyp_range; lra. }
  subst r'. eapply Rle_trans; [exact A3|]. rewrite INR_IZR_INZ. simpl. lra.
Qed.

(** C94. The same superlattice below a concrete charge (height 10) and a concrete tip
    (radius and semi-axis 1), 32 nodes. *)
Lemma C94_tip_example_proof :
  exists (laggauss : laggauss_t) (B B' a a' : C),
  let super := stack (map RtoC (1 :: map fst (periods 1000 [(2, 1); (8, 1)]) ++ [5])) (map snd (periods 1000 [(2, 1); (8, 1)])) None in
  let film := stack [RtoC 1; RtoC (film_eps [(2, 1); (8, 1)]); RtoC 5] [film_thickness [(2, 1); (8, 1)]] None in
  let run s := fdm_eff_pol laggauss defaults0 s (Some 0) (Some 1) (Some 1) (Some (RtoC (7 / 4))) (Some (1 / 2)) (Some (1 / 2)) (Some 10) (Some 32%nat) (Some "Q_ave"%string) in
  refl_coef_qs_above_surf laggauss defaults0 super (rr 10) (Some 32%nat) = Ok (Some B) /\
  refl_coef_qs_above_surf laggauss defaults0 film (rr 10) (Some 32%nat) = Ok (Some B') /\
  Cmod (B - B')%C <= 1 / 20 /\
  run super = Ok (Some a) /\ run film = Ok (Some a') /\ Cmod (a - a')%C <= 1 / 20.
Proof.
  exists documented_laggauss. set (c := [(2, 1); (8, 1)]).
  assert (T : total_thickness c = 2) by (unfold total_thickness, c; simpl; ring).
  assert (HD : documented_rule 32%nat (documented_laggauss 32%nat)) by (apply documented_laggauss_ok; lia).
  assert (Hc : Forall (fun l => 2 <= fst l <= 8 /\ 0 <= snd l) c) by (unfold c; repeat constructor; simpl; lra).
  pose proof clip_floor as F. replace ((/ 2) ^ 40) with (/ 1099511627776) in F by (simpl; field).
  assert (HB : 9 / 2 * (8 / 2) ^ 4 * ((total_thickness c / 10) ^ 2 / INR 1000) + (8 / 2) ^ 2 * exp (- 2 * MAX_EXP_ARG) <= 1 / 20).
  { rewrite T, INR_IZR_INZ. replace (8 / 2) with 4 by field. replace (2 / 10) with (1 / 5) by field. simpl. lra. }
  destruct (C94_average_proof documented_laggauss defaults0 c 1 5 2 8 10 None None 1000 (Some 32%nat) ltac:(cbn [given_or]; lia) HD ltac:(lia) ltac:(lra) ltac:(lra) ltac:(lra) Hc ltac:(lra) ltac:(lra)) as (B & B' & E1 & E2 & E3).
  assert (EF : fdm_f 0 (1 / 2) 1 1 (RtoC (7 / 4)) = RtoC (1 / 2)).
  { rewrite f_at_0, <- RtoC_minus, <- RtoC_mult. f_equal. field. }
  assert (RG : fdm_regular 0 (1 / 2) 1 1) by (unfold fdm_regular; cbn; repeat split; try lra; try (pose proof ln_lt_2; rewrite ?ln_4_2; lra)).
  destruct (C94_fdm_proof documented_laggauss defaults0 c 1 5 2 8 (1 / 2) None None 1000 (Some 0) (Some 1) (Some 1) (Some (RtoC (7 / 4))) (Some (1 / 2)) (Some (1 / 2)) (Some 10) (Some 32%nat)
    ltac:(cbn [given_or]; lia) HD ltac:(lia) ltac:(lra) ltac:(lra) ltac:(lra) Hc ltac:(lra) ltac:(cbn [given_or]; lra) RG RG) as (a & a' & A1 & A2 & A3).
  - cbn [given_or]. rewrite EF, Cmod_R, Rabs_pos_eq by lra. lra.
  - lra.
  - exists B, B', a, a'. split; [exact E1|]. split; [exact E2|]. split; [lra|]. split; [exact A1|]. split; [exact A2|].
    eapply Rle_trans; [exact A3|]. cbn [given_or]. rewrite EF, Cmod_R, Rabs_pos_eq by lra. replace (0 + 1 * 10) with 10 by ring. simpl pow at 1. lra.
Qed.
