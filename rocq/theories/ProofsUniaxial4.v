(** * Proofs: superlattices of arbitrary materials look like uniaxial films (C96) *)
From Coq Require Import String Reals Lra Lia ZArith List Bool.
From Coquelicot Require Import Coquelicot.
From Coq Require Import List.
From Verif Require Import Num NumLemmas ModelBase ModelSample ModelTip StackLemmas Spec SpecWave WaveLemmas ProofsStackQS SpecUniaxial ProofsUniaxial ProofsUniaxial2 ProofsUniaxial3.
Import ListNotations.
Open Scope R_scope.

Lemma in_super N c l : In l (superlattice N c) -> exists k, In k c /\ l = (fst k, snd k / INR N).
Proof.
  unfold superlattice. intros H. apply in_concat in H. destruct H as (x & Hx & Hl). apply repeat_spec in Hx. subst x.
  apply in_map_iff in Hl. destruct Hl as (k & <- & Hk). exists k. auto.
Qed.
Lemma super_call q e0 en nu c N : (0 < N)%nat -> 0 <= q -> en <> RtoC 0 ->
  Forall (fun l => fst l <> RtoC 0 /\ 0 <= snd l /\ q * snd l <= INR N * MAX_EXP_ARG) c ->
  let x := mv (prod q (superlattice N c)) (RtoC 1, / en)%C in
  exists n d, (2 * d = fst x + e0 * snd x)%C /\ (2 * n = fst x - e0 * snd x)%C /\
    refl_coef_qs (stack (e0 :: map fst (superlattice N c) ++ [en]) (map snd (superlattice N c)) nu) (rr q) = Ok (Some n / Some d)%cv.
Proof.
  intros HN Hq Hn Hc x. assert (PN : 0 < INR N) by (apply lt_0_INR; exact HN). rewrite Forall_forall in Hc.
  assert (HI : Forall (fun l => fst l <> RtoC 0 /\ Rabs (q * snd l) <= MAX_EXP_ARG) (superlattice N c)).
  { apply Forall_forall. intros l Hl. destruct (in_super N c l Hl) as (k & Hk & ->). destruct (Hc k Hk) as (K1 & K2 & K3). cbn [fst snd]. split; [exact K1|].
    assert (0 <= q * (snd k / INR N)) by (apply Rmult_le_pos; [lra|apply Rdiv_le_0_compat; lra]). rewrite Rabs_pos_eq by assumption.
    apply Rmult_le_reg_r with (INR N); [exact PN|]. replace (q * (snd k / INR N) * INR N) with (q * snd k) by (field; lra). lra. }
  destruct (Mqs_column q en Hn (superlattice N c) e0 HI) as [M1 M2]. fold x in M1, M2.
  exists (c10 (Mqs q e0 (superlattice N c) en)), (c00 (Mqs q e0 (superlattice N c) en)). split; [exact M1|]. split; [exact M2|].
  change (stack (e0 :: map fst (superlattice N c) ++ [en]) (map snd (superlattice N c)) nu) with (qs_sample e0 (superlattice N c) en nu).
  apply refl_coef_qs_struct. apply Forall_app. split; [|constructor; [exact Hn|constructor]].
  rewrite Forall_map. eapply Forall_impl; [|exact HI]. cbn beta. intros l [A _]. exact A.
Qed.

Section Close.
Variables (q : R) (e0 en : C) (nu : option R) (c : list (C * R)) (N : nat).
Hypothesis HN : (0 < N)%nat.
Hypothesis Hq : 0 < q.
Hypothesis H0 : e0 <> RtoC 0.
Hypothesis Hn : en <> RtoC 0.
Hypothesis Hc : Forall (fun l => fst l <> RtoC 0 /\ 0 <= snd l /\ q * snd l <= INR N * MAX_EXP_ARG) c.
Hypothesis HT : 0 < thickness c.
Let k := strength q e0 c.
Let E := k ^ 2 * exp k / INR N * (1 + Cmod e0 / Cmod en).

(** numerator and denominator of the call, near those of the film *)
Lemma close_parts a b t V D : film_fields q (thickness c) (eps_along c) (inv_eps_across c) e0 en a b t V D ->
  exists n d A B : C, (t * en * A = 2 * e0 * a)%C /\ (t * en * B = 2 * e0 * b)%C /\ Cmod (2 * d - A)%C <= E /\ Cmod (2 * n - B)%C <= E /\
    refl_coef_qs (stack (e0 :: map fst (superlattice N c) ++ [en]) (map snd (superlattice N c)) nu) (rr q) = Ok (Some n / Some d)%cv.
Proof using HN Hq H0 Hn Hc HT.
  intros HF. destruct (film_is q c ltac:(lra)) as (z & Hz & EF).
  destruct (film_needs q (thickness c) (eps_along c) (inv_eps_across c) z Hq HT Hz e0 en H0 Hn a b t V D HF) as [N1 N2]. rewrite <- EF in N1, N2.
  assert (Hc' : Forall (fun l => fst l <> RtoC 0 /\ 0 <= snd l) c) by (eapply Forall_impl; [|exact Hc]; cbn beta; intros l (A & B & _); auto).
  pose proof (superlattice_close q e0 en c N HN (Rlt_le _ _ Hq) H0 Hn Hc') as CL. fold k in CL. fold E in CL.
  destruct (super_call q e0 en nu c N HN (Rlt_le _ _ Hq) Hn Hc) as (n & d & Ed & En & ER).
  set (x := mv (prod q (superlattice N c)) (RtoC 1, / en)%C) in *. set (y := mv (film q c) (RtoC 1, / en)%C) in *.
  exists n, d, (fst y + e0 * snd y)%C, (fst y - e0 * snd y)%C.
  split; [transitivity (t * en * fst y + e0 * (t * en * snd y))%C; [ring|]; rewrite <- N1, <- N2; ring|].
  split; [transitivity (t * en * fst y - e0 * (t * en * snd y))%C; [ring|]; rewrite <- N1, <- N2; ring|].
  assert (TT : forall u v : C, Cmod (u + e0 * v)%C <= Cmod u + Cmod e0 * Cmod v) by (intros u v; eapply Rle_trans; [apply Cmod_triangle|]; rewrite Cmod_mult; lra).
  assert (TT' : forall u v : C, Cmod (u - e0 * v)%C <= Cmod u + Cmod e0 * Cmod v) by (intros u v; unfold Cminus; eapply Rle_trans; [apply Cmod_triangle|]; rewrite Cmod_opp, Cmod_mult; lra).
  unfold nrm, vsub in CL; cbn [fst snd] in CL.
  split; [|split; [|exact ER]]; (eapply Rle_trans; [|exact CL]).
  - rewrite Ed. replace (fst x + e0 * snd x - (fst y + e0 * snd y))%C with (fst x - fst y + e0 * (snd x - snd y))%C by ring. apply TT.
  - rewrite En. replace (fst x - e0 * snd x - (fst y - e0 * snd y))%C with (fst x - fst y - e0 * (snd x - snd y))%C by ring. apply TT'.
Qed.
Lemma E_err t (Ht : t <> RtoC 0) : E * (Cmod t * Cmod en / Cmod e0) = k ^ 2 * exp k * (1 + Cmod en / Cmod e0) * Cmod t / INR N.
Proof using HN H0 Hn.
  assert (0 < Cmod e0) by (apply Cmod_gt_0; exact H0). assert (0 < Cmod en) by (apply Cmod_gt_0; exact Hn).
  assert (PN : 0 < INR N) by (apply lt_0_INR; exact HN). unfold E. field. repeat split; lra.
Qed.
Lemma E_pos : 0 <= E.
Proof using HN H0 Hn.
  assert (0 < Cmod e0) by (apply Cmod_gt_0; exact H0). assert (0 < Cmod en) by (apply Cmod_gt_0; exact Hn).
  assert (PN : 0 < INR N) by (apply lt_0_INR; exact HN). pose proof (exp_pos k). unfold E.
  apply Rmult_le_pos; [apply Rdiv_le_0_compat; [apply Rmult_le_pos; [apply pow2_ge_0|lra]|lra]|].
  assert (0 < Cmod e0 / Cmod en) by (apply Rdiv_lt_0_compat; lra). lra.
Qed.
Lemma response_close beta t V D :
  let err := k ^ 2 * exp k * (1 + Cmod en / Cmod e0) * Cmod t / INR N in
  film_fields q (thickness c) (eps_along c) (inv_eps_across c) e0 en 1 beta t V D -> err <= 1 ->
  exists r, refl_coef_qs (stack (e0 :: map fst (superlattice N c) ++ [en]) (map snd (superlattice N c)) nu) (rr q) = Ok (Some r) /\
    Cmod (r - beta)%C <= err * (1 + Cmod beta).
Proof using HN Hq H0 Hn Hc HT.
  intros err HF He. destruct (close_parts 1 beta t V D HF) as (n & d & A & B & EA & EB & CA & CB & ER).
  assert (P0 : 0 < Cmod e0) by (apply Cmod_gt_0; exact H0). assert (Pn : 0 < Cmod en) by (apply Cmod_gt_0; exact Hn). pose proof E_pos as PE.
  assert (NZ : (t * en * A <> 0)%C) by (rewrite EA; apply Cmult_neq_0; [apply Cmult_neq_0; [auto|exact H0]|apply C1_neq_0]).
  assert (Ht : t <> RtoC 0) by (intros ->; apply NZ; ring). assert (HA : A <> RtoC 0) by (intros ->; apply NZ; ring).
  assert (Pt : 0 < Cmod t) by (apply Cmod_gt_0; exact Ht). assert (PA : 0 < Cmod A) by (apply Cmod_gt_0; exact HA).
  assert (MA : Cmod t * Cmod en * Cmod A = 2 * Cmod e0).
  { rewrite <- !Cmod_mult, EA, Cmult_1_r, Cmod_mult, Cmod_R, Rabs_pos_eq; lra. }
  assert (EE : err * Cmod A = 2 * E).
  { unfold err. rewrite <- E_err by exact Ht. transitivity (E * (Cmod t * Cmod en * Cmod A / Cmod e0)); [field; lra|]. rewrite MA. field. lra. }
  assert (HB : B = (beta * A)%C).
  { transitivity (t * en * B / (t * en))%C; [field; split; assumption|]. rewrite EB. transitivity (beta * (2 * e0 * 1) / (t * en))%C; [field; split; assumption|]. rewrite <- EA. field. split; assumption. }
  assert (Pd : Cmod A / 2 <= Cmod (2 * d)%C).
  { assert (Cmod A <= Cmod (2 * d)%C + Cmod (2 * d - A)%C).
    { replace A with (2 * d - (2 * d - A))%C at 1 by ring. unfold Cminus at 1. eapply Rle_trans; [apply Cmod_triangle|]. rewrite Cmod_opp. lra. }
    nra. }
  assert (Hd : d <> RtoC 0). { intros ->. rewrite Cmult_0_r, Cmod_0 in Pd. lra. }
  exists (n / d)%C. rewrite ER, cdiv_ok by exact Hd. split; [reflexivity|].
  replace (n / d - beta)%C with (((2 * n - B) - beta * (2 * d - A)) / (2 * d))%C by (rewrite HB; field; auto).
  assert (H2d : (2 * d <> 0)%C) by (apply Cmult_neq_0; [auto|exact Hd]).
  rewrite Cmod_div by exact H2d. apply Rle_div_l; [lra|].
  assert (T1 : Cmod (2 * n - B - beta * (2 * d - A))%C <= E + Cmod beta * E).
  { unfold Cminus at 1. eapply Rle_trans; [apply Cmod_triangle|]. rewrite Cmod_opp, Cmod_mult. pose proof (Cmod_ge_0 beta). nra. }
  pose proof (Cmod_ge_0 beta). 
  assert (ep : 0 <= err) by (apply Rmult_le_reg_r with (Cmod A); lra).
  assert (err * (1 + Cmod beta) * (Cmod A / 2) <= err * (1 + Cmod beta) * Cmod (2 * d)%C) by (apply Rmult_le_compat_l; [apply Rmult_le_pos; lra|exact Pd]). nra.
Qed.
Lemma mode_large t V D :
  let err := k ^ 2 * exp k * (1 + Cmod en / Cmod e0) * Cmod t / INR N in
  film_fields q (thickness c) (eps_along c) (inv_eps_across c) e0 en 0 1 t V D ->
  let call := refl_coef_qs (stack (e0 :: map fst (superlattice N c) ++ [en]) (map snd (superlattice N c)) nu) (rr q) in
  call = Ok None \/ exists r, call = Ok (Some r) /\ 2 <= err * (1 + Cmod r).
Proof using HN Hq H0 Hn Hc HT.
  intros err HF call. destruct (close_parts 0 1 t V D HF) as (n & d & A & B & EA & EB & CA & CB & ER).
  assert (P0 : 0 < Cmod e0) by (apply Cmod_gt_0; exact H0). assert (Pn : 0 < Cmod en) by (apply Cmod_gt_0; exact Hn). pose proof E_pos as PE.
  assert (NZ : (t * en * B <> 0)%C) by (rewrite EB; apply Cmult_neq_0; [apply Cmult_neq_0; [auto|exact H0]|apply C1_neq_0]).
  assert (Ht : t <> RtoC 0) by (intros ->; apply NZ; ring).
  assert (Pt : 0 < Cmod t) by (apply Cmod_gt_0; exact Ht).
  assert (MB : Cmod t * Cmod en * Cmod B = 2 * Cmod e0).
  { rewrite <- !Cmod_mult, EB, Cmult_1_r, Cmod_mult, Cmod_R, Rabs_pos_eq; lra. }
  assert (EE : err * Cmod B = 2 * E).
  { unfold err. rewrite <- E_err by exact Ht. transitivity (E * (Cmod t * Cmod en * Cmod B / Cmod e0)); [field; lra|]. rewrite MB. field. lra. }
  assert (HA : A = RtoC 0).
  { transitivity (t * en * A / (t * en))%C; [field; split; assumption|]. rewrite EA. field. split; assumption. }
  unfold call. rewrite ER. destruct (Ceq_dec d 0) as [->|Hd]; [left; rewrite cdiv_zero; reflexivity|right].
  exists (n / d)%C. rewrite cdiv_ok by exact Hd. split; [reflexivity|].
  assert (En : (2 * n = n / d * (2 * d))%C) by (field; exact Hd).
  rewrite HA in CA. replace (2 * d - 0)%C with (2 * d)%C in CA by ring.
  assert (TB : Cmod B <= Cmod (2 * n)%C + Cmod (2 * n - B)%C).
  { replace B with (2 * n - (2 * n - B))%C at 1 by ring. unfold Cminus at 1. eapply Rle_trans; [apply Cmod_triangle|]. rewrite Cmod_opp. lra. }
  rewrite En, Cmod_mult in TB. pose proof (Cmod_ge_0 (n / d)%C) as Pr.
  assert (PB : 0 < Cmod B). { destruct (Cmod_ge_0 B) as [L|L]; [exact L|]. rewrite <- L in MB. lra. }
  assert (Cmod (n / d)%C * Cmod (2 * d)%C <= Cmod (n / d)%C * E) by (apply Rmult_le_compat_l; assumption).
  rewrite <- En in TB.
  apply Rmult_le_reg_r with (Cmod B); [exact PB|]. 
  replace (err * (1 + Cmod (n / d)%C) * Cmod B) with (err * Cmod B * (1 + Cmod (n / d)%C)) by ring. rewrite EE. lra.
Qed.
End Close.

(** C96. A superlattice of arbitrary materials, metals and absorbing ones included,
    looks like a uniaxial film.  If electrostatic fields of the homogeneous film with
    the averaged permittivity along the layers and the averaged inverse permittivity
    across them reflect an evanescent wave with the coefficient [beta] and transmit
    it with [t], the code's coefficient of [N] periods differs from [beta] by at most
    [err (1 + |beta|)], where [err = k^2 e^k (1 + |en/e0|) |t| / N] and [k] is the
    optical strength of the layers. *)
Lemma C96_response_proof :
  forall (c : list (C * R)) (e0 en beta t : C) (q : R) nu (N : nat) V D,
  let k := strength q e0 c in
  let err := k ^ 2 * exp k * (1 + Cmod en / Cmod e0) * Cmod t / INR N in
  (0 < N)%nat -> 0 < q -> e0 <> RtoC 0 -> en <> RtoC 0 -> 0 < thickness c ->
  Forall (fun l => fst l <> RtoC 0 /\ 0 <= snd l /\ q * snd l <= INR N * MAX_EXP_ARG) c ->
  film_fields q (thickness c) (eps_along c) (inv_eps_across c) e0 en 1 beta t V D ->
  err <= 1 ->
  exists r, refl_coef_qs (stack (e0 :: map fst (superlattice N c) ++ [en]) (map snd (superlattice N c)) nu) (rr q) = Ok (Some r) /\
    Cmod (r - beta)%C <= err * (1 + Cmod beta).
Proof. intros c e0 en beta t q nu N V D k err HN Hq H0 Hn HT Hc HF He. exact (response_close q e0 en nu c N HN Hq H0 Hn Hc HT beta t V D HF He). Qed.

(** C96. More and thinner periods converge to the film, whatever the materials. *)
Lemma C96_limit_proof :
  forall (c : list (C * R)) (e0 en beta t : C) (q : R) nu V D,
  0 < q -> e0 <> RtoC 0 -> en <> RtoC 0 -> 0 < thickness c -> Forall (fun l => fst l <> RtoC 0 /\ 0 <= snd l) c ->
  film_fields q (thickness c) (eps_along c) (inv_eps_across c) e0 en 1 beta t V D ->
  forall eps, 0 < eps -> exists N0 : nat, forall N, (N0 <= N)%nat ->
  exists r, refl_coef_qs (stack (e0 :: map fst (superlattice N c) ++ [en]) (map snd (superlattice N c)) nu) (rr q) = Ok (Some r) /\
    Cmod (r - beta)%C <= eps.
Proof.
  intros c e0 en beta t q nu V D Hq H0 Hn HT Hc HF eps He.
  set (K := strength q e0 c ^ 2 * exp (strength q e0 c) * (1 + Cmod en / Cmod e0) * Cmod t).
  assert (P0 : 0 < Cmod e0) by (apply Cmod_gt_0; exact H0). assert (Pn : 0 < Cmod en) by (apply Cmod_gt_0; exact Hn).
  pose proof (Cmod_ge_0 t) as Pt. pose proof (Cmod_ge_0 beta) as Pb. pose proof MAX_pos as PM.
  assert (HK : 0 <= K).
  { unfold K. pose proof (exp_pos (strength q e0 c)). assert (0 < Cmod en / Cmod e0) by (apply Rdiv_lt_0_compat; lra).
    apply Rmult_le_pos; [|lra]. apply Rmult_le_pos; [|lra]. apply Rmult_le_pos; [apply pow2_ge_0|lra]. }
  assert (Hs : Forall (fun l => q * snd l <= q * thickness c) c).
  { clear - Hq Hc. unfold thickness. induction Hc as [|l c [_ H] Hc IH]; constructor; cbn [map fold_right].
    - assert (0 <= fold_right Rplus 0 (map snd c)). { clear - Hc. induction Hc as [|l c [_ H] Hc IH]; cbn [map fold_right]; lra. } nra.
    - eapply Forall_impl; [|exact IH]. cbn beta. intros l' Hl'. nra. }
  set (X := K + K * (1 + Cmod beta) / eps + q * thickness c / MAX_EXP_ARG).
  assert (X1 : 0 <= K * (1 + Cmod beta) / eps) by (apply Rdiv_le_0_compat; [apply Rmult_le_pos; lra|lra]).
  assert (X2 : 0 <= q * thickness c / MAX_EXP_ARG) by (apply Rdiv_le_0_compat; [apply Rmult_le_pos; lra|lra]).
  destruct (nfloor_ex X ltac:(unfold X; lra)) as (m & _ & Hm). exists (S m). intros N HN.
  assert (PN : X <= INR N) by (apply le_INR in HN; rewrite S_INR in HN; lra).
  assert (HN' : (0 < N)%nat) by lia. assert (PN' : 0 < INR N) by (apply lt_0_INR; exact HN').
  assert (Hc' : Forall (fun l => fst l <> RtoC 0 /\ 0 <= snd l /\ q * snd l <= INR N * MAX_EXP_ARG) c).
  { apply Forall_forall. intros l Hl. rewrite Forall_forall in Hc, Hs. destruct (Hc l Hl) as [A B]. split; [exact A|]. split; [exact B|].
    specialize (Hs l Hl). assert (q * thickness c / MAX_EXP_ARG <= INR N) by (unfold X in PN; lra).
    apply Rmult_le_compat_r with (r := MAX_EXP_ARG) in H; [|lra]. replace (q * thickness c / MAX_EXP_ARG * MAX_EXP_ARG) with (q * thickness c) in H by (field; lra). lra. }
  destruct (response_close q e0 en nu c N HN' Hq H0 Hn Hc' HT beta t V D HF) as (r & E & B).
  - fold K. apply Rle_div_l; [lra|]. unfold X in PN. lra.
  - exists r. split; [exact E|]. eapply Rle_trans; [exact B|]. fold K.
    apply Rmult_le_reg_r with (INR N); [lra|]. replace (K / INR N * (1 + Cmod beta) * INR N) with (K * (1 + Cmod beta)) by (field; lra).
    assert (L : K * (1 + Cmod beta) / eps <= INR N) by (unfold X in PN; lra).
    apply Rmult_le_compat_r with (r := eps) in L; [|lra]. replace (K * (1 + Cmod beta) / eps * eps) with (K * (1 + Cmod beta)) in L by (field; lra). lra.
Qed.

(** C96. Where the film has a mode - fields on both sides of it without an incoming
    wave - the code either divides by zero or returns a coefficient growing in
    proportion to the number of periods. *)
Lemma C96_mode_proof :
  forall (c : list (C * R)) (e0 en t : C) (q : R) nu (N : nat) V D,
  let k := strength q e0 c in
  let err := k ^ 2 * exp k * (1 + Cmod en / Cmod e0) * Cmod t / INR N in
  (0 < N)%nat -> 0 < q -> e0 <> RtoC 0 -> en <> RtoC 0 -> 0 < thickness c ->
  Forall (fun l => fst l <> RtoC 0 /\ 0 <= snd l /\ q * snd l <= INR N * MAX_EXP_ARG) c ->
  film_fields q (thickness c) (eps_along c) (inv_eps_across c) e0 en 0 1 t V D ->
  let call := refl_coef_qs (stack (e0 :: map fst (superlattice N c) ++ [en]) (map snd (superlattice N c)) nu) (rr q) in
  call = Ok None \/ exists r, call = Ok (Some r) /\ 2 <= err * (1 + Cmod r).
Proof. intros c e0 en t q nu N V D k err HN Hq H0 Hn HT Hc HF. exact (mode_large q e0 en nu c N HN Hq H0 Hn Hc HT t V D HF). Qed.

(** C96. The two theorems cover every superlattice: its film either responds to an
    incoming wave, with one coefficient only, or has a mode, and never both. *)
Lemma C96_every_film_proof :
  forall (c : list (C * R)) (e0 en : C) (q : R), 0 < q -> e0 <> RtoC 0 -> en <> RtoC 0 -> 0 < thickness c ->
  let fields := film_fields q (thickness c) (eps_along c) (inv_eps_across c) e0 en in
  ((exists beta t V D, fields 1 beta t V D) \/ (exists t V D, fields 0 1 t V D)) /\
  (forall beta t V D beta' t' V' D', fields 1 beta t V D -> fields 1 beta' t' V' D' -> beta = beta' /\ t = t') /\
  ~ ((exists beta t V D, fields 1 beta t V D) /\ (exists t V D, fields 0 1 t V D)).
Proof.
  intros c e0 en q Hq H0 Hn HT fields. destruct (film_is q c ltac:(lra)) as (z & Hz & EF).
  assert (G : forall a b t, (e0 * (a + b))%C = (t * en * fst (mv (film q c) (RtoC 1, / en)%C))%C -> (a - b)%C = (t * en * snd (mv (film q c) (RtoC 1, / en)%C))%C -> exists V D, fields a b t V D).
  { intros a b t. rewrite EF. apply (film_gives q (thickness c) (eps_along c) (inv_eps_across c) z Hq HT Hz e0 en H0 Hn). }
  assert (Nd : forall a b t V D, fields a b t V D -> (e0 * (a + b))%C = (t * en * fst (mv (film q c) (RtoC 1, / en)%C))%C /\ (a - b)%C = (t * en * snd (mv (film q c) (RtoC 1, / en)%C))%C).
  { intros a b t V D. rewrite EF. apply (film_needs q (thickness c) (eps_along c) (inv_eps_across c) z Hq HT Hz e0 en H0 Hn). }
  pose proof (film_vec q c en) as NV. set (U := fst (mv (film q c) (RtoC 1, / en)%C)) in *. set (W := snd (mv (film q c) (RtoC 1, / en)%C)) in *.
  assert (N2 : forall a b t V D, fields a b t V D -> (t * en * (U + e0 * W) = 2 * e0 * a)%C /\ (t * en * (U - e0 * W) = 2 * e0 * b)%C).
  { intros a b t V D HF. destruct (Nd a b t V D HF) as [A1 A2]. split.
    - transitivity (t * en * U + e0 * (t * en * W))%C; [ring|]. rewrite <- A1, <- A2. ring.
    - transitivity (t * en * U - e0 * (t * en * W))%C; [ring|]. rewrite <- A1, <- A2. ring. }
  assert (H2e : (2 * e0 <> 0)%C) by (apply Cmult_neq_0; [auto|exact H0]).
  assert (T1 : forall beta t V D, fields 1%C beta t V D -> (U + e0 * W <> 0)%C /\ t = (2 * e0 / (en * (U + e0 * W)))%C /\ beta = ((U - e0 * W) / (U + e0 * W))%C).
  { intros beta t V D HF. destruct (N2 _ _ _ _ _ HF) as [A1 A2].
    assert (NZ : (U + e0 * W <> 0)%C) by (intros Z; rewrite Z, Cmult_0_r, Cmult_1_r in A1; apply H2e; symmetry; exact A1).
    split; [exact NZ|]. assert (Et : t = (2 * e0 / (en * (U + e0 * W)))%C).
    { transitivity (t * en * (U + e0 * W) / (en * (U + e0 * W)))%C; [field; split; assumption|]. rewrite A1. field. split; assumption. }
    split; [exact Et|]. transitivity (2 * e0 * beta / (2 * e0))%C; [field; split; [exact H0|auto]|]. rewrite <- A2, Et. field. repeat split; auto. }
  split; [|split].
  - destruct (Ceq_dec (U + e0 * W)%C 0) as [Z|NZ].
    + right. assert (NB : (U - e0 * W <> 0)%C).
      { intros B. apply NV. rewrite (surjective_pairing (mv (film q c) (RtoC 1, / en)%C)). fold U W. f_equal.
        - transitivity (((U + e0 * W) + (U - e0 * W)) / 2)%C; [field; auto|]. rewrite Z, B. field. auto.
        - transitivity (((U + e0 * W) - (U - e0 * W)) / (2 * e0))%C; [field; split; [exact H0|auto]|]. rewrite Z, B. field. split; [exact H0|auto]. }
      exists (2 * e0 / (en * (U - e0 * W)))%C. apply G.
      * assert (EU : U = (- (e0 * W))%C) by (transitivity ((U + e0 * W) - e0 * W)%C; [ring|rewrite Z; ring]).
        rewrite EU in NB |- *. assert (HW : W <> RtoC 0) by (intros Q; apply NB; rewrite Q; ring). field. repeat split; auto.
      * assert (EU : U = (- (e0 * W))%C) by (transitivity ((U + e0 * W) - e0 * W)%C; [ring|rewrite Z; ring]).
        rewrite EU in NB |- *. assert (HW : W <> RtoC 0) by (intros Q; apply NB; rewrite Q; ring). field. repeat split; auto.
    + left. exists ((U - e0 * W) / (U + e0 * W))%C, (2 * e0 / (en * (U + e0 * W)))%C. apply G; field; split; assumption.
  - intros beta t V D beta' t' V' D' F1 F2. destruct (T1 _ _ _ _ F1) as (_ & E1 & E2). destruct (T1 _ _ _ _ F2) as (_ & E3 & E4). split; congruence.
  - intros [(beta & t & V & D & F1) (t' & V' & D' & F2)]. destruct (T1 _ _ _ _ F1) as (NZ & _). destruct (N2 _ _ _ _ _ F2) as [A1 A2].
    assert (t' * en = 0)%C. { transitivity (t' * en * (U + e0 * W) / (U + e0 * W))%C; [field; exact NZ|]. rewrite A1. field. exact NZ. }
    rewrite H, Cmult_0_l in A2. apply H2e. symmetry. rewrite A2. ring.
Qed.

(** ** Two lossless materials of opposite sign *)
Definition hyper : list (C * R) := [(RtoC 4, 1); (RtoC (-1), 1)].
Lemma hyper_T : thickness hyper = 2.
Proof. unfold thickness, hyper. cbn [map fold_right snd]. ring. Qed.
Lemma hyper_along : eps_along hyper = RtoC (3 / 2).
Proof. unfold eps_along. rewrite hyper_T. unfold hyper. cbn [map fold_right fst snd]. rewrite <- !RtoC_mult, <- !RtoC_plus, <- RtoC_div by lra. f_equal. field. Qed.
Lemma hyper_across : inv_eps_across hyper = RtoC (- (3 / 8)).
Proof. unfold inv_eps_across. rewrite hyper_T. unfold hyper. cbn [map fold_right fst snd]. rewrite <- !RtoC_div, <- !RtoC_plus, <- RtoC_div by lra. f_equal. field. Qed.
Lemma hyper_z : ((0, PI / 4)%R * (0, PI / 4)%R = (RtoC (PI / 3) * RtoC (3 / 2)) * (RtoC (PI / 3) * RtoC (- (3 / 8))))%C.
Proof. apply injective_projections; simpl; field. Qed.
Lemma hyper_ch : Cch ((0, PI / 4)%R * RtoC 2)%C = RtoC 0.
Proof.
  unfold Cch, Cexp, Re, Im. apply injective_projections; simpl; replace (0 * 0 + PI / 4 * 2) with (PI / 2) by field; replace (0 * 2 - PI / 4 * 0) with 0 by ring;
    rewrite ?cos_neg, ?sin_neg, cos_PI2, sin_PI2, Ropp_0, exp_0; field.
Qed.
Lemma hyper_shc : Cshc ((0, PI / 4)%R * RtoC 2)%C = RtoC (2 / PI).
Proof.
  pose proof PI_RGT_0 as P. rewrite Cshc_def.
  - unfold Csh, Cexp, Re, Im. apply injective_projections; simpl; replace (0 * 0 + PI / 4 * 2) with (PI / 2) by field; replace (0 * 2 - PI / 4 * 0) with 0 by ring;
      rewrite ?cos_neg, ?sin_neg, cos_PI2, sin_PI2, Ropp_0, exp_0; field; lra.
  - intros Q. apply (f_equal snd) in Q. simpl in Q. lra.
Qed.
Lemma hyper_fields en a b t : en <> RtoC 0 -> (a + b = t * 2)%C -> (a - b = - (t * en / 2))%C ->
  exists V D, film_fields (PI / 3) (thickness hyper) (eps_along hyper) (inv_eps_across hyper) 1 en a b t V D.
Proof.
  intros Hn A1 A2. pose proof PI_RGT_0 as P. rewrite hyper_T, hyper_along, hyper_across.
  apply (film_gives (PI / 3) 2 (RtoC (3 / 2)) (RtoC (- (3 / 8))) (0, PI / 4)%R ltac:(lra) ltac:(lra) hyper_z 1 en C1_neq_0 Hn); unfold mv, slab_of; cbn [fst snd c00 c01 c10 c11]; rewrite hyper_ch, hyper_shc.
  - assert (E : (RtoC (PI / 3) * RtoC (3 / 2) * RtoC 2 * RtoC (2 / PI))%C = RtoC 2) by (rewrite <- !RtoC_mult; f_equal; field; lra).
    rewrite E. transitivity (a + b)%C; [ring|]. rewrite A1. field. exact Hn.
  - assert (E : (RtoC (PI / 3) * RtoC (- (3 / 8)) * RtoC 2 * RtoC (2 / PI))%C = RtoC (- / 2)) by (rewrite <- !RtoC_mult; f_equal; field; lra).
    rewrite E, A2, RtoC_opp, RtoC_inv by lra. field. split; [exact Hn|auto].
Qed.
Lemma C4_neq_0 : RtoC 4 <> RtoC 0. Proof. apply RtoC_neq_0. lra. Qed.
(** C96. The hypotheses can be met: layers of permittivity 4 and -1, neither of which
    absorbs, average to a film of 3/2 along and inverse -3/8 across the layers.  On a
    substrate of permittivity 2 the film reflects the momentum [PI/3] with the
    coefficient 3, to which the code's results converge. *)
Lemma C96_hyperbolic_example_proof :
  (exists V D, film_fields (PI / 3) (thickness hyper) (eps_along hyper) (inv_eps_across hyper) 1 2 1 3 2 V D) /\
  forall nu eps, 0 < eps -> exists N0 : nat, forall N, (N0 <= N)%nat ->
  exists r, refl_coef_qs (stack (RtoC 1 :: map fst (superlattice N hyper) ++ [RtoC 2]) (map snd (superlattice N hyper)) nu) (rr (PI / 3)) = Ok (Some r) /\
    Cmod (r - 3)%C <= eps.
Proof.
  assert (F : exists V D, film_fields (PI / 3) (thickness hyper) (eps_along hyper) (inv_eps_across hyper) 1 2 1 3 2 V D).
  { apply hyper_fields; [auto|ring|field; auto]. }
  split; [exact F|]. destruct F as (V & D & F). pose proof PI_RGT_0 as P. intros nu.
  apply (C96_limit_proof hyper 1 2 3 2 (PI / 3) nu V D); [lra|apply C1_neq_0|auto|rewrite hyper_T; lra| |exact F].
  unfold hyper. repeat constructor; cbn [fst snd]; try lra; apply RtoC_neq_0; lra.
Qed.
(** C96. On a substrate of permittivity 4 the same film has a mode at the same
    momentum, and the coefficients of the code exceed any bound (or are undefined). *)
Lemma C96_mode_example_proof :
  (exists V D, film_fields (PI / 3) (thickness hyper) (eps_along hyper) (inv_eps_across hyper) 1 4 0 1 (RtoC (/ 2)) V D) /\
  forall nu bound, exists N0 : nat, forall N, (N0 <= N)%nat ->
  let call := refl_coef_qs (stack (RtoC 1 :: map fst (superlattice N hyper) ++ [RtoC 4]) (map snd (superlattice N hyper)) nu) (rr (PI / 3)) in
  call = Ok None \/ exists r, call = Ok (Some r) /\ bound <= Cmod r.
Proof.
  assert (F : exists V D, film_fields (PI / 3) (thickness hyper) (eps_along hyper) (inv_eps_across hyper) 1 4 0 1 (RtoC (/ 2)) V D).
  { apply hyper_fields; [apply C4_neq_0|rewrite RtoC_inv by lra; field; auto|]. rewrite RtoC_inv by lra. replace (RtoC 4) with (2 * 2)%C by (rewrite <- RtoC_mult; f_equal; ring). field. auto. }
  split; [exact F|]. destruct F as (V & D & F). pose proof PI_RGT_0 as P. intros nu bound.
  set (k := strength (PI / 3) 1 hyper). set (K := k ^ 2 * exp k * (1 + Cmod 4 / Cmod 1) * Cmod (RtoC (/ 2))).
  assert (HK : 0 <= K).
  { unfold K. pose proof (exp_pos k). rewrite Cmod_1, !Cmod_R, !Rabs_pos_eq by lra.
    apply Rmult_le_pos; [|lra]. apply Rmult_le_pos; [|lra]. apply Rmult_le_pos; [apply pow2_ge_0|lra]. }
  pose proof MAX_pos as PM.
  set (X := K * (1 + Rabs bound) + PI / 3 / MAX_EXP_ARG). pose proof (Rabs_pos bound) as PB.
  assert (X1 : 0 <= K * (1 + Rabs bound)) by (apply Rmult_le_pos; lra). assert (X2 : 0 <= PI / 3 / MAX_EXP_ARG) by (apply Rdiv_le_0_compat; lra).
  destruct (nfloor_ex X ltac:(unfold X; lra)) as (m & _ & Hm). exists (S m). intros N HN.
  assert (PN : X <= INR N) by (apply le_INR in HN; rewrite S_INR in HN; lra).
  assert (HN' : (0 < N)%nat) by lia. assert (PN' : 0 < INR N) by (apply lt_0_INR; exact HN').
  assert (L : PI / 3 <= INR N * MAX_EXP_ARG).
  { assert (H : PI / 3 / MAX_EXP_ARG <= INR N) by (unfold X in PN; lra).
    apply Rmult_le_compat_r with (r := MAX_EXP_ARG) in H; [|lra]. replace (PI / 3 / MAX_EXP_ARG * MAX_EXP_ARG) with (PI / 3) in H by (field; lra). lra. }
  destruct (C96_mode_proof hyper 1 4 (RtoC (/ 2)) (PI / 3) nu N V D HN' ltac:(lra) C1_neq_0 C4_neq_0 ltac:(rewrite hyper_T; lra)) as [E|(r & E & B)].
  - unfold hyper. apply Forall_cons; [|apply Forall_cons; [|apply Forall_nil]]; cbn [fst snd]; (split; [apply RtoC_neq_0; lra|split; lra]).
  - exact F.
  - left. exact E.
  - right. exists r. split; [exact E|]. fold k in B. fold K in B.
    apply Rmult_le_compat_r with (r := INR N) in B; [|lra]. replace (K / INR N * (1 + Cmod r) * INR N) with (K * (1 + Cmod r)) in B by (field; lra).
    apply Rnot_lt_le. intros Q. assert (Cmod r <= Rabs bound) by (pose proof (Rle_abs bound); lra).
    assert (K * (1 + Cmod r) <= K * (1 + Rabs bound)) by (apply Rmult_le_compat_l; lra). unfold X in PN. lra.
Qed.
