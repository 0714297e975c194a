(** * Proofs: superlattices (C94), the coefficient and its average *)
From Coq Require Import String Reals Lra Lia ZArith List Bool.
From Coquelicot Require Import Coquelicot.
From Coq Require Import List.
From Verif Require Import Num NumLemmas ModelBase ModelSample ModelTip StackLemmas Spec SpecQuad SpecThin SpecLattice
  ProofsStackQS ProofsStackQS2 ProofsSym ProofsPassive Laguerre Laguerre2 ProofsFilm ProofsTip ProofsTip3 ProofsAbsorb ProofsThin ProofsThin2 ProofsCompare ProofsLattice.
Import ListNotations.
Open Scope R_scope.

(** ** The stack as a flow *)
Lemma xl_through q (L : list (R * R)) s : 0 <= q -> Forall (fun l => 0 <= snd l /\ q * snd l <= MAX_EXP_ARG) L ->
  xl q (map fst L ++ [s]) (map snd L) = through q L s.
Proof.
  intros Hq. induction 1 as [|[b t] L [H1 H2] _ IH]; [reflexivity|]. cbn [map app fst snd] in *.
  rewrite xl_top by (destruct (map fst L); discriminate). rewrite IH. rewrite hyp_noclip by (split; [apply Rmult_le_pos; lra|exact H2]). reflexivity.
Qed.
Lemma in_periods N c l : In l (periods N c) -> exists k, In k c /\ l = (fst k, snd k / INR N).
Proof.
  unfold periods. intros H. apply in_concat in H. destruct H as (x & Hx & Hl). apply repeat_spec in Hx. subst x.
  apply in_map_iff in Hl. destruct Hl as (k & <- & Hk). exists k. auto.
Qed.
Definition shrunk (N : nat) (c : list (R * R)) := map (fun l => (fst l, snd l / INR N)) c.
Lemma shrunk_ok m M N c : (0 < N)%nat -> okc m M c -> okc m M (shrunk N c).
Proof.
  intros HN Hc. apply Forall_forall. intros l Hl. apply in_map_iff in Hl. destruct Hl as (k & <- & Hk).
  unfold okc in Hc. rewrite Forall_forall in Hc. destruct (Hc k Hk). cbn [fst snd]. split; [assumption|]. apply Rdiv_le_0_compat; [assumption|now apply lt_0_INR].
Qed.
Lemma shrunk_total N c : (0 < N)%nat -> total_thickness (shrunk N c) = total_thickness c / INR N.
Proof.
  intros HN. assert (0 < INR N) by now apply lt_0_INR. unfold total_thickness, shrunk. rewrite map_map.
  induction c as [|l c IH]; cbn [map fold_right snd] in *; [field; lra|]. rewrite IH. field. lra.
Qed.
Lemma shrunk_means N c : (0 < N)%nat -> 0 < total_thickness c -> mean_eps (shrunk N c) = mean_eps c /\ mean_inv_eps (shrunk N c) = mean_inv_eps c.
Proof.
  intros HN HT. assert (PN : 0 < INR N) by now apply lt_0_INR. unfold mean_eps, mean_inv_eps. rewrite shrunk_total by exact HN.
  assert (A : forall f : R * R -> R, (forall l, f (fst l, snd l / INR N) = f l / INR N) ->
    fold_right Rplus 0 (map f (shrunk N c)) = fold_right Rplus 0 (map f c) / INR N).
  { intros f Hf. unfold shrunk. rewrite map_map. clear HT. induction c as [|l c IH]; cbn [map fold_right] in *; [field; lra|]. rewrite IH, Hf. field. lra. }
  rewrite (A (fun l => fst l * snd l)) by (intros; cbn [fst snd]; unfold Rdiv; ring).
  rewrite (A (fun l => snd l / fst l)) by (intros; cbn [fst snd]; unfold Rdiv; ring).
  split; field; lra.
Qed.
Lemma film_through m M c N q y : 0 < m -> (0 < N)%nat -> okc m M c -> 0 < total_thickness c -> 0 <= q -> inb m M y ->
  Rabs (through q (periods N c) y - seen (film_eps c) y (th (q * film_thickness c))) <= 6 * (M ^ 4 / m ^ 3) * ((q * total_thickness c) ^ 2 / INR N) /\
  inb m M (through q (periods N c) y).
Proof.
  intros Hm HN Hc HT Hq Hy. assert (PN : 0 < INR N) by now apply lt_0_INR.
  change (periods N c) with (concat (repeat (shrunk N c) N)). rewrite through_repeat.
  destruct (shrunk_means N c HN HT) as [E1 E2]. pose proof (shrunk_ok m M N c HN Hc) as Hs.
  assert (Ts : 0 < total_thickness (shrunk N c)) by (rewrite shrunk_total by exact HN; now apply Rdiv_lt_0_compat).
  assert (Ef : film_eps (shrunk N c) = film_eps c) by (unfold film_eps; now rewrite E1, E2).
  assert (Es : stretch (shrunk N c) = stretch c) by (unfold stretch; now rewrite E1, E2).
  destruct (film_facts m M Hm c Hc HT) as (F1 & F2 & _).
  set (u := stretch c * (q * total_thickness (shrunk N c))).
  assert (Hu : 0 <= u) by (unfold u; apply Rmult_le_pos; [lra|]; apply Rmult_le_pos; lra).
  destruct (iterate_close m M (through q (shrunk N c)) (fun x => seen (film_eps c) x (th u)) (6 * (M ^ 4 / m ^ 3) * (q * total_thickness (shrunk N c)) ^ 2) y) with (k := N) as (I1 & I2 & _).
  - intros x Hx. now destruct (period_step m M Hm q x Hq Hx (shrunk N c) Hs).
  - intros x Hx. apply seen_box; [exact Hm|exact F1|exact Hx|now apply th_range].
  - intros x x' Hx Hx'. apply (seen_lip m M Hm); [exact F1|exact Hx'|exact Hx|now apply th_range].
  - intros x Hx. unfold u. rewrite <- Ef, <- Es. now apply period_film.
  - exact Hy.
  - split; [|exact I2]. rewrite (film_iter m M Hm (film_eps c) y u F1 Hy Hu N) in I1.
    replace (INR N * u) with (q * film_thickness c) in I1.
    + eapply Rle_trans; [exact I1|]. right. rewrite shrunk_total by exact HN. field. split; lra.
    + unfold u, film_thickness. rewrite shrunk_total by exact HN. fold (stretch c). field. lra.
Qed.

Lemma contrast_lip a m x x' : 0 < a -> 0 < m -> m <= x -> m <= x' -> Rabs ((x - a) / (x + a) - (x' - a) / (x' + a)) <= Rabs (x - x') / (2 * m).
Proof.
  intros Ha Hm Hx Hx'. replace ((x - a) / (x + a) - (x' - a) / (x' + a)) with (2 * a * (x - x') * / ((x + a) * (x' + a))) by (field; lra).
  assert (D : 4 * (m * a) <= (x + a) * (x' + a)).
  { apply Rle_trans with ((m + a) * (m + a)); [pose proof (Rle_0_sqr (m - a)) as Q; unfold Rsqr in Q; lra|apply Rmult_le_compat; lra]. }
  assert (P : 0 < m * a) by now apply Rmult_lt_0_compat.
  rewrite Rabs_mult, Rabs_mult, Rabs_inv, (Rabs_pos_eq (2 * a)), (Rabs_pos_eq ((x + a) * _)) by lra.
  apply Rle_trans with (2 * a * Rabs (x - x') * / (4 * (m * a))); [|right; field; lra].
  apply Rmult_le_compat_l; [apply Rmult_le_pos; [lra|apply Rabs_pos]|]. apply Rinv_le_contravar; lra.
Qed.
Lemma clip_th_gap u : 0 <= u -> 0 <= th u - th (clipR u) <= 2 * exp (- 2 * MAX_EXP_ARG) /\ (u <= MAX_EXP_ARG -> th u = th (clipR u)).
Proof.
  intros Hu. rewrite clip_pos by exact Hu. unfold Rmin. destruct (Rle_dec u MAX_EXP_ARG) as [L|L].
  - rewrite Rminus_eq_0. pose proof (exp_pos (- 2 * MAX_EXP_ARG)). split; [lra|reflexivity].
  - split; [|lra]. destruct (th_range u Hu) as [_ T].
    assert (exp (- 2 * u) <= exp (- 2 * MAX_EXP_ARG)) by (left; apply exp_increasing; lra).
    unfold th in *. pose proof (exp_pos (- 2 * u)). pose proof (exp_pos (- 2 * MAX_EXP_ARG)). set (a := exp (- 2 * u)) in *. set (b := exp (- 2 * MAX_EXP_ARG)) in *.
    replace ((1 - a) / (1 + a) - (1 - b) / (1 + b)) with (2 * (b - a) / ((1 + a) * (1 + b))) by (field; lra).
    assert (0 < (1 + a) * (1 + b)) by (apply Rmult_lt_0_compat; lra).
    split; [apply Rdiv_le_0_compat; lra|]. apply Rle_div_l; [lra|]. nra.
Qed.

(** C94. A superlattice of [N] lossless periods looks like one film.  The
    quasistatic coefficient of the sample whose film consists of [N] periods of the
    layers [c] (any number of layers, any order, total thickness fixed) differs from
    that of the sample with a single isotropic layer of permittivity
    [sqrt (<eps> / <1/eps>)] and thickness [sqrt (<eps> <1/eps>)] times the total one
    by at most [3 (M/m)^4 (q T)^2 / N] for every momentum, permittivities between
    [m] and [M] below any environment; beyond the momentum where the code clips the
    exponent of the single film, [(M/m)^2 exp (-2 MAX_EXP_ARG)] is added. *)
Lemma C94_effective_film_proof :
  forall (c : list (R * R)) (e0 es m M q : R) nu nu' (N : nat),
  let r_super := refl_coef_qs (stack (map RtoC (e0 :: map fst (periods N c) ++ [es])) (map snd (periods N c)) nu) (rr q) in
  let r_film := refl_coef_qs (stack [RtoC e0; RtoC (film_eps c); RtoC es] [film_thickness c] nu') (rr q) in
  let bound := 3 * (M / m) ^ 4 * ((q * total_thickness c) ^ 2 / INR N) in
  (0 < N)%nat -> 0 < e0 -> 0 < m -> m <= es <= M -> Forall (fun l => m <= fst l <= M /\ 0 <= snd l) c -> 0 < total_thickness c -> 0 <= q ->
  exists r r' : R, r_super = Ok (Some (RtoC r)) /\ r_film = Ok (Some (RtoC r')) /\
    Rabs (r - r') <= bound + (M / m) ^ 2 * exp (- 2 * MAX_EXP_ARG) /\
    (q * film_thickness c <= MAX_EXP_ARG -> Rabs (r - r') <= bound).
Proof.
  intros c e0 es m M q nu nu' N rs rf bound HN H0 Hm Hes Hc HT Hq.
  change (okc m M c) in Hc. change (inb m M es) in Hes. assert (PN : 1 <= INR N) by (change 1 with (INR 1); apply le_INR; lia).
  destruct (film_facts m M Hm c Hc HT) as (F1 & F2 & _). destruct (mean_facts m M Hm c Hc HT) as (_ & _ & _ & HmM).
  assert (Tf : 0 <= film_thickness c) by (unfold film_thickness; fold (stretch c); apply Rmult_le_pos; lra).
  set (L := periods N c) in *.
  assert (HL : forall l, In l L -> inb m M (fst l) /\ 0 <= snd l /\ snd l <= total_thickness c / INR N).
  { intros l Hl. destruct (in_periods N c l Hl) as (k & Hk & ->). cbn [fst snd]. pose proof Hc as Hc'. unfold okc in Hc. rewrite Forall_forall in Hc. destruct (Hc k Hk) as [K1 K2].
    split; [exact K1|]. split; [apply Rdiv_le_0_compat; lra|]. apply Rmult_le_compat_r; [left; apply Rinv_0_lt_compat; lra|].
    clear - Hc' Hk. induction Hc' as [|x c [_ Hx] H IH]; [destruct Hk|]. unfold total_thickness in *. cbn [map fold_right].
    pose proof (total_nonneg m M c H) as P. unfold total_thickness in P. destruct Hk as [<-|Hk]; [lra|]. specialize (IH Hk). lra. }
  set (X := xl q (map fst L ++ [es]) (map snd L)). set (Y := seen (film_eps c) es (hyp q (film_thickness c))).
  assert (HX : inb m M X).
  { unfold X. apply xl_between; try assumption.
    - destruct (map fst L); discriminate.
    - rewrite app_length, !map_length. simpl. lia.
    - apply Forall_forall. intros t Ht. apply in_map_iff in Ht. destruct Ht as (l & <- & Hl). now apply HL.
    - apply Forall_app. split; [|constructor; [exact Hes|constructor]]. apply Forall_forall. intros e He. apply in_map_iff in He. destruct He as (l & <- & Hl). now apply HL. }
  assert (HY : inb m M Y) by (unfold Y; apply seen_box; try assumption; now apply hyp_range).
  exists ((X - e0) / (X + e0)), ((Y - e0) / (Y + e0)).
  assert (EX : rs = Ok (Some (RtoC ((X - e0) / (X + e0))))).
  { unfold rs. apply refl_xl.
    - rewrite app_length, !map_length. simpl. lia.
    - constructor; [exact H0|]. apply Forall_app. split; [|constructor; [unfold inb in Hes; lra|constructor]]. apply Forall_forall. intros e He. apply in_map_iff in He. destruct He as (l & <- & Hl). destruct (HL l Hl) as [HH _]. unfold inb in HH. lra.
    - apply Forall_forall. intros t Ht. apply in_map_iff in Ht. destruct Ht as (l & <- & Hl). now apply HL.
    - exact Hq. }
  assert (EY : rf = Ok (Some (RtoC ((Y - e0) / (Y + e0))))).
  { unfold rf. apply (refl_xl e0 [film_eps c; es] [film_thickness c] nu' q); [reflexivity| |constructor; [exact Tf|constructor]|exact Hq].
    unfold inb in *. repeat constructor; lra. }
  split; [exact EX|]. split; [exact EY|].
  assert (Hb0 : 0 <= bound).
  { unfold bound. apply Rmult_le_pos; [apply Rmult_le_pos; [lra|]; apply pow_le; apply Rdiv_le_0_compat; lra|]. apply Rdiv_le_0_compat; [apply pow2_ge_0|lra]. }
  assert (R1 : 1 <= M / m) by (apply Rle_div_r; lra).
  assert (Fl : 0 <= (M / m) ^ 2 * exp (-2 * MAX_EXP_ARG)) by (apply Rmult_le_pos; [apply pow2_ge_0|left; apply exp_pos]).
  destruct (Rle_dec (q * total_thickness c / INR N) 1) as [Sm|Lg].
  - (* nothing is clipped in the superlattice *)
    assert (EXt : X = through q L es).
    { unfold X. apply xl_through; [exact Hq|]. apply Forall_forall. intros l Hl. destruct (HL l Hl) as (_ & T1 & T2). split; [exact T1|].
      pose proof max_exp_ge_1. apply Rle_trans with 1; [|lra]. apply Rle_trans with (q * (total_thickness c / INR N)); [now apply Rmult_le_compat_l|]. unfold Rdiv in *. lra. }
    destruct (film_through m M c N q es Hm HN Hc HT Hq Hes) as [D _]. fold L in D. rewrite <- EXt in D.
    set (Z := seen (film_eps c) es (th (q * film_thickness c))) in *.
    assert (Hqt : 0 <= q * film_thickness c) by (apply Rmult_le_pos; lra).
    destruct (clip_th_gap (q * film_thickness c) Hqt) as [G1 G2].
    assert (HZ : inb m M Z) by (unfold Z; apply seen_box; try assumption; now apply th_range).
    assert (D1 : Rabs ((X - e0) / (X + e0) - (Z - e0) / (Z + e0)) <= bound).
    { unfold inb in *. eapply Rle_trans; [apply (contrast_lip e0 m); lra|]. apply Rle_trans with (6 * (M ^ 4 / m ^ 3) * ((q * total_thickness c) ^ 2 / INR N) / (2 * m)).
      - apply Rmult_le_compat_r; [left; apply Rinv_0_lt_compat; lra|exact D].
      - right. unfold bound. field. lra. }
    assert (D2 : Rabs (Z - Y) <= M * M / m * (2 * exp (-2 * MAX_EXP_ARG))).
    { unfold Z, Y. rewrite hyp_th. set (T := th (q * film_thickness c)) in *. set (T' := th (clipR (q * film_thickness c))) in *.
      assert (T'0 : 0 <= T') by (unfold T'; rewrite <- hyp_th; now apply hyp_range). pose proof (sq_diff m M Hm (film_eps c) es F1 Hes) as Q. unfold inb in *.
      rewrite (seen_diff_T (film_eps c) es T' T) by lra.
      assert (A1 : film_eps c <= film_eps c + es * T') by (assert (0 <= es * T') by (apply Rmult_le_pos; lra); lra).
      assert (A2 : m <= film_eps c + es * T) by (assert (0 <= es * T) by (apply Rmult_le_pos; lra); lra).
      set (B := film_eps c) in *.
      replace (B * (B * B - es * es) * (T - T') / ((B + es * T') * (B + es * T))) with (B * / (B + es * T') * ((B * B - es * es) * / (B + es * T) * (T - T'))) by (field; lra).
      rewrite Rabs_mult, (Rabs_pos_eq (B * _)) by (apply Rmult_le_pos; [lra|left; apply Rinv_0_lt_compat; lra]).
      rewrite Rabs_mult, Rabs_mult, Rabs_inv, (Rabs_pos_eq (B + es * T)), (Rabs_pos_eq (T - T')) by lra.
      apply Rle_trans with (1 * (M * M * / m * (2 * exp (-2 * MAX_EXP_ARG)))); [|right; field; lra].
      assert (I1 : 0 <= / (B + es * T)) by (left; apply Rinv_0_lt_compat; lra).
      apply Rmult_le_compat.
      - apply Rmult_le_pos; [lra|left; apply Rinv_0_lt_compat; lra].
      - apply Rmult_le_pos; [apply Rmult_le_pos; [apply Rabs_pos|exact I1]|lra].
      - change (B / (B + es * T') <= 1). apply Rle_div_l; lra.
      - apply Rmult_le_compat; [apply Rmult_le_pos; [apply Rabs_pos|exact I1]|lra| |lra].
        apply Rmult_le_compat; [apply Rabs_pos|exact I1|exact Q|apply Rinv_le_contravar; lra]. }
    split.
    + replace ((X - e0) / (X + e0) - (Y - e0) / (Y + e0)) with (((X - e0) / (X + e0) - (Z - e0) / (Z + e0)) + ((Z - e0) / (Z + e0) - (Y - e0) / (Y + e0))) by ring.
      eapply Rle_trans; [apply Rabs_triang|]. apply Rplus_le_compat; [exact D1|]. unfold inb in *.
      eapply Rle_trans; [apply (contrast_lip e0 m); lra|]. apply Rle_trans with (M * M / m * (2 * exp (-2 * MAX_EXP_ARG)) / (2 * m)).
      * apply Rmult_le_compat_r; [left; apply Rinv_0_lt_compat; lra|exact D2].
      * right. field. lra.
    + intros Hcl. specialize (G2 Hcl). assert (EZ : Z = Y) by (unfold Z, Y; rewrite hyp_th, G2; reflexivity). rewrite <- EZ. exact D1.
  - (* coarse layers: the bound exceeds 2 *)
    assert (B2 : 2 <= bound).
    { unfold bound. apply Rle_trans with (3 * 1 * 1); [lra|]. apply Rmult_le_compat; [lra|lra| |].
      - apply Rmult_le_compat_l; [lra|]. apply pow_R1_Rle. exact R1.
      - assert (INR N <= q * total_thickness c).
        { apply Rnot_le_lt in Lg. left. rewrite <- Rlt_div_r in Lg by lra. lra. }
        apply Rle_div_r; [lra|]. simpl. nra. }
    assert (Rabs ((X - e0) / (X + e0) - (Y - e0) / (Y + e0)) <= 2).
    { unfold inb in *. pose proof (contrast_range e0 X H0 ltac:(lra)). pose proof (contrast_range e0 Y H0 ltac:(lra)). apply Rabs_le. lra. }
    split; [lra|intros _; lra].
Qed.
