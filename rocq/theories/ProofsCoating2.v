(** * C99: lossless coatings *)
From Coq Require Import String Reals Lra Lia ZArith List Bool.
From Coquelicot Require Import Rcomplements Complex.
From Verif Require Import Num NumLemmas ModelBase ModelSample ModelTip StackLemmas Spec SpecCoating
  ProofsStackQS ProofsStackQS2 ProofsStackFF ProofsStackFF2 ProofsBulkFF ProofsCoating.
Import ListNotations.
Open Scope R_scope.

Lemma adm_pos p nu q e k : transparent nu q e k -> 0 < adm p e k.
Proof. intros (H1 & H2 & _). unfold adm. destruct p; [now apply Rdiv_lt_0_compat|exact H2]. Qed.
Lemma admittance_R p (e k : R) : 0 < e -> admittance p (RtoC e, RtoC k) = RtoC (adm p e k).
Proof. intros H. unfold admittance, adm. destruct p; cbn [fst snd]; [|reflexivity]. rewrite RtoC_div by lra. reflexivity. Qed.
Definition clay (l : layer) : C * C := (RtoC (lay_eps l), RtoC (lay_k l)).
Definition ok_layer (nu q : R) (l : layer) : Prop := transparent nu q (lay_eps l) (lay_k l).

Lemma fields_char p nu q es ks : transparent nu q es ks -> forall ls, Forall (ok_layer nu q) ls ->
  let m := char_matrix p ls in let y := adm p es ks in
  surface_fields p (map clay ls ++ [(RtoC es, RtoC ks)]) (map lay_t ls) = ((rA m, - (rB m * y)), (rD m * y, - rC m))%R.
Proof.
  intros Hs ls HL m y. subst m.
  assert (ADM : admittance p (RtoC es, RtoC ks) = RtoC y) by (apply admittance_R; apply Hs).
  induction ls as [|l ls IH].
  - cbn [map app surface_fields char_matrix fold_right]. rewrite ADM. unfold rid. cbn [rA rB rC rD]. unfold RtoC. f_equal; f_equal; ring.
  - inversion HL as [|? ? H1 H2]; subst. specialize (IH H2). cbv zeta in IH.
    pose proof (adm_pos p nu q _ _ H1) as Py. fold (lay_adm p l) in Py.
    assert (SF : surface_fields p (map clay (l :: ls) ++ [(RtoC es, RtoC ks)]) (map lay_t (l :: ls))
      = (let FG := surface_fields p (map clay ls ++ [(RtoC es, RtoC ks)]) (map lay_t ls) in
        let y := admittance p (clay l) in let phi := (snd (clay l) * RtoC (lay_t l))%C in
        ((fst FG * Ccos phi - (0, 1)%R * Csin phi * snd FG / y)%C, (snd FG * Ccos phi - (0, 1)%R * Csin phi * y * fst FG)%C))).
    { destruct ls as [|l' ls]; reflexivity. }
    rewrite SF, IH. cbv zeta. cbn [fst snd]. change (snd (clay l)) with (RtoC (lay_k l)). rewrite <- RtoC_mult. fold (lay_phase l).
    unfold clay. rewrite (admittance_R p (lay_eps l) (lay_k l) (proj1 H1)). fold (lay_adm p l). rewrite Ccos_R, Csin_R.
    cbn [char_matrix fold_right]. fold (char_matrix p ls). set (M := char_matrix p ls). unfold rmul, layer_matrix. cbn [rA rB rC rD].
    set (c := cos _). set (s := sin _). set (w := lay_adm p l) in *.
    unfold Cdiv. rewrite <- RtoC_inv by lra.
    f_equal; apply C_eq; unfold Re, Im; cbn [fst snd Cminus Cplus Copp Cmult RtoC]; field; lra.
Qed.

(** ** The characteristic matrix *)
Definition unimod (m : rmat) : Prop := rA m * rD m + rB m * rC m = 1.
Lemma unimod_mul m m' : unimod m -> unimod m' -> unimod (rmul m m').
Proof.
  unfold unimod, rmul. destruct m as [a b c d], m' as [a' b' c' d']; cbn [rA rB rC rD]. intros H H'.
  replace ((a * a' - b * c') * (d * d' - c * b') + (a * b' + b * d') * (c * a' + d * c')) with ((a * d + b * c) * (a' * d' + b' * c')) by ring.
  rewrite H, H'. ring.
Qed.
Lemma unimod_layer p l : lay_adm p l <> 0 -> unimod (layer_matrix p l).
Proof.
  intros H. unfold unimod, layer_matrix. cbn [rA rB rC rD]. pose proof (sin2_cos2 (lay_phase l)) as E. unfold Rsqr in E.
  replace (cos (lay_phase l) * cos (lay_phase l) + sin (lay_phase l) / lay_adm p l * (lay_adm p l * sin (lay_phase l)))
    with (sin (lay_phase l) * sin (lay_phase l) + cos (lay_phase l) * cos (lay_phase l)) by (field; exact H). exact E.
Qed.
Lemma unimod_char p nu q ls : Forall (ok_layer nu q) ls -> unimod (char_matrix p ls).
Proof.
  induction 1 as [|l ls H HL IH]; cbn [char_matrix fold_right]; [unfold unimod, rid; cbn; ring|].
  apply unimod_mul; [|exact IH]. apply unimod_layer. pose proof (adm_pos p nu q _ _ H). unfold lay_adm. lra.
Qed.
Lemma rmul_assoc a b c : rmul (rmul a b) c = rmul a (rmul b c).
Proof. unfold rmul. cbn [rA rB rC rD]. f_equal; ring. Qed.
Lemma rmul_id_l m : rmul rid m = m.
Proof. destruct m as [a b c d]. unfold rmul, rid. cbn [rA rB rC rD]. f_equal; ring. Qed.
Lemma char_app p l l' : char_matrix p (l ++ l') = rmul (char_matrix p l) (char_matrix p l').
Proof.
  induction l as [|x l IH]; cbn [app char_matrix fold_right]; [now rewrite rmul_id_l|].
  fold (char_matrix p (l ++ l')) (char_matrix p l). now rewrite IH, rmul_assoc.
Qed.

(** ** What the code returns for a lossless coating *)
Definition coated (e0 : R) (ls : list layer) (es : R) (nu0 : option R) : sample :=
  stack (map RtoC (e0 :: map lay_eps ls ++ [es])) (map lay_t ls) nu0.
Definition denom2 (m : rmat) (y0 ys : R) : R := (y0 * rA m + ys * rD m) ^ 2 + (y0 * ys * rB m + rC m) ^ 2.
Lemma denom2_split m y0 ys : unimod m -> denom2 m y0 ys = 4 * y0 * ys + ((y0 * rA m - ys * rD m) ^ 2 + (y0 * ys * rB m - rC m) ^ 2).
Proof. intros H. unfold denom2. replace (4 * y0 * ys) with (4 * y0 * ys * (rA m * rD m + rB m * rC m)) by (rewrite H; ring). ring. Qed.

Lemma coated_value p nu q e0 k0 ls es ks nu0 :
  transparent nu q e0 k0 -> Forall (ok_layer nu q) ls -> transparent nu q es ks ->
  let y0 := adm p e0 k0 in let ys := adm p es ks in let m := char_matrix p ls in
  let N := (y0 * rA m - ys * rD m, rC m - y0 * ys * rB m)%R in let D := (y0 * rA m + ys * rD m, - (y0 * ys * rB m + rC m))%R in
  D <> RtoC 0 /\
  refl_coef (coated e0 ls es nu0) (Some q) None (Some nu) (pol p) = Ok (Some (N / D)%C) /\
  trans_coef (coated e0 ls es nu0) (Some q) None (Some nu) (pol p) = Ok (Some (RtoC (2 * y0) / D)%C).
Proof.
  intros H0 HL Hs y0 ys m N D.
  pose proof (adm_pos p nu q e0 k0 H0) as P0. pose proof (adm_pos p nu q es ks Hs) as Ps. fold y0 in P0. fold ys in Ps.
  pose proof (unimod_char p nu q ls HL) as U. fold m in U.
  pose proof (denom2_split m y0 ys U) as DS. unfold denom2 in DS.
  assert (PP : 0 < y0 * ys) by (now apply Rmult_lt_0_compat).
  assert (ND : D <> RtoC 0).
  { intros X. pose proof (f_equal fst X) as X1. pose proof (f_equal snd X) as X2. unfold D in X1, X2. cbn in X1, X2.
    replace (y0 * ys * rB m + rC m) with 0 in DS by lra. rewrite X1 in DS. pose proof (pow2_ge_0 (y0 * rA m - ys * rD m)). pose proof (pow2_ge_0 (y0 * ys * rB m - rC m)). lra. }
  assert (TR : forall e k, transparent nu q e k -> is_kz nu q (RtoC e) (RtoC k) /\ principal (RtoC k) /\ RtoC k <> RtoC 0).
  { intros e k (T1 & T2 & T3). split; [now apply is_kz_R|]. split; [now apply principal_R|]. apply RtoC_neq_0. lra. }
  pose proof (C99_admittance_proof p (RtoC e0, RtoC k0) (map clay ls) (RtoC es, RtoC ks) (map lay_t ls) nu0 nu q
    (rA m, - (rB m * ys))%R (rD m * ys, - rC m)%R) as Q.
  cbv zeta in Q. rewrite (admittance_R p e0 k0 (proj1 H0)) in Q. fold y0 in Q.
  assert (ED : (RtoC y0 * (rA m, (- (rB m * ys))%R) + ((rD m * ys)%R, (- rC m)%R))%C = D).
  { unfold D. apply C_eq; unfold Re, Im; cbn [fst snd Cplus Cmult RtoC]; ring. }
  assert (EN : (RtoC y0 * (rA m, (- (rB m * ys))%R) - ((rD m * ys)%R, (- rC m)%R))%C = N).
  { unfold N. apply C_eq; unfold Re, Im; cbn [fst snd Cminus Copp Cplus Cmult RtoC]; ring. }
  rewrite ED, EN in Q. split; [exact ND|].
  assert (EL : map fst ((RtoC e0, RtoC k0) :: map clay ls ++ [(RtoC es, RtoC ks)]) = map RtoC (e0 :: map lay_eps ls ++ [es])).
  { cbn [map fst]. f_equal. rewrite !map_app, !map_map. reflexivity. }
  rewrite EL in Q. fold (coated e0 ls es nu0) in Q. rewrite <- RtoC_mult in Q. apply Q.
  - now rewrite !map_length.
  - constructor; [now apply TR|]. apply Forall_app. split; [|constructor; [now apply TR|constructor]].
    apply Forall_map. eapply Forall_impl; [|exact HL]. intros l Hl. now apply TR.
  - intros _. constructor; [apply RtoC_neq_0; destruct H0; lra|]. apply Forall_app. split; [|constructor; [apply RtoC_neq_0; destruct Hs; cbn; lra|constructor]].
    apply Forall_map. eapply Forall_impl; [|exact HL]. intros l Hl. apply RtoC_neq_0. destruct Hl. lra.
  - apply (fields_char p nu q es ks Hs ls HL).
  - exact ND.
Qed.

(** C99. A lossless coating between transparent media: the code returns both coefficients, and the transmitted power is
    4 y0 ys / (2 y0 ys + y0^2 A^2 + ys^2 D^2 + y0^2 ys^2 B^2 + C^2), (A, B, C, D) the characteristic matrix; the rest is reflected. *)
Lemma C99_lossless_coating_proof :
  forall (p : bool) (nu q e0 k0 es ks : R) (ls : list layer) nu0,
  transparent nu q e0 k0 -> Forall (fun l => transparent nu q (lay_eps l) (lay_k l)) ls -> transparent nu q es ks ->
  let y0 := adm p e0 k0 in let ys := adm p es ks in let m := char_matrix p ls in
  let T := 4 * y0 * ys / (2 * y0 * ys + (y0 * rA m) ^ 2 + (ys * rD m) ^ 2 + (y0 * ys * rB m) ^ 2 + rC m ^ 2) in
  let s := stack (map RtoC (e0 :: map lay_eps ls ++ [es])) (map lay_t ls) nu0 in
  exists r t : C,
    refl_coef s (Some q) None (Some nu) (pol p) = Ok (Some r) /\
    trans_coef s (Some q) None (Some nu) (pol p) = Ok (Some t) /\
    ys / y0 * Cmod t ^ 2 = T /\ Cmod r ^ 2 = 1 - T /\ 0 < T <= 1.
Proof.
  intros p nu q e0 k0 es ks ls nu0 H0 HL Hs y0 ys m T s.
  destruct (coated_value p nu q e0 k0 ls es ks nu0 H0 HL Hs) as (ND & Er & Et). fold y0 ys m in ND, Er, Et. fold s in Er, Et.
  set (N := ((y0 * rA m - ys * rD m)%R, (rC m - y0 * ys * rB m)%R)) in *. set (D := ((y0 * rA m + ys * rD m)%R, (- (y0 * ys * rB m + rC m))%R)) in *.
  exists (N / D)%C, (RtoC (2 * y0) / D)%C. split; [exact Er|]. split; [exact Et|].
  pose proof (adm_pos p nu q e0 k0 H0) as P0. pose proof (adm_pos p nu q es ks Hs) as Ps. fold y0 in P0. fold ys in Ps.
  pose proof (unimod_char p nu q ls HL) as U. fold m in U. pose proof (denom2_split m y0 ys U) as DS.
  assert (PP : 0 < y0 * ys) by (now apply Rmult_lt_0_compat).
  assert (D2 : Cmod D ^ 2 = denom2 m y0 ys) by (rewrite Cmod_sqr; unfold D, denom2, Re, Im; cbn [fst snd]; ring).
  assert (N2 : Cmod N ^ 2 = (y0 * rA m - ys * rD m) ^ 2 + (y0 * ys * rB m - rC m) ^ 2) by (rewrite Cmod_sqr; unfold N, Re, Im; cbn [fst snd]; ring).
  assert (TD : denom2 m y0 ys = 2 * y0 * ys + (y0 * rA m) ^ 2 + (ys * rD m) ^ 2 + (y0 * ys * rB m) ^ 2 + rC m ^ 2).
  { unfold denom2. replace (2 * y0 * ys) with (2 * y0 * ys * (rA m * rD m + rB m * rC m)) by (rewrite U; ring). ring. }
  assert (N0 : 0 <= Cmod N ^ 2) by apply pow2_ge_0. rewrite N2 in N0.
  assert (PD : 0 < denom2 m y0 ys) by lra.
  assert (ET : T = 4 * y0 * ys / denom2 m y0 ys) by (unfold T; now rewrite TD).
  repeat split.
  - rewrite Cmod_div by exact ND. unfold Rdiv at 2. rewrite Rpow_mult_distr, pow_inv, D2, Cmod_R, pow2_abs, ET. field. split; lra.
  - rewrite Cmod_div by exact ND. unfold Rdiv at 1. rewrite Rpow_mult_distr, pow_inv, D2, N2, ET. rewrite DS. field. lra.
  - rewrite ET. apply Rdiv_lt_0_compat; lra.
  - rewrite ET. apply Rle_div_l; lra.
Qed.

(** ** Quarter waves *)
Definition qw_adm (p : bool) (ls : list layer) (ys : R) : R := fold_right (fun l y => lay_adm p l ^ 2 / y) ys ls.
Lemma qw_pos p nu q ys ls : 0 < ys -> Forall (ok_layer nu q) ls -> 0 < qw_adm p ls ys.
Proof.
  intros Hy. induction 1 as [|l ls H HL IH]; [exact Hy|]. cbn [qw_adm fold_right]. apply Rdiv_lt_0_compat; [|exact IH]. apply pow_lt. exact (adm_pos p nu q _ _ H).
Qed.
Lemma qw_fields p nu q es ks : transparent nu q es ks -> forall ls, Forall (ok_layer nu q) ls -> Forall (fun l => cos (lay_phase l) = 0) ls ->
  let FG := surface_fields p (map clay ls ++ [(RtoC es, RtoC ks)]) (map lay_t ls) in
  fst FG <> RtoC 0 /\ snd FG = (RtoC (qw_adm p ls (adm p es ks)) * fst FG)%C.
Proof.
  intros Hs ls HL HC. pose proof (adm_pos p nu q es ks Hs) as Ps. induction ls as [|l ls IH].
  - cbn [map app surface_fields]. rewrite (admittance_R p es ks (proj1 Hs)). cbn [fst snd qw_adm fold_right]. split; [apply RtoC_neq_0; lra|ring].
  - inversion HL as [|? ? H1 H2]; subst. inversion HC as [|? ? C1 C2]; subst. specialize (IH H2 C2). cbv zeta in IH. destruct IH as [F0 G0].
    pose proof (adm_pos p nu q _ _ H1) as Py. fold (lay_adm p l) in Py.
    pose proof (qw_pos p nu q (adm p es ks) ls Ps H2) as PY.
    assert (SF : surface_fields p (map clay (l :: ls) ++ [(RtoC es, RtoC ks)]) (map lay_t (l :: ls))
      = (let FG := surface_fields p (map clay ls ++ [(RtoC es, RtoC ks)]) (map lay_t ls) in
        let y := admittance p (clay l) in let phi := (snd (clay l) * RtoC (lay_t l))%C in
        ((fst FG * Ccos phi - (0, 1)%R * Csin phi * snd FG / y)%C, (snd FG * Ccos phi - (0, 1)%R * Csin phi * y * fst FG)%C))).
    { destruct ls as [|l' ls]; reflexivity. }
    rewrite SF. cbv zeta. cbn [fst snd]. rewrite G0. set (F := fst (surface_fields _ _ _)) in *.
    change (snd (clay l)) with (RtoC (lay_k l)). rewrite <- RtoC_mult. fold (lay_phase l).
    unfold clay. rewrite (admittance_R p (lay_eps l) (lay_k l) (proj1 H1)). fold (lay_adm p l). rewrite Ccos_R, Csin_R, C1.
    cbn [qw_adm fold_right]. fold (qw_adm p ls (adm p es ks)). set (Y := qw_adm p ls (adm p es ks)) in *. set (w := lay_adm p l) in *.
    assert (S0 : sin (lay_phase l) <> 0).
    { intros X. pose proof (sin2_cos2 (lay_phase l)) as E. rewrite X, C1 in E. unfold Rsqr in E. lra. }
    set (s := sin (lay_phase l)) in *. assert (W0 : RtoC w <> RtoC 0) by (apply RtoC_neq_0; lra). assert (Y0 : RtoC Y <> RtoC 0) by (apply RtoC_neq_0; lra).
    assert (E1 : (F * RtoC 0 - (0, 1)%R * RtoC s * (RtoC Y * F) / RtoC w)%C = (- ((0, 1)%R * RtoC s * RtoC Y * F / RtoC w))%C) by (field; exact W0).
    rewrite E1. split.
    + apply Copp_neq_0. unfold Cdiv. repeat apply Cmult_neq_0; auto using Ci_neq_0, Cinv_neq_0, RtoC_neq_0.
    + rewrite RtoC_div by lra. replace (w ^ 2) with (w * w) by ring. rewrite RtoC_mult. field. auto.
Qed.
