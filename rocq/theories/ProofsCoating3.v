(** * C99: quarter-wave coatings, antireflection, mirrors, etalons *)
From Coq Require Import String Reals Lra Lia ZArith List Bool.
From Coquelicot Require Import Rcomplements Complex.
From Verif Require Import Num NumLemmas ModelBase ModelSample ModelTip StackLemmas Spec SpecCoating
  ProofsStackQS ProofsStackQS2 ProofsStackFF ProofsStackFF2 ProofsBulkFF ProofsCoating ProofsCoating2.
Import ListNotations.
Open Scope R_scope.

Lemma coated_fields p nu q e0 k0 ls es ks nu0 F G :
  transparent nu q e0 k0 -> Forall (ok_layer nu q) ls -> transparent nu q es ks ->
  surface_fields p (map clay ls ++ [(RtoC es, RtoC ks)]) (map lay_t ls) = (F, G) ->
  refl_coef (coated e0 ls es nu0) (Some q) None (Some nu) (pol p) = Ok (Some ((RtoC (adm p e0 k0) * F - G) / (RtoC (adm p e0 k0) * F + G))%C).
Proof.
  intros H0 HL Hs E. pose proof (fields_char p nu q es ks Hs ls HL) as E'. cbv zeta in E'. rewrite E in E'. pose proof (f_equal fst E') as EF. pose proof (f_equal snd E') as EG. cbn [fst snd] in EF, EG.
  destruct (coated_value p nu q e0 k0 ls es ks nu0 H0 HL Hs) as (ND & Er & _). rewrite Er. do 2 f_equal. rewrite EF, EG.
  f_equal; apply C_eq; unfold Re, Im; cbn [fst snd Cminus Copp Cplus Cmult RtoC]; ring.
Qed.

(** C99. Quarter-wave coatings of any number of layers, both polarizations, any angle: if every coating layer has phase an odd multiple
    of pi/2, the code's reflection coefficient is (y0 - Y)/(y0 + Y), Y the substrate admittance inverted in turn about every layer. *)
Lemma C99_quarter_wave_proof :
  forall (p : bool) (nu q e0 k0 es ks : R) (ls : list layer) nu0,
  transparent nu q e0 k0 -> Forall (fun l => transparent nu q (lay_eps l) (lay_k l)) ls -> transparent nu q es ks ->
  Forall (fun l => cos (lay_phase l) = 0) ls ->
  let y0 := adm p e0 k0 in let Y := fold_right (fun l y => lay_adm p l ^ 2 / y) (adm p es ks) ls in
  0 < Y /\
  refl_coef (stack (map RtoC (e0 :: map lay_eps ls ++ [es])) (map lay_t ls) nu0) (Some q) None (Some nu) (pol p) = Ok (Some (RtoC ((y0 - Y) / (y0 + Y)))).
Proof.
  intros p nu q e0 k0 es ks ls nu0 H0 HL Hs HC y0 Y.
  pose proof (adm_pos p nu q e0 k0 H0) as P0. pose proof (adm_pos p nu q es ks Hs) as Ps. fold y0 in P0.
  pose proof (qw_pos p nu q (adm p es ks) ls Ps HL) as PY. change (qw_adm p ls (adm p es ks)) with Y in PY. split; [exact PY|].
  destruct (qw_fields p nu q es ks Hs ls HL HC) as [F0 G0]. change (qw_adm p ls (adm p es ks)) with Y in G0.
  destruct (surface_fields p (map clay ls ++ [(RtoC es, RtoC ks)]) (map lay_t ls)) as [F G] eqn:E. cbn [fst snd] in F0, G0.
  change (refl_coef (coated e0 ls es nu0) (Some q) None (Some nu) (pol p) = Ok (Some (RtoC ((y0 - Y) / (y0 + Y))))).
  rewrite (coated_fields p nu q e0 k0 ls es ks nu0 F G H0 HL Hs E). fold y0. do 2 f_equal. rewrite G0.
  rewrite RtoC_div by lra. rewrite RtoC_minus, RtoC_plus.
  assert (NS : (RtoC y0 + RtoC Y)%C <> RtoC 0) by (rewrite <- RtoC_plus; apply RtoC_neq_0; lra).
  field. split; [exact NS|]. replace (RtoC y0 * F + RtoC Y * F)%C with ((RtoC y0 + RtoC Y) * F)%C by ring. now apply Cmult_neq_0.
Qed.

(** C99. Antireflection: a single lossless film between two transparent media reflects nothing exactly when it is a quarter-wave
    film with the geometric-mean admittance, or a half-wave film between matched media, or optically not there at all. *)
Lemma C99_antireflection_proof :
  forall (p : bool) (nu q e0 k0 e1 k1 t es ks : R) nu0,
  transparent nu q e0 k0 -> transparent nu q e1 k1 -> transparent nu q es ks ->
  let y0 := adm p e0 k0 in let y1 := adm p e1 k1 in let ys := adm p es ks in
  refl_coef (stack [RtoC e0; RtoC e1; RtoC es] [t] nu0) (Some q) None (Some nu) (pol p) = Ok (Some (RtoC 0)) <->
  (cos (k1 * t) = 0 /\ y1 ^ 2 = y0 * ys) \/ (sin (k1 * t) = 0 /\ y0 = ys) \/ (y0 = ys /\ y1 = y0).
Proof.
  intros p nu q e0 k0 e1 k1 t es ks nu0 H0 H1 Hs y0 y1 ys.
  pose proof (adm_pos p nu q e0 k0 H0) as P0. pose proof (adm_pos p nu q e1 k1 H1) as P1. pose proof (adm_pos p nu q es ks Hs) as Ps. fold y0 in P0. fold y1 in P1. fold ys in Ps.
  assert (HL : Forall (ok_layer nu q) [(e1, k1, t)]) by (constructor; [exact H1|constructor]).
  destruct (coated_value p nu q e0 k0 [(e1, k1, t)] es ks nu0 H0 HL Hs) as (ND & Er & _).
  fold y0 ys in ND, Er. change (coated e0 [(e1, k1, t)] es nu0) with (stack [RtoC e0; RtoC e1; RtoC es] [t] nu0) in Er. rewrite Er.
  cbn [char_matrix fold_right] in *. unfold rmul, rid, layer_matrix in *. cbn [rA rB rC rD] in *.
  change (lay_phase (e1, k1, t)) with (k1 * t) in *. change (lay_adm p (e1, k1, t)) with y1 in *. set (c := cos (k1 * t)) in *. set (s := sin (k1 * t)) in *.
  match goal with |- Ok (Some (?n / ?d)%C) = _ <-> _ => set (N := n) in *; set (D := d) in * end.
  assert (I1 : Ok (Some (N / D)%C) = Ok (Some (RtoC 0)) <-> N = RtoC 0).
  { split; [|intros X; rewrite X; do 2 f_equal; unfold Cdiv; ring]. intros X. assert (X' : (N / D)%C = RtoC 0) by congruence.
    replace N with ((N / D) * D)%C by (field; exact ND). rewrite X'. apply Cmult_0_l. }
  rewrite I1.
  assert (I2 : N = RtoC 0 <-> (y0 - ys) * c = 0 /\ (y1 ^ 2 - y0 * ys) * s = 0).
  { unfold N, RtoC. split.
    - intros X. pose proof (f_equal fst X) as X1. pose proof (f_equal snd X) as X2. cbn [fst snd] in X1, X2. split; [lra|].
      transitivity (y1 * (y1 * s * 1 + c * 0 - y0 * ys * (c * 0 + s / y1 * 1))); [field; lra|]. rewrite X2. ring.
    - intros [X1 X2]. f_equal; [lra|]. transitivity ((y1 ^ 2 - y0 * ys) * s / y1); [field; lra|]. rewrite X2. unfold Rdiv. ring. }
  rewrite I2. split.
  - intros [X1 X2]. apply Rmult_integral in X1. apply Rmult_integral in X2. destruct X1 as [X1|X1], X2 as [X2|X2].
    + right. right. assert (ys = y0) by lra. assert (Y : (y1 - y0) * (y1 + y0) = 0) by (subst ys; rewrite H in X2; lra).
      apply Rmult_integral in Y. split; [lra|]. destruct Y; lra.
    + right. left. split; [exact X2|lra].
    + left. split; [exact X1|lra].
    + exfalso. pose proof (sin2_cos2 (k1 * t)) as E. fold s c in E. rewrite X1, X2 in E. unfold Rsqr in E. lra.
  - intros [[X1 X2]|[[X1 X2]|[X1 X2]]].
    + rewrite X1, X2. split; ring.
    + rewrite X1, X2. split; ring.
    + rewrite X2, <- X1. split; ring.
Qed.

(** C99. A film of optical thickness a quarter of the vacuum wavelength 1/nu with n1^2 = n0 ns is antireflecting in textbooks; in the code
    it is not, because the phase of a layer is n nu t and not 2 pi n nu t: a wavenumber is taken for an angular wavenumber (cf. C22). *)
Lemma C99_quarter_wavelength_refuted_proof :
  ~ (forall (n1 ns nu t : R) nu0, 0 < n1 -> 0 < ns -> 0 < nu -> n1 ^ 2 = ns -> n1 * t = (1 / nu) / 4 ->
     refl_coef (stack [RtoC 1; RtoC (n1 ^ 2); RtoC (ns ^ 2)] [t] nu0) (Some 0) None (Some nu) (pol true) = Ok (Some (RtoC 0))).
Proof.
  intros H. specialize (H 2 4 1 (1 / 8) None ltac:(lra) ltac:(lra) ltac:(lra) ltac:(lra) ltac:(lra)).
  assert (T0 : transparent 1 0 1 1) by (unfold transparent; repeat split; lra).
  assert (T1 : transparent 1 0 (2 ^ 2) 2) by (unfold transparent; repeat split; lra).
  assert (Ts : transparent 1 0 (4 ^ 2) 4) by (unfold transparent; repeat split; lra).
  apply (C99_antireflection_proof true 1 0 1 1 (2 ^ 2) 2 (1 / 8) (4 ^ 2) 4 None T0 T1 Ts) in H. unfold adm in H.
  assert (C0 : 0 < cos (2 * (1 / 8))) by (apply cos_gt_0; pose proof PI_RGT_0; pose proof PI2_1; lra).
  destruct H as [[H _]|[[_ H]|[H _]]]; lra.
Qed.

(** C99. Every other antireflection reading: with the phase pi/2 the same film does reflect nothing. *)
Lemma C99_antireflection_example_proof :
  refl_coef (stack [RtoC 1; RtoC 4; RtoC 16] [PI / 4] None) (Some 0) None (Some 1) (pol true) = Ok (Some (RtoC 0)).
Proof.
  assert (T0 : transparent 1 0 1 1) by (unfold transparent; repeat split; lra).
  assert (T1 : transparent 1 0 4 2) by (unfold transparent; repeat split; lra).
  assert (Ts : transparent 1 0 16 4) by (unfold transparent; repeat split; lra).
  apply (C99_antireflection_proof true 1 0 1 1 4 2 (PI / 4) 16 4 None T0 T1 Ts). left. split; [|unfold adm; lra].
  replace (2 * (PI / 4)) with (PI / 2) by lra. apply cos_PI2.
Qed.

(** C99. Bragg mirrors: N periods of two quarter-wave layers give (y0 - ys (ya/yb)^(2N)) / (y0 + ys (ya/yb)^(2N)), which tends
    geometrically to -1 when the first layer has the larger admittance and to 1 when it has the smaller. *)
Lemma C99_bragg_mirror_proof :
  forall (p : bool) (nu q e0 k0 es ks : R) (a b : layer) (N : nat) nu0,
  transparent nu q e0 k0 -> transparent nu q (lay_eps a) (lay_k a) -> transparent nu q (lay_eps b) (lay_k b) -> transparent nu q es ks ->
  cos (lay_phase a) = 0 -> cos (lay_phase b) = 0 ->
  let y0 := adm p e0 k0 in let ys := adm p es ks in let x := (lay_adm p a / lay_adm p b) ^ 2 in
  let ls := concat (repeat [a; b] N) in let r := (y0 - ys * x ^ N) / (y0 + ys * x ^ N) in
  refl_coef (stack (map RtoC (e0 :: map lay_eps ls ++ [es])) (map lay_t ls) nu0) (Some q) None (Some nu) (pol p) = Ok (Some (RtoC r)) /\
  (1 < x -> 0 < 1 + r <= 2 * (y0 / ys) * (/ x) ^ N) /\
  (x < 1 -> 0 < 1 - r <= 2 * (ys / y0) * x ^ N).
Proof.
  intros p nu q e0 k0 es ks a b N nu0 H0 Ha Hb Hs Ca Cb y0 ys x ls r.
  pose proof (adm_pos p nu q e0 k0 H0) as P0. pose proof (adm_pos p nu q es ks Hs) as Ps. fold y0 in P0. fold ys in Ps.
  pose proof (adm_pos p nu q _ _ Ha) as Pa. pose proof (adm_pos p nu q _ _ Hb) as Pb. fold (lay_adm p a) in Pa. fold (lay_adm p b) in Pb.
  assert (Px : 0 < x) by (apply pow_lt; now apply Rdiv_lt_0_compat).
  assert (HL : Forall (ok_layer nu q) ls).
  { unfold ls. clear ls r. induction N as [|N IH]; cbn [repeat concat app]; [constructor|]. constructor; [exact Ha|]. constructor; [exact Hb|exact IH]. }
  assert (HC : Forall (fun l => cos (lay_phase l) = 0) ls).
  { unfold ls. clear ls r HL. induction N as [|N IH]; cbn [repeat concat app]; [constructor|]. constructor; [exact Ca|]. constructor; [exact Cb|exact IH]. }
  assert (EY : fold_right (fun l y => lay_adm p l ^ 2 / y) ys ls = ys * x ^ N).
  { unfold ls. clear ls r HL HC. induction N as [|N IH]; cbn [repeat concat app fold_right]; [simpl; ring|]. rewrite IH.
    assert (0 < x ^ N) by (now apply pow_lt). assert (EX : x ^ S N = (lay_adm p a / lay_adm p b) ^ 2 * x ^ N) by reflexivity. rewrite EX. field. repeat split; lra. }
  destruct (C99_quarter_wave_proof p nu q e0 k0 es ks ls nu0 H0 HL Hs HC) as [PY E]. fold ys in PY, E. rewrite EY in PY, E. split; [exact E|].
  assert (PX : 0 < x ^ N) by (now apply pow_lt). assert (PP : 0 < ys * x ^ N) by (now apply Rmult_lt_0_compat). split; intros Hx.
  - replace (1 + r) with (2 * y0 / (y0 + ys * x ^ N)) by (unfold r; field; lra). split; [apply Rdiv_lt_0_compat; lra|].
    replace (2 * (y0 / ys) * (/ x) ^ N) with (2 * y0 / (ys * x ^ N)) by (rewrite pow_inv; field; split; lra).
    unfold Rdiv. apply Rmult_le_compat_l; [lra|]. apply Rinv_le_contravar; lra.
  - replace (1 - r) with (2 * (ys * x ^ N) / (y0 + ys * x ^ N)) by (unfold r; field; lra). split; [apply Rdiv_lt_0_compat; lra|].
    replace (2 * (ys / y0) * x ^ N) with (2 * (ys * x ^ N) / y0) by (field; lra).
    unfold Rdiv. apply Rmult_le_compat_l; [lra|]. apply Rinv_le_contravar; lra.
Qed.

(** C99. The etalon: a lossless film in a symmetric surrounding transmits 1 / (1 + F sin^2 phase) with the finesse coefficient
    F = ((y0/y1 - y1/y0)/2)^2 (Airy's formula). *)
Lemma C99_fabry_perot_proof :
  forall (p : bool) (nu q e0 k0 e1 k1 t : R) nu0,
  transparent nu q e0 k0 -> transparent nu q e1 k1 ->
  let y0 := adm p e0 k0 in let y1 := adm p e1 k1 in
  exists tr : C, trans_coef (stack [RtoC e0; RtoC e1; RtoC e0] [t] nu0) (Some q) None (Some nu) (pol p) = Ok (Some tr) /\
    Cmod tr ^ 2 = 1 / (1 + ((y0 / y1 - y1 / y0) / 2) ^ 2 * sin (k1 * t) ^ 2).
Proof.
  intros p nu q e0 k0 e1 k1 t nu0 H0 H1 y0 y1.
  pose proof (adm_pos p nu q e0 k0 H0) as P0. pose proof (adm_pos p nu q e1 k1 H1) as P1. fold y0 in P0. fold y1 in P1.
  assert (HL : Forall (ok_layer nu q) [(e1, k1, t)]) by (constructor; [exact H1|constructor]).
  destruct (C99_lossless_coating_proof p nu q e0 k0 e0 k0 [(e1, k1, t)] nu0 H0 HL H0) as (r & tr & _ & Et & ET & _ & _). fold y0 in ET.
  exists tr. split; [exact Et|]. unfold Rdiv at 1 in ET. rewrite Rinv_r in ET by lra. rewrite Rmult_1_l in ET. rewrite ET. clear ET.
  cbn [char_matrix fold_right]. unfold rmul, rid, layer_matrix. cbn [rA rB rC rD].
  change (lay_phase (e1, k1, t)) with (k1 * t). change (lay_adm p (e1, k1, t)) with y1.
  pose proof (sin2_cos2 (k1 * t)) as E. unfold Rsqr in E. set (c := cos (k1 * t)) in *. set (s := sin (k1 * t)) in *.
  pose proof (pow2_ge_0 ((y0 / y1 - y1 / y0) / 2 * s)) as Q. rewrite Rpow_mult_distr in Q.
  assert (DE : 2 * y0 * y0 + (y0 * (c * 1 - s / y1 * 0)) ^ 2 + (y0 * (c * 1 - y1 * s * 0)) ^ 2 + (y0 * y0 * (c * 0 + s / y1 * 1)) ^ 2 + (y1 * s * 1 + c * 0) ^ 2
    = 4 * y0 * y0 * (1 + ((y0 / y1 - y1 / y0) / 2) ^ 2 * s ^ 2)).
  { replace ((y0 * (c * 1 - s / y1 * 0)) ^ 2) with (y0 * y0 * (1 - s * s)) by (replace (1 - s * s) with (c * c) by (clear - E; lra); ring).
    replace ((y0 * (c * 1 - y1 * s * 0)) ^ 2) with (y0 * y0 * (1 - s * s)) by (replace (1 - s * s) with (c * c) by (clear - E; lra); ring). field. split; lra. }
  rewrite DE. set (w := 1 + ((y0 / y1 - y1 / y0) / 2) ^ 2 * s ^ 2) in *. assert (0 < w) by (unfold w; lra). field. split; lra.
Qed.
