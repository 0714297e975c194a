(** * Lemmas about the range-limited arithmetic of ModelRange.v *)
From Coq Require Import Reals Lra Lia List Bool.
From Coquelicot Require Import Rcomplements Complex.
From Verif Require Import Num NumLemmas ModelBase ModelSample StackLemmas ModelRange SpecRange.
Import ListNotations.
Open Scope R_scope.

(** ** The largest double *)
Lemma exp_pow_nat x n : exp x ^ n = exp (INR n * x).
Proof.
  induction n as [|n IH]; [cbn; rewrite Rmult_0_l, exp_0; reflexivity|].
  rewrite S_INR. cbn [pow]. rewrite IH, <- exp_plus. f_equal. ring.
Qed.
Lemma MAXF_big : 2 ^ 1023 <= MAXF.
Proof.
  unfold MAXF. rewrite <- (Rmult_1_l (2 ^ 1023)) at 1.
  apply Rmult_le_compat_r; [apply pow_le; lra|].
  assert (/ 2 ^ 52 <= 1); [|lra].
  rewrite <- Rinv_1. apply Rinv_le_contravar; [lra|]. apply pow_R1_Rle. lra.
Qed.
Lemma MAX_EXP_le_1024 : MAX_EXP_ARG <= 1024.
Proof.
  change MAX_EXP_ARG with (ln MAXF). rewrite <- (ln_exp 1024). apply ln_le.
  - pose proof MAXF_big. assert (0 < 2 ^ 1023) by (apply pow_lt; lra). lra.
  - apply Rle_trans with (2 ^ 1024).
    + unfold MAXF. change (2 ^ 1024) with (2 * 2 ^ 1023).
      apply Rmult_le_compat_r; [apply pow_le; lra|].
      assert (0 < / 2 ^ 52) by (apply Rinv_0_lt_compat, pow_lt; lra). lra.
    + replace 1024 with (INR 1024 * 1) by (rewrite INR_IZR_INZ; cbn; lra).
      rewrite <- exp_pow_nat. apply pow_incr. pose proof (exp_ineq1_le 1). lra.
Qed.
Lemma TAME_ge1 : 16 <= TAME.
Proof.
  unfold TAME. replace 16 with (2 ^ 4) by ring. apply Rle_pow; [lra|lia].
Qed.
Lemma TAME_sq : 1024 * (TAME * TAME) <= MAXF.
Proof.
  eapply Rle_trans; [|exact MAXF_big].
  replace 1024 with (2 ^ 10) by ring. unfold TAME.
  rewrite <- !pow_add. apply Rle_pow; [lra|lia].
Qed.
Lemma MAXF_pos : 0 < MAXF.
Proof. pose proof TAME_ge1. pose proof TAME_sq. nra. Qed.
Lemma MAXF_gt_TAME : 1024 * 16 * TAME <= MAXF.
Proof. pose proof TAME_ge1. pose proof TAME_sq. nra. Qed.
Lemma MAXF_big' : 1024 <= MAXF.
Proof. pose proof TAME_ge1. pose proof MAXF_gt_TAME. lra. Qed.
Opaque MAXF TAME.
#[global] Opaque MAXF TAME.

Lemma exp_MAX : exp MAX_EXP_ARG = MAXF.
Proof. change MAX_EXP_ARG with (ln MAXF). apply exp_ln, MAXF_pos. Qed.
Lemma MAX_EXP_le : 0 < MAX_EXP_ARG <= MAXF.
Proof.
  change MAX_EXP_ARG with (ln MAXF). pose proof MAXF_big' as H. split.
  - rewrite <- ln_1. apply ln_increasing; lra.
  - rewrite <- (ln_exp MAXF) at 2. apply ln_le; [lra|].
    pose proof (exp_ineq1_le MAXF). lra.
Qed.

(** ** Exact results *)
Lemma inrange_ok x : Rabs x <= MAXF -> inrange x = Fin x.
Proof. intros H. unfold inrange. destruct (Rle_dec (Rabs x) MAXF); [reflexivity|contradiction]. Qed.
Lemma inrange_over x : MAXF < x -> inrange x = PInf.
Proof.
  intros H. pose proof MAXF_pos. unfold inrange.
  destruct (Rle_dec (Rabs x) MAXF) as [H1|_].
  - rewrite Rabs_pos_eq in H1; lra.
  - destruct (Rlt_dec 0 x); [reflexivity|lra].
Qed.

Lemma fadd_fin x y : Rabs (x + y) <= MAXF -> fadd (Fin x) (Fin y) = Fin (x + y).
Proof. intros. apply inrange_ok. assumption. Qed.
Lemma fsub_fin x y : Rabs (x - y) <= MAXF -> fsub (Fin x) (Fin y) = Fin (x - y).
Proof. intros. apply inrange_ok. assumption. Qed.
Lemma fmul_fin x y : Rabs (x * y) <= MAXF -> fmul (Fin x) (Fin y) = Fin (x * y).
Proof. intros. apply inrange_ok. assumption. Qed.
Lemma fdiv_fin x y : y <> 0 -> Rabs (x / y) <= MAXF -> fdiv (Fin x) (Fin y) = Fin (x / y).
Proof.
  intros Hy H. unfold fdiv. destruct (Req_EM_T y 0); [contradiction|]. apply inrange_ok, H.
Qed.

(** [z] is the complex number [c] *)
Definition zis (z : cflt) (c : C) : Prop := z = zof c.

Lemma Re_le c : Rabs (Re c) <= Cmod c.
Proof. eapply Rle_trans; [|apply Rmax_Cmod]. apply Rmax_l. Qed.
Lemma Im_le c : Rabs (Im c) <= Cmod c.
Proof. eapply Rle_trans; [|apply Rmax_Cmod]. apply Rmax_r. Qed.

Lemma zis_R x : zis (rf x) (RtoC x).
Proof. reflexivity. Qed.

Lemma zmul_is a b x y :
  zis a x -> zis b y -> Cmod x * Cmod y <= MAXF -> zis (zmul a b) (x * y)%C.
Proof.
  intros -> -> H. unfold zis, zof, zmul. cbn [fst snd].
  assert (B : forall u v, Rabs u <= Cmod x -> Rabs v <= Cmod y -> Rabs (u * v) <= MAXF).
  { intros u v Hu Hv. rewrite Rabs_mult. eapply Rle_trans; [|exact H].
    apply Rmult_le_compat; auto using Rabs_pos. }
  pose proof (Re_le x) as X1. pose proof (Im_le x) as X2. pose proof (Re_le y) as Y1. pose proof (Im_le y) as Y2.
  rewrite !fmul_fin by (apply B; assumption).
  assert (H1 : Rabs (Re (x * y)%C) <= MAXF)
    by (eapply Rle_trans; [apply Re_le|]; rewrite Cmod_mult; exact H).
  assert (H2 : Rabs (Im (x * y)%C) <= MAXF)
    by (eapply Rle_trans; [apply Im_le|]; rewrite Cmod_mult; exact H).
  change (Re (x * y)%C) with (Re x * Re y - Im x * Im y) in *.
  change (Im (x * y)%C) with (Re x * Im y + Im x * Re y) in *.
  rewrite fsub_fin, fadd_fin by assumption. reflexivity.
Qed.

Lemma zadd_is a b x y :
  zis a x -> zis b y -> Cmod (x + y)%C <= MAXF -> zis (zadd a b) (x + y)%C.
Proof.
  intros -> -> H. unfold zis, zof, zadd. cbn [fst snd].
  assert (H1 : Rabs (Re (x + y)%C) <= MAXF) by (eapply Rle_trans; [apply Re_le|exact H]).
  assert (H2 : Rabs (Im (x + y)%C) <= MAXF) by (eapply Rle_trans; [apply Im_le|exact H]).
  change (Re (x + y)%C) with (Re x + Re y) in *.
  change (Im (x + y)%C) with (Im x + Im y) in *.
  rewrite !fadd_fin by assumption. reflexivity.
Qed.

(** Smith's division *)
Lemma smith_core ar ai br bi (A B L : R) :
  Rabs ar <= A -> Rabs ai <= A -> Rabs br <= B -> Rabs bi <= Rabs br ->
  0 < L -> L <= Rabs br ->
  2 * A <= MAXF -> 2 * B <= MAXF -> / L <= MAXF -> 2 * A / L <= MAXF ->
  let rat := fdiv (Fin bi) (Fin br) in
  let scl := fdiv (Fin 1) (fadd (Fin br) (fmul (Fin bi) rat)) in
  fmul (fadd (Fin ar) (fmul (Fin ai) rat)) scl = Fin ((ar * br + ai * bi) / (br * br + bi * bi)) /\
  fmul (fadd (fmul (Fin ai) rat) (Fin ar)) scl = Fin ((ar * br + ai * bi) / (br * br + bi * bi)) /\
  fmul (fsub (Fin ar) (fmul (Fin ai) rat)) scl = Fin ((ar * br - ai * bi) / (br * br + bi * bi)) /\
  fmul (fsub (fmul (Fin ai) rat) (Fin ar)) scl = Fin ((ai * bi - ar * br) / (br * br + bi * bi)).
Proof.
  intros Har Hai Hbr Hbi HL HLb HA HB HiL HAL.
  assert (Nb : br <> 0) by (intros ->; rewrite Rabs_R0 in HLb; lra).
  assert (Pb : 0 < Rabs br) by (apply Rabs_pos_lt, Nb).
  set (ra := bi / br).
  assert (Hr : Rabs ra <= 1).
  { unfold ra. rewrite Rabs_div by exact Nb. apply Rle_div_l; lra. }
  pose proof MAXF_big' as HM.
  assert (H1 : forall u v, Rabs u <= v -> Rabs (u * ra) <= v).
  { intros u v Hu. rewrite Rabs_mult. pose proof (Rabs_pos u). pose proof (Rabs_pos ra). nra. }
  assert (D : br + bi * ra = (br * br + bi * bi) / br) by (unfold ra; field; exact Nb).
  assert (Sq : 0 < br * br + bi * bi) by nra.
  assert (ND : br + bi * ra <> 0).
  { rewrite D. apply Rmult_integral_contrapositive_currified; [lra|apply Rinv_neq_0_compat, Nb]. }
  assert (LD : Rabs br <= Rabs (br + bi * ra)).
  { rewrite D, Rabs_div by exact Nb. apply Rle_div_r; [lra|].
    rewrite (Rabs_pos_eq (br * br + bi * bi)) by lra.
    assert (Rabs br * Rabs br = br * br) by (rewrite <- Rabs_mult; apply Rabs_pos_eq; nra). nra. }
  assert (UD : Rabs (br + bi * ra) <= 2 * B).
  { eapply Rle_trans; [apply Rabs_triang|]. pose proof (H1 bi B). lra. }
  assert (HS : Rabs (1 / (br + bi * ra)) <= / L).
  { rewrite Rabs_div, Rabs_R1 by exact ND. unfold Rdiv. rewrite Rmult_1_l.
    apply Rinv_le_contravar; lra. }
  cbn zeta. rewrite fdiv_fin; [|exact Nb|fold ra; lra]. fold ra.
  rewrite (fmul_fin bi ra) by (pose proof (H1 bi B); lra).
  rewrite (fmul_fin ai ra) by (pose proof (H1 ai A); lra).
  rewrite (fadd_fin br) by lra.
  rewrite (fdiv_fin 1); [|exact ND|lra].
  assert (T1 : Rabs (ar + ai * ra) <= 2 * A).
  { eapply Rle_trans; [apply Rabs_triang|]. pose proof (H1 ai A). lra. }
  assert (T2 : Rabs (ar - ai * ra) <= 2 * A).
  { unfold Rminus. eapply Rle_trans; [apply Rabs_triang|]. rewrite Rabs_Ropp. pose proof (H1 ai A). lra. }
  assert (P : forall u, Rabs u <= 2 * A -> Rabs (u * (1 / (br + bi * ra))) <= MAXF).
  { intros u Hu. rewrite Rabs_mult. eapply Rle_trans; [|exact HAL]. unfold Rdiv at 2.
    apply Rmult_le_compat; auto using Rabs_pos. }
  rewrite (fadd_fin ar) by lra.
  rewrite (fadd_fin (ai * ra)) by (rewrite Rplus_comm; lra).
  rewrite (fsub_fin ar) by lra.
  rewrite (fsub_fin (ai * ra)) by (rewrite Rabs_minus_sym; lra).
  rewrite !fmul_fin by (apply P; (assumption || (rewrite Rplus_comm; assumption)
                                 || (rewrite Rabs_minus_sym; assumption))).
  rewrite D. unfold ra. repeat split; f_equal; field; split; (exact Nb || lra).
Qed.

Lemma zdiv_is a b x y L :
  zis a x -> zis b y -> 0 < L -> L <= Rmax (Rabs (Re y)) (Rabs (Im y)) ->
  2 * Cmod x <= MAXF -> 2 * Cmod y <= MAXF -> / L <= MAXF -> 2 * Cmod x / L <= MAXF ->
  zis (zdiv a b) (x / y)%C.
Proof.
  intros -> -> HL HLy HA HB HiL HAL. unfold zis, zof, zdiv. cbn [fst snd fabs].
  pose proof (Re_le x) as X1. pose proof (Im_le x) as X2.
  pose proof (Re_le y) as Y1. pose proof (Im_le y) as Y2.
  assert (ER : Re (x / y)%C = (Re x * Re y + Im x * Im y) / (Re y * Re y + Im y * Im y)).
  { destruct x as [x1 x2], y as [y1 y2]. unfold Cdiv, Cmult, Cinv, Re, Im. cbn [fst snd].
    cbn [Re Im fst snd] in HLy.
    assert (0 < y1 ^ 2 + y2 ^ 2).
    { destruct (Req_dec y1 0) as [->|]; [|nra]. destruct (Req_dec y2 0) as [->|]; [|nra].
      unfold Re, Im in HLy. cbn [fst snd] in HLy. rewrite Rmax_left, Rabs_R0 in HLy by lra. lra. }
    field. nra. }
  assert (EI : Im (x / y)%C = (Im x * Re y - Re x * Im y) / (Re y * Re y + Im y * Im y)).
  { destruct x as [x1 x2], y as [y1 y2]. unfold Cdiv, Cmult, Cinv, Re, Im. cbn [fst snd].
    assert (0 < y1 ^ 2 + y2 ^ 2).
    { destruct (Req_dec y1 0) as [->|]; [|nra]. destruct (Req_dec y2 0) as [->|]; [|nra].
      unfold Re, Im in HLy. cbn [fst snd] in HLy. rewrite Rmax_left, Rabs_R0 in HLy by lra. lra. }
    field. nra. }
  unfold fge. destruct (Rle_dec (Rabs (Im y)) (Rabs (Re y))) as [H|H].
  - rewrite Rmax_left in HLy by exact H.
    destruct (smith_core (Re x) (Im x) (Re y) (Im y) (Cmod x) (Cmod y) L) as (S1 & _ & _ & _); try assumption.
    destruct (smith_core (Im x) (Re x) (Re y) (Im y) (Cmod x) (Cmod y) L) as (_ & _ & S3 & _); try assumption.
    cbn zeta in S1, S3 |- *. rewrite S1, S3, ER, EI. reflexivity.
  - apply Rnot_le_lt, Rlt_le in H. rewrite Rmax_right in HLy by exact H.
    destruct (smith_core (Im x) (Re x) (Im y) (Re y) (Cmod x) (Cmod y) L) as (_ & S2 & _ & _); try assumption.
    destruct (smith_core (Re x) (Im x) (Im y) (Re y) (Cmod x) (Cmod y) L) as (_ & _ & _ & S4); try assumption.
    cbn zeta in S2, S4 |- *. rewrite S2, S4, ER, EI.
    f_equal; f_equal; f_equal; ring.
Qed.

(** ** Interfaces and propagation *)
Lemma Rmax_half_Cmod y : Cmod y / 2 <= Rmax (Rabs (Re y)) (Rabs (Im y)).
Proof.
  pose proof (Cmod_2Rmax y) as H. fold (Re y) (Im y) in H.
  assert (sqrt 2 <= 2).
  { rewrite <- (sqrt_square 2) at 2 by lra. apply sqrt_le_1; lra. }
  assert (0 <= Rmax (Rabs (Re y)) (Rabs (Im y))).
  { eapply Rle_trans; [apply Rabs_pos|apply Rmax_l]. }
  nra.
Qed.

Lemma tame_pos e : tame e -> 0 < Cmod e.
Proof.
  intros [H _]. pose proof TAME_ge1. assert (0 < / TAME) by (apply Rinv_0_lt_compat; lra). lra.
Qed.

Lemma zdiv_tame a b x y : zis a x -> zis b y -> tame x -> tame y -> zis (zdiv a b) (x / y)%C.
Proof.
  intros Ha Hb [Hx1 Hx2] Hy. pose proof (tame_pos _ Hy) as Py. destruct Hy as [Hy1 Hy2].
  pose proof TAME_ge1 as T1. pose proof TAME_sq as T2. pose proof MAXF_gt_TAME as T3.
  assert (Iy : / (Cmod y / 2) <= 2 * TAME).
  { replace (/ (Cmod y / 2)) with (2 * / Cmod y) by (field; lra).
    apply Rmult_le_compat_l; [lra|]. rewrite <- (Rinv_inv TAME).
    apply Rinv_le_contravar; [apply Rinv_0_lt_compat; lra|exact Hy1]. }
  apply (zdiv_is _ _ _ _ (Cmod y / 2)); try assumption; try lra.
  - apply Rmax_half_Cmod.
  - unfold Rdiv at 1. pose proof (Cmod_ge_0 x).
    assert (0 <= / (Cmod y / 2)) by (apply Rlt_le, Rinv_0_lt_compat; lra). nra.
Qed.

Lemma half_is a x : zis a x -> 8 * Cmod x <= MAXF -> zis (zdiv a (rf 2)) (x / 2)%C.
Proof.
  intros Ha H. pose proof MAXF_big'. pose proof (Cmod_ge_0 x).
  apply (zdiv_is _ _ _ (RtoC 2) 2 Ha (zis_R 2)); cbn [Re Im RtoC fst snd]; try lra.
  - rewrite (Rabs_pos_eq 2) by lra. apply Rmax_l.
  - rewrite Cmod_R, Rabs_pos_eq; lra.
Qed.

(** the entries of the interface matrix, sample.py:211-213 *)
Definition tp (f : C) : C := ((1 + f) / 2)%C.
Definition tm (f : C) : C := ((1 - f) / 2)%C.

Lemma ztrans_is a f :
  zis a f -> 16 * (1 + Cmod f) <= MAXF ->
  zis (z00 (ztrans a)) (tp f) /\ zis (z01 (ztrans a)) (tm f) /\
  zis (z10 (ztrans a)) (tm f) /\ zis (z11 (ztrans a)) (tp f).
Proof.
  intros Ha H. pose proof (Cmod_ge_0 f) as Pf.
  assert (P : zis (zdiv (zadd (rf 1) (zmul (rf 1) a)) (rf 2)) (tp f)).
  { unfold tp. replace (1 + f)%C with (1 + 1 * f)%C by ring.
    assert (Cmod (1 + 1 * f)%C <= 1 + Cmod f).
    { eapply Rle_trans; [apply Cmod_triangle|]. rewrite Cmult_1_l, Cmod_1. lra. }
    apply half_is; [|lra]. apply zadd_is; [apply zis_R| |lra].
    apply zmul_is; [apply zis_R|exact Ha|]. rewrite Cmod_1. lra. }
  assert (M : zis (zdiv (zadd (rf 1) (zmul (rf (-1)) a)) (rf 2)) (tm f)).
  { unfold tm. replace (1 - f)%C with (1 + RtoC (-1) * f)%C.
    2:{ replace (RtoC (-1)) with (- RtoC 1)%C by (rewrite <- RtoC_opp; f_equal; lra). ring. }
    assert (Cmod (1 + RtoC (-1) * f)%C <= 1 + Cmod f).
    { eapply Rle_trans; [apply Cmod_triangle|]. rewrite Cmod_mult, Cmod_1, Cmod_R, Rabs_left; lra. }
    apply half_is; [|lra]. apply zadd_is; [apply zis_R| |lra].
    apply zmul_is; [apply zis_R|exact Ha|]. rewrite Cmod_R, Rabs_left; lra. }
  repeat split; assumption.
Qed.

Lemma tame_ratio x y : tame x -> tame y -> 16 * (1 + Cmod (x / y)%C) <= MAXF.
Proof.
  intros [Hx1 Hx2] Hy. pose proof (tame_pos _ Hy) as Py. destruct Hy as [Hy1 Hy2].
  pose proof TAME_ge1 as T1. pose proof TAME_sq as T2.
  rewrite Cmod_div by (intros ->; rewrite Cmod_0 in Py; lra).
  assert (/ Cmod y <= TAME).
  { rewrite <- (Rinv_inv TAME). apply Rinv_le_contravar; [apply Rinv_0_lt_compat; lra|exact Hy1]. }
  assert (0 <= / Cmod y) by (apply Rlt_le, Rinv_0_lt_compat; lra).
  pose proof (Cmod_ge_0 x). unfold Rdiv. nra.
Qed.

Lemma clipR_bound x : - MAX_EXP_ARG <= clipR x <= MAX_EXP_ARG.
Proof.
  pose proof MAX_EXP_le. unfold clipR. split; [|apply Rmin_r].
  apply Rmin_glb; [apply Rmax_r|lra].
Qed.
Lemma clipR_pos x : 0 <= x -> clipR x = Rmin x MAX_EXP_ARG.
Proof. intros. pose proof MAX_EXP_le. unfold clipR. rewrite Rmax_left by lra. reflexivity. Qed.

Lemma fclip_inrange x : fclip (inrange x) = Fin (clipR x).
Proof.
  pose proof MAX_EXP_le as [H1 H2]. unfold inrange.
  destruct (Rle_dec (Rabs x) MAXF) as [H|H]; [reflexivity|].
  apply Rnot_le_lt in H. destruct (Rlt_dec 0 x) as [Hx|Hx]; cbn [fclip]; f_equal; unfold clipR.
  - rewrite Rabs_pos_eq in H by lra. rewrite Rmax_left, Rmin_right; lra.
  - apply Rnot_lt_le in Hx. rewrite Rabs_left1 in H by lra. rewrite Rmax_right, Rmin_left; lra.
Qed.

(** every factor of the propagation matrix is representable *)
Lemma zprop_is q t :
  let p := clipR (q * t) in
  zprop (Fin q) (Fin t) =
  {| z00 := rf (exp p); z01 := rf 0; z10 := rf 0; z11 := rf (exp (- p)) |} /\
  exp p <= MAXF /\ exp (- p) <= MAXF.
Proof.
  cbn zeta. set (p := clipR (q * t)).
  pose proof (clipR_bound (q * t)) as [B1 B2]. fold p in B1, B2.
  pose proof MAX_EXP_le as [M1 M2]. pose proof MAXF_pos as M0.
  assert (E1 : exp p <= MAXF) by (rewrite <- exp_MAX; destruct (Req_dec p MAX_EXP_ARG) as [->|]; [lra|left; apply exp_increasing; lra]).
  assert (E2 : exp (- p) <= MAXF) by (rewrite <- exp_MAX; destruct (Req_dec (- p) MAX_EXP_ARG) as [->|]; [lra|left; apply exp_increasing; lra]).
  split; [|split; assumption].
  unfold zprop. cbn [fmul]. rewrite fclip_inrange. fold p.
  assert (Rabs p <= MAXF) by (apply Rabs_le; lra).
  cbn [fmul]. rewrite !inrange_ok by (try (replace (1 * p) with p by ring); try (replace (-1 * p) with (- p) by ring); rewrite ?Rabs_Ropp; assumption).
  replace (1 * p) with p by ring. replace (-1 * p) with (- p) by ring.
  pose proof (exp_pos p). pose proof (exp_pos (- p)).
  unfold fexp. rewrite !(inrange_ok (exp _)) by (rewrite Rabs_pos_eq; lra).
  cbn [fmul]. rewrite !Rmult_1_r, !Rmult_0_r.
  rewrite !(inrange_ok (exp _)) by (rewrite Rabs_pos_eq; lra).
  rewrite !inrange_ok by (rewrite Rabs_R0; lra). reflexivity.
Qed.

(** ** Values that are not finite *)
Definition nf (a : flt) : Prop := forall x, a <> Fin x.
Definition zsick (z : cflt) : Prop := nf (fst z) \/ nf (snd z).
Definition zbad (z : cflt) : Prop := nf (fst z) /\ nf (snd z).

Lemma inrange_not_nan x : inrange x <> NaN.
Proof. unfold inrange. destruct (Rle_dec _ _); [discriminate|]. destruct (Rlt_dec 0 x); discriminate. Qed.

Lemma nf_PInf : nf PInf. Proof. intros x; discriminate. Qed.
Lemma nf_NInf : nf NInf. Proof. intros x; discriminate. Qed.
Lemma nf_NaN : nf NaN. Proof. intros x; discriminate. Qed.
#[global] Hint Resolve nf_PInf nf_NInf nf_NaN : nfdb.

Lemma nf_scale p x : nf p -> nf (scale_inf p x).
Proof.
  intros H. unfold scale_inf. destruct (Rlt_dec 0 x); [exact H|].
  destruct (Rlt_dec x 0); [|apply nf_NaN].
  destruct p; cbn; auto with nfdb. exfalso. exact (H x0 eq_refl).
Qed.
Lemma nf_fadd_l a b : nf a -> nf (fadd a b).
Proof.
  intros H. destruct a; [exfalso; exact (H x eq_refl)|..]; destruct b; cbn; auto with nfdb.
Qed.
Lemma nf_fadd_r a b : nf b -> nf (fadd a b).
Proof.
  intros H. destruct b; [exfalso; exact (H x eq_refl)|..]; destruct a; cbn; auto with nfdb.
Qed.
Lemma nf_fopp a : nf a -> nf (fopp a).
Proof. intros H. destruct a; [exfalso; exact (H x eq_refl)|..]; cbn; auto with nfdb. Qed.
Lemma nf_fmul_l a b : nf a -> nf (fmul a b).
Proof.
  intros H. destruct a; [exfalso; exact (H x eq_refl)|..]; destruct b; cbn; auto using nf_scale with nfdb.
Qed.

Lemma zmul_bad a b : zsick a -> zbad (zmul a b).
Proof.
  intros [H|H]; split; unfold zmul, fsub; cbn [fst snd].
  - apply nf_fadd_l, nf_fmul_l, H.
  - apply nf_fadd_l, nf_fmul_l, H.
  - apply nf_fadd_r, nf_fopp, nf_fmul_l, H.
  - apply nf_fadd_r, nf_fmul_l, H.
Qed.
Lemma zadd_bad_l a b : zbad a -> zbad (zadd a b).
Proof. intros [H1 H2]. split; apply nf_fadd_l; assumption. Qed.
Lemma zmm_bad A B : zsick (z00 A) -> zbad (z00 (zmm A B)).
Proof. intros H. apply zadd_bad_l, zmul_bad, H. Qed.
Lemma zbad_sick z : zbad z -> zsick z.
Proof. intros [H _]. left. exact H. Qed.
Lemma zchain_bad l : forall M, zbad (z00 M) -> zbad (z00 (zchain M l)).
Proof.
  induction l as [|[T P] l IH]; intros M H; [exact H|].
  apply (IH (zmm (zmm M P) T)). apply zmm_bad, zbad_sick, zmm_bad, zbad_sick, H.
Qed.
Lemma fmul_nan_r a : fmul a NaN = NaN. Proof. destruct a; reflexivity. Qed.
Lemma fadd_nan_r a : fadd a NaN = NaN. Proof. destruct a; reflexivity. Qed.
Lemma fadd_nan_l a : fadd NaN a = NaN. Proof. destruct a; reflexivity. Qed.
Lemma fsub_nan_r a : fsub a NaN = NaN. Proof. destruct a; reflexivity. Qed.
Lemma fsub_nan_l a : fsub NaN a = NaN. Proof. destruct a; reflexivity. Qed.
Lemma fmul_nan_l a : fmul NaN a = NaN. Proof. destruct a; reflexivity. Qed.
Lemma fdiv_nan_r a : fdiv a NaN = NaN. Proof. destruct a; reflexivity. Qed.

Lemma zdiv_bad a b : zbad b -> zdiv a b = (NaN, NaN).
Proof.
  intros [H1 H2]. destruct b as [b1 b2]. cbn [fst snd] in H1, H2.
  unfold zdiv. cbn [fst snd].
  destruct b1; [exfalso; exact (H1 x eq_refl)|..];
  (destruct b2; [exfalso; exact (H2 x eq_refl)|..]); cbn [fabs fge fdiv];
  rewrite ?fmul_nan_r, ?fadd_nan_r, ?fadd_nan_l, ?fsub_nan_r, ?fsub_nan_l, ?fdiv_nan_r, ?fmul_nan_l, ?fmul_nan_r; reflexivity.
Qed.

(** [a] is [x] if it is finite at all *)
Definition ex (a : flt) (x : R) : Prop := forall r, a = Fin r -> r = x.

Lemma inrange_fin x r : inrange x = Fin r -> r = x /\ Rabs r <= MAXF.
Proof.
  unfold inrange. destruct (Rle_dec (Rabs x) MAXF) as [H|H].
  - intros [= <-]. split; [reflexivity|exact H].
  - destruct (Rlt_dec 0 x); discriminate.
Qed.
Lemma ex_fadd a b x y : ex a x -> ex b y -> ex (fadd a b) (x + y).
Proof.
  intros Ha Hb r H. destruct a, b; cbn in H; try discriminate.
  apply inrange_fin in H. rewrite <- (Ha _ eq_refl), <- (Hb _ eq_refl). apply H.
Qed.
Lemma ex_fopp a x : ex a x -> ex (fopp a) (- x).
Proof. intros Ha r H. destruct a; cbn in H; try discriminate. injection H as <-. f_equal. apply Ha. reflexivity. Qed.
Lemma ex_fsub a b x y : ex a x -> ex b y -> ex (fsub a b) (x - y).
Proof. intros Ha Hb. apply ex_fadd; [exact Ha|apply ex_fopp, Hb]. Qed.
Lemma scale_nf p x r : nf p -> scale_inf p x <> Fin r.
Proof. intros H. exact (nf_scale p x H r). Qed.
Lemma ex_fmul a b x y : ex a x -> ex b y -> ex (fmul a b) (x * y).
Proof.
  intros Ha Hb r H. destruct a, b; cbn in H; try discriminate;
    try (exfalso; revert H; apply scale_nf; auto with nfdb; fail).
  apply inrange_fin in H. rewrite <- (Ha _ eq_refl), <- (Hb _ eq_refl). apply H.
Qed.
Lemma fadd_range a b r : fadd a b = Fin r -> Rabs r <= MAXF.
Proof. destruct a, b; cbn; try discriminate. intros H. apply inrange_fin in H. apply H. Qed.
