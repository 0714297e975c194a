(** * Proofs: passive samples below the tip models *)
From Coq Require Import String Reals Lra Lia ZArith List Bool.
From Coquelicot Require Import Rcomplements Complex.
From Verif Require Import Num NumLemmas ModelBase ModelSample ModelTip StackLemmas Spec
  ProofsStackQS ProofsStackQS2 ProofsSym ProofsPassive ProofsTip ProofsTip2 ProofsTip3 ProofsPerm.
Import ListNotations.
Open Scope R_scope.

Lemma Cmod_sqr_parts (w : C) : Cmod w ^ 2 = Re w * Re w + Im w * Im w.
Proof.
  unfold Cmod. rewrite <- Rsqr_pow2, Rsqr_sqrt; unfold Re, Im; [ring|].
  pose proof (pow2_ge_0 (fst w)). pose proof (pow2_ge_0 (snd w)). lra.
Qed.
Lemma parts_pos (w : C) : w <> RtoC 0 -> 0 < Re w * Re w + Im w * Im w.
Proof. intros H. rewrite <- Cmod_sqr_parts. apply pow_lt, Cmod_gt_0, H. Qed.
Lemma Im_inv (w : C) : w <> RtoC 0 -> Im (/ w)%C = - Im w / (Re w * Re w + Im w * Im w).
Proof. intros H. pose proof (parts_pos w H) as P. destruct w as [x y]. unfold Re, Im in *. cbn in *. unfold Rdiv. f_equal. f_equal. ring. Qed.
Lemma Im_scal (x : R) (w : C) : Im (RtoC x * w)%C = x * Im w.
Proof. destruct w as [a b]. unfold Im. simpl. ring. Qed.
Lemma Im_pos_neq (w : C) : 0 < Im w -> w <> RtoC 0.
Proof. intros H ->. unfold Im in H. simpl in H. lra. Qed.
Lemma Im_neg_neq (w : C) : Im w < 0 -> w <> RtoC 0.
Proof. intros H ->. unfold Im in H. simpl in H. lra. Qed.

(** a coefficient with positive imaginary part meets no pole of a loop whose
    factor has no negative one *)
Lemma no_pole (b f : C) : 0 < Im b -> 0 <= Im f -> (1 - b * f <> 0)%C.
Proof.
  intros Hb Hf K.
  assert (E : (b * f = 1)%C) by (transitivity (1 - (1 - b * f))%C; [ring|rewrite K; ring]).
  assert (Nf : f <> RtoC 0).
  { intros ->. rewrite Cmult_0_r in E. apply (f_equal Re) in E. unfold Re in E. simpl in E. lra. }
  assert (Eb : b = (/ f)%C) by (transitivity (b * f / f)%C; [field; exact Nf|rewrite E; unfold Cdiv; ring]).
  rewrite Eb, Im_inv in Hb by exact Nf. pose proof (parts_pos f Nf) as P.
  assert (0 <= Im f / (Re f * Re f + Im f * Im f)) by (apply Rdiv_le_0_compat; lra).
  unfold Rdiv in *. rewrite Ropp_mult_distr_l_reverse in Hb. lra.
Qed.

(** C63. Point dipole: if neither tip nor sample amplifies and one of them
    absorbs, the effective polarizability is finite and absorbs. *)
Lemma C63_pdm_absorbs_proof :
  forall (D : Defaults) (s : sample) (z_tip r_tip : option R) (eps_tip alpha_tip : option C) (alpha beta : C),
  let z := given_or (d_z_tip D) z_tip in let r := given_or (d_r_tip D) r_tip in
  tip_alpha r eps_tip alpha_tip alpha -> 0 < r + z -> alpha <> RtoC 0 ->
  refl_coef_qs s (rr 0) = Ok (Some beta) ->
  0 <= Im alpha -> 0 <= Im beta -> 0 < Im alpha \/ 0 < Im beta ->
  exists a : C, pdm_eff_pol D s z_tip r_tip eps_tip alpha_tip = Ok (Some a) /\ 0 < Im a.
Proof.
  intros D s z_tip r_tip eps_tip alt alpha beta z r Ht Hz Ha Hb Ia Ib Hor.
  pose proof PI_RGT_0 as HP. assert (H3 : 0 < (r + z) ^ 3) by (apply pow_lt; exact Hz).
  set (G := 16 * PI * (r + z) ^ 3). assert (HG : 0 < G) by (unfold G; apply Rmult_lt_0_compat; lra).
  assert (NG : RtoC G <> RtoC 0) by (apply RtoC_neq_0; lra).
  set (w := (/ alpha - RtoC (/ G) * beta)%C).
  assert (IG : 0 < / G) by (apply Rinv_0_lt_compat; exact HG).
  assert (Iw : Im w < 0).
  { unfold w. replace (Im (/ alpha - RtoC (/ G) * beta)%C) with (Im (/ alpha)%C - Im (RtoC (/ G) * beta)%C) by reflexivity.
    rewrite Im_scal, Im_inv by exact Ha. pose proof (parts_pos alpha Ha) as P.
    unfold Rdiv. rewrite Ropp_mult_distr_l_reverse. pose proof (Rinv_0_lt_compat _ P) as P'. set (u := / (Re alpha * Re alpha + Im alpha * Im alpha)) in *.
    assert (0 <= Im alpha * u) by (apply Rmult_le_pos; lra). assert (0 <= / G * Im beta) by (apply Rmult_le_pos; lra).
    destruct Hor as [K|K]; [assert (0 < Im alpha * u) by (apply Rmult_lt_0_compat; lra)|assert (0 < / G * Im beta) by (apply Rmult_lt_0_compat; lra)]; lra. }
  assert (Nw : w <> RtoC 0) by (apply Im_neg_neq; exact Iw).
  exists (/ w)%C. split.
  - unfold pdm_eff_pol. rewrite (pdm_defaults_alpha D r_tip eps_tip alt alpha Ht). cbn [rbind fst snd]. fold r.
    rewrite Hb. cbn [rbind]. rewrite dflt_given. fold z. rewrite pdm_geom_ok by lra. fold G.
    assert (E : (1 - alpha / RtoC G * beta)%C = (alpha * w)%C).
    { unfold w. rewrite RtoC_inv by lra. field. split; [exact NG|exact Ha]. }
    unfold csub, cmul, rc. cbn [olift2]. rewrite E. rewrite cdiv_ok by (apply Cmult_neq_0; assumption).
    do 2 f_equal. field. split; assumption.
  - rewrite Im_inv by exact Nw. pose proof (parts_pos w Nw). apply Rdiv_lt_0_compat; lra.
Qed.

(** C63. In particular over every passive stack on a lossy substrate under a
    transparent medium, for a perfectly conducting tip or one of any passive
    permittivity (other than that of vacuum). *)
Lemma C63_pdm_passive_stack_proof :
  forall (D : Defaults) (e0 : R) (mid : list C) (en : C) (ts : list R) nu (z_tip r_tip : option R) (eps_tip : option C),
  let z := given_or (d_z_tip D) z_tip in let r := given_or (d_r_tip D) r_tip in
  length mid = length ts -> 0 < e0 -> Forall (fun e => e <> RtoC 0 /\ 0 <= Im e) mid -> 0 < Im en ->
  Forall (fun t => 0 <= t) ts -> 0 < r -> 0 < r + z ->
  (forall e, eps_tip = Some e -> 0 <= Im e /\ e <> RtoC 1 /\ e <> RtoC (-2)) ->
  exists a : C, pdm_eff_pol D (stack (RtoC e0 :: mid ++ [en]) ts nu) z_tip r_tip eps_tip None = Ok (Some a) /\ 0 < Im a.
Proof.
  intros D e0 mid en ts nu z_tip r_tip eps_tip z r Hl He0 Hm Hen Hts Hr Hrz Ht.
  destruct (C14_lossy_substrate_absorbs_proof e0 mid en ts nu 0 Hl He0 Hm Hen Hts (Rle_refl 0)) as (b & Hb & Ib).
  pose proof PI_RGT_0 as HP. assert (H3 : 0 < r ^ 3) by (apply pow_lt; exact Hr).
  assert (HV : 0 < 4 * PI * r ^ 3) by (apply Rmult_lt_0_compat; lra).
  destruct eps_tip as [e|].
  - destruct (Ht e eq_refl) as (Ie & N1 & N2).
    assert (N2' : (e + 2 <> 0)%C).
    { intros K. apply N2. replace e with (e + 2 - 2)%C by ring. rewrite K. apply injective_projections; simpl; ring. }
    assert (N1' : (e - 1 <> 0)%C).
    { intros K. apply N1. replace e with (e - 1 + 1)%C by ring. rewrite K. ring. }
    apply (C63_pdm_absorbs_proof D _ z_tip r_tip (Some e) None (RtoC (4 * PI * r ^ 3) * ((e - 1) / (e + 2)))%C b); auto.
    + apply tip_dielectric. exact N2'.
    + apply Cmult_neq_0; [apply RtoC_neq_0; lra|]. apply Cdiv_neq_0; assumption.
    + rewrite Im_scal. apply Rmult_le_pos; [lra|].
      replace ((e - 1) / (e + 2))%C with (1 + RtoC (-3) * / (e + 2))%C.
      * replace (Im (1 + RtoC (-3) * / (e + 2))%C) with (0 + Im (RtoC (-3) * / (e + 2))%C) by reflexivity.
        rewrite Im_scal, Im_inv by exact N2'. pose proof (parts_pos _ N2') as P.
        assert (0 <= Im (e + 2)%C / (Re (e + 2)%C * Re (e + 2)%C + Im (e + 2)%C * Im (e + 2)%C)).
        { apply Rdiv_le_0_compat; [|exact P]. destruct e as [x y]. unfold Im in *. simpl in *. lra. }
        unfold Rdiv in *. lra.
      * replace (RtoC (-3)) with (- (1 + 2))%C by (apply injective_projections; simpl; ring). field. exact N2'.
    + lra.
  - apply (C63_pdm_absorbs_proof D _ z_tip r_tip None None (RtoC (4 * PI * r ^ 3)) b); auto.
    + apply tip_conductor.
    + apply RtoC_neq_0. lra.
    + unfold Im. simpl. lra.
    + lra.
Qed.

(** the closed form for the two methods that use one coefficient *)
Lemma qave_eff_pol lg D s z_tip r_tip L_tip g d_Q0 d_Q1 d_Qa n_lag beta :
  let z := given_or (d_z_tip D) z_tip in let r := given_or (d_r_tip D) r_tip in
  let L := given_or (d_L_tip D) L_tip in
  let d0 := given_or (131 / 100 * L / (L + 2 * r)) d_Q0 in
  let d1 := given_or (d_d_Q1 D) d_Q1 in
  let da := given_or (d_d_Qa D) d_Qa in
  let G := given_or (d_g_factor D) g in
  refl_coef_qs_above_surf lg D s (rr (z + r * da)) n_lag = Ok (Some beta) ->
  fdm_regular z d0 r L -> fdm_regular z d1 r L ->
  fdm_eff_pol lg D s z_tip r_tip L_tip g d_Q0 d_Q1 d_Qa n_lag (Some "Q_ave"%string)
  = Ok (rc 1 + Some (beta * fdm_f z d0 r L G)%C / Some (2 * (1 - beta * fdm_f z d1 r L G))%C)%cv.
Proof.
  intros z r L d0 d1 da G Hb R0 R1. unfold fdm_eff_pol. rewrite (fdm_defaults_eq D r_tip L_tip g d_Q0 d_Q1 d_Qa) by apply R0.
  rewrite dflt_given. fold z r L d0 d1 G da.
  cbn [String.eqb Ascii.eqb Bool.eqb]. change (rr z + rr r * rr da)%rv with (rr (z + r * da)). rewrite Hb. cbn [rbind].
  rewrite !geom_ok by assumption. reflexivity.
Qed.

Lemma ratio_pos z d r L : 0 < r -> r < 4 * L -> 0 < r + 4 * z + 2 * r * d < 4 * L ->
  0 < ln (4 * L / (r + 4 * z + 2 * r * d)) / ln (4 * L / r).
Proof.
  intros Hr HL [H1 H2]. apply Rdiv_lt_0_compat; rewrite <- ln_1; apply ln_increasing; try lra;
    (apply (Rmult_lt_reg_r (r + 4 * z + 2 * r * d)) || idtac).
  - exact H1.
  - replace (4 * L / (r + 4 * z + 2 * r * d) * (r + 4 * z + 2 * r * d)) with (4 * L) by (field; lra). lra.
  - exact H1.
  - apply Rmult_lt_compat_r; [exact H1|]. apply (Rmult_lt_reg_r r); [exact Hr|].
    replace (4 * L / r * r) with (4 * L) by (field; lra). lra.
Qed.
Lemma Im_fdm_f z d r L g : Im (fdm_f z d r L g) = Im g * (ln (4 * L / (r + 4 * z + 2 * r * d)) / ln (4 * L / r)).
Proof. unfold fdm_f. destruct g as [x y]. unfold Im. simpl. ring. Qed.
Lemma Re_fdm_f z d r L g : Re (fdm_f z d r L g) = (Re g - (r + 2 * z + r * d) / (2 * L)) * (ln (4 * L / (r + 4 * z + 2 * r * d)) / ln (4 * L / r)).
Proof. unfold fdm_f. destruct g as [x y]. unfold Re. simpl. ring. Qed.

(** the closed form is finite, and absorbs when the geometry factors are real *)
Lemma closed_finite (b f0 f1 : C) : 0 < Im b -> 0 <= Im f1 ->
  exists a, (rc 1 + Some (b * f0)%C / Some (2 * (1 - b * f1))%C)%cv = Some a /\
    (Im f1 = 0 -> Im f0 = 0 -> 0 < Re f0 -> 0 < Im a).
Proof.
  intros Hb Hf. pose proof (no_pole b f1 Hb Hf) as N.
  assert (N2 : (2 * (1 - b * f1))%C <> RtoC 0) by (apply Cmult_neq_0; [exact C2_neq_0|exact N]).
  rewrite cdiv_ok by exact N2. eexists. split; [reflexivity|]. intros I1 I0 R0.
  assert (E1 : f1 = RtoC (Re f1)) by (apply injective_projections; [reflexivity|exact I1]).
  assert (E0 : f0 = RtoC (Re f0)) by (apply injective_projections; [reflexivity|exact I0]).
  pose proof (Im_pos_neq b Hb) as Nb.
  set (w := (/ b - f1)%C).
  assert (Iw : Im w < 0).
  { unfold w. replace (Im (/ b - f1)%C) with (Im (/ b)%C - Im f1) by reflexivity. rewrite I1, Im_inv by exact Nb.
    pose proof (parts_pos b Nb) as P. assert (0 < Im b / (Re b * Re b + Im b * Im b)) by (apply Rdiv_lt_0_compat; lra).
    unfold Rdiv in *. lra. }
  assert (Nw : w <> RtoC 0) by (apply Im_neg_neq; exact Iw).
  assert (E : (1 + b * f0 / (2 * (1 - b * f1)))%C = (1 + RtoC (Re f0 / 2) * / w)%C).
  { rewrite RtoC_div by lra. rewrite <- E0.
    assert (K : (1 - b * f1)%C = (b * w)%C) by (unfold w; field; exact Nb). rewrite K. field. repeat split; try assumption; exact C2_neq_0. }
  rewrite E. replace (Im (1 + RtoC (Re f0 / 2) * / w)%C) with (0 + Im (RtoC (Re f0 / 2) * / w)%C) by reflexivity.
  rewrite Im_scal, Im_inv by exact Nw. pose proof (parts_pos w Nw).
  assert (0 < - Im w / (Re w * Re w + Im w * Im w)) by (apply Rdiv_lt_0_compat; lra).
  assert (0 < Re f0 / 2 * (- Im w / (Re w * Re w + Im w * Im w))) by (apply Rmult_lt_0_compat; lra). lra.
Qed.

(** C63. Finite dipole, bulk or Q_ave, passive stack on a lossy substrate under a
    transparent medium, g_factor without negative imaginary part, tip closer than
    the height where the logarithm changes sign: the effective polarizability
    is finite.  If g_factor is real and the geometry factor of charge 0 positive
    it absorbs. *)
Lemma C63_fdm_absorbs_proof :
  forall (laggauss : laggauss_t) (D : Defaults) (e0 : R) (mid : list C) (en : C) (ts : list R) nu
    (z_tip r_tip L_tip : option R) (g_factor : option C) (d_Q0 d_Q1 d_Qa : option R) (n_lag : option nat),
  let s := stack (RtoC e0 :: mid ++ [en]) ts nu in
  let z := given_or (d_z_tip D) z_tip in let r := given_or (d_r_tip D) r_tip in
  let L := given_or (d_L_tip D) L_tip in
  let d0 := given_or (131 / 100 * L / (L + 2 * r)) d_Q0 in
  let d1 := given_or (d_d_Q1 D) d_Q1 in let da := given_or (d_d_Qa D) d_Qa in
  let g := given_or (d_g_factor D) g_factor in let n := given_or (d_n_lag D) n_lag in
  length mid = length ts -> 0 < e0 -> Forall (fun e => e <> RtoC 0 /\ 0 <= Im e) mid -> 0 < Im en ->
  Forall (fun t => 0 <= t) ts ->
  0 < r < 4 * L -> 0 <= Im g -> 0 < r + 4 * z + 2 * r * d0 -> 0 < r + 4 * z + 2 * r * d1 < 4 * L ->
  forall method,
  (ts = [] /\ (method = None \/ method = Some "bulk"%string)) \/
  (method = Some "Q_ave"%string /\ n <> O /\ laguerre_rule (laggauss n) /\ 0 < z + r * da) ->
  exists a : C, fdm_eff_pol laggauss D s z_tip r_tip L_tip g_factor d_Q0 d_Q1 d_Qa n_lag method = Ok (Some a) /\
    (Im g = 0 -> r + 4 * z + 2 * r * d0 < 4 * L -> (r + 2 * z + r * d0) / (2 * L) < Re g -> 0 < Im a).
Proof.
  intros lg D e0 mid en ts nu z_tip r_tip L_tip gf d_Q0 d_Q1 d_Qa nl s z r L d0 d1 da g n Hl He0 Hm Hen Hts [Hr HL] Hg P0 [P1 P1'] m Hmeth.
  assert (R0 : fdm_regular z d0 r L) by (repeat split; lra).
  assert (R1 : fdm_regular z d1 r L) by (repeat split; lra).
  assert (EB : exists b, 0 < Im b /\ fdm_eff_pol lg D s z_tip r_tip L_tip gf d_Q0 d_Q1 d_Qa nl m
     = Ok (rc 1 + Some (b * fdm_f z d0 r L g)%C / Some (2 * (1 - b * fdm_f z d1 r L g))%C)%cv).
  { destruct Hmeth as [[-> Hbulk]|(-> & Hn & Hrule & HzQ)].
    - destruct (C14_lossy_substrate_absorbs_proof e0 mid en [] nu 0 Hl He0 Hm Hen Hts (Rle_refl 0)) as (b & Hb & Ib).
      destruct mid as [|? ?]; [|discriminate]. exists b. split; [exact Ib|].
      pose proof (bulk_eff_pol lg D s z_tip r_tip L_tip gf d_Q0 d_Q1 d_Qa nl b eq_refl Hb R0 R1) as K.
      destruct Hbulk as [-> | ->]; exact K.
    - destruct (C14_average_absorbs_proof lg D e0 mid en ts nu (z + r * da) nl Hn Hrule Hl He0 Hm Hen Hts HzQ) as (b & Hb & Ib).
      exists b. split; [exact Ib|]. apply qave_eff_pol; assumption. }
  destruct EB as (b & Ib & ->).
  pose proof (ratio_pos z d1 r L Hr HL (conj P1 P1')) as Q1.
  destruct (closed_finite b (fdm_f z d0 r L g) (fdm_f z d1 r L g) Ib) as (a & Ea & Ia).
  { rewrite Im_fdm_f. apply Rmult_le_pos; lra. }
  exists a. rewrite Ea. split; [reflexivity|]. intros I0 P0' Pg. apply Ia.
  - rewrite Im_fdm_f, I0. ring.
  - rewrite Im_fdm_f, I0. ring.
  - rewrite Re_fdm_f. apply Rmult_lt_0_compat; [lra|]. apply ratio_pos; lra.
Qed.

(** C63. Above that height the opposite holds whenever g_factor has a positive
    imaginary part, as the default has: the sign of the logarithm turns the loop
    into an amplifier, and at every such height some absorbing substrate makes
    the effective polarizability non-finite. *)
Lemma C63_far_resonance_refuted_proof :
  forall (laggauss : laggauss_t) (D : Defaults) (z r L : R) (g : C) (d0 d1 : R) d_Qa n_lag,
  0 < r < 4 * L -> 0 < Im g -> 0 < r + 4 * z + 2 * r * d0 -> 4 * L < r + 4 * z + 2 * r * d1 ->
  exists e1 : C, 0 < Im e1 /\
    fdm_eff_pol laggauss D (stack [RtoC 1; e1] [] None) (Some z) (Some r) (Some L) (Some g) (Some d0) (Some d1) d_Qa n_lag None = Ok None.
Proof.
  intros lg D z r L g d0 d1 da nl [Hr HL] Hg P0 P1.
  assert (R0 : fdm_regular z d0 r L) by (repeat split; lra).
  assert (R1 : fdm_regular z d1 r L) by (repeat split; lra).
  set (f := fdm_f z d1 r L g).
  assert (If : Im f < 0).
  { unfold f. rewrite Im_fdm_f. assert (Q : ln (4 * L / (r + 4 * z + 2 * r * d1)) / ln (4 * L / r) < 0).
    { assert (A : ln (4 * L / (r + 4 * z + 2 * r * d1)) < 0).
      { rewrite <- ln_1. apply ln_increasing; [apply Rdiv_lt_0_compat; lra|]. apply (Rmult_lt_reg_r (r + 4 * z + 2 * r * d1)); [lra|].
        replace (4 * L / (r + 4 * z + 2 * r * d1) * (r + 4 * z + 2 * r * d1)) with (4 * L) by (field; lra). lra. }
      assert (B : 0 < ln (4 * L / r)).
      { rewrite <- ln_1. apply ln_increasing; [lra|]. apply (Rmult_lt_reg_r r); [exact Hr|].
        replace (4 * L / r * r) with (4 * L) by (field; lra). lra. }
      unfold Rdiv. pose proof (Rinv_0_lt_compat _ B). nra. }
    nra. }
  assert (Nf : f <> RtoC 0) by (apply Im_neg_neq; exact If).
  set (b := (/ f)%C).
  assert (Ib : 0 < Im b).
  { unfold b. rewrite Im_inv by exact Nf. pose proof (parts_pos f Nf). apply Rdiv_lt_0_compat; lra. }
  assert (N1 : (1 - b <> 0)%C).
  { intros K. apply (f_equal Im) in K. change (0 + - Im b = 0) in K. lra. }
  set (e1 := ((1 + b) / (1 - b))%C).
  assert (Ee : e1 = (RtoC (-1) + RtoC 2 * / (1 - b))%C).
  { unfold e1. replace (RtoC (-1)) with (- (1))%C by (apply injective_projections; simpl; ring). field. exact N1. }
  assert (Ie : 0 < Im e1).
  { rewrite Ee. replace (Im (RtoC (-1) + RtoC 2 * / (1 - b))%C) with (0 + Im (RtoC 2 * / (1 - b))%C) by reflexivity.
    rewrite Im_scal, Im_inv by exact N1. pose proof (parts_pos _ N1) as P.
    assert (E : Im (1 - b)%C = - Im b) by (change (0 + - Im b = - Im b); ring).
    assert (0 < - Im (1 - b)%C / (Re (1 - b)%C * Re (1 - b)%C + Im (1 - b)%C * Im (1 - b)%C)).
    { apply Rdiv_lt_0_compat; [|exact P]. lra. }
    lra. }
  assert (Ne : e1 <> RtoC 0) by (apply Im_pos_neq; exact Ie).
  assert (Ns : (RtoC 1 + e1 <> 0)%C).
  { apply Im_pos_neq. replace (Im (RtoC 1 + e1)%C) with (0 + Im e1) by reflexivity. lra. }
  assert (Eb : ((e1 - RtoC 1) / (e1 + RtoC 1))%C = b).
  { unfold e1. field. split; [exact N1|]. replace (1 + b + (1 - b))%C with (RtoC 2) by (apply injective_projections; simpl; ring). exact C2_neq_0. }
  exists e1. split; [exact Ie|].
  change (fdm_eff_pol lg D (stack [RtoC 1; e1] [] None) (Some z) (Some r) (Some L) (Some g) (Some d0) (Some d1) da nl (Some "bulk"%string) = Ok None).
  assert (HB : refl_coef_qs (stack [RtoC 1; e1] [] None) (rr 0) = Ok (Some b)) by (rewrite bulk_qs by assumption; rewrite Eb; reflexivity).
  rewrite (bulk_eff_pol lg D (stack [RtoC 1; e1] [] None) (Some z) (Some r) (Some L) (Some g) (Some d0) (Some d1) da nl b eq_refl HB R0 R1).
  cbn [given_or]. fold f. replace (2 * (1 - b * f))%C with (RtoC 0).
  - unfold cdiv. destruct (Ceq_dec _ _) as [|K]; [reflexivity|]. congruence.
  - unfold b. field. exact Nf.
Qed.

Lemma default_g_Im : 0 < Im (d_g_factor defaults0).
Proof.
  cbn [d_g_factor defaults0]. rewrite Im_scal. unfold Cexp, Im. cbn [fst snd].
  assert (0 < sin (6 / 100)). { apply sin_gt_0; [lra|]. pose proof PI2_3_2. lra. }
  pose proof (exp_pos 0). apply Rmult_lt_0_compat; [lra|]. apply Rmult_lt_0_compat; assumption.
Qed.

(** C63. Example: everything at its shipped default over a polar crystal near its
    resonance (permittivity -2 + 0.1 i): finite. *)
Lemma C63_example_defaults_proof : forall laggauss,
  exists a, fdm_eff_pol laggauss defaults0 (stack [RtoC 1; (-2, 1/10)%R] [] None) None None None None None None None None None = Ok (Some a).
Proof.
  intros lg.
  destruct (C63_fdm_absorbs_proof lg defaults0 1 [] (-2, 1/10)%R [] None None None None None None None None None) with (method := @None string) as (a & Ha & _);
    cbn [given_or defaults0 d_z_tip d_r_tip d_L_tip d_d_Q1 d_d_Qa]; try reflexivity; try lra; auto.
  - unfold Im. simpl. lra.
  - apply Rlt_le, default_g_Im.
  - exists a. exact Ha.
Qed.
(** C63. Example: real g_factor, film over a lossy substrate, two quadrature nodes: absorbs *)
Lemma C63_example_film_proof :
  exists a, fdm_eff_pol laggauss12 defaults0 (stack [RtoC 1; (-2, 1/10)%R; (11, 1/100)%R] [30] None)
     (Some 1) (Some 20) (Some 300) (Some (RtoC (7/10))) (Some (1/2)) (Some (1/2)) (Some (7/5)) (Some 2%nat) (Some "Q_ave"%string) = Ok (Some a) /\
  0 < Im a.
Proof.
  destruct (C63_fdm_absorbs_proof laggauss12 defaults0 1 [(-2, 1/10)%R] (11, 1/100)%R [30] None (Some 1) (Some 20) (Some 300) (Some (RtoC (7/10)))
    (Some (1/2)) (Some (1/2)) (Some (7/5)) (Some 2%nat)) with (method := Some "Q_ave"%string) as (a & Ha & Ia); cbn [given_or] in *; try reflexivity; try lra.
  - constructor; [|constructor]. split; [apply C_neq_0; lra|unfold Im; simpl; lra].
  - unfold Im. simpl. lra.
  - constructor; [lra|constructor].
  - unfold Im. simpl. lra.
  - right. split; [reflexivity|]. split; [discriminate|]. split; [apply laggauss12_rule|lra].
  - exists a. split; [exact Ha|]. apply Ia; unfold Im, Re; simpl; lra.
Qed.
(** C63. Example: metal tip (eps -5000 + 800 i), the same film *)
Lemma C63_example_pdm_proof :
  exists a, pdm_eff_pol defaults0 (stack [RtoC 1; (-2, 1/10)%R; (11, 1/100)%R] [30] None) (Some 1) (Some 20) (Some (-5000, 800)%R) None = Ok (Some a) /\ 0 < Im a.
Proof.
  apply (C63_pdm_passive_stack_proof defaults0 1 [(-2, 1/10)%R] (11, 1/100)%R [30] None (Some 1) (Some 20) (Some (-5000, 800)%R)); cbn [given_or]; try reflexivity; try lra.
  - constructor; [|constructor]. split; [apply C_neq_0; lra|unfold Im; simpl; lra].
  - unfold Im. simpl. lra.
  - constructor; [lra|constructor].
  - intros e [= <-]. split; [unfold Im; simpl; lra|]. split; intros K; apply (f_equal Im) in K; unfold Im in K; simpl in K; lra.
Qed.
(** C63. Example: default tip one micrometre above the surface *)
Lemma C63_example_far_proof : forall laggauss,
  exists e1 : C, 0 < Im e1 /\
    fdm_eff_pol laggauss defaults0 (stack [RtoC 1; e1] [] None) (Some (1000 / 10 ^ 9)) (Some (20 / 10 ^ 9)) (Some (300 / 10 ^ 9))
      (Some (d_g_factor defaults0)) (Some 1) (Some (1/2)) None None None = Ok None.
Proof.
  intros lg. apply C63_far_resonance_refuted_proof; try lra. apply default_g_Im.
Qed.
