(** * Spectra of oscillators (C102) *)
From Coq Require Import String Reals Lra Lia ZArith List Bool.
From Coquelicot Require Import Rcomplements Complex.
From Verif Require Import Num NumLemmas ModelBase ModelSample ModelTip StackLemmas Spec SpecReson DemodLemmas
  ProofsStackQS ProofsStackQS2 ProofsSym ProofsPassive ProofsTip ProofsTip2 ProofsTip3 ProofsPerm ProofsDemod ProofsTaylor ProofsAbsorb ProofsReson ProofsReson2.
Import ListNotations.
Open Scope R_scope.

(** the denominator of an oscillator with squared centre [c2] *)
Definition Dn (c2 g nu : R) : C := (c2 - nu ^ 2, - (g * nu)).
Lemma Dn_nz c2 g nu : g <> 0 -> nu <> 0 -> Dn c2 g nu <> RtoC 0.
Proof. intros Hg Hn E. apply (f_equal snd) in E. cbn in E. assert (g * nu <> 0) by (now apply Rmult_integral_contrapositive_currified). lra. Qed.
Lemma lorentz_Dn nu c g A f_j e : g <> 0 -> nu <> 0 ->
  lorentz_perm nu c g (Some A) None f_j (Some e) = Ok (Some (RtoC e + RtoC A / Dn (c ^ 2) g nu)%C).
Proof.
  intros Hg Hn. assert (E : (RtoC (c * c) - RtoC (nu * nu) - (0, 1)%R * RtoC g * RtoC nu)%C = Dn (c ^ 2) g nu).
  { unfold Dn. apply injective_projections; cbn; ring. }
  rewrite (C46_lorentz_value_proof nu c g (Some A) None f_j (Some e) A); [rewrite E; reflexivity|left; auto|].
  rewrite E. now apply Dn_nz.
Qed.
Lemma Dn_shift c2 g nu s : Dn (c2 + s) g nu = (Dn c2 g nu + RtoC s)%C.
Proof. unfold Dn. apply injective_projections; cbn; ring. Qed.
(** an oscillator behind a Moebius map is an oscillator *)
Lemma moebius_osc (E A p x c2 g nu : R) : g <> 0 -> nu <> 0 -> E - x <> 0 ->
  let e1 := (RtoC E + RtoC A / Dn c2 g nu)%C in
  (e1 - RtoC x)%C <> RtoC 0 /\
  ((e1 + RtoC p) / (e1 - RtoC x))%C
  = (RtoC ((E + p) / (E - x)) + RtoC (A * (- x - p) / (E - x) ^ 2) / Dn (c2 + A / (E - x)) g nu)%C.
Proof.
  intros Hg Hn Hx e1. pose proof (Dn_nz c2 g nu Hg Hn) as D0. pose proof (Dn_nz (c2 + A / (E - x)) g nu Hg Hn) as D1.
  rewrite Dn_shift in *. set (d := Dn c2 g nu) in *. assert (X0 : RtoC (E - x) <> RtoC 0) by (now apply RtoC_neq_0).
  assert (K : (e1 - RtoC x)%C = (RtoC (E - x) * (d + RtoC (A / (E - x))) / d)%C).
  { unfold e1. rewrite RtoC_div by exact Hx. rewrite RtoC_minus in *. field. auto. }
  assert (Nz : (e1 - RtoC x)%C <> RtoC 0) by (rewrite K; apply Cdiv_neq_0; [apply Cmult_neq_0; assumption|exact D0]).
  split; [exact Nz|]. rewrite K. rewrite !RtoC_div by (try apply pow_nonzero; exact Hx). rewrite RtoC_mult, (RtoC_minus (- x) p), (RtoC_opp x).
  replace (RtoC ((E - x) ^ 2)) with (RtoC (E - x) * RtoC (E - x))%C by (rewrite <- RtoC_mult; f_equal; ring).
  rewrite RtoC_div in D1 by exact Hx. unfold e1. rewrite !RtoC_plus, !RtoC_minus in *.
  assert (D2 : (d * (RtoC E - RtoC x) + RtoC A)%C <> RtoC 0).
  { intros Z. apply D1. replace (d + RtoC A / (RtoC E - RtoC x))%C with ((d * (RtoC E - RtoC x) + RtoC A) / (RtoC E - RtoC x))%C by (field; exact X0). rewrite Z. field. exact X0. }
  field. repeat split; auto.
Qed.

(** C102. The reflection coefficient of a damped oscillator (phonon or, with nu_j = 0, free electrons) is again an oscillator: of the same
    damping, centred at the surface mode, nu_s^2 = nu_j^2 + A/(eps_inf + e0). *)
Lemma C102_reflection_proof :
  forall (e0 nu nu_j gamma A eps_inf nu_s : R) (e1 : C) nu_vac q,
  0 < e0 -> 0 < eps_inf -> gamma <> 0 -> nu <> 0 -> nu_s ^ 2 = nu_j ^ 2 + A / (eps_inf + e0) ->
  lorentz_perm nu nu_j gamma (Some A) None None (Some eps_inf) = Ok (Some e1) -> e1 <> RtoC 0 ->
  refl_coef_qs (stack [RtoC e0; e1] [] nu_vac) (rr q)
  = lorentz_perm nu nu_s gamma (Some (2 * e0 * A / (eps_inf + e0) ^ 2)) None None (Some ((eps_inf - e0) / (eps_inf + e0))).
Proof.
  intros e0 nu nu_j g A E nu_s e1 nv q He HE Hg Hn Hs El N1. rewrite lorentz_Dn in El |- * by assumption.
  apply (f_equal (fun x => match x with Ok (Some y) => y | _ => e1 end)) in El. cbn beta iota in El.
  destruct (moebius_osc E A (- e0) (- e0) (nu_j ^ 2) g nu Hg Hn ltac:(lra)) as [Nz M]. cbv zeta in Nz, M. rewrite El in Nz, M.
  rewrite (proj1 (C12_bulk_refl_independent_of_q_proof (RtoC e0) e1 nv (rr q) N1)). f_equal. unfold refl_coef_qs_single, cadd, csub. cbn [olift2].
  replace (e1 - RtoC (- e0))%C with (e1 + RtoC e0)%C in * by (rewrite RtoC_opp; ring).
  rewrite cdiv_ok by exact Nz. f_equal. replace (e1 - RtoC e0)%C with ((e1 + RtoC (- e0)))%C by (rewrite RtoC_opp; ring).
  rewrite M. rewrite Hs. replace (E - - e0) with (E + e0) by ring. replace (E + - e0) with (E - e0) by ring.
  replace (A * (- - e0 - - e0)) with (2 * e0 * A) by ring. reflexivity.
Qed.

(** C102. So is the effective polarizability in the point dipole model, at every height: same damping, centre nu_t with
    nu_t^2 = resonant_nu2 (the resonance of tip and lossless sample, C90). *)
Lemma C102_pdm_proof :
  forall (D : Defaults) (e0 nu nu_j gamma A eps_inf nu_t : R) (e1 : C) nu_vac z_tip r_tip eps_tip alpha_tip (alpha : R),
  let z := given_or (d_z_tip D) z_tip in let r := given_or (d_r_tip D) r_tip in
  let f := coupling alpha (r + z) in let x := resonant_eps e0 f in
  tip_alpha r eps_tip alpha_tip (RtoC alpha) -> 0 < e0 -> 0 < alpha -> 0 < r + z -> f < 1 ->
  0 < eps_inf -> gamma <> 0 -> nu <> 0 -> nu_t ^ 2 = resonant_nu2 nu_j A eps_inf e0 f ->
  lorentz_perm nu nu_j gamma (Some A) None None (Some eps_inf) = Ok (Some e1) -> e1 <> RtoC 0 ->
  pdm_eff_pol D (stack [RtoC e0; e1] [] nu_vac) z_tip r_tip eps_tip alpha_tip
  = lorentz_perm nu nu_t gamma (Some (2 * alpha * f * e0 * A / ((1 - f) ^ 2 * (eps_inf - x) ^ 2))) None None
      (Some (alpha * (eps_inf + e0) / ((1 - f) * (eps_inf - x)))).
Proof.
  intros D e0 nu nu_j g A E nu_t e1 nv z_tip r_tip eps alpha_tip a z r f x Ha He Hp Hz Hf HE Hg Hn Hs El N1.
  pose proof (coupling_pos a (r + z) Hp Hz) as Hc. fold f in Hc. pose proof (resonant_below e0 f He ltac:(lra)) as Hx. fold x in Hx.
  rewrite lorentz_Dn in El |- * by assumption.
  apply (f_equal (fun x => match x with Ok (Some y) => y | _ => e1 end)) in El. cbn beta iota in El.
  destruct (moebius_osc E A e0 (- e0) (nu_j ^ 2) g nu Hg Hn ltac:(lra)) as [N0 _]. cbv zeta in N0. rewrite El in N0.
  replace (e1 - RtoC (- e0))%C with (RtoC e0 + e1)%C in N0 by (rewrite RtoC_opp; ring).
  destruct (moebius_osc E A e0 x (nu_j ^ 2) g nu Hg Hn ltac:(lra)) as [Nz M]. cbv zeta in Nz, M. rewrite El in Nz, M.
  destruct (C90_pdm_pole_proof D e0 e1 nv z_tip r_tip eps alpha_tip a Ha) as [_ H]; fold z r f; try lra; try assumption.
  fold z r f x in H. rewrite H by (intros X; apply Nz; rewrite X; ring).
  replace (RtoC (a / (1 - f)) * (e1 + RtoC e0) / (e1 - RtoC x))%C with (RtoC (a / (1 - f)) * ((e1 + RtoC e0) / (e1 - RtoC x)))%C by (field; exact Nz).
  rewrite M. rewrite Hs. change (resonant_nu2 nu_j A E e0 f) with (nu_j ^ 2 + A / (E - x)).
  pose proof (Dn_nz (nu_j ^ 2 + A / (E - x)) g nu Hg Hn) as D1. set (d := Dn _ g nu) in *.
  assert (Sx : - x - e0 = 2 * e0 * f / (1 - f)) by (unfold x, resonant_eps; field; lra).
  do 2 f_equal. rewrite Cmult_plus_distr_l. f_equal; [rewrite <- RtoC_mult; f_equal; field; lra|].
  unfold Cdiv. rewrite Cmult_assoc. f_equal. rewrite <- RtoC_mult. f_equal. rewrite Sx. field. lra.
Qed.

Lemma fdm_moebius (b B f d : C) : (1 - f * b <> 0)%C -> d <> RtoC 0 ->
  (1 - (b + B / d) * f = (1 - f * b) / d * (d - f * B / (1 - f * b)))%C.
Proof. intros H1 H2. field. split; assumption. Qed.
Lemma fdm_moebius2 (b B f f0 d : C) : (1 - f * b <> 0)%C -> d <> RtoC 0 -> (d - f * B / (1 - f * b) <> 0)%C ->
  (1 + (b + B / d) * f0 / (2 * (1 - (b + B / d) * f)) = 1 + f0 / 2 * (b / (1 - f * b) + B / ((1 - f * b) * (1 - f * b)) / (d - f * B / (1 - f * b))))%C.
Proof.
  intros H1 H2 H3. rewrite fdm_moebius by assumption.
  assert (X : ((1 - f * b) * d - f * B <> 0)%C).
  { intros Z. apply H3. replace (d - f * B / (1 - f * b))%C with (((1 - f * b) * d - f * B) / (1 - f * b))%C by (field; exact H1). rewrite Z. field. exact H1. }
  field. repeat split; auto. now rewrite (Cmult_comm d).
Qed.

(** C102. The finite dipole model: the oscillator acquires the complex shift p of its squared centre, so the tip moves it by Re p and, when the
    charge factor g absorbs, widens it by Im p > 0. *)
Lemma C102_fdm_proof :
  forall (laggauss : laggauss_t) (D : Defaults) (e0 nu nu_j gamma A eps_inf : R) (e1 : C) nu_vac z_tip r_tip L_tip g_factor d_Q0 d_Q1 d_Qa n_lag method,
  let z := given_or (d_z_tip D) z_tip in let r := given_or (d_r_tip D) r_tip in
  let L := given_or (d_L_tip D) L_tip in let g := given_or (d_g_factor D) g_factor in
  let d0 := given_or (131 / 100 * L / (L + 2 * r)) d_Q0 in let d1 := given_or (d_d_Q1 D) d_Q1 in
  let f0 := fdm_f z d0 r L g in let f1 := fdm_f z d1 r L g in
  let b := RtoC ((eps_inf - e0) / (eps_inf + e0)) in let B := 2 * e0 * A / (eps_inf + e0) ^ 2 in
  let p := (f1 * RtoC B / (1 - f1 * b))%C in
  let s := (nu_j ^ 2 + A / (eps_inf + e0) - nu ^ 2, - (gamma * nu)) in
  fdm_regular z d0 r L -> fdm_regular z d1 r L -> method = None \/ method = Some "bulk"%string ->
  0 < e0 -> 0 < eps_inf -> gamma <> 0 -> nu <> 0 -> (1 - f1 * b <> 0)%C ->
  lorentz_perm nu nu_j gamma (Some A) None None (Some eps_inf) = Ok (Some e1) -> e1 <> RtoC 0 ->
  fdm_eff_pol laggauss D (stack [RtoC e0; e1] [] nu_vac) z_tip r_tip L_tip g_factor d_Q0 d_Q1 d_Qa n_lag method
  = Ok (if Ceq_dec s p then None else Some (1 + f0 / 2 * (b / (1 - f1 * b) + RtoC B / ((1 - f1 * b) * (1 - f1 * b)) / (s - p)))%C) /\
  Im p = B * Im f1 / Cmod (1 - f1 * b)%C ^ 2 /\
  (0 < A -> 0 < Im g -> r + 4 * z + 2 * r * d1 < 4 * L -> r < 4 * L -> 0 < Im p).
Proof.
  intros lg D e0 nu nu_j ga A E e1 nv z_tip r_tip L_tip gf d_Q0 d_Q1 d_Qa nl m z r L g d0 d1 f0 f1 b B p s R0 R1 Hm He HE Hg Hn Hb El N1.
  rewrite lorentz_Dn in El by assumption.
  apply (f_equal (fun x => match x with Ok (Some y) => y | _ => e1 end)) in El. cbn beta iota in El.
  destruct (moebius_osc E A (- e0) (- e0) (nu_j ^ 2) ga nu Hg Hn ltac:(lra)) as [Nz M]. cbv zeta in Nz, M. rewrite El in Nz, M.
  replace (e1 - RtoC (- e0))%C with (e1 + RtoC e0)%C in * by (rewrite RtoC_opp; ring).
  replace (e1 + RtoC (- e0))%C with (e1 - RtoC e0)%C in M by (rewrite RtoC_opp; ring).
  replace (E - - e0) with (E + e0) in M by ring. replace (E + - e0) with (E - e0) in M by ring.
  replace (A * (- - e0 - - e0)) with (2 * e0 * A) in M by ring.
  pose proof (Dn_nz (nu_j ^ 2 + A / (E + e0)) ga nu Hg Hn) as D0.
  change (Dn (nu_j ^ 2 + A / (E + e0)) ga nu) with s in M, D0. fold b B in M.
  assert (Ip : Im p = B * Im f1 / Cmod (1 - f1 * b)%C ^ 2).
  { unfold p, b. unfold b in Hb. rewrite Cmod_sqr. set (bb := (E - e0) / (E + e0)) in *. destruct f1 as [u v].
    assert (Q : 0 < (1 - u * bb) ^ 2 + (v * bb) ^ 2).
    { pose proof (pow2_ge_0 (1 - u * bb)). pose proof (pow2_ge_0 (v * bb)). destruct (Req_dec (v * bb) 0) as [Y|Y].
      - destruct (Req_dec (1 - u * bb) 0) as [X|X]; [exfalso; apply Hb; apply injective_projections; cbn; lra|].
        pose proof (pow2_gt_0 _ X). lra.
      - pose proof (pow2_gt_0 _ Y). lra. }
    unfold Cdiv, Cinv, Cmult, Cminus, Cplus, Copp, RtoC, Re, Im in *. cbn [fst snd] in *. field. repeat split; intro; nra. }
  split; [|split; [exact Ip|]].
  - assert (N0 : (RtoC e0 + e1 <> 0)%C) by (now rewrite Cplus_comm).
    assert (Ef : fdm_eff_pol lg D (stack [RtoC e0; e1] [] nv) z_tip r_tip L_tip gf d_Q0 d_Q1 d_Qa nl m
      = Ok (rc 1 + Some ((e1 - RtoC e0) / (e1 + RtoC e0) * f0)%C / Some (2 * (1 - (e1 - RtoC e0) / (e1 + RtoC e0) * f1))%C)%cv).
    { pose proof (bulk_eff_pol lg D (stack [RtoC e0; e1] [] nv) z_tip r_tip L_tip gf d_Q0 d_Q1 d_Qa nl _ eq_refl (bulk_qs (RtoC e0) e1 nv (rr 0) N1 N0) R0 R1) as K.
      destruct Hm as [-> | ->]; exact K. }
    rewrite Ef, M. f_equal. rewrite (fdm_moebius b (RtoC B) f1 s Hb D0). fold p. destruct (Ceq_dec s p) as [Q|Q].
    + replace (s - p)%C with (RtoC 0) by (rewrite <- Q; ring). replace (2 * ((1 - f1 * b) / s * 0))%C with (RtoC 0) by ring.
      unfold rc. rewrite (proj2 (cdiv_none _ _)); reflexivity.
    + assert (Sp : (s - p)%C <> RtoC 0) by (intro Z; apply Q; now apply Csub_eq0).
      rewrite cdiv_ok.
      * unfold rc. cbn [cadd olift2]. f_equal. unfold p. rewrite <- (fdm_moebius2 b (RtoC B) f1 f0 s Hb D0 Sp). rewrite (fdm_moebius b (RtoC B) f1 s Hb D0). reflexivity.
      * apply Cmult_neq_0; [apply C2_neq_0|]. apply Cmult_neq_0; [apply Cdiv_neq_0; assumption|exact Sp].
  - intros HA Gi H4 HL. rewrite Ip. pose proof R1 as (Hr & HL' & Hp1 & _).
    pose proof (ratio_pos z d1 r L Hr ltac:(lra) ltac:(lra)) as Q1.
    assert (F : 0 < Im f1) by (unfold f1; rewrite Im_fdm_f; apply Rmult_lt_0_compat; assumption).
    assert (HB : 0 < B) by (unfold B; apply Rdiv_lt_0_compat; [apply Rmult_lt_0_compat; lra|apply pow_lt; lra]).
    apply Rdiv_lt_0_compat; [now apply Rmult_lt_0_compat|]. apply pow_lt. now apply Cmod_gt_0.
Qed.
