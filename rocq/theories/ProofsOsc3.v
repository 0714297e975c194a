(** * Spectra of oscillators: line widths and the static sum rule (C104) *)
From Coq Require Import String Reals Lra Lia ZArith List Bool.
From Coquelicot Require Import Coquelicot.
From Coq Require Import List.
From Verif Require Import Num NumLemmas ModelBase ModelSample ModelTip StackLemmas Spec SpecReson SpecQuad DemodLemmas
  ProofsStackQS ProofsStackQS2 ProofsSym ProofsPassive ProofsTip ProofsTip2 ProofsTip3 ProofsPerm ProofsDemod ProofsTaylor ProofsAbsorb ProofsReson ProofsReson2 ProofsConsist3 ProofsOsc ProofsOsc2.
Import ListNotations.
Open Scope R_scope.

Lemma hh_half c g x : 0 < g -> 0 < x -> (/ g / 2 <= hh c g x <-> - (g * x) <= c - x ^ 2 <= g * x).
Proof.
  intros Hg Hx. pose proof (hh_den c g x Hg Hx) as Hd. assert (Gx : 0 < g * x) by (now apply Rmult_lt_0_compat).
  set (d := (c - x ^ 2) ^ 2 + g ^ 2 * x ^ 2) in *. set (u := c - x ^ 2) in *.
  assert (E : hh c g x = (g * x) ^ 2 / d / g) by (unfold hh; fold u d; field; split; lra). rewrite E.
  assert (E2 : d = u ^ 2 + (g * x) ^ 2) by (unfold d; ring). set (y := g * x) in *.
  assert (S : / g / 2 <= y ^ 2 / d / g <-> u ^ 2 <= y ^ 2).
  { assert (Ig : 0 < / g) by (now apply Rinv_0_lt_compat). split; intro H.
    - assert (H1 : 1 / 2 <= y ^ 2 / d). { apply Rmult_le_reg_r with (/ g); [exact Ig|]. unfold Rdiv in *. lra. }
      apply (Rle_div_r (1 / 2) (y ^ 2) d Hd) in H1. lra.
    - assert (H1 : 1 / 2 <= y ^ 2 / d) by (apply (Rle_div_r (1 / 2) (y ^ 2) d Hd); lra). apply Rle_trans with (1 / 2 * / g); [right; field; lra|]. unfold Rdiv at 2. apply Rmult_le_compat_r; lra. }
  rewrite S. split; intro H.
  - split; nra.
  - nra.
Qed.
Lemma half_band c g x : 0 <= c -> 0 < g -> 0 < x ->
  (- (g * x) <= c - x ^ 2 <= g * x <-> sqrt (c + g ^ 2 / 4) - g / 2 <= x <= sqrt (c + g ^ 2 / 4) + g / 2).
Proof.
  intros Hc Hg Hx. assert (P : 0 <= c + g ^ 2 / 4) by (pose proof (pow2_ge_0 g); lra). pose proof (sqrt_sqrt _ P) as E. pose proof (sqrt_pos (c + g ^ 2 / 4)) as S0.
  set (s := sqrt (c + g ^ 2 / 4)) in *. assert (Sg : g / 2 <= s). { unfold s. rewrite <- (sqrt_pow2 (g / 2)) by lra. apply sqrt_le_1; pose proof (pow2_ge_0 (g / 2)); lra. }
  assert (Ec : c = s * s - g ^ 2 / 4) by lra. rewrite Ec.
  replace (s * s - g ^ 2 / 4 - x ^ 2) with (s * s - (x ^ 2 + g ^ 2 / 4)) by ring.
  assert (A1 : s * s - (x ^ 2 + g ^ 2 / 4) <= g * x <-> s <= x + g / 2).
  { split; intro H.
    - destruct (Rle_lt_dec s (x + g / 2)) as [L|L]; [exact L|exfalso]. assert ((x + g / 2) * (x + g / 2) < s * s) by (apply Rmult_le_0_lt_compat; lra). nra.
    - assert (s * s <= (x + g / 2) * (x + g / 2)) by (apply Rmult_le_compat; lra). nra. }
  assert (A2 : - (g * x) <= s * s - (x ^ 2 + g ^ 2 / 4) <-> x - g / 2 <= s).
  { split; intro H.
    - destruct (Rle_lt_dec (x - g / 2) s) as [L|L]; [exact L|exfalso]. assert (s * s < (x - g / 2) * (x - g / 2)) by (apply Rmult_le_0_lt_compat; lra). nra.
    - destruct (Rle_lt_dec 0 (x - g / 2)) as [L|L].
      + assert ((x - g / 2) * (x - g / 2) <= s * s) by (apply Rmult_le_compat; lra). nra.
      + assert ((g / 2 - x) * (g / 2 - x) <= s * s) by (apply Rmult_le_compat; lra). nra. }
  rewrite A1, A2. split; intros [? ?]; split; lra.
Qed.
Lemma ok_osc nu c g A e (v : C) : 0 < g -> 0 < nu -> lorentz_perm nu c g (Some A) None None (Some e) = Ok (Some v) -> v = (RtoC e + RtoC A / Dn (c ^ 2) g nu)%C.
Proof. intros Hg Hn El. rewrite lorentz_Dn in El by lra. apply (f_equal (fun x => match x with Ok (Some y) => y | _ => v end)) in El. cbn beta iota in El. now symmetry. Qed.

(** C104. The width of a line: nu Im of an oscillator exceeds half its maximum exactly between sqrt(nu_c^2 + gamma^2/4) - gamma/2 and
    sqrt(nu_c^2 + gamma^2/4) + gamma/2: its full width at half maximum is the damping, exactly. The line of a phonon seen through a point dipole tip
    at any height has the same width, around nu_t. *)
Lemma C104_width_proof :
  (forall nu nu_c gamma A eps (v : C), 0 < gamma -> 0 < A -> 0 < nu ->
     lorentz_perm nu nu_c gamma (Some A) None None (Some eps) = Ok (Some v) ->
     (A / gamma / 2 <= nu * Im v <-> sqrt (nu_c ^ 2 + gamma ^ 2 / 4) - gamma / 2 <= nu <= sqrt (nu_c ^ 2 + gamma ^ 2 / 4) + gamma / 2)) /\
  (forall (D : Defaults) (e0 nu nu_j gamma A eps_inf : R) (e1 a : C) nu_vac z_tip r_tip eps_tip alpha_tip (alpha peak : R),
     let z := given_or (d_z_tip D) z_tip in let r := given_or (d_r_tip D) r_tip in
     let f := coupling alpha (r + z) in let nu_t2 := resonant_nu2 nu_j A eps_inf e0 f in
     tip_alpha r eps_tip alpha_tip (RtoC alpha) -> 0 < e0 -> 0 < alpha -> 0 < r + z -> f < 1 -> 0 < eps_inf -> 0 < gamma -> 0 < A -> 0 < nu ->
     peak = 2 * alpha * f * e0 * A / ((1 - f) * eps_inf + (1 + f) * e0) ^ 2 / gamma ->
     lorentz_perm nu nu_j gamma (Some A) None None (Some eps_inf) = Ok (Some e1) ->
     pdm_eff_pol D (stack [RtoC e0; e1] [] nu_vac) z_tip r_tip eps_tip alpha_tip = Ok (Some a) ->
     nu * Im a <= peak /\ (peak / 2 <= nu * Im a <-> sqrt (nu_t2 + gamma ^ 2 / 4) - gamma / 2 <= nu <= sqrt (nu_t2 + gamma ^ 2 / 4) + gamma / 2)).
Proof.
  assert (G : forall nu nu_c gamma A eps (v : C), 0 < gamma -> 0 < A -> 0 < nu ->
     lorentz_perm nu nu_c gamma (Some A) None None (Some eps) = Ok (Some v) ->
     (A / gamma / 2 <= nu * Im v <-> sqrt (nu_c ^ 2 + gamma ^ 2 / 4) - gamma / 2 <= nu <= sqrt (nu_c ^ 2 + gamma ^ 2 / 4) + gamma / 2)).
  { intros nu c g A e v Hg HA Hn El. rewrite (ok_osc nu c g A e v Hg Hn El), hh_osc by assumption.
    rewrite <- half_band by (try apply pow2_ge_0; assumption). rewrite <- hh_half by assumption.
    replace (A / g / 2) with (A * (/ g / 2)) by (field; lra). split; intro H; [apply Rmult_le_reg_l with A; assumption|apply Rmult_le_compat_l; lra]. }
  split; [exact G|].
  intros D e0 nu nu_j g A E e1 a nv z_tip r_tip et at_ al peak z r f nt2 Ha He Hp Hz Hf HE Hg HA Hn -> El Ea.
  pose proof (coupling_pos al (r + z) Hp Hz) as Hc. fold f in Hc. pose proof (resonant_below e0 f He (conj Hc Hf)) as Hx.
  assert (P : 0 <= nt2).
  { unfold nt2, resonant_nu2. pose proof (pow2_ge_0 nu_j). assert (0 < A / (E - resonant_eps e0 f)) by (apply Rdiv_lt_0_compat; lra). lra. }
  assert (Q : (1 - f) * (E - resonant_eps e0 f) = (1 - f) * E + (1 + f) * e0) by (unfold resonant_eps; field; lra).
  assert (Ne : e1 <> RtoC 0).
  { intro Z. destruct (C46_passive_proof nu nu_j g A (Some E) HA Hg Hn) as [x [Ex Ix]]. rewrite El in Ex.
    apply (f_equal (fun y => match y with Ok (Some u) => u | _ => x end)) in Ex. cbn beta iota in Ex. rewrite <- Ex, Z in Ix. cbn in Ix. lra. }
  rewrite (C102_pdm_proof D e0 nu nu_j g A E (sqrt nt2) e1 nv z_tip r_tip et at_ al) in Ea; fold z r f; try assumption; try lra; [|now rewrite pow2_sqrt].
  fold z r f in Ea. set (B := 2 * al * f * e0 * A / ((1 - f) ^ 2 * (E - resonant_eps e0 f) ^ 2)) in *.
  assert (EB : 2 * al * f * e0 * A / ((1 - f) * E + (1 + f) * e0) ^ 2 = B) by (unfold B; rewrite <- Q; field; lra). rewrite EB.
  assert (HB : 0 < B). { unfold B. apply Rdiv_lt_0_compat; [do 3 (apply Rmult_lt_0_compat; [|lra]); lra|apply Rmult_lt_0_compat; apply pow_lt; lra]. }
  split.
  - rewrite (ok_osc _ _ _ _ _ _ Hg Hn Ea), hh_osc by assumption. unfold Rdiv. apply Rmult_le_compat_l; [lra|]. now apply hh_peak.
  - pose proof (G _ _ _ _ _ _ Hg HB Hn Ea) as K. now rewrite pow2_sqrt in K.
Qed.

(** ** the static sum rule *)
Definition gg (c g x : R) : R := g / ((c - x ^ 2) ^ 2 + g ^ 2 * x ^ 2).
Lemma gg_den c g x : 0 < c -> 0 < g -> 0 < (c - x ^ 2) ^ 2 + g ^ 2 * x ^ 2.
Proof.
  intros Hc Hg. destruct (Req_dec x 0) as [->|N]; [assert (0 < c ^ 2) by (now apply pow_lt); nra|].
  pose proof (pow2_ge_0 (c - x ^ 2)). assert (0 < g ^ 2 * x ^ 2) by (apply Rmult_lt_0_compat; [now apply pow_lt|now apply pow2_gt_0]). lra.
Qed.
Lemma gg_osc c g x (e A : R) : 0 < g -> 0 < x -> Im (RtoC e + RtoC A / Dn c g x)%C / x = A * gg c g x.
Proof.
  intros Hg Hx. pose proof (hh_den c g x Hg Hx). pose proof (hh_osc c g x e A Hg Hx) as K. unfold gg. apply Rmult_eq_reg_l with (x ^ 2); [|apply pow_nonzero; lra].
  replace (x ^ 2 * (Im (RtoC e + RtoC A / Dn c g x)%C / x)) with (x * Im (RtoC e + RtoC A / Dn c g x)%C) by (field; lra). rewrite K. unfold hh. field. lra.
Qed.
Lemma gg_cont c g x : 0 < c -> 0 < g -> continuous (gg c g) x.
Proof. intros Hc Hg. apply (ex_derive_continuous (V := R_NormedModule)). unfold gg. auto_derive. pose proof (gg_den c g x Hc Hg). lra. Qed.
Lemma gg_ex c g a b : 0 < c -> 0 < g -> ex_RInt (gg c g) a b.
Proof. intros Hc Hg. apply (ex_RInt_continuous (V := R_CompleteNormedModule)). intros x _. now apply gg_cont. Qed.
Lemma gg_area c g b : 0 < c -> 0 < g -> sqrt c < b -> RInt (gg c g) (c / b) b = / c * atan ((b - c / b) / g).
Proof.
  intros Hc Hg Hb. assert (Ha : 0 < sqrt c) by (now apply sqrt_lt_R0). assert (Hcb : 0 < c / b) by (apply Rdiv_lt_0_compat; lra).
  assert (Lt : c / b < b). { apply Rlt_div_l; [lra|]. rewrite <- (sqrt_sqrt c) by lra. apply Rmult_le_0_lt_compat; lra. }
  set (t := (b - c / b) / g).
  assert (Q : is_RInt (fun y => (1 + c / y ^ 2) * hh c g y) (c / b) b (2 * atan t)).
  { replace (2 * atan t) with (minus (atan ((b - c / b) / g)) (atan ((c / b - c / (c / b)) / g))).
    2:{ replace ((c / b - c / (c / b)) / g) with (- t) by (unfold t; field; repeat split; lra). rewrite atan_opp. fold t. unfold minus, plus, opp; cbn; ring. }
    apply (is_RInt_derive (V := R_CompleteNormedModule) (fun y => atan ((y - c / y) / g))).
    - intros x Hx. rewrite Rmin_left, Rmax_right in Hx by lra. pose proof (hh_den c g x Hg ltac:(lra)) as Hd.
      assert (Hd2 : 0 < (x ^ 2 - c) ^ 2 + g ^ 2 * x ^ 2) by (replace ((x ^ 2 - c) ^ 2) with ((c - x ^ 2) ^ 2) by ring; exact Hd).
      evar (l : R). replace ((1 + c / x ^ 2) * hh c g x) with l.
      + unfold l. apply (is_derive_comp atan (fun y => (y - c / y) / g)); [apply is_derive_atan|]. auto_derive; [lra|reflexivity].
      + unfold l, hh, scal. cbn. unfold mult. cbn. unfold Rsqr. field. repeat split; try lra; intro; nra.
    - intros x Hx. rewrite Rmin_left, Rmax_right in Hx by lra. apply (continuous_mult (fun y => 1 + c / y ^ 2) (hh c g)).
      + apply (ex_derive_continuous (V := R_NormedModule)). auto_derive. assert (0 < x ^ 2) by (apply pow_lt; lra). lra.
      + apply hh_cont; lra. }
  assert (Xh : ex_RInt (hh c g) (c / b) b) by (apply hh_ex; lra). pose proof (gg_ex c g (c / b) b Hc Hg) as Xg.
  assert (S : RInt (fun y => (1 + c / y ^ 2) * hh c g y) (c / b) b = RInt (hh c g) (c / b) b + c * RInt (gg c g) (c / b) b).
  { assert (K1 : RInt (fun y => c * gg c g y) (c / b) b = c * RInt (gg c g) (c / b) b) by exact (RInt_scal (V := R_CompleteNormedModule) (gg c g) (c / b) b c Xg).
    assert (Xg' : ex_RInt (fun y => c * gg c g y) (c / b) b) by exact (ex_RInt_scal (V := R_NormedModule) (gg c g) _ _ c Xg).
    assert (K2 : RInt (fun y => hh c g y + c * gg c g y) (c / b) b = RInt (hh c g) (c / b) b + RInt (fun y => c * gg c g y) (c / b) b) by exact (RInt_plus (V := R_CompleteNormedModule) (hh c g) (fun y => c * gg c g y) (c / b) b Xh Xg').
    rewrite <- K1, <- K2.
    apply (RInt_ext (V := R_CompleteNormedModule)). intros x Hx. rewrite Rmin_left, Rmax_right in Hx by lra. pose proof (hh_den c g x Hg ltac:(lra)) as Hd. unfold hh, gg. match goal with |- ?a = ?b => change (@eq R a b) end. field. split; try lra; intro; nra. }
  apply (is_RInt_unique (V := R_CompleteNormedModule)) in Q. rewrite S, (hh_area c g b Hc Hg Hb) in Q. fold t in Q. apply Rmult_eq_reg_l with c; [|lra].
  replace (c * (/ c * atan t)) with (atan t) by (field; lra). lra.
Qed.
Lemma gg_total c g : 0 < c -> 0 < g -> is_lim (fun b => RInt (gg c g) 0 b) p_infty (PI / 2 / c).
Proof.
  intros Hc Hg. assert (Ha : 0 < sqrt c) by (now apply sqrt_lt_R0). pose proof (sqrt_sqrt c ltac:(lra)) as Es.
  assert (Z : is_lim (fun b => RInt (gg c g) 0 (c / b)) p_infty 0).
  { apply (is_lim_le_le_loc (fun _ => 0) (fun b => 4 * g / c * / b)).
    - exists (2 * sqrt c). intros b Hb. assert (Hcb : 0 < c / b) by (apply Rdiv_lt_0_compat; lra). pose proof (gg_ex c g 0 (c / b) Hc Hg) as X. split.
      + apply RInt_ge_0; [lra|exact X|]. intros x Hx. pose proof (gg_den c g x Hc Hg). unfold gg. apply Rle_div_r; lra.
      + apply Rle_trans with (RInt (fun _ => 4 * g / c ^ 2) 0 (c / b)).
        * apply RInt_le; [lra|exact X|apply ex_RInt_const|]. intros x Hx. pose proof (gg_den c g x Hc Hg) as Hd. unfold gg. apply Rle_div_l; [exact Hd|].
          assert (C2 : 0 < c ^ 2) by (now apply pow_lt). assert (L : c / b <= sqrt c / 2).
          { apply Rle_div_l; [lra|]. assert (sqrt c / 2 * (2 * sqrt c) <= sqrt c / 2 * b) by (apply Rmult_le_compat_l; lra). lra. }
          assert (X2 : x ^ 2 <= c / 4). { assert (x * x <= sqrt c / 2 * (sqrt c / 2)) by (apply Rmult_le_compat; lra). nra. }
          assert (Q : c ^ 2 / 4 <= (c - x ^ 2) ^ 2). { assert (c / 2 * (c / 2) <= (c - x ^ 2) * (c - x ^ 2)) by (apply Rmult_le_compat; lra). nra. }
          assert (0 <= g ^ 2 * x ^ 2) by (apply Rmult_le_pos; apply pow2_ge_0).
          replace g with (4 * g / c ^ 2 * (c ^ 2 / 4)) at 1 by (field; lra). apply Rmult_le_compat_l; [apply Rle_div_r; lra|lra].
        * rewrite RInt_const. unfold scal, mult. cbn. unfold mult. cbn. right. field. lra.
    - apply is_lim_const.
    - replace (Finite 0) with (Rbar_mult (4 * g / c) 0) by (cbn; f_equal; ring). apply is_lim_scal_l.
      apply (is_lim_inv (fun x => x) p_infty p_infty); [apply is_lim_id|discriminate]. }
  apply is_lim_ext_loc with (fun b => / c * atan ((b - c / b) / g) + RInt (gg c g) 0 (c / b)).
  - exists (sqrt c). intros b Hb. rewrite <- (gg_area c g b Hc Hg Hb).
    rewrite <- (RInt_Chasles (V := R_CompleteNormedModule) (gg c g) 0 (c / b) b) by (now apply gg_ex). unfold plus. cbn. ring.
  - replace (Finite (PI / 2 / c)) with (Finite (/ c * (PI / 2) + 0)) by (f_equal; field; lra). apply is_lim_plus'; [|exact Z].
    apply (is_lim_scal_l _ (/ c) p_infty (PI / 2)).
    apply (is_lim_comp atan (fun b => (b - c / b) / g) p_infty (PI / 2) p_infty); [apply atan_lim|now apply arg_lim|].
    exists 0. intros x _. discriminate.
Qed.
Lemma static_area c g A : 0 < c -> 0 < g -> integral_to_infinity (fun x => A * gg c g x) (PI / 2 * (A / c)).
Proof.
  intros Hc Hg. split.
  - intros b _. apply (ex_RInt_scal (V := R_NormedModule)). now apply gg_ex.
  - replace (PI / 2 * (A / c)) with (A * (PI / 2 / c)) by (field; lra). apply is_lim_ext with (fun b => A * RInt (gg c g) 0 b).
    + intros b. symmetry. apply (RInt_scal (V := R_CompleteNormedModule)). now apply gg_ex.
    + apply (is_lim_scal_l _ A p_infty (PI / 2 / c)). now apply gg_total.
Qed.

Lemma lorentz_static c g A e (v : C) : 0 < c -> lorentz_perm 0 c g (Some A) None None (Some e) = Ok (Some v) -> v = RtoC (e + A / c ^ 2).
Proof.
  intros Hc El. assert (C2 : 0 < c ^ 2) by (now apply pow_lt).
  assert (N : (RtoC (c * c) - RtoC (0 * 0) - (0, 1)%R * RtoC g * RtoC 0)%C = RtoC (c ^ 2)) by (apply injective_projections; cbn; ring).
  rewrite (C46_lorentz_value_proof 0 c g (Some A) None None (Some e) A) in El; [|left; auto|rewrite N; apply RtoC_neq_0; lra].
  rewrite N in El. apply (f_equal (fun x => match x with Ok (Some y) => y | _ => v end)) in El. cbn beta iota in El. rewrite <- El. cbn [given_or].
  rewrite RtoC_plus, RtoC_div by lra. reflexivity.
Qed.

(** C104. The static sum rule (a Kramers-Kronig relation at zero frequency): the area under Im/nu is pi/2 times the difference between the static value
    and the value far above the resonance: for the permittivity, for the reflection coefficient and for the polarizability of tip and sample at any height. *)
Lemma C104_static_proof :
  forall (D : Defaults) (e0 nu_j gamma A eps_inf : R) (eps : R -> C) (es : C) nu_vac q z_tip r_tip eps_tip alpha_tip (alpha : R) (u v w : R -> R),
  let z := given_or (d_z_tip D) z_tip in let r := given_or (d_r_tip D) r_tip in
  0 < e0 -> 0 < eps_inf -> 0 < gamma -> 0 < A -> 0 < nu_j ->
  (forall nu, 0 < nu -> lorentz_perm nu nu_j gamma (Some A) None None (Some eps_inf) = Ok (Some (eps nu))) ->
  lorentz_perm 0 nu_j gamma (Some A) None None (Some eps_inf) = Ok (Some es) ->
  ((forall nu, 0 < nu -> u nu = Im (eps nu) / nu) -> integral_to_infinity u (PI / 2 * (Re es - eps_inf))) /\
  (forall b0 b1, (forall nu, 0 < nu -> exists b, refl_coef_qs (stack [RtoC e0; eps nu] [] nu_vac) (rr q) = Ok (Some b) /\ v nu = Im b / nu) ->
   refl_coef_qs (stack [RtoC e0; es] [] nu_vac) (rr q) = Ok (Some b0) -> refl_coef_qs (stack [RtoC e0; RtoC eps_inf] [] nu_vac) (rr q) = Ok (Some b1) ->
   integral_to_infinity v (PI / 2 * (Re b0 - Re b1))) /\
  (forall a0 a1, tip_alpha r eps_tip alpha_tip (RtoC alpha) -> 0 < alpha -> 0 < r + z -> coupling alpha (r + z) < 1 ->
   (forall nu, 0 < nu -> exists a, pdm_eff_pol D (stack [RtoC e0; eps nu] [] nu_vac) z_tip r_tip eps_tip alpha_tip = Ok (Some a) /\ w nu = Im a / nu) ->
   pdm_eff_pol D (stack [RtoC e0; es] [] nu_vac) z_tip r_tip eps_tip alpha_tip = Ok (Some a0) ->
   pdm_eff_pol D (stack [RtoC e0; RtoC eps_inf] [] nu_vac) z_tip r_tip eps_tip alpha_tip = Ok (Some a1) ->
   integral_to_infinity w (PI / 2 * (Re a0 - Re a1))).
Proof.
  intros D e0 nu_j g A E eps es nv q z_tip r_tip et at_ al u v w z r He HE Hg HA Hj Hl Hs.
  assert (J2 : 0 < nu_j ^ 2) by (now apply pow_lt). assert (AJ : 0 < A / nu_j ^ 2) by (now apply Rdiv_lt_0_compat).
  apply lorentz_static in Hs; [|exact Hj]. subst es. set (s := E + A / nu_j ^ 2) in *. assert (Hsp : 0 < s) by (unfold s; lra).
  assert (Ne : forall nu, 0 < nu -> eps nu <> RtoC 0).
  { intros nu Hn Z. destruct (C46_passive_proof nu nu_j g A (Some E) HA Hg Hn) as [x [Ex Ix]]. rewrite (Hl nu Hn) in Ex.
    apply (f_equal (fun y => match y with Ok (Some u) => u | _ => x end)) in Ex. cbn beta iota in Ex. rewrite <- Ex, Z in Ix. cbn in Ix. lra. }
  assert (G : forall (nc B e : R) (F : R -> R), 0 < nc ^ 2 -> (forall nu, 0 < nu -> exists b, lorentz_perm nu nc g (Some B) None None (Some e) = Ok (Some b) /\ F nu = Im b / nu) ->
    integral_to_infinity F (PI / 2 * (B / nc ^ 2))).
  { intros nc B e F Hnc HF. apply (integral_pos_ext (fun x => B * gg (nc ^ 2) g x)); [|now apply static_area].
    intros x Hx. destruct (HF x Hx) as [b [Eb ->]]. rewrite (ok_osc x nc g B e b Hg Hx Eb). symmetry. now apply gg_osc. }
  split; [|split].
  - intros Hu. cbn [Re RtoC fst]. replace (s - E) with (A / nu_j ^ 2) by (unfold s; ring). apply (G nu_j A E u J2). intros nu Hn. exists (eps nu). split; [now apply Hl|now apply Hu].
  - intros b0 b1 Hv H0 H1. set (c2 := nu_j ^ 2 + A / (E + e0)). assert (Pc : 0 < c2) by (unfold c2; assert (0 < A / (E + e0)) by (apply Rdiv_lt_0_compat; lra); lra).
    assert (Rv : forall x b, 0 < x -> refl_coef_qs (stack [RtoC e0; RtoC x] [] nv) (rr q) = Ok (Some b) -> Re b = (x - e0) / (x + e0)).
    { intros x b Hx Hb. assert (Nx : RtoC x <> RtoC 0) by (apply RtoC_neq_0; lra).
      rewrite (proj1 (C12_bulk_refl_independent_of_q_proof (RtoC e0) (RtoC x) nv (rr q) Nx)) in Hb. unfold refl_coef_qs_single, cadd, csub in Hb. cbn [olift2] in Hb.
      assert (Nn : (RtoC x + RtoC e0)%C <> RtoC 0) by (rewrite <- RtoC_plus; apply RtoC_neq_0; lra). rewrite cdiv_ok in Hb by exact Nn.
      apply (f_equal (fun y => match y with Ok (Some u) => u | _ => b end)) in Hb. cbn beta iota in Hb. rewrite <- Hb, <- RtoC_minus, <- RtoC_plus, <- RtoC_div by lra. reflexivity. }
    rewrite (Rv _ _ Hsp H0), (Rv _ _ HE H1).
    replace ((s - e0) / (s + e0) - (E - e0) / (E + e0)) with (2 * e0 * A / (E + e0) ^ 2 / sqrt c2 ^ 2).
    2:{ rewrite pow2_sqrt by lra. unfold s, c2. field. repeat split; try lra; intro; nra. }
    apply (G (sqrt c2) _ ((E - e0) / (E + e0)) v); [rewrite pow2_sqrt; lra|].
    intros nu Hn. destruct (Hv nu Hn) as [b [Eb Wb]]. exists b. split; [|exact Wb].
    rewrite <- Eb. symmetry. apply C102_reflection_proof with (nu_j := nu_j); try assumption; try lra; [rewrite pow2_sqrt; [reflexivity|lra]|now apply Hl|now apply Ne].
  - intros a0 a1 Ha Hp Hz Hf Hw H0 H1. pose proof (coupling_pos al (r + z) Hp Hz) as Hc. pose proof (resonant_below e0 _ He (conj Hc Hf)) as Hx.
    set (f := coupling al (r + z)) in *. set (x := resonant_eps e0 f) in *. set (c2 := nu_j ^ 2 + A / (E - x)).
    assert (Pc : 0 < c2) by (unfold c2; assert (0 < A / (E - x)) by (apply Rdiv_lt_0_compat; lra); lra).
    assert (Rv : forall y a, 0 < y -> pdm_eff_pol D (stack [RtoC e0; RtoC y] [] nv) z_tip r_tip et at_ = Ok (Some a) -> Re a = al / (1 - f) * (y + e0) / (y - x)).
    { intros y a Hy Hb. assert (Ny : (RtoC e0 + RtoC y)%C <> RtoC 0) by (rewrite <- RtoC_plus; apply RtoC_neq_0; lra). assert (Ny2 : RtoC y <> RtoC 0) by (apply RtoC_neq_0; lra).
      destruct (C90_pdm_pole_proof D e0 (RtoC y) nv z_tip r_tip et at_ al Ha) as [_ H]; fold z r f; try lra; try assumption.
      fold z r f x in H. rewrite H in Hb by (intros X; apply RtoC_inj in X; lra).
      apply (f_equal (fun y => match y with Ok (Some u) => u | _ => a end)) in Hb. cbn beta iota in Hb.
      rewrite <- Hb, <- RtoC_plus, <- RtoC_minus, <- RtoC_mult, <- RtoC_div by lra. reflexivity. }
    rewrite (Rv _ _ Hsp H0), (Rv _ _ HE H1).
    assert (Sx : - x - e0 = 2 * e0 * f / (1 - f)) by (unfold x, resonant_eps; field; lra).
    replace (al / (1 - f) * (s + e0) / (s - x) - al / (1 - f) * (E + e0) / (E - x)) with (2 * al * f * e0 * A / ((1 - f) ^ 2 * (E - x) ^ 2) / sqrt c2 ^ 2).
    2:{ rewrite pow2_sqrt by lra. replace (2 * al * f * e0 * A / ((1 - f) ^ 2 * (E - x) ^ 2)) with (al / (1 - f) * (2 * e0 * f / (1 - f)) * A / (E - x) ^ 2) by (field; lra). rewrite <- Sx.
        assert (K1 : s - x = (E - x) * c2 / nu_j ^ 2) by (unfold s, c2; field; split; lra).
        assert (KA : A = (c2 - nu_j ^ 2) * (E - x)) by (unfold c2; field; lra). rewrite K1. unfold s. clearbody c2. rewrite KA. field. repeat split; lra. }
    apply (G (sqrt c2) _ (al * (E + e0) / ((1 - f) * (E - x))) w); [rewrite pow2_sqrt; lra|].
    intros nu Hn. destruct (Hw nu Hn) as [a [Ea Wa]]. exists a. split; [|exact Wa].
    rewrite <- Ea. symmetry. apply C102_pdm_proof with (nu_j := nu_j); try assumption; try lra; [rewrite pow2_sqrt; [reflexivity|lra]|now apply Hl|now apply Ne].
Qed.

(** C104: an oscillator with nu_c^2 = 2 and damping 1 has its half maxima exactly at 1 and 2 (value 1/2 at both); and the phonon 2 + 6/(1 - nu^2 - i nu) has
    static permittivity 8, so that the area under Im eps/nu is 3 pi and the one under Im beta/nu is 2 pi/9. *)
Lemma C104_example_proof :
  lorentz_perm 1 (sqrt 2) 1 (Some 1) None None (Some 1) = Ok (Some (3 / 2, 1 / 2)) /\
  lorentz_perm 2 (sqrt 2) 1 (Some 1) None None (Some 1) = Ok (Some (3 / 4, 1 / 4)) /\
  sqrt (sqrt 2 ^ 2 + 1 ^ 2 / 4) - 1 / 2 = 1 /\ sqrt (sqrt 2 ^ 2 + 1 ^ 2 / 4) + 1 / 2 = 2 /\
  lorentz_perm 0 1 1 (Some 6) None None (Some 2) = Ok (Some (RtoC 8)) /\
  (exists (eps : R -> C) (u v : R -> R), (forall nu, 0 < nu -> lorentz_perm nu 1 1 (Some 6) None None (Some 2) = Ok (Some (eps nu)) /\ u nu = Im (eps nu) / nu /\
     exists b, refl_coef_qs (stack [RtoC 1; eps nu] [] None) (rr 0) = Ok (Some b) /\ v nu = Im b / nu) /\
   integral_to_infinity u (3 * PI) /\ integral_to_infinity v (2 * PI / 9)).
Proof.
  assert (S2 : sqrt (sqrt 2 ^ 2 + 1 ^ 2 / 4) = 3 / 2).
  { rewrite pow2_sqrt by lra. replace (2 + 1 ^ 2 / 4) with ((3 / 2) ^ 2) by lra. apply sqrt_pow2. lra. }
  assert (E0 : lorentz_perm 0 1 1 (Some 6) None None (Some 2) = Ok (Some (RtoC 8))).
  { assert (N : (RtoC (1 * 1) - RtoC (0 * 0) - (0, 1)%R * RtoC 1 * RtoC 0)%C = RtoC 1) by (apply injective_projections; cbn; ring).
    rewrite (C46_lorentz_value_proof 0 1 1 (Some 6) None None (Some 2) 6); [|left; auto|rewrite N; apply RtoC_neq_0; lra]. rewrite N. cbn [given_or]. do 2 f_equal.
    rewrite <- RtoC_div, <- RtoC_plus by lra. f_equal. field. }
  split; [|split; [|split; [|split; [|split]]]]; try (rewrite S2; lra); try exact E0.
  - rewrite lorentz_Dn by lra. do 2 f_equal. rewrite pow2_sqrt by lra. unfold Dn, Cdiv, Cinv, Cmult, Cplus, RtoC. cbn [fst snd]. apply injective_projections; cbn [fst snd]; field.
  - rewrite lorentz_Dn by lra. do 2 f_equal. rewrite pow2_sqrt by lra. unfold Dn, Cdiv, Cinv, Cmult, Cplus, RtoC. cbn [fst snd]. apply injective_projections; cbn [fst snd]; field.
  - set (eps := fun nu : R => (RtoC 2 + RtoC 6 / Dn (1 ^ 2) 1 nu)%C).
    set (bt := fun nu : R => (RtoC ((2 - 1) / (2 + 1)) + RtoC (2 * 1 * 6 / (2 + 1) ^ 2) / Dn (sqrt 3 ^ 2) 1 nu)%C).
    assert (Hl : forall nu, 0 < nu -> lorentz_perm nu 1 1 (Some 6) None None (Some 2) = Ok (Some (eps nu))) by (intros nu Hn; rewrite lorentz_Dn by lra; reflexivity).
    assert (Hb : forall nu, 0 < nu -> refl_coef_qs (stack [RtoC 1; eps nu] [] None) (rr 0) = Ok (Some (bt nu))).
    { intros nu Hn. rewrite (C102_reflection_proof 1 nu 1 1 6 2 (sqrt 3) (eps nu) None 0); try lra.
      - rewrite lorentz_Dn by lra. reflexivity.
      - rewrite pow2_sqrt by lra. field.
      - now apply Hl.
      - intro Z. destruct (C46_passive_proof nu 1 1 6 (Some 2) ltac:(lra) ltac:(lra) Hn) as [x [Ex Ix]]. rewrite (Hl nu Hn) in Ex.
        apply (f_equal (fun y => match y with Ok (Some u) => u | _ => x end)) in Ex. cbn beta iota in Ex. rewrite <- Ex, Z in Ix. cbn in Ix. lra. }
    exists eps, (fun nu => Im (eps nu) / nu), (fun nu => Im (bt nu) / nu). split; [intros nu Hn; split; [now apply Hl|split; [reflexivity|exists (bt nu); split; [now apply Hb|reflexivity]]]|].
    destruct (C104_static_proof defaults0 1 1 1 6 2 eps (RtoC 8) None 0 None None None None 1 (fun nu => Im (eps nu) / nu) (fun nu => Im (bt nu) / nu) (fun _ => 0)) as (K1 & K2 & _); try lra; try assumption.
    split.
    + replace (3 * PI) with (PI / 2 * (Re (RtoC 8) - 2)) by (cbn [Re RtoC fst]; field). apply K1. reflexivity.
    + assert (Rv : forall x : R, 0 < x -> refl_coef_qs (stack [RtoC 1; RtoC x] [] None) (rr 0) = Ok (Some (RtoC ((x - 1) / (x + 1))))).
      { intros x Hx. assert (Nx : RtoC x <> RtoC 0) by (apply RtoC_neq_0; lra).
        rewrite (proj1 (C12_bulk_refl_independent_of_q_proof (RtoC 1) (RtoC x) None (rr 0) Nx)). unfold refl_coef_qs_single, cadd, csub. cbn [olift2].
        rewrite cdiv_ok by (rewrite <- RtoC_plus; apply RtoC_neq_0; lra). do 2 f_equal. rewrite <- RtoC_minus, <- RtoC_plus, <- RtoC_div by lra. reflexivity. }
      replace (2 * PI / 9) with (PI / 2 * (Re (RtoC ((8 - 1) / (8 + 1))) - Re (RtoC ((2 - 1) / (2 + 1))))) by (cbn [Re RtoC fst]; field).
      apply K2; [|apply Rv; lra|apply Rv; lra]. intros nu Hn. exists (bt nu). split; [now apply Hb|reflexivity].
Qed.
