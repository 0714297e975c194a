(** * Spectra of oscillators: peaks and sum rules (C102) *)
From Coq Require Import String Reals Lra Lia ZArith List Bool.
From Coquelicot Require Import Coquelicot.
From Coq Require Import List.
From Verif Require Import Num NumLemmas ModelBase ModelSample ModelTip StackLemmas Spec SpecReson SpecQuad DemodLemmas
  ProofsStackQS ProofsStackQS2 ProofsSym ProofsPassive ProofsTip ProofsTip2 ProofsTip3 ProofsPerm ProofsDemod ProofsTaylor ProofsAbsorb ProofsReson ProofsReson2 ProofsConsist3 ProofsOsc.
Import ListNotations.
Open Scope R_scope.

(** absorption of an oscillator of unit strength *)
Definition hh (c g x : R) : R := g * x ^ 2 / ((c - x ^ 2) ^ 2 + g ^ 2 * x ^ 2).
Lemma hh_den c g x : 0 < g -> 0 < x -> 0 < (c - x ^ 2) ^ 2 + g ^ 2 * x ^ 2.
Proof. intros Hg Hx. pose proof (pow2_ge_0 (c - x ^ 2)). assert (0 < g ^ 2 * x ^ 2) by (apply Rmult_lt_0_compat; apply pow_lt; assumption). lra. Qed.
Lemma hh_osc c g x (e A : R) : 0 < g -> 0 < x -> x * Im (RtoC e + RtoC A / Dn c g x)%C = A * hh c g x.
Proof.
  intros Hg Hx. pose proof (hh_den c g x Hg Hx). unfold Dn, hh, Cdiv, Cinv, Cmult, Cplus, RtoC, Im. cbn [fst snd]. field.
  repeat split; intro; nra.
Qed.
Lemma hh_le c g x : 0 < g -> 0 < x -> hh c g x = / g - (c - x ^ 2) ^ 2 / (g * ((c - x ^ 2) ^ 2 + g ^ 2 * x ^ 2)).
Proof. intros Hg Hx. pose proof (hh_den c g x Hg Hx). unfold hh. field. split; lra. Qed.
Lemma hh_peak c g x : 0 < g -> 0 < x -> hh c g x <= / g /\ (hh c g x = / g <-> x ^ 2 = c).
Proof.
  intros Hg Hx. pose proof (hh_den c g x Hg Hx) as Hd. rewrite (hh_le c g x Hg Hx). set (d := (c - x ^ 2) ^ 2 + g ^ 2 * x ^ 2) in *.
  assert (P : 0 < / (g * d)) by (apply Rinv_0_lt_compat; now apply Rmult_lt_0_compat). unfold Rdiv. pose proof (pow2_ge_0 (c - x ^ 2)) as Q.
  assert (0 <= (c - x ^ 2) ^ 2 * / (g * d)) by (apply Rmult_le_pos; lra).
  split; [lra|]. split; intro H1.
  - assert (Z : (c - x ^ 2) ^ 2 * / (g * d) = 0) by lra. apply Rmult_integral in Z. destruct Z as [Z|Z]; [|lra].
    destruct (Req_dec (c - x ^ 2) 0) as [Y|Y]; [lra|]. pose proof (pow2_gt_0 _ Y). lra.
  - rewrite H1. ring.
Qed.
Lemma sq_eq_pos x y : 0 < x -> 0 <= y -> x ^ 2 = y ^ 2 -> x = y.
Proof. intros Hx Hy E. assert ((x - y) * (x + y) = 0) by (ring_simplify; lra). apply Rmult_integral in H. destruct H; lra. Qed.

(** C102. Where the absorption peaks: nu Im of the response is largest, and equal to its strength over its damping, exactly at the centre.
    With a tip at any height this is nu_t: above the phonon, below the surface mode, and the lower the closer the tip. *)
Lemma C102_peak_proof :
  (forall nu nu_c gamma A eps (v : C), 0 < gamma -> 0 < A -> 0 < nu -> 0 <= nu_c ->
     lorentz_perm nu nu_c gamma (Some A) None None (Some eps) = Ok (Some v) ->
     nu * Im v <= A / gamma /\ (nu * Im v = A / gamma <-> nu = nu_c)) /\
  (forall nu_j A eps_inf e0 alpha h, 0 <= nu_j -> 0 < A -> 0 < eps_inf -> 0 < e0 -> 0 < alpha -> 0 < h -> coupling alpha h < 1 ->
     nu_j < sqrt (resonant_nu2 nu_j A eps_inf e0 (coupling alpha h)) < sqrt (nu_j ^ 2 + A / (eps_inf + e0)) /\
     (forall h', h < h' -> sqrt (resonant_nu2 nu_j A eps_inf e0 (coupling alpha h)) < sqrt (resonant_nu2 nu_j A eps_inf e0 (coupling alpha h')))).
Proof.
  split.
  - intros nu c g A e v Hg HA Hn Hc El. rewrite lorentz_Dn in El by lra.
    apply (f_equal (fun x => match x with Ok (Some y) => y | _ => v end)) in El. cbn beta iota in El. subst v.
    rewrite hh_osc by assumption. destruct (hh_peak (c ^ 2) g nu Hg Hn) as [K1 K2]. unfold Rdiv. split; [apply Rmult_le_compat_l; lra|]. split; intro H.
    + apply sq_eq_pos; try assumption. apply K2. apply Rmult_eq_reg_l with A; lra.
    + subst. f_equal. now apply K2.
  - intros nu_j A E e0 a h Hj HA HE He Ha Hh Hf. pose proof (coupling_pos a h Ha Hh) as Hc. pose proof (resonant_below e0 _ He (conj Hc Hf)) as Hx.
    assert (L1 : nu_j ^ 2 < resonant_nu2 nu_j A E e0 (coupling a h)).
    { unfold resonant_nu2. assert (0 < A / (E - resonant_eps e0 (coupling a h))) by (apply Rdiv_lt_0_compat; lra). lra. }
    assert (S0 : 0 <= nu_j ^ 2) by (apply pow2_ge_0).
    split; [split|].
    + rewrite <- (sqrt_pow2 nu_j Hj) at 1. apply sqrt_lt_1; lra.
    + pose proof (nu2_below nu_j A E e0 _ HA HE He (conj Hc Hf)). apply sqrt_lt_1; lra.
    + intros h' H'. pose proof (coupling_decr a h h' Ha (conj Hh H')) as K. pose proof (coupling_pos a h' Ha ltac:(lra)) as K2.
      pose proof (nu2_incr nu_j A E e0 (coupling a h') (coupling a h) HA HE He K2 (conj K Hf)). apply sqrt_lt_1; lra.
Qed.

(** ** the area of a resonance *)
Lemma atan_lim : is_lim atan p_infty (PI / 2).
Proof.
  apply is_lim_ext_loc with (fun x => PI / 2 - atan (/ x)).
  - exists 0. intros x Hx. rewrite atan_inv by exact Hx. ring.
  - replace (Finite (PI / 2)) with (Rbar_minus (PI / 2) (Finite 0)) by (cbn; f_equal; ring).
    apply is_lim_minus'; [apply is_lim_const|]. rewrite <- atan_0.
    apply (is_lim_comp_continuous (fun x => / x) atan p_infty 0).
    + apply (is_lim_inv (fun x => x) p_infty p_infty); [apply is_lim_id|discriminate].
    + apply continuity_pt_filterlim. apply derivable_continuous_pt. exists (/ (1 + 0 ^ 2)). apply derivable_pt_lim_atan.
Qed.
Lemma hh_cont c g x : 0 < g -> 0 < x -> continuous (hh c g) x.
Proof.
  intros Hg Hx. apply (ex_derive_continuous (V := R_NormedModule)). unfold hh. auto_derive. pose proof (hh_den c g x Hg Hx). lra.
Qed.
Lemma hh_cont0 c g x : 0 < c -> 0 < g -> 0 <= x -> continuous (hh c g) x.
Proof.
  intros Hc Hg Hx. destruct (Req_dec x 0) as [->|N]; [|apply hh_cont; lra].
  apply (ex_derive_continuous (V := R_NormedModule)). unfold hh. auto_derive. assert (0 < c ^ 2) by (now apply pow_lt). nra.
Qed.
Lemma hh_ex c g a b : 0 < c -> 0 < g -> 0 <= a -> 0 <= b -> ex_RInt (hh c g) a b.
Proof.
  intros Hc Hg Ha Hb. apply (ex_RInt_continuous (V := R_CompleteNormedModule)). intros x [Hx _]. apply hh_cont0; try assumption.
  unfold Rmin in Hx. destruct (Rle_dec a b); lra.
Qed.
Lemma hh_invert c g u : 0 < c -> 0 < g -> 0 < u -> hh c g (c / u) = hh c g u.
Proof.
  intros Hc Hg Hu. pose proof (hh_den c g u Hg Hu) as H1. unfold hh.
  assert (X : c ^ 2 * ((c - u ^ 2) ^ 2 + g ^ 2 * u ^ 2) <> 0) by (apply Rmult_integral_contrapositive_currified; [apply pow_nonzero; lra|lra]).
  field. repeat split; try lra; intro Z; apply X; rewrite <- Z; ring.
Qed.
Lemma hh_area c g b : 0 < c -> 0 < g -> sqrt c < b ->
  RInt (hh c g) (c / b) b = atan ((b - c / b) / g).
Proof.
  intros Hc Hg Hb. set (a := sqrt c) in *. assert (Ha : 0 < a) by (now apply sqrt_lt_R0). assert (Ea : c = a * a) by (symmetry; apply sqrt_sqrt; lra).
  assert (Hcb : 0 < c / b) by (apply Rdiv_lt_0_compat; lra).
  assert (E1 : RInt (fun y => scal (- c / y ^ 2) (hh c g (c / y))) a b = RInt (hh c g) (c / a) (c / b)).
  { apply (RInt_comp (V := R_CompleteNormedModule) (hh c g) (fun y => c / y) (fun y => - c / y ^ 2)).
    - intros x Hx. rewrite Rmin_left, Rmax_right in Hx by lra. apply hh_cont; [exact Hg|]. apply Rdiv_lt_0_compat; lra.
    - intros x Hx. rewrite Rmin_left, Rmax_right in Hx by lra. split; [auto_derive; [lra|field; lra]|].
      apply (ex_derive_continuous (V := R_NormedModule)). auto_derive. assert (0 < x ^ 2) by (apply pow_lt; lra). lra. }
  assert (Eca : c / a = a) by (rewrite Ea; field; lra). rewrite Eca in E1.
  assert (Q : is_RInt (fun y => (1 + c / y ^ 2) * hh c g y) a b (atan ((b - c / b) / g))).
  { replace (atan ((b - c / b) / g)) with (minus (atan ((b - c / b) / g)) (atan ((a - c / a) / g))).
    2:{ rewrite Eca. replace ((a - a) / g) with 0 by (field; lra). rewrite atan_0. unfold minus, plus, opp; cbn; ring. }
    apply (is_RInt_derive (V := R_CompleteNormedModule) (fun y => atan ((y - c / y) / g))).
    - intros x Hx. rewrite Rmin_left, Rmax_right in Hx by lra. pose proof (hh_den c g x Hg ltac:(lra)) as Hd.
      assert (Hd2 : 0 < (x ^ 2 - c) ^ 2 + g ^ 2 * x ^ 2) by (replace ((x ^ 2 - c) ^ 2) with ((c - x ^ 2) ^ 2) by ring; exact Hd).
      evar (l : R). replace ((1 + c / x ^ 2) * hh c g x) with l.
      + unfold l. apply (is_derive_comp atan (fun y => (y - c / y) / g)); [apply is_derive_atan|]. auto_derive; [lra|reflexivity].
      + unfold l, hh, scal. cbn. unfold mult. cbn. unfold Rsqr. field. repeat split; try lra; intro; nra.
    - intros x Hx. rewrite Rmin_left, Rmax_right in Hx by lra. apply (continuous_mult (fun y => 1 + c / y ^ 2) (hh c g)).
      + apply (ex_derive_continuous (V := R_NormedModule)). auto_derive. assert (0 < x ^ 2) by (apply pow_lt; lra). lra.
      + apply hh_cont; lra. }
  assert (Xab : ex_RInt (hh c g) a b) by (apply hh_ex; lra). assert (Xcb : ex_RInt (hh c g) (c / b) a) by (apply hh_ex; lra).
  rewrite <- (RInt_Chasles (V := R_CompleteNormedModule) (hh c g) (c / b) a b Xcb Xab).
  assert (E2 : RInt (hh c g) (c / b) a = RInt (fun y => c / y ^ 2 * hh c g y) a b).
  { rewrite <- (opp_RInt_swap (V := R_CompleteNormedModule)) by (apply ex_RInt_swap; exact Xcb). rewrite <- E1.
    rewrite <- (RInt_opp (V := R_CompleteNormedModule)).
    - apply RInt_ext. intros x Hx. rewrite Rmin_left, Rmax_right in Hx by lra. rewrite hh_invert by lra. unfold opp, scal, mult. cbn. unfold mult. cbn. field. lra.
    - eexists. apply (is_RInt_comp (V := R_CompleteNormedModule) (hh c g) (fun y => c / y) (fun y => - c / y ^ 2)).
      + intros x Hx. rewrite Rmin_left, Rmax_right in Hx by lra. apply hh_cont; [exact Hg|]. apply Rdiv_lt_0_compat; lra.
      + intros x Hx. rewrite Rmin_left, Rmax_right in Hx by lra. split; [auto_derive; [lra|field; lra]|].
        apply (ex_derive_continuous (V := R_NormedModule)). auto_derive. assert (0 < x ^ 2) by (apply pow_lt; lra). lra. }
  rewrite E2. apply (is_RInt_unique (V := R_CompleteNormedModule)) in Q. rewrite <- Q.
  symmetry. rewrite <- (RInt_plus (V := R_CompleteNormedModule)); [|  |exact Xab].
  - apply RInt_ext. intros x _. unfold plus. cbn. ring.
  - apply (ex_RInt_continuous (V := R_CompleteNormedModule)). intros x Hx. rewrite Rmin_left, Rmax_right in Hx by lra.
    apply (continuous_mult (fun y => c / y ^ 2) (hh c g)).
    + apply (ex_derive_continuous (V := R_NormedModule)). auto_derive. assert (0 < x ^ 2) by (apply pow_lt; lra). lra.
    + apply hh_cont; lra.
Qed.
Lemma hh_nonneg c g x : 0 < g -> 0 < x -> 0 <= hh c g x.
Proof. intros Hg Hx. pose proof (hh_den c g x Hg Hx). unfold hh. apply Rle_div_r; [assumption|]. rewrite Rmult_0_l. apply Rmult_le_pos; [lra|apply pow2_ge_0]. Qed.
Lemma lin_lim g : 0 < g -> is_lim (fun b => b * / g) p_infty p_infty.
Proof. intros Hg. apply is_lim_spec. intros M. exists (M * g). intros x Hx. now apply Rlt_div_r. Qed.
Lemma arg_lim c g : 0 < c -> 0 < g -> is_lim (fun b => (b - c / b) / g) p_infty p_infty.
Proof.
  intros Hc Hg. apply (is_lim_le_p_loc (fun b => b * / g + - (sqrt c / g))).
  - exists (sqrt c). intros b Hb. assert (Ha : 0 < sqrt c) by (now apply sqrt_lt_R0). pose proof (sqrt_sqrt c ltac:(lra)) as E.
    assert (K : c / b <= sqrt c) by (apply Rle_div_l; [lra|]; rewrite <- E at 1; apply Rmult_le_compat_l; lra).
    replace (b * / g + - (sqrt c / g)) with ((b - sqrt c) * / g) by (field; lra). unfold Rdiv at 1.
    apply Rmult_le_compat_r; [left; now apply Rinv_0_lt_compat|lra].
  - apply (is_lim_plus (fun b => b * / g) (fun _ => - (sqrt c / g)) p_infty p_infty (Finite (- (sqrt c / g)))).
    + now apply lin_lim.
    + apply is_lim_const.
    + reflexivity.
Qed.
Lemma hh_total c g : 0 < c -> 0 < g -> is_lim (fun b => RInt (hh c g) 0 b) p_infty (PI / 2).
Proof.
  intros Hc Hg. assert (Ha : 0 < sqrt c) by (now apply sqrt_lt_R0).
  assert (Z : is_lim (fun b => RInt (hh c g) 0 (c / b)) p_infty 0).
  { apply (is_lim_le_le_loc (fun _ => 0) (fun b => c / g * / b)).
    - exists (sqrt c). intros b Hb. assert (Hcb : 0 < c / b) by (apply Rdiv_lt_0_compat; lra). assert (X : ex_RInt (hh c g) 0 (c / b)) by (apply hh_ex; lra). split.
      + apply RInt_ge_0; [lra|exact X|]. intros x Hx. apply hh_nonneg; lra.
      + apply Rle_trans with (RInt (fun _ => / g) 0 (c / b)).
        * apply RInt_le; [lra|exact X|apply ex_RInt_const|]. intros x Hx. apply hh_peak; lra.
        * rewrite RInt_const. unfold scal, mult. cbn. unfold mult. cbn. right. field. lra.
    - apply is_lim_const.
    - replace (Finite 0) with (Rbar_mult (c / g) 0) by (cbn; f_equal; ring). apply is_lim_scal_l.
      apply (is_lim_inv (fun x => x) p_infty p_infty); [apply is_lim_id|discriminate]. }
  apply is_lim_ext_loc with (fun b => atan ((b - c / b) / g) + RInt (hh c g) 0 (c / b)).
  - exists (sqrt c). intros b Hb. rewrite <- (hh_area c g b Hc Hg Hb). assert (Hcb : 0 < c / b) by (apply Rdiv_lt_0_compat; lra).
    rewrite <- (RInt_Chasles (V := R_CompleteNormedModule) (hh c g) 0 (c / b) b) by (apply hh_ex; lra). unfold plus. cbn. ring.
  - replace (Finite (PI / 2)) with (Finite (PI / 2 + 0)) by (f_equal; ring). apply is_lim_plus'; [|exact Z].
    apply (is_lim_comp atan (fun b => (b - c / b) / g) p_infty (PI / 2) p_infty); [apply atan_lim|now apply arg_lim|].
    exists 0. intros x _. discriminate.
Qed.
(** no restoring force *)
Lemma free_ex g b : 0 < g -> is_RInt (fun x => g / (x ^ 2 + g ^ 2)) 0 b (atan (b / g)).
Proof.
  intros Hg. replace (atan (b / g)) with (minus (atan (b / g)) (atan (0 / g))).
  2:{ replace (0 / g) with 0 by (field; lra). rewrite atan_0. unfold minus, plus, opp; cbn; ring. }
  assert (P : forall x : R, 0 < x ^ 2 + g ^ 2) by (intro x; pose proof (pow2_ge_0 x); assert (0 < g ^ 2) by (now apply pow_lt); lra).
  apply (is_RInt_derive (V := R_CompleteNormedModule) (fun y => atan (y / g))).
  - intros x _. pose proof (P x). evar (l : R). replace (g / (x ^ 2 + g ^ 2)) with l.
    + unfold l. apply (is_derive_comp atan (fun y => y / g)); [apply is_derive_atan|]. auto_derive; [lra|reflexivity].
    + unfold l, scal. cbn. unfold mult. cbn. unfold Rsqr. field. repeat split; try lra; intro; nra.
  - intros x _. apply (ex_derive_continuous (V := R_NormedModule)). auto_derive. pose proof (P x). lra.
Qed.
Lemma free_lim g : 0 < g -> is_lim (fun b => atan (b / g)) p_infty (PI / 2).
Proof.
  intros Hg. apply (is_lim_comp atan (fun b => b / g) p_infty (PI / 2) p_infty); [apply atan_lim| |exists 0; intros; discriminate].
  now apply lin_lim.
Qed.
Lemma integral_pos_ext (f w : R -> R) l : (forall x, 0 < x -> f x = w x) -> integral_to_infinity f l -> integral_to_infinity w l.
Proof.
  intros E [X Lm]. split.
  - intros b Hb. apply (ex_RInt_ext f); [|now apply X]. intros x Hx. rewrite Rmin_left in Hx by lra. apply E. lra.
  - apply is_lim_ext_loc with (fun b => RInt f 0 b); [|exact Lm]. exists 0. intros b Hb. apply RInt_ext. intros x Hx. rewrite Rmin_left in Hx by lra. apply E. lra.
Qed.
Lemma osc_area c g A : 0 <= c -> 0 < g -> integral_to_infinity (fun x => A * hh c g x) (PI / 2 * A).
Proof.
  intros Hc Hg. destruct (Req_dec c 0) as [->|N].
  - apply (integral_pos_ext (fun x => A * (g / (x ^ 2 + g ^ 2)))).
    + intros x Hx. f_equal. unfold hh. assert (0 < x ^ 2) by (now apply pow_lt). assert (0 < g ^ 2) by (now apply pow_lt). assert (0 < g ^ 2 * x ^ 2) by (now apply Rmult_lt_0_compat). field. split; intro; nra.
    + split.
      * intros b _. apply (ex_RInt_scal (V := R_NormedModule)). eexists. now apply free_ex.
      * replace (PI / 2 * A) with (A * (PI / 2)) by ring. apply is_lim_ext with (fun b => A * atan (b / g)).
        -- intro b. symmetry. apply (is_RInt_unique (V := R_CompleteNormedModule)). apply (is_RInt_scal (V := R_NormedModule)). now apply free_ex.
        -- apply (is_lim_scal_l _ A p_infty (PI / 2)). now apply free_lim.
  - split.
    + intros b Hb. apply (ex_RInt_scal (V := R_NormedModule)). apply hh_ex; lra.
    + replace (PI / 2 * A) with (A * (PI / 2)) by ring. apply is_lim_ext_loc with (fun b => A * RInt (hh c g) 0 b).
      * exists 0. intros b Hb. symmetry. apply (RInt_scal (V := R_CompleteNormedModule)). apply hh_ex; lra.
      * apply (is_lim_scal_l _ A p_infty (PI / 2)). apply hh_total; lra.
Qed.

(** C102. The sum rules. The area under nu Im eps is pi/2 times the strength of the oscillator, whatever its frequency, damping and background. *)
Lemma C102_sum_rule_proof :
  (forall nu_j gamma A eps_inf (w : R -> R), 0 < gamma ->
     (forall nu, 0 < nu -> exists v, lorentz_perm nu nu_j gamma (Some A) None None (Some eps_inf) = Ok (Some v) /\ w nu = nu * Im v) ->
     integral_to_infinity w (PI / 2 * A)) /\
  (forall nu_plasma gamma eps_inf (w : R -> R), 0 < gamma ->
     (forall nu, 0 < nu -> exists v, drude_perm nu nu_plasma gamma eps_inf = Ok (Some v) /\ w nu = nu * Im v) ->
     integral_to_infinity w (PI / 2 * nu_plasma ^ 2)).
Proof.
  assert (G : forall nu_j gamma A eps_inf (w : R -> R), 0 < gamma ->
     (forall nu, 0 < nu -> exists v, lorentz_perm nu nu_j gamma (Some A) None None (Some eps_inf) = Ok (Some v) /\ w nu = nu * Im v) ->
     integral_to_infinity w (PI / 2 * A)).
  { intros nu_j g A e w Hg H. apply (integral_pos_ext (fun x => A * hh (nu_j ^ 2) g x)); [|apply osc_area; [apply pow2_ge_0|exact Hg]].
    intros x Hx. destruct (H x Hx) as [v [E ->]]. rewrite lorentz_Dn in E by lra.
    apply (f_equal (fun y => match y with Ok (Some u) => u | _ => v end)) in E. cbn beta iota in E. subst v. symmetry. now apply hh_osc. }
  split; [exact G|]. intros p g e w Hg H. apply (G 0 g (p ^ 2) (given_or 1 e) w Hg). intros nu Hn. destruct (H nu Hn) as [v [E W]]. exists v. split; [|exact W].
  rewrite <- E. rewrite C46_drude_value_proof, lorentz_Dn by lra. do 2 f_equal. unfold Cminus, Cdiv. f_equal.
  assert (0 < nu ^ 2) by (now apply pow_lt). assert (0 < g * nu) by (now apply Rmult_lt_0_compat).
  unfold Dn, Cinv, Cmult, Copp, Cplus, RtoC. cbn [fst snd]. apply injective_projections; cbn [fst snd]; field; repeat split; intro; nra.
Qed.

(** C102. The area under nu Im of the reflection coefficient, and under nu Im of the polarizability of tip and sample at any height: independent of
    the damping and of the frequency of the sample's oscillator. *)
Lemma C102_near_field_area_proof :
  forall (D : Defaults) (e0 nu_j gamma A eps_inf : R) (eps : R -> C) nu_vac q z_tip r_tip eps_tip alpha_tip (alpha : R) (v w : R -> R),
  let z := given_or (d_z_tip D) z_tip in let r := given_or (d_r_tip D) r_tip in
  let f := coupling alpha (r + z) in
  0 < e0 -> 0 < eps_inf -> 0 < gamma -> 0 < A ->
  (forall nu, 0 < nu -> lorentz_perm nu nu_j gamma (Some A) None None (Some eps_inf) = Ok (Some (eps nu))) ->
  ((forall nu, 0 < nu -> exists b, refl_coef_qs (stack [RtoC e0; eps nu] [] nu_vac) (rr q) = Ok (Some b) /\ v nu = nu * Im b) ->
   integral_to_infinity v (PI * e0 * A / (eps_inf + e0) ^ 2)) /\
  (tip_alpha r eps_tip alpha_tip (RtoC alpha) -> 0 < alpha -> 0 < r + z -> f < 1 ->
   (forall nu, 0 < nu -> exists a, pdm_eff_pol D (stack [RtoC e0; eps nu] [] nu_vac) z_tip r_tip eps_tip alpha_tip = Ok (Some a) /\ w nu = nu * Im a) ->
   integral_to_infinity w (PI * alpha * f * e0 * A / ((1 - f) * eps_inf + (1 + f) * e0) ^ 2)).
Proof.
  intros D e0 nu_j g A E eps nv q z_tip r_tip et at_ a v w z r f He HE Hg HA Hl.
  assert (Ne : forall nu, 0 < nu -> eps nu <> RtoC 0).
  { intros nu Hn Z. destruct (C46_passive_proof nu nu_j g A (Some E) HA Hg Hn) as [x [Ex Ix]]. rewrite (Hl nu Hn) in Ex.
    apply (f_equal (fun y => match y with Ok (Some u) => u | _ => x end)) in Ex. cbn beta iota in Ex. rewrite <- Ex, Z in Ix. cbn in Ix. lra. }
  split.
  - intros H. assert (P : 0 <= nu_j ^ 2 + A / (E + e0)).
    { pose proof (pow2_ge_0 nu_j). assert (0 < A / (E + e0)) by (apply Rdiv_lt_0_compat; lra). lra. }
    replace (PI * e0 * A / (E + e0) ^ 2) with (PI / 2 * (2 * e0 * A / (E + e0) ^ 2)) by (field; lra).
    apply (proj1 C102_sum_rule_proof (sqrt (nu_j ^ 2 + A / (E + e0))) g _ ((E - e0) / (E + e0)) v Hg). intros nu Hn. destruct (H nu Hn) as [b [Eb Wb]]. exists b. split; [|exact Wb].
    rewrite <- Eb. symmetry. apply C102_reflection_proof with (nu_j := nu_j); try assumption; try lra; [|now apply Hl|now apply Ne].
    now rewrite pow2_sqrt.
  - intros Ha Hp Hz Hf H. pose proof (coupling_pos a (r + z) Hp Hz) as Hc. fold f in Hc. pose proof (resonant_below e0 f He (conj Hc Hf)) as Hx.
    assert (P : 0 <= resonant_nu2 nu_j A E e0 f).
    { unfold resonant_nu2. pose proof (pow2_ge_0 nu_j). assert (0 < A / (E - resonant_eps e0 f)) by (apply Rdiv_lt_0_compat; lra). lra. }
    assert (Q : (1 - f) * (E - resonant_eps e0 f) = (1 - f) * E + (1 + f) * e0) by (unfold resonant_eps; field; lra).
    replace (PI * a * f * e0 * A / ((1 - f) * E + (1 + f) * e0) ^ 2) with (PI / 2 * (2 * a * f * e0 * A / ((1 - f) ^ 2 * (E - resonant_eps e0 f) ^ 2)))
      by (rewrite <- Q; field; lra).
    apply (proj1 C102_sum_rule_proof (sqrt (resonant_nu2 nu_j A E e0 f)) g _ (a * (E + e0) / ((1 - f) * (E - resonant_eps e0 f))) w Hg).
    intros nu Hn. destruct (H nu Hn) as [b [Eb Wb]]. exists b. split; [|exact Wb].
    rewrite <- Eb. symmetry. apply (C102_pdm_proof D e0 nu nu_j g A E _ (eps nu) nv z_tip r_tip et at_ a Ha); fold z r f; try assumption; try lra; [|now apply Hl|now apply Ne].
    now rewrite pow2_sqrt.
Qed.

(** C102: nu_j = 1, gamma = 1, A = 6, eps_inf = 2 in vacuum, with the default conducting tip in contact (f = 1/4): at nu = 1 eps = 2 + 6i; the surface mode is at
    sqrt 3, where beta = 1/3 + (4/3) i / sqrt 3; the area under nu Im beta is 2 pi / 3; and the oscillator of tip and sample is at nu^2 = 1 + 18/11. *)
Lemma C102_example_proof :
  lorentz_perm 1 1 1 (Some 6) None None (Some 2) = Ok (Some (2, 6)) /\
  refl_coef_qs (stack [RtoC 1; (2, 6)] [] None) (rr 0) = lorentz_perm 1 (sqrt 3) 1 (Some (4 / 3)) None None (Some (1 / 3)) /\
  pdm_eff_pol defaults0 (stack [RtoC 1; (2, 6)] [] None) (Some 0) None None None
  = lorentz_perm 1 (sqrt (29 / 11)) 1 (Some (4 * PI * d_r_tip defaults0 ^ 3 * (48 / 121))) None None (Some (4 * PI * d_r_tip defaults0 ^ 3 * (12 / 11))) /\
  coupling (4 * PI * d_r_tip defaults0 ^ 3) (d_r_tip defaults0 + 0) = 1 / 4.
Proof.
  pose proof PI_RGT_0 as HP. assert (R1 : 0 < d_r_tip defaults0) by (cbn; lra).
  assert (F : coupling (4 * PI * d_r_tip defaults0 ^ 3) (d_r_tip defaults0 + 0) = 1 / 4).
  { unfold coupling. rewrite Rplus_0_r. field. split; lra. }
  assert (E : lorentz_perm 1 1 1 (Some 6) None None (Some 2) = Ok (Some (2, 6))).
  { rewrite lorentz_Dn by lra. do 2 f_equal. unfold Dn, Cdiv, Cinv, Cmult, Cplus, RtoC. cbn [fst snd]. apply injective_projections; cbn [fst snd]; field. }
  assert (N : (2, 6) <> RtoC 0) by (intro Z; apply (f_equal fst) in Z; cbn in Z; lra).
  split; [exact E|]. split; [|split; [|exact F]].
  - pose proof (C102_reflection_proof 1 1 1 1 6 2 (sqrt 3) (2, 6) None 0) as K. etransitivity; [apply K; try lra; try assumption; rewrite pow2_sqrt; lra|].
    f_equal; f_equal; field.
  - assert (PA : 0 < 4 * PI * d_r_tip defaults0 ^ 3) by (apply Rmult_lt_0_compat; [lra|now apply pow_lt]).
    pose proof (C102_pdm_proof defaults0 1 1 1 1 6 2 (sqrt (29 / 11)) (2, 6) None (Some 0) None None None (4 * PI * d_r_tip defaults0 ^ 3) (tip_conductor _)) as K.
    cbn [given_or] in K. rewrite F in K. etransitivity; [apply K; try assumption; try lra|].
    + rewrite pow2_sqrt by lra. unfold resonant_nu2, resonant_eps. field.
    + f_equal; f_equal; unfold resonant_eps; field.
Qed.

(** C102: the same sample under a finite dipole tip with f_0 = f_1 = 1/2: the centre 3 of the surface mode moves by p = 4/5, to 11/5. *)
Lemma C102_fdm_example_proof :
  forall lg D, fdm_regular 0 (1 / 2) 1 1 /\ fdm_f 0 (1 / 2) 1 1 (RtoC (7 / 4)) = RtoC (1 / 2) /\
  fdm_eff_pol lg D (stack [RtoC 1; (2, 6)] [] None) (Some 0) (Some 1) (Some 1) (Some (RtoC (7 / 4))) (Some (1 / 2)) (Some (1 / 2)) None None None
  = lorentz_perm 1 (sqrt (11 / 5)) 1 (Some (12 / 25)) None None (Some (11 / 10)).
Proof.
  intros lg D. assert (R0 : fdm_regular 0 (1 / 2) 1 1) by (unfold fdm_regular; lra).
  assert (F : fdm_f 0 (1 / 2) 1 1 (RtoC (7 / 4)) = RtoC (1 / 2)).
  { rewrite f_at_0, <- RtoC_minus, <- RtoC_mult. f_equal. field. }
  split; [exact R0|]. split; [exact F|].
  destruct C102_example_proof as [E _]. assert (N : (2, 6) <> RtoC 0) by (intro Z; apply (f_equal fst) in Z; cbn in Z; lra).
  pose proof (C102_fdm_proof lg D 1 1 1 1 6 2 (2, 6) None (Some 0) (Some 1) (Some 1) (Some (RtoC (7 / 4))) (Some (1 / 2)) (Some (1 / 2)) None None None R0 R0) as K.
  cbn [given_or] in K. rewrite F in K.
  destruct K as [K _]; try assumption; try lra; [now left| |].
  - rewrite <- RtoC_mult. rewrite <- RtoC_minus. apply RtoC_neq_0. lra.
  - etransitivity; [exact K|]. rewrite lorentz_Dn by lra. f_equal. destruct (Ceq_dec _ _) as [Q|_].
    + exfalso. rewrite <- !RtoC_mult, <- RtoC_minus, <- RtoC_div in Q by lra. apply (f_equal snd) in Q. cbn in Q. lra.
    + f_equal. rewrite pow2_sqrt by lra.
      assert (V : (1 - RtoC (1 / 2) * RtoC ((2 - 1) / (2 + 1)))%C = RtoC (5 / 6)) by (rewrite <- RtoC_mult, <- RtoC_minus; f_equal; field).
      assert (W : (Dn (1 ^ 2 + 6 / (2 + 1)) 1 1 - RtoC (1 / 2) * RtoC (2 * 1 * 6 / (2 + 1) ^ 2) / RtoC (5 / 6))%C = Dn (11 / 5) 1 1).
      { rewrite <- RtoC_mult, <- RtoC_div by lra. unfold Dn, Cminus, Copp, Cplus, RtoC. cbn [fst snd]. f_equal; field. }
      assert (U1 : (RtoC (1 / 2) / 2)%C = RtoC (1 / 4)) by (rewrite <- RtoC_div by lra; f_equal; field).
      assert (U2 : (RtoC ((2 - 1) / (2 + 1)) / RtoC (5 / 6))%C = RtoC (2 / 5)) by (rewrite <- RtoC_div by lra; f_equal; field).
      assert (U3 : (RtoC (2 * 1 * 6 / (2 + 1) ^ 2) / (RtoC (5 / 6) * RtoC (5 / 6)))%C = RtoC (48 / 25)) by (rewrite <- RtoC_mult, <- RtoC_div by lra; f_equal; field).
      rewrite V. unfold Dn at 1 in W. rewrite W, U1, U2, U3. set (d := Dn (11 / 5) 1 1).
      transitivity (RtoC 1 + RtoC (1 / 4) * RtoC (2 / 5) + RtoC (1 / 4) * RtoC (48 / 25) / d)%C; [unfold Cdiv; ring|].
      rewrite <- !RtoC_mult, <- RtoC_plus. f_equal; [f_equal; field|]. f_equal. f_equal. field.
Qed.
