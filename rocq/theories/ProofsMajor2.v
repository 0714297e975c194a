(** * Proofs: contrast of absorbing samples in the finite dipole model *)
From Coq Require Import String Reals Lra Lia ZArith List Bool.
From Coquelicot Require Import Rcomplements Complex.
From Verif Require Import Num NumLemmas LimLemmas ModelBase ModelSample ModelTip StackLemmas Spec
  ProofsStackQS ProofsStackQS2 ProofsBulkFF ProofsSym ProofsPassive DemodLemmas ProofsDemod ProofsTip ProofsTip2 ProofsTip3
  ProofsTaylor PosDef ProofsContrast ProofsContrast2 SpecMajor Majorant ProofsMajor.
Import ListNotations.
Open Scope R_scope.

(** the geometry functions as real functions of the height *)
Lemma Re_fdm_f x d r L g : Re (fdm_f x d r L (RtoC g)) = fdm_r x d r L g.
Proof. rewrite fdm_f_real. reflexivity. Qed.

Section FDM.
Context (r L g A z dd0 dd1 rho : R) (N : nat) (HN : N <> O) (HA : 0 < A) (HrL : r < 4 * L)
  (R0 : in_reach z A dd0 r L g) (R1 : in_reach z A dd1 r L g) (Hr : 0 <= rho) (Hs : rho * fdm_r z dd1 r L g < 1).
Definition fF (k : nat) : R := / 2 * ff r L g A N z dd0 k.
Definition fG (k : nat) : R := ff r L g A N z dd1 k.
Lemma fWL : 0 < ln (4 * L / r).
Proof using HrL R0. rewrite <- ln_1; apply ln_increasing; [lra|]; apply Rlt_div_r; [apply R0|lra]. Qed.
Lemma fG_mult : mult N fG.
Proof using HN HA HrL R0 R1. apply (dom_mult N 0). apply ff_dom; [exact HN|exact HA|exact fWL|exact R1]. Qed.
Lemma fF_dom j : dom N j fF.
Proof using HN HA HrL R0. apply dom_scal; [lra|]. apply ff_dom; [exact HN|exact HA|exact fWL|exact R0]. Qed.
Lemma fF_pd : pd N fF.
Proof using HN HA HrL R0. apply mult_pd; [exact HN|]. apply (dom_mult N 0), fF_dom. Qed.
Lemma fG_bounded : forall k, (k < N)%nat -> Rabs (rho * fG k) < 1.
Proof using HA HrL R0 R1 Hr Hs. intros k _. apply ff_loop; [exact HA|exact fWL|exact R1|exact Hr|exact Hs]. Qed.
Lemma fc n : cosine z A n N (fun x => Re (fdm_f x dd0 r L (RtoC g)) / 2) = c1 N fF n.
Proof. unfold c1. rewrite cosine_harm. apply harm_ext. intros k _. rewrite Re_fdm_f. unfold fF, ff. field. Qed.
Lemma fd n : cosine z A n N (fun x => Re (fdm_f x dd0 r L (RtoC g)) / 2 / (1 - rho * Re (fdm_f x dd1 r L (RtoC g))) ^ 2) = d1 N fF fG rho n.
Proof. unfold d1. rewrite cosine_harm. apply harm_ext. intros k _. rewrite !Re_fdm_f. unfold fF, fG, ff. unfold Rdiv. ring. Qed.
End FDM.

Lemma fdm_value lg D s A n z_tip nt r_tip L_tip gf d_Q0 d_Q1 d_Qa n_lag m g b rho :
  let N := given_or (d_n_trapz D) nt in let z := given_or (d_z_tip D) z_tip in
  let r := given_or (d_r_tip D) r_tip in let L := given_or (d_L_tip D) L_tip in
  let d0 := given_or (131 / 100 * L / (L + 2 * r)) d_Q0 in let d1 := given_or (d_d_Q1 D) d_Q1 in
  given_or (d_g_factor D) gf = RtoC g -> m = None \/ m = Some "bulk"%string ->
  multilayer s = false -> refl_coef_qs s (rr 0) = Ok (Some b) -> N <> O -> 0 < A -> r < 4 * L ->
  in_reach z A d0 r L g -> in_reach z A d1 r L g -> Cmod b <= rho -> rho * fdm_r z d1 r L g < 1 ->
  fdm_eff_pol_n lg D s A n z_tip nt r_tip L_tip gf d_Q0 d_Q1 d_Qa n_lag m
  = Ok (Some (RtoC (sgn_pow n) * hC N n (fun k => 1 + loop (fF r L g A z d0 N) (fG r L g A z d1 N) b k))%C).
Proof.
  intros N z r L d0 d1 Hg Hmeth Hm Hb HN HA HrL R0 R1 Hb0 Hs.
  assert (EM : fdm_eff_pol_n lg D s A n z_tip nt r_tip L_tip gf d_Q0 d_Q1 d_Qa n_lag m
     = fdm_eff_pol_n lg D s A n z_tip nt r_tip L_tip gf d_Q0 d_Q1 d_Qa n_lag (Some "bulk"%string)).
  { destruct Hmeth as [-> | ->]; [now apply eff_pol_n_none_bulk|reflexivity]. }
  rewrite EM. pose proof (Cmod_ge_0 b) as Pb.
  assert (X : forall k, z <= tip_height z A N k) by (intros k; rewrite tip_height_cs; pose proof (cs_bound N k); nra).
  assert (NZ : forall k, (k < N)%nat -> (1 - b * RtoC (fG r L g A z d1 N k) <> 0)%C).
  { intros k Hk. apply (den N (fG r L g A z d1 N) rho); [|exact Hb0|exact Hk]. apply (fG_bounded r L g A z d0 d1 rho N); auto. lra. }
  rewrite (fdm_n_value lg D s A n z_tip nt r_tip L_tip gf d_Q0 d_Q1 d_Qa n_lag b Hm Hb HN).
  2:{ intros k Hk. cbv zeta. fold N z r L d0 d1. rewrite Hg, fdm_f_real. specialize (X k).
      destruct R0 as (A1 & A2 & A3 & _). destruct R1 as (_ & _ & A4 & _).
      split; [repeat split; lra|]. split; [repeat split; lra|]. exact (NZ k Hk). }
  fold N z r L d0 d1. rewrite Hg. f_equal. f_equal. rewrite tmean_complex by exact HN. f_equal. apply hC_ext. intros k Hk.
  rewrite !fdm_f_real. unfold loop. specialize (NZ k Hk). change (fdm_r (tip_height z A N k) d1 r L g) with (fG r L g A z d1 N k).
  replace (fF r L g A z d0 N k) with (fdm_r (tip_height z A N k) d0 r L g / 2) by (unfold fF, ff; field).
  rewrite RtoC_div by lra. field. split; [apply RtoC_neq_0; lra|exact NZ].
Qed.

(** C97. Finite dipole model with a real g factor over two arbitrary, possibly
    absorbing, bulk samples, as long as the geometry functions keep their sign
    along the stroke and the loop gain stays below 1: with c and d the n-th
    cosine coefficients of f0/2 and of f0/2/(1 - rho f1)^2, the difference of
    the n-th harmonics is (-1)^n c times the difference of the reflection
    coefficients up to d - c times its modulus. *)
Lemma C97_fdm_contrast_proof :
  forall (laggauss : laggauss_t) (D : Defaults) (s1 s2 : sample) (A_tip : R) (n : Z) (n_trapz : option nat)
    (z_tip r_tip L_tip : option R) (g_factor : option C) (d_Q0 d_Q1 d_Qa : option R) (n_lag : option nat) (g rho : R) (b1 b2 : C),
  let N := given_or (d_n_trapz D) n_trapz in let z := given_or (d_z_tip D) z_tip in
  let r := given_or (d_r_tip D) r_tip in let L := given_or (d_L_tip D) L_tip in
  let d0 := given_or (131 / 100 * L / (L + 2 * r)) d_Q0 in let d1 := given_or (d_d_Q1 D) d_Q1 in
  given_or (d_g_factor D) g_factor = RtoC g ->
  multilayer s1 = false -> multilayer s2 = false ->
  refl_coef_qs s1 (rr 0) = Ok (Some b1) -> refl_coef_qs s2 (rr 0) = Ok (Some b2) ->
  N <> O -> 0 < A_tip -> 0 < r < 4 * L -> 0 < r + 4 * z + 2 * r * d0 -> 0 < r + 4 * z + 2 * r * d1 ->
  r + 2 * (z + 2 * A_tip) + r * d0 <= 2 * L * g -> r + 4 * (z + 2 * A_tip) + 2 * r * d0 <= 4 * L ->
  r + 2 * (z + 2 * A_tip) + r * d1 <= 2 * L * g -> r + 4 * (z + 2 * A_tip) + 2 * r * d1 <= 4 * L ->
  Cmod b1 <= rho -> Cmod b2 <= rho -> rho * Re (fdm_f z d1 r L (RtoC g)) < 1 ->
  forall method, method = None \/ method = Some "bulk"%string ->
  let c := cosine z A_tip n N (fun x => Re (fdm_f x d0 r L (RtoC g)) / 2) in
  let d := cosine z A_tip n N (fun x => Re (fdm_f x d0 r L (RtoC g)) / 2 / (1 - rho * Re (fdm_f x d1 r L (RtoC g))) ^ 2) in
  0 < c <= d /\
  exists a1 a2 : C,
    fdm_eff_pol_n laggauss D s1 A_tip n z_tip n_trapz r_tip L_tip g_factor d_Q0 d_Q1 d_Qa n_lag method = Ok (Some a1) /\
    fdm_eff_pol_n laggauss D s2 A_tip n z_tip n_trapz r_tip L_tip g_factor d_Q0 d_Q1 d_Qa n_lag method = Ok (Some a2) /\
    Cmod (a1 - a2 - RtoC (sgn_pow n * c) * (b1 - b2))%C <= (d - c) * Cmod (b1 - b2)%C /\
    (2 * c - d) * Cmod (b1 - b2)%C <= Cmod (a1 - a2)%C <= d * Cmod (b1 - b2)%C.
Proof.
  intros lg D s1 s2 A n nt z_tip r_tip L_tip gf d_Q0 d_Q1 d_Qa n_lag g rho b1 b2 N z r L d0 d1 Hg M1 M2 H1 H2 HN HA [Hr HrL] P0 P1 G0 V0 G1 V1 Hb1 Hb2 Hs m Hmeth c d.
  rewrite Re_fdm_f in Hs.
  assert (R0 : in_reach z A d0 r L g) by (repeat split; lra). assert (R1 : in_reach z A d1 r L g) by (repeat split; lra).
  assert (Hrho : 0 <= rho) by (pose proof (Cmod_ge_0 b1); lra).
  assert (GM := fG_mult r L g A z d0 d1 N HN HA HrL R0 R1). assert (FP := fF_pd r L g A z d0 N HN HA HrL R0).
  assert (GB := fG_bounded r L g A z d0 d1 rho N HA HrL R0 R1 Hrho Hs).
  assert (Ec : c = c1 N (fF r L g A z d0 N) n) by (apply fc). assert (Ed : d = Majorant.d1 N (fF r L g A z d0 N) (fG r L g A z d1 N) rho n) by (apply fd).
  assert (Pc : 0 < c) by (rewrite Ec; unfold c1; apply dom_harm; [exact HN|]; now apply fF_dom).
  split; [split; [exact Pc|rewrite Ec, Ed; now apply c1_le_d1]|].
  eexists. eexists. split; [|split].
  - apply (fdm_value lg D s1 A n z_tip nt r_tip L_tip gf d_Q0 d_Q1 d_Qa n_lag m g b1 rho); auto.
  - apply (fdm_value lg D s2 A n z_tip nt r_tip L_tip gf d_Q0 d_Q1 d_Qa n_lag m g b2 rho); auto.
  - fold N z r L d0 d1. set (F := fF r L g A z d0 N) in *. set (G := fG r L g A z d1 N) in *.
    assert (LL := loop_diff N HN F G rho FP GM GB b1 b2 n Hb1 Hb2). rewrite <- Ec, <- Ed in LL.
    rewrite !(hC_plus N n (fun _ => RtoC 1)).
    set (W := (hC N n (loop F G b1) - hC N n (loop F G b2))%C) in *.
    set (K := hC N n (fun _ => RtoC 1)).
    replace (RtoC (sgn_pow n) * (K + hC N n (loop F G b1)) - RtoC (sgn_pow n) * (K + hC N n (loop F G b2)))%C with (RtoC (sgn_pow n) * W)%C by (unfold W; ring).
    split.
    + rewrite RtoC_mult. replace (RtoC (sgn_pow n) * W - RtoC (sgn_pow n) * RtoC c * (b1 - b2))%C with (RtoC (sgn_pow n) * (W - RtoC c * (b1 - b2)))%C by ring.
      rewrite sgn_Cmod. exact LL.
    + rewrite sgn_Cmod. apply two_sided; [lra|exact LL].
Qed.

(** C97. ... and the imaginary part, for one absorbing sample. *)
Lemma C97_fdm_phase_proof :
  forall (laggauss : laggauss_t) (D : Defaults) (s : sample) (A_tip : R) (n : Z) (n_trapz : option nat)
    (z_tip r_tip L_tip : option R) (g_factor : option C) (d_Q0 d_Q1 d_Qa : option R) (n_lag : option nat) (g rho : R) (b : C),
  let N := given_or (d_n_trapz D) n_trapz in let z := given_or (d_z_tip D) z_tip in
  let r := given_or (d_r_tip D) r_tip in let L := given_or (d_L_tip D) L_tip in
  let d0 := given_or (131 / 100 * L / (L + 2 * r)) d_Q0 in let d1 := given_or (d_d_Q1 D) d_Q1 in
  given_or (d_g_factor D) g_factor = RtoC g ->
  multilayer s = false -> refl_coef_qs s (rr 0) = Ok (Some b) ->
  N <> O -> 0 < A_tip -> 0 < r < 4 * L -> 0 < r + 4 * z + 2 * r * d0 -> 0 < r + 4 * z + 2 * r * d1 ->
  r + 2 * (z + 2 * A_tip) + r * d0 <= 2 * L * g -> r + 4 * (z + 2 * A_tip) + 2 * r * d0 <= 4 * L ->
  r + 2 * (z + 2 * A_tip) + r * d1 <= 2 * L * g -> r + 4 * (z + 2 * A_tip) + 2 * r * d1 <= 4 * L ->
  Cmod b <= rho -> rho * Re (fdm_f z d1 r L (RtoC g)) < 1 ->
  forall method, method = None \/ method = Some "bulk"%string ->
  let c := cosine z A_tip n N (fun x => Re (fdm_f x d0 r L (RtoC g)) / 2) in
  let d := cosine z A_tip n N (fun x => Re (fdm_f x d0 r L (RtoC g)) / 2 / (1 - rho * Re (fdm_f x d1 r L (RtoC g))) ^ 2) in
  exists a : C,
    fdm_eff_pol_n laggauss D s A_tip n z_tip n_trapz r_tip L_tip g_factor d_Q0 d_Q1 d_Qa n_lag method = Ok (Some a) /\
    Rabs (sgn_pow n * Im a - c * Im b) <= (d - c) * Rabs (Im b) /\
    (0 < Im b -> d < 2 * c -> 0 < sgn_pow n * Im a).
Proof.
  intros lg D s A n nt z_tip r_tip L_tip gf d_Q0 d_Q1 d_Qa n_lag g rho b N z r L d0 d1 Hg M1 H1 HN HA [Hr HrL] P0 P1 G0 V0 G1 V1 Hb1 Hs m Hmeth c d.
  rewrite Re_fdm_f in Hs.
  assert (R0 : in_reach z A d0 r L g) by (repeat split; lra). assert (R1 : in_reach z A d1 r L g) by (repeat split; lra).
  assert (Hrho : 0 <= rho) by (pose proof (Cmod_ge_0 b); lra).
  assert (GM := fG_mult r L g A z d0 d1 N HN HA HrL R0 R1). assert (FP := fF_pd r L g A z d0 N HN HA HrL R0).
  assert (GB := fG_bounded r L g A z d0 d1 rho N HA HrL R0 R1 Hrho Hs).
  assert (Ec : c = c1 N (fF r L g A z d0 N) n) by (apply fc). assert (Ed : d = Majorant.d1 N (fF r L g A z d0 N) (fG r L g A z d1 N) rho n) by (apply fd).
  eexists. split; [apply (fdm_value lg D s A n z_tip nt r_tip L_tip gf d_Q0 d_Q1 d_Qa n_lag m g b rho); auto|].
  fold N z r L d0 d1. set (F := fF r L g A z d0 N) in *. set (G := fG r L g A z d1 N) in *.
  assert (LL := loop_phase N HN F G rho FP GM GB b n Hb1). rewrite <- Ec, <- Ed in LL.
  rewrite (hC_plus N n (fun _ => RtoC 1)), (hC_real N n (fun _ => 1)).
  assert (E : sgn_pow n * Im (RtoC (sgn_pow n) * (RtoC (harm N n (fun _ => 1)) + hC N n (loop F G b)))%C = Im (hC N n (loop F G b))).
  { replace (Im (RtoC (sgn_pow n) * (RtoC (harm N n (fun _ => 1)) + hC N n (loop F G b)))%C) with (sgn_pow n * Im (hC N n (loop F G b))) by (unfold Im; cbn; ring).
    rewrite <- Rmult_assoc, sgn_sq. ring. }
  rewrite E. split; [exact LL|]. intros Pb Hd. rewrite (Rabs_pos_eq (Im b)) in LL by lra. apply Rabs_le_between in LL. nra.
Qed.
(** C97. Finite dipole model: no absorbing bulk sample gives a larger harmonic
    than the lossless one with the same modulus of the reflection coefficient. *)
Lemma C97_fdm_bound_proof :
  forall (laggauss : laggauss_t) (D : Defaults) (s s0 : sample) (A_tip : R) (n : Z) (n_trapz : option nat)
    (z_tip r_tip L_tip : option R) (g_factor : option C) (d_Q0 d_Q1 d_Qa : option R) (n_lag : option nat) (g rho : R) (b : C),
  let N := given_or (d_n_trapz D) n_trapz in let z := given_or (d_z_tip D) z_tip in
  let r := given_or (d_r_tip D) r_tip in let L := given_or (d_L_tip D) L_tip in
  let d0 := given_or (131 / 100 * L / (L + 2 * r)) d_Q0 in let d1 := given_or (d_d_Q1 D) d_Q1 in
  given_or (d_g_factor D) g_factor = RtoC g ->
  multilayer s = false -> multilayer s0 = false ->
  refl_coef_qs s (rr 0) = Ok (Some b) -> refl_coef_qs s0 (rr 0) = Ok (Some (RtoC rho)) ->
  N <> O -> 0 < A_tip -> 0 < r < 4 * L -> 0 < r + 4 * z + 2 * r * d0 -> 0 < r + 4 * z + 2 * r * d1 ->
  r + 2 * (z + 2 * A_tip) + r * d0 <= 2 * L * g -> r + 4 * (z + 2 * A_tip) + 2 * r * d0 <= 4 * L ->
  r + 2 * (z + 2 * A_tip) + r * d1 <= 2 * L * g -> r + 4 * (z + 2 * A_tip) + 2 * r * d1 <= 4 * L ->
  Cmod b <= rho -> rho * Re (fdm_f z d1 r L (RtoC g)) < 1 ->
  forall method, method = None \/ method = Some "bulk"%string ->
  exists a a0 : C,
    fdm_eff_pol_n laggauss D s A_tip n z_tip n_trapz r_tip L_tip g_factor d_Q0 d_Q1 d_Qa n_lag method = Ok (Some a) /\
    fdm_eff_pol_n laggauss D s0 A_tip n z_tip n_trapz r_tip L_tip g_factor d_Q0 d_Q1 d_Qa n_lag method = Ok (Some a0) /\
    Cmod a <= Cmod a0.
Proof.
  intros lg D s s0 A n nt z_tip r_tip L_tip gf d_Q0 d_Q1 d_Qa n_lag g rho b N z r L d0 d1 Hg M1 M2 H1 H2 HN HA [Hr HrL] P0 P1 G0 V0 G1 V1 Hb1 Hs m Hmeth.
  rewrite Re_fdm_f in Hs.
  assert (R0 : in_reach z A d0 r L g) by (repeat split; lra). assert (R1 : in_reach z A d1 r L g) by (repeat split; lra).
  assert (Hrho : 0 <= rho) by (pose proof (Cmod_ge_0 b); lra).
  assert (GM := fG_mult r L g A z d0 d1 N HN HA HrL R0 R1). assert (FP := fF_pd r L g A z d0 N HN HA HrL R0).
  assert (GB := fG_bounded r L g A z d0 d1 rho N HA HrL R0 R1 Hrho Hs).
  assert (Hb2 : Cmod (RtoC rho) <= rho) by (rewrite Cmod_R, Rabs_pos_eq; lra).
  eexists. eexists. split; [apply (fdm_value lg D s A n z_tip nt r_tip L_tip gf d_Q0 d_Q1 d_Qa n_lag m g b rho); auto|].
  split; [apply (fdm_value lg D s0 A n z_tip nt r_tip L_tip gf d_Q0 d_Q1 d_Qa n_lag m g (RtoC rho) rho); auto|].
  fold N z r L d0 d1. set (F := fF r L g A z d0 N) in *. set (G := fG r L g A z d1 N) in *.
  rewrite !sgn_Cmod.
  assert (PA : leq N (fun _ => RtoC 1) (fun _ => 1)) by (apply (leq_real N (fun _ => 1)), mult_pd; [exact HN|apply mult_const; lra]).
  assert (LL := leq_plus N _ _ _ _ PA (loop_maj N HN F G rho FP GM GB b Hb1)).
  eapply Rle_trans; [apply LL|].
  rewrite (hC_ext N n (fun k => RtoC 1 + loop F G (RtoC rho) k)%C (fun k => RtoC (1 + rho * F k / (1 - rho * G k)))).
  - rewrite (hC_real N n (fun k => 1 + rho * F k / (1 - rho * G k))), Cmod_R. apply Rle_abs.
  - intros k Hk. unfold loop. specialize (GB k Hk). apply Rabs_lt_between in GB.
    rewrite <- !RtoC_mult, <- RtoC_minus, <- RtoC_div, <- RtoC_plus by lra. f_equal. field. lra.
Qed.
