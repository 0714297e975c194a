(** * Proofs: finite-dipole results as n_lag grows *)
From Coq Require Import String Reals Lra Lia ZArith List Bool.
From Coquelicot Require Import Coquelicot.
From Coq Require Import List.
From Verif Require Import Num NumLemmas ModelBase ModelSample ModelTip StackLemmas Spec
  ProofsStackQS ProofsStackQS2 ProofsSym ProofsPassive DemodLemmas ProofsDemod ProofsTip ProofsTip2
  ProofsTaylor SpecQuad QuadConv ProofsQuad ProofsQuad2.
Import ListNotations.
Open Scope R_scope.

Lemma Cl_const c : Cseq_lim (fun _ => c) c.
Proof. split; apply is_lim_seq_const. Qed.
Lemma Cl_plus u v a b : Cseq_lim u a -> Cseq_lim v b -> Cseq_lim (fun n => u n + v n)%C (a + b)%C.
Proof. intros [H1 H2] [H3 H4]. split; [apply is_lim_seq_plus' with (1 := H1) (2 := H3)|apply is_lim_seq_plus' with (1 := H2) (2 := H4)]. Qed.
Lemma Cl_opp v b : Cseq_lim v b -> Cseq_lim (fun n => - v n)%C (- b)%C.
Proof. intros [H1 H2]. split; [exact (proj1 (is_lim_seq_opp _ _) H1)|exact (proj1 (is_lim_seq_opp _ _) H2)]. Qed.
Lemma Cl_minus u v a b : Cseq_lim u a -> Cseq_lim v b -> Cseq_lim (fun n => u n - v n)%C (a - b)%C.
Proof. intros H1 H2. apply Cl_plus; [exact H1|]. apply Cl_opp. exact H2. Qed.
Lemma Cl_div u v a b : b <> RtoC 0 -> Cseq_lim u a -> Cseq_lim v b -> Cseq_lim (fun n => u n / v n)%C (a / b)%C.
Proof. intros Hb H1 H2. apply Cl_mult; [exact H1|]. apply Cl_inv; assumption. Qed.
Lemma Cl_R (u : nat -> R) (l : R) : is_lim_seq u l -> Cseq_lim (fun n => RtoC (u n)) (RtoC l).
Proof. intros H. split; [exact H|apply is_lim_seq_const]. Qed.
Lemma Cl_shift u l : Cseq_lim (fun n => u (S n)) l -> Cseq_lim u l.
Proof. intros [H1 H2]. split; apply is_lim_seq_incr_1; assumption. Qed.
Lemma Cl_ext u v l : (forall n, u n = v n) -> Cseq_lim u l -> Cseq_lim v l.
Proof.
  intros E [H1 H2]. split; [apply (is_lim_seq_ext (fun n => Re (u n)))|apply (is_lim_seq_ext (fun n => Im (u n)))]; try assumption; intros n; now rewrite E.
Qed.
Lemma Cl_pow u l k : Cseq_lim u l -> Cseq_lim (fun n => Cpown (u n) k) (Cpown l k).
Proof. intros H. induction k as [|k IH]; cbn [Cpown]; [apply Cl_const|apply Cl_mult; assumption]. Qed.
Lemma Cl_unique u a b : Cseq_lim u a -> Cseq_lim u b -> a = b.
Proof.
  intros [H1 H2] [H3 H4]. apply is_lim_seq_unique in H1, H2, H3, H4. apply injective_projections.
  - rewrite H1 in H3. now injection H3.
  - rewrite H2 in H4. now injection H4.
Qed.

(** the effective polarizability from two charges (fdm.py:261) *)
Lemma combine_lim (b0 b1 f0 f1 : nat -> C) B0 B1 F0 F1 :
  Cseq_lim b0 B0 -> Cseq_lim b1 B1 -> Cseq_lim f0 F0 -> Cseq_lim f1 F1 -> (1 - B1 * F1 <> 0)%C ->
  exists N, (forall n, (N <= n)%nat ->
     (rc 1 + (Some (b0 n) * Some (f0 n)) / (rc 2 * (rc 1 - Some (b1 n) * Some (f1 n))))%cv
     = Some (1 + b0 n * f0 n / (2 * (1 - b1 n * f1 n)))%C) /\
  Cseq_lim (fun n => 1 + b0 n * f0 n / (2 * (1 - b1 n * f1 n)))%C (1 + B0 * F0 / (2 * (1 - B1 * F1)))%C.
Proof.
  intros H1 H2 H3 H4 H.
  assert (HD : Cseq_lim (fun n => 2 * (1 - b1 n * f1 n))%C (2 * (1 - B1 * F1))%C).
  { apply Cl_mult; [apply Cl_const|]. apply Cl_minus; [apply Cl_const|]. apply Cl_mult; assumption. }
  assert (HD0 : (2 * (1 - B1 * F1))%C <> RtoC 0) by (apply Cmult_neq_0; [apply C2_neq_0|exact H]).
  destruct (Cl_nonzero _ _ HD0 HD) as [N HN]. exists N. split.
  - intros n Hn. unfold rc, cmul, csub, cadd. cbn [olift2]. rewrite cdiv_ok; [reflexivity|]. apply HN. exact Hn.
  - apply Cl_plus; [apply Cl_const|]. apply Cl_div; [exact HD0| |exact HD]. apply Cl_mult; assumption.
Qed.

(** C60. method "Q_ave": as n_lag grows the effective polarizability tends to the
    one with the documented average (quotient of two integrals) in place of the
    quadrature sum. *)
Lemma C60_q_ave_converges_proof :
  forall (laggauss : laggauss_t) (D : Defaults) (e0 : C) (mid : list C) (en : C) (ts : list R) nu
    (z r L : R) (g : C) (d0 d1 da : R) (b : R -> C) (num : C) (den : R),
  (forall J, (0 < J)%nat -> documented_rule J (laggauss J)) ->
  length mid = length ts -> Forall (fun e => e <> RtoC 0) mid -> en <> RtoC 0 ->
  (forall q, 0 <= q -> refl_coef_qs (stack (e0 :: mid ++ [en]) ts nu) (rr q) = Ok (Some (b q))) ->
  let zQ := z + r * da in
  0 < zQ -> fdm_regular z d0 r L -> fdm_regular z d1 r L ->
  Cintegral_to_infinity (fun q => b q * RtoC (q * exp (- 2 * zQ * q)))%C num ->
  integral_to_infinity (fun q => q * exp (- 2 * zQ * q)) den ->
  let beta := (num / RtoC den)%C in
  (1 - beta * fdm_f z d1 r L g <> 0)%C ->
  exists (N : nat) (a : nat -> C),
    (forall n, (N <= n)%nat ->
       fdm_eff_pol laggauss D (stack (e0 :: mid ++ [en]) ts nu) (Some z) (Some r) (Some L) (Some g)
         (Some d0) (Some d1) (Some da) (Some n) (Some "Q_ave"%string) = Ok (Some (a n))) /\
    Cseq_lim a (1 + beta * fdm_f z d0 r L g / (2 * (1 - beta * fdm_f z d1 r L g)))%C.
Proof.
  intros lg D e0 mid en ts nu z r L g d0 d1 da b num den HR Hl Hm He Hb zQ HzQ G0 G1 I1 I2 beta HD.
  destruct (C59_average_converges_proof lg D e0 mid en ts nu zQ b HR Hl Hm He HzQ Hb) as (E & W & u & J1 & J2 & _ & Hs & HL).
  rewrite (Cintegral_unique _ _ _ J1 I1), (integral_unique _ _ _ J2 I2) in HL. fold beta in HL.
  destruct (combine_lim u u _ _ _ _ _ _ HL HL (Cl_const (fdm_f z d0 r L g)) (Cl_const (fdm_f z d1 r L g)) HD) as (N & Hc & HA).
  exists (S N), (fun n => 1 + u (pred n) * fdm_f z d0 r L g / (2 * (1 - u (pred n) * fdm_f z d1 r L g)))%C. split.
  - intros n Hn. destruct n as [|n]; [lia|]. unfold fdm_eff_pol, fdm_defaults. cbn [dflt].
    cbn [String.eqb Ascii.eqb Bool.eqb].
    change (rr z + rr r * rr da)%rv with (rr zQ). rewrite Hs. cbn [rbind].
    rewrite !geom_ok by assumption. rewrite Hc by lia. reflexivity.
  - apply Cl_shift. cbn [pred]. exact HA.
Qed.

Lemma geom_image_ok z d r L g : 0 < r -> 0 < L -> r <> 4 * L -> 0 < r + 2 * z + 2 * d ->
  fdm_geom_func_multi (rr z) (rr d) (rr r) (rr L) (Some g) = Some (fdm_f_image z d r L g).
Proof.
  intros Hr HL H4 Hp. unfold fdm_geom_func_multi, radd, rmul, rr. cbn [olift2].
  rewrite !rdiv_ok by lra. unfold ofR. cbn [olift1].
  assert (H1 : 0 < 4 * L / (r + 2 * z + 2 * d)) by (apply Rdiv_lt_0_compat; lra).
  assert (H2 : 0 < 4 * L / r) by (apply Rdiv_lt_0_compat; lra).
  assert (H3 : ln (4 * L / r) <> 0).
  { apply ln_neq_0; [exact H2|]. intros E. apply H4.
    replace (4 * L) with (4 * L / r * r) by (field; lra). rewrite E. ring. }
  rewrite !rln_ok by assumption. cbn [olift1]. unfold csub, cmul. cbn [olift2].
  rewrite cdiv_ok by (now apply RtoC_neq_0). f_equal. unfold fdm_f_image. rewrite (RtoC_div (ln _)) by exact H3.
  unfold Cdiv. ring.
Qed.
Lemma geom_image_lim z (d : nat -> R) l r L g : 0 < r -> 0 < L -> 0 < r + 2 * z + 2 * l ->
  is_lim_seq d l -> Cseq_lim (fun n => fdm_f_image z (d n) r L g) (fdm_f_image z l r L g).
Proof.
  intros Hr HL Hp H. unfold fdm_f_image. apply Cl_mult.
  - apply Cl_minus; [apply Cl_const|]. apply Cl_R. apply lim_div.
    apply (is_lim_seq_plus' (fun _ => r + z) d (r + z) l); [apply is_lim_seq_const|exact H].
  - apply Cl_R. apply (lim_div (fun n => ln (4 * L / (r + 2 * z + 2 * d n)))).
    assert (HQ : is_lim_seq (fun n => 4 * L / (r + 2 * z + 2 * d n)) (4 * L / (r + 2 * z + 2 * l))).
    { apply (is_lim_seq_div' (fun _ => 4 * L) (fun n => r + 2 * z + 2 * d n)); [apply is_lim_seq_const| |lra].
      apply (is_lim_seq_plus' (fun _ => r + 2 * z) (fun n => 2 * d n)); [apply is_lim_seq_const|].
      apply (is_lim_seq_mult' (fun _ => 2) d); [apply is_lim_seq_const|exact H]. }
    apply (is_lim_seq_continuous ln (fun n => 4 * L / (r + 2 * z + 2 * d n)) (4 * L / (r + 2 * z + 2 * l))); [|exact HQ].
    apply continuity_pt_filterlim. apply continuous_ln. apply Rdiv_lt_0_compat; lra.
Qed.
Lemma lim_eventually_pos (u : nat -> R) l : 0 < l -> is_lim_seq u l -> exists N, forall n, (N <= n)%nat -> 0 < u n.
Proof.
  intros Hl H. apply is_lim_seq_spec in H. destruct (H (mkposreal l Hl)) as [N HN]. exists N. intros n Hn.
  specialize (HN n Hn). simpl in HN. apply Rabs_def2 in HN. lra.
Qed.

(** C60. method "multi": as n_lag grows the effective polarizability tends to the
    one with the documented depths |phi/E| - z_Q and charges phi^2/E of the two
    documented integrals in place of the quadrature sums. *)
Lemma C60_multi_converges_proof :
  forall (laggauss : laggauss_t) (D : Defaults) (e0 : C) (mid : list C) (en : C) (ts : list R) nu
    (z r L : R) (g : C) (d0 d1 da : R) (b : R -> C) (phi0 E0 phi1 E1 : C),
  (forall J, (0 < J)%nat -> documented_rule J (laggauss J)) ->
  length mid = length ts -> Forall (fun e => e <> RtoC 0) mid -> en <> RtoC 0 ->
  (forall q, 0 <= q -> refl_coef_qs (stack (e0 :: mid ++ [en]) ts nu) (rr q) = Ok (Some (b q))) ->
  let z0 := z + r * d0 in let z1 := z + r * d1 in
  0 < z0 -> 0 < z1 -> 0 < r -> 0 < L -> r <> 4 * L ->
  Cintegral_to_infinity (fun q => b q * RtoC (exp (- 2 * z0 * q)))%C phi0 ->
  Cintegral_to_infinity (fun q => b q * RtoC (q * exp (- 2 * z0 * q)))%C E0 -> E0 <> RtoC 0 ->
  Cintegral_to_infinity (fun q => b q * RtoC (exp (- 2 * z1 * q)))%C phi1 ->
  Cintegral_to_infinity (fun q => b q * RtoC (q * exp (- 2 * z1 * q)))%C E1 -> E1 <> RtoC 0 ->
  let im0 := Cmod (phi0 / E0)%C - z0 in let im1 := Cmod (phi1 / E1)%C - z1 in
  0 < r + 2 * z + 2 * im0 -> 0 < r + 2 * z + 2 * im1 ->
  let f0 := fdm_f_image z im0 r L g in let f1 := fdm_f_image z im1 r L g in
  (1 - phi1 * phi1 / E1 * f1 <> 0)%C ->
  exists (N : nat) (a : nat -> C),
    (forall n, (N <= n)%nat ->
       fdm_eff_pol laggauss D (stack (e0 :: mid ++ [en]) ts nu) (Some z) (Some r) (Some L) (Some g)
         (Some d0) (Some d1) (Some da) (Some n) (Some "multi"%string) = Ok (Some (a n))) /\
    Cseq_lim a (1 + phi0 * phi0 / E0 * f0 / (2 * (1 - phi1 * phi1 / E1 * f1)))%C.
Proof.
  intros lg D e0 mid en ts nu z r L g d0 d1 da b phi0 E0 phi1 E1 HR Hl Hm He Hb z0 z1 Hz0 Hz1 Hr HL H4
    I0 J0 HE0 I1 J1 HE1 im0 im1 Hp0 Hp1 f0 f1 HD.
  destruct (C59_image_converges_proof lg D e0 mid en ts nu z0 b phi0 E0 HR Hl Hm He Hz0 Hb I0 J0 HE0) as (N0 & u0 & c0 & Hs0 & L0 & M0).
  destruct (C59_image_converges_proof lg D e0 mid en ts nu z1 b phi1 E1 HR Hl Hm He Hz1 Hb I1 J1 HE1) as (N1 & u1 & c1 & Hs1 & L1 & M1).
  fold im0 in L0. fold im1 in L1.
  assert (P : forall u im, 0 < r + 2 * z + 2 * im -> is_lim_seq u im -> exists N, forall n, (N <= n)%nat -> 0 < r + 2 * z + 2 * u n).
  { intros u im Hp Hu. apply (lim_eventually_pos (fun n => r + 2 * z + 2 * u n) _ Hp).
    apply (is_lim_seq_plus' (fun _ => r + 2 * z) (fun n => 2 * u n)); [apply is_lim_seq_const|].
    apply (is_lim_seq_mult' (fun _ => 2) u); [apply is_lim_seq_const|exact Hu]. }
  destruct (P u0 im0 Hp0 L0) as [N2 P0]. destruct (P u1 im1 Hp1 L1) as [N3 P1].
  pose proof (geom_image_lim z u0 im0 r L g Hr HL Hp0 L0) as F0. pose proof (geom_image_lim z u1 im1 r L g Hr HL Hp1 L1) as F1.
  destruct (combine_lim c0 c1 _ _ _ _ _ _ M0 M1 F0 F1 HD) as (N & Hc & HA).
  eexists (N0 + N1 + N2 + N3 + N)%nat, _. split; [|exact HA].
  intros n Hn. unfold fdm_eff_pol, fdm_defaults. cbn [dflt]. cbn [String.eqb Ascii.eqb Bool.eqb].
  change (rr z + rr r * rr d0)%rv with (rr z0). change (rr z + rr r * rr d1)%rv with (rr z1).
  rewrite Hs0, Hs1 by lia. cbn [rbind fst snd].
  change (@Some R) with rr. rewrite !geom_image_ok by (try assumption; (apply P0 || apply P1); lia).
  rewrite Hc by lia. reflexivity.
Qed.

Lemma Csum_map_seq (g : nat -> C) : forall N, Csum (map g (seq 0 N)) = Csum_to g N.
Proof.
  intros N. induction N as [|N IH]; [reflexivity|]. rewrite seq_S, map_app. cbn [Csum_to]. rewrite <- IH. cbn [map plus].
  rewrite Csum_app. unfold Csum. cbn [fold_right]. f_equal. apply Cplus_0_r.
Qed.
Lemma Cl_sum (u : nat -> nat -> C) (l : nat -> C) : forall N,
  (forall k, (k < N)%nat -> Cseq_lim (fun n => u n k) (l k)) -> Cseq_lim (fun n => Csum_to (u n) N) (Csum_to l N).
Proof.
  induction N as [|N IH]; intros H; cbn [Csum_to]; [apply Cl_const|]. apply Cl_plus; [|apply H; lia].
  apply IH. intros k Hk. apply H. lia.
Qed.
(** finitely many sequences are all defined from some point on *)
Lemma all_eventually (P : nat -> nat -> Prop) : forall N,
  (forall k, (k < N)%nat -> exists M, forall n, (M <= n)%nat -> P k n) ->
  exists M, forall n, (M <= n)%nat -> forall k, (k < N)%nat -> P k n.
Proof.
  induction N as [|N IH]; intros H; [exists O; intros n _ k Hk; lia|].
  destruct IH as [M1 H1]; [intros k Hk; apply H; lia|]. destruct (H N ltac:(lia)) as [M2 H2].
  exists (M1 + M2)%nat. intros n Hn k Hk. destruct (Nat.eq_dec k N) as [->|Hne]; [apply H2; lia|apply H1; lia].
Qed.

(** C60. Hence the demodulated signal of a multilayer sample converges as well:
    if eff_pol converges at every sampled tip height, eff_pol_n converges to the
    harmonic of the limits. *)
Lemma C60_harmonics_converge_proof :
  forall (laggauss : laggauss_t) (D : Defaults) (s : sample) (A : R) (h : Z) (z : R) (n_trapz : option nat)
    (r L : R) (g : C) (d0 d1 da : R) (m : string) (alpha : R -> C),
  let N := given_or (d_n_trapz D) n_trapz in
  (0 < N)%nat -> (2 <= length (eps_stack s))%nat -> m = "multi"%string \/ m = "Q_ave"%string ->
  (forall k, (k < N)%nat -> exists (M : nat) (a : nat -> C),
     (forall n, (M <= n)%nat ->
        fdm_eff_pol laggauss D s (Some (tip_height z A N k)) (Some r) (Some L) (Some g)
          (Some d0) (Some d1) (Some da) (Some n) (Some m) = Ok (Some (a n))) /\
     Cseq_lim a (alpha (tip_height z A N k))) ->
  exists (M : nat) (a : nat -> C),
    (forall n, (M <= n)%nat ->
       fdm_eff_pol_n laggauss D s A h (Some z) n_trapz (Some r) (Some L) (Some g)
          (Some d0) (Some d1) (Some da) (Some n) (Some m) = Ok (Some (a n))) /\
    Cseq_lim a (Csum_to (fun k => let theta := (2 * PI * INR k / INR N - PI)%R in
                           alpha (tip_height z A N k) * (cos (IZR h * theta), - sin (IZR h * theta))%R)%C N / RtoC (INR N))%C.
Proof.
  intros lg D s A h z nt r L g d0 d1 da m alpha N HN Hs Hm H.
  set (E := fun x n => fdm_eff_pol lg D s (Some x) (Some r) (Some L) (Some g) (Some d0) (Some d1) (Some da) (Some n) (Some m)).
  set (v := fun n x => match E x n with Ok (Some c) => c | _ => RtoC 0 end).
  assert (Hall : forall k, (k < N)%nat -> (exists M, forall n, (M <= n)%nat -> E (tip_height z A N k) n = Ok (Some (v n (tip_height z A N k)))) /\
     Cseq_lim (fun n => v n (tip_height z A N k)) (alpha (tip_height z A N k))).
  { intros k Hk. destruct (H k Hk) as (M & a & Ha & HL).
    assert (Ev : forall n, (M <= n)%nat -> v n (tip_height z A N k) = a n).
    { intros n Hn. unfold v, E. rewrite Ha by exact Hn. reflexivity. }
    split.
    - exists M. intros n Hn. rewrite Ev by exact Hn. apply Ha. exact Hn.
    - destruct HL as [H1 H2]. split.
      + apply (is_lim_seq_ext_loc (fun n => Re (a n))); [|exact H1]. exists M. intros n Hn. rewrite Ev by exact Hn. reflexivity.
      + apply (is_lim_seq_ext_loc (fun n => Im (a n))); [|exact H2]. exists M. intros n Hn. rewrite Ev by exact Hn. reflexivity. }
  destruct (all_eventually (fun k n => E (tip_height z A N k) n = Ok (Some (v n (tip_height z A N k)))) N) as [M HM].
  { intros k Hk. apply Hall. exact Hk. }
  exists (S M), (fun n => tmean z A h N (v n)). split.
  - intros n Hn. unfold fdm_eff_pol_n. cbn [dflt]. apply demod_tip.
    + unfold N in *. lia.
    + intros x. destruct (C33_eff_pol_raises_proof lg D s (Some x) (Some r) (Some L) (Some g) (Some d0) (Some d1) (Some da) (Some n) m Hs) as (_ & _ & K & _).
      { cbn [given_or]. lia. }
      apply K. tauto.
    + intros k Hk. apply HM; [lia|exact Hk].
  - unfold tmean, cmean. rewrite <- (Csum_map_seq _ N).
    assert (HN0 : RtoC (INR N) <> RtoC 0) by (apply RtoC_neq_0, not_0_INR; lia).
    apply Cl_div; [exact HN0| |apply Cl_const]. rewrite Csum_map_seq.
    apply (Cl_ext (fun n => Csum_to (fun k => v n (tip_height z A N k) * ph h (node N k))%C N)); [intros n; symmetry; apply Csum_map_seq|].
    apply (Cl_sum (fun n k => v n (tip_height z A N k) * ph h (node N k))%C). intros k Hk.
    apply Cl_mult; [apply Hall; exact Hk|].
    replace (cos (IZR h * (2 * PI * INR k / INR N - PI)), - sin (IZR h * (2 * PI * INR k / INR N - PI))) with (ph h (node N k)); [apply Cl_const|].
    unfold ph, Cexp, node, Re, Im. cbn [fst snd]. rewrite exp_0, cos_neg, sin_neg.
    replace (- PI + INR k * (2 * PI / INR N)) with (2 * PI * INR k / INR N - PI) by (unfold Rdiv; ring).
    apply injective_projections; simpl; ring.
Qed.

(** C60. The Taylor version with the averaged coefficient converges without any
    condition on denominators. *)
Lemma C60_taylor_converges_proof :
  forall (laggauss : laggauss_t) (D : Defaults) (e0 : C) (mid : list C) (en : C) (ts : list R) nu
    (A : R) (h : Z) (z r L : R) (g : C) (d0 d1 da : R) (n_trapz : option nat) (J : nat) (c : nat -> C)
    (b : R -> C) (num : C) (den : R),
  (forall J, (0 < J)%nat -> documented_rule J (laggauss J)) ->
  length mid = length ts -> Forall (fun e => e <> RtoC 0) mid -> en <> RtoC 0 ->
  (forall q, 0 <= q -> refl_coef_qs (stack (e0 :: mid ++ [en]) ts nu) (rr q) = Ok (Some (b q))) ->
  let zQ := z + r * da in
  0 < zQ ->
  Cintegral_to_infinity (fun q => b q * RtoC (q * exp (- 2 * zQ * q)))%C num ->
  integral_to_infinity (fun q => q * exp (- 2 * zQ * q)) den ->
  (forall j, (j < J)%nat -> fdm_taylor_coef D z j A h (rr r) (rr L) (Some g) (rr d0) (rr d1) n_trapz = Ok (Some (c j))) ->
  let beta := (num / RtoC den)%C in
  exists a : nat -> C,
    (forall n, fdm_eff_pol_n_taylor laggauss D (stack (e0 :: mid ++ [en]) ts nu) A h (Some z) (Some r) (Some L) (Some g)
         (Some d0) (Some d1) (Some da) (Some (S n)) (Some "Q_ave"%string) n_trapz (Some J) = Ok (Some (a n))) /\
    Cseq_lim a (Csum_to (fun j => c j * Cpown beta j)%C J).
Proof.
  intros lg D e0 mid en ts nu A h z r L g d0 d1 da nt J c b num den HR Hl Hm He Hb zQ HzQ I1 I2 Hc beta.
  destruct (C59_average_converges_proof lg D e0 mid en ts nu zQ b HR Hl Hm He HzQ Hb) as (E & W & u & J1 & J2 & _ & Hs & HL).
  rewrite (Cintegral_unique _ _ _ J1 I1), (integral_unique _ _ _ J2 I2) in HL. fold beta in HL.
  exists (fun n => Csum_to (fun j => c j * Cpown (u n) j)%C J). split.
  - intros n. unfold fdm_eff_pol_n_taylor, fdm_defaults. cbn [dflt]. cbn [String.eqb Ascii.eqb Bool.eqb].
    change (rr z + rr r * rr da)%rv with (rr zQ). rewrite Hs. cbn [rbind].
    rewrite (mapM_ok _ (fun j => Some (c j * Cpown (u n) j)%C)).
    + cbn [rbind]. rewrite (csum_map_Some _ (fun j => c j * Cpown (u n) j)%C) by (intros; reflexivity). now rewrite Csum_map_seq.
    + intros j Hj. apply in_seq in Hj. rewrite Hc by lia. reflexivity.
  - apply (Cl_sum (fun n j => c j * Cpown (u n) j)%C). intros j Hj. apply Cl_mult; [apply Cl_const|]. apply Cl_pow. exact HL.
Qed.

(** C60: concrete cases, both for a resonant film on a weakly absorbing substrate *)
Lemma C60_example_q_ave_proof : forall (D : Defaults),
  exists (laggauss : laggauss_t) (beta : C) (N : nat) (a : nat -> C),
  (forall J, (0 < J)%nat -> documented_rule J (laggauss J)) /\ 0 < Im beta /\
  (forall n, (N <= n)%nat ->
     fdm_eff_pol laggauss D (stack [RtoC 1; (-2, 1/10)%R; (11, 1/100)%R] [30] None)
       (Some 1) (Some 20) (Some 300) (Some (RtoC (7/10))) (Some (1/2)) (Some (1/2)) (Some (7/5)) (Some n) (Some "Q_ave"%string)
     = Ok (Some (a n))) /\
  Cseq_lim a (1 + beta * fdm_f 1 (1/2) 20 300 (RtoC (7/10)) / (2 * (1 - beta * fdm_f 1 (1/2) 20 300 (RtoC (7/10)))))%C.
Proof.
  intros D. exists documented_laggauss.
  assert (Hm : Forall (fun e => e <> RtoC 0 /\ 0 <= Im e) [(-2, 1/10)%R]).
  { constructor; [|constructor]. split; [apply C_neq_0; lra|unfold Im; simpl; lra]. }
  assert (Hm' : Forall (fun e => e <> RtoC 0) [(-2, 1/10)%R]) by (constructor; [apply C_neq_0; lra|constructor]).
  assert (Ht : Forall (fun t => 0 <= t) [30]) by (constructor; [lra|constructor]).
  destruct (C59_lossy_substrate_converges_proof documented_laggauss D 1 [(-2, 1/10)%R] (11, 1/100)%R [30] None (1 + 20 * (7/5)))
    as (b & phi & E & u & v & _ & _ & _ & _ & Hb & _ & HE & _ & PE & _).
  - apply documented_laggauss_ok.
  - reflexivity.
  - lra.
  - exact Hm.
  - unfold Im; simpl; lra.
  - exact Ht.
  - lra.
  - set (z := 1 + 20 * (7/5)) in *. set (W := 1 / (4 * z ^ 2)).
    assert (Hz : 0 < z) by (unfold z; lra).
    assert (HW : 0 < W) by (unfold W; apply Rdiv_lt_0_compat; [lra|pose proof (pow_lt z 2 Hz); lra]).
    set (beta := (E / RtoC W)%C).
    assert (Pb : 0 < Im beta).
    { unfold beta. rewrite RtoC_div_parts by lra. apply Rdiv_lt_0_compat; assumption. }
    exists beta.
    set (f := ((7/10 - (20 + 2 * 1 + 20 * (1/2)) / (2 * 300)) * (ln (4 * 300 / (20 + 4 * 1 + 2 * 20 * (1/2))) / ln (4 * 300 / 20)))).
    assert (Ef : fdm_f 1 (1/2) 20 300 (RtoC (7/10)) = RtoC f).
    { unfold fdm_f, f. rewrite <- RtoC_minus, <- RtoC_mult. reflexivity. }
    destruct (C60_q_ave_converges_proof documented_laggauss D 1 [(-2, 1/10)%R] (11, 1/100)%R [30] None
                1 20 300 (RtoC (7/10)) (1/2) (1/2) (7/5) b E W) as (N & a & H1 & H2).
    + apply documented_laggauss_ok.
    + reflexivity.
    + exact Hm'.
    + apply C_neq_0; lra.
    + exact Hb.
    + exact Hz.
    + unfold fdm_regular. lra.
    + unfold fdm_regular. lra.
    + exact HE.
    + apply weight_integral. exact Hz.
    + fold beta. rewrite Ef. intros K.
      assert (K2 : - (Im beta * f) = 0) by (transitivity (Im (1 - beta * RtoC f)%C); [unfold Im; simpl; ring|rewrite K; reflexivity]).
      assert (K1 : 1 - Re beta * f = 0) by (transitivity (Re (1 - beta * RtoC f)%C); [unfold Re; simpl; ring|rewrite K; reflexivity]).
      assert (Hf : f = 0). { apply (Rmult_eq_reg_l (Im beta)); lra. }
      rewrite Hf in K1. lra.
    + exists N, a. split; [apply documented_laggauss_ok|]. split; [exact Pb|]. split; [exact H1|exact H2].
Qed.
Lemma C60_example_multi_proof : forall (D : Defaults),
  exists (laggauss : laggauss_t) (g : C) (l : C) (N : nat) (a : nat -> C),
  (forall J, (0 < J)%nat -> documented_rule J (laggauss J)) /\
  (forall n, (N <= n)%nat ->
     fdm_eff_pol laggauss D (stack [RtoC 1; (-2, 1/10)%R; (11, 1/100)%R] [30] None)
       (Some 1) (Some 20) (Some 300) (Some g) (Some (1/2)) (Some (1/2)) None (Some n) (Some "multi"%string)
     = Ok (Some (a n))) /\
  Cseq_lim a l.
Proof.
  intros D. exists documented_laggauss.
  assert (Hm : Forall (fun e => e <> RtoC 0 /\ 0 <= Im e) [(-2, 1/10)%R]).
  { constructor; [|constructor]. split; [apply C_neq_0; lra|unfold Im; simpl; lra]. }
  assert (Hm' : Forall (fun e => e <> RtoC 0) [(-2, 1/10)%R]) by (constructor; [apply C_neq_0; lra|constructor]).
  assert (Ht : Forall (fun t => 0 <= t) [30]) by (constructor; [lra|constructor]).
  destruct (C59_lossy_substrate_converges_proof documented_laggauss D 1 [(-2, 1/10)%R] (11, 1/100)%R [30] None (1 + 20 * (1/2)))
    as (b & phi & E & u & v & _ & _ & _ & _ & Hb & Hphi & HE & Pphi & PE & _).
  - apply documented_laggauss_ok.
  - reflexivity.
  - lra.
  - exact Hm.
  - unfold Im; simpl; lra.
  - exact Ht.
  - lra.
  - set (z := 1 + 20 * (1/2)) in *.
    assert (NE : E <> RtoC 0) by (intros K; rewrite K in PE; unfold Im in PE; simpl in PE; lra).
    assert (NP : phi <> RtoC 0) by (intros K; rewrite K in Pphi; unfold Im in Pphi; simpl in Pphi; lra).
    set (im := Cmod (phi / E)%C - z).
    assert (Him : - z < im).
    { unfold im. assert (0 < Cmod (phi / E)%C); [|lra]. apply Cmod_gt_0. intros K. apply NP.
      replace phi with (phi / E * E)%C by (field; exact NE). rewrite K. ring. }
    set (lg := ln (4 * 300 / (20 + 2 * 1 + 2 * im)) / ln (4 * 300 / 20)).
    assert (Hg : exists g, (1 - phi * phi / E * fdm_f_image 1 im 20 300 g <> 0)%C).
    { assert (K : forall c, fdm_f_image 1 im 20 300 (RtoC ((20 + 1 + im) / (2 * 300)) + RtoC c)%C = (RtoC c * RtoC lg)%C).
      { intros c. unfold fdm_f_image. fold lg. ring. }
      destruct (Ceq_dec (phi * phi / E * RtoC lg)%C (RtoC 1)) as [K1|K1].
      - exists (RtoC ((20 + 1 + im) / (2 * 300)) + RtoC 2)%C. rewrite K.
        replace (1 - phi * phi / E * (RtoC 2 * RtoC lg))%C with (1 - RtoC 2 * (phi * phi / E * RtoC lg))%C by ring. rewrite K1.
        replace (1 - RtoC 2 * 1)%C with (RtoC (-1)) by (rewrite <- RtoC_mult, <- RtoC_minus; f_equal; ring). apply RtoC_neq_0. lra.
      - exists (RtoC ((20 + 1 + im) / (2 * 300)) + RtoC 1)%C. rewrite K. intros K2. apply K1.
        replace (phi * phi / E * RtoC lg)%C with (1 - (1 - phi * phi / E * (RtoC 1 * RtoC lg)))%C by ring. rewrite K2. ring. }
    destruct Hg as [g Hg].
    destruct (C60_multi_converges_proof documented_laggauss D 1 [(-2, 1/10)%R] (11, 1/100)%R [30] None
                1 20 300 g (1/2) (1/2) (d_d_Qa D) b phi E phi E) as (N & a & H1 & H2);
      try assumption; try reflexivity; try (apply documented_laggauss_ok); try (fold z im); try lra.
    1: (apply C_neq_0; lra). 1-4: (unfold z in *; lra).
    + eexists g, _, N, a. split; [apply documented_laggauss_ok|]. split; [exact H1|exact H2].
Qed.

(** the same at every height, hence for the demodulated signal *)
Lemma q_ave_film (D : Defaults) x : 0 <= x ->
  exists (l : C) (N : nat) (a : nat -> C),
  (forall n, (N <= n)%nat ->
     fdm_eff_pol documented_laggauss D (stack [RtoC 1; (-2, 1/10)%R; (11, 1/100)%R] [30] None)
       (Some x) (Some 20) (Some 300) (Some (RtoC (7/10))) (Some (1/2)) (Some (1/2)) (Some (7/5)) (Some n) (Some "Q_ave"%string)
     = Ok (Some (a n))) /\ Cseq_lim a l.
Proof.
  intros Hx.
  assert (Hm : Forall (fun e => e <> RtoC 0 /\ 0 <= Im e) [(-2, 1/10)%R]).
  { constructor; [|constructor]. split; [apply C_neq_0; lra|unfold Im; simpl; lra]. }
  assert (Hm' : Forall (fun e => e <> RtoC 0) [(-2, 1/10)%R]) by (constructor; [apply C_neq_0; lra|constructor]).
  assert (Ht : Forall (fun t => 0 <= t) [30]) by (constructor; [lra|constructor]).
  destruct (C59_lossy_substrate_converges_proof documented_laggauss D 1 [(-2, 1/10)%R] (11, 1/100)%R [30] None (x + 20 * (7/5)))
    as (b & phi & E & u & v & _ & _ & _ & _ & Hb & _ & HE & _ & PE & _);
    [apply documented_laggauss_ok|reflexivity|lra|exact Hm|unfold Im; simpl; lra|exact Ht|lra|].
  set (z := x + 20 * (7/5)) in *. set (W := 1 / (4 * z ^ 2)).
  assert (Hz : 0 < z) by (unfold z; lra).
  assert (HW : 0 < W) by (unfold W; apply Rdiv_lt_0_compat; [lra|pose proof (pow_lt z 2 Hz); lra]).
  set (beta := (E / RtoC W)%C).
  assert (Pb : 0 < Im beta).
  { unfold beta. rewrite RtoC_div_parts by lra. apply Rdiv_lt_0_compat; assumption. }
  set (f := ((7/10 - (20 + 2 * x + 20 * (1/2)) / (2 * 300)) * (ln (4 * 300 / (20 + 4 * x + 2 * 20 * (1/2))) / ln (4 * 300 / 20)))).
  assert (Ef : fdm_f x (1/2) 20 300 (RtoC (7/10)) = RtoC f).
  { unfold fdm_f, f. rewrite <- RtoC_minus, <- RtoC_mult. reflexivity. }
  destruct (C60_q_ave_converges_proof documented_laggauss D 1 [(-2, 1/10)%R] (11, 1/100)%R [30] None
              x 20 300 (RtoC (7/10)) (1/2) (1/2) (7/5) b E W) as (N & a & H1 & H2).
  - apply documented_laggauss_ok.
  - reflexivity.
  - exact Hm'.
  - apply C_neq_0; lra.
  - exact Hb.
  - exact Hz.
  - unfold fdm_regular. lra.
  - unfold fdm_regular. lra.
  - exact HE.
  - apply weight_integral. exact Hz.
  - fold beta. rewrite Ef. intros K.
    assert (K2 : - (Im beta * f) = 0) by (transitivity (Im (1 - beta * RtoC f)%C); [unfold Im; simpl; ring|rewrite K; reflexivity]).
    assert (K1 : 1 - Re beta * f = 0) by (transitivity (Re (1 - beta * RtoC f)%C); [unfold Re; simpl; ring|rewrite K; reflexivity]).
    assert (Hf : f = 0). { apply (Rmult_eq_reg_l (Im beta)); lra. }
    rewrite Hf in K1. lra.
  - eexists _, N, a. split; [exact H1|exact H2].
Qed.
(** C60: third harmonic of a tapping tip over that film *)
Lemma C60_example_harmonics_proof : forall (D : Defaults),
  exists (laggauss : laggauss_t) (l : C) (M : nat) (a : nat -> C),
  (forall n, (M <= n)%nat ->
     fdm_eff_pol_n laggauss D (stack [RtoC 1; (-2, 1/10)%R; (11, 1/100)%R] [30] None) 25 3 (Some 1) (Some 32%nat)
       (Some 20) (Some 300) (Some (RtoC (7/10))) (Some (1/2)) (Some (1/2)) (Some (7/5)) (Some n) (Some "Q_ave"%string)
     = Ok (Some (a n))) /\ Cseq_lim a l.
Proof.
  intros D. exists documented_laggauss.
  set (s := stack [RtoC 1; (-2, 1/10)%R; (11, 1/100)%R] [30] None).
  set (E := fun x n => fdm_eff_pol documented_laggauss D s (Some x) (Some 20) (Some 300) (Some (RtoC (7/10))) (Some (1/2)) (Some (1/2)) (Some (7/5)) (Some n) (Some "Q_ave"%string)).
  set (v := fun x n => match E x n with Ok (Some c) => c | _ => RtoC 0 end).
  set (al := fun x => (real (Lim_seq (fun n => Re (v x n))), real (Lim_seq (fun n => Im (v x n)))) : C).
  destruct (C60_harmonics_converge_proof documented_laggauss D s 25 3 1 (Some 32%nat) 20 300 (RtoC (7/10)) (1/2) (1/2) (7/5) "Q_ave" al)
    as (M & a & H1 & H2).
  - cbn [given_or]. lia.
  - cbn. lia.
  - right. reflexivity.
  - cbn [given_or]. intros k Hk. set (x := tip_height 1 25 32 k).
    assert (Hx : 0 <= x).
    { unfold x, tip_height. pose proof (COS_bound (2 * PI * INR k / INR 32)). lra. }
    destruct (q_ave_film D x Hx) as (l & N & a & Ha & HL). fold s in Ha. exists N, a. split; [exact Ha|].
    assert (HL' : Cseq_lim (v x) l).
    { destruct HL as [L1 L2].
      assert (Ev : forall n, (N <= n)%nat -> v x n = a n) by (intros n Hn; unfold v, E; rewrite Ha by exact Hn; reflexivity).
      split; [apply (is_lim_seq_ext_loc (fun n => Re (a n)))|apply (is_lim_seq_ext_loc (fun n => Im (a n)))]; try assumption;
        exists N; intros n Hn; rewrite Ev by exact Hn; reflexivity. }
    replace (al x) with l; [exact HL|]. destruct HL' as [L1 L2]. unfold al.
    rewrite (is_lim_seq_unique _ _ L1), (is_lim_seq_unique _ _ L2). destruct l; reflexivity.
  - eexists _, M, a. split; [exact H1|exact H2].
Qed.
