(** * Proofs: harmonics for small tapping amplitudes *)
From Coq Require Import String Reals Lra Lia ZArith List Bool.
From Coquelicot Require Import Coquelicot.
From Coq Require Import List.
From Verif Require Import Num NumLemmas ModelBase ModelSample ModelTip StackLemmas Spec SpecTap
  ProofsStackQS ProofsPassive DemodLemmas ProofsDemod ProofsTip ProofsTip2 ProofsTip3 ProofsTaylor LimLemmas.
Import ListNotations.
Open Scope R_scope.

Lemma tip_height_node z A N k : N <> O -> tip_height z A N k = z + A * (1 + cos (node N k)).
Proof.
  intros H. unfold tip_height, node. do 2 f_equal. assert (HN : INR N <> 0) by now apply not_0_INR.
  replace (- PI + INR k * (2 * PI / INR N)) with (2 * PI * INR k / INR N - PI) by (field; exact HN).
  rewrite cos_minus, cos_PI, sin_PI. ring.
Qed.

Lemma harm_low j n : (j <= Z.abs_nat n)%nat ->
  coefZ j n = if Nat.eqb j (Z.abs_nat n) then / 2 ^ Z.abs_nat n else 0.
Proof.
  intros H. rewrite coefZ_spec. unfold cos_power_harmonic. destruct (Nat.eqb_spec j (Z.abs_nat n)) as [->|Hne].
  - rewrite Nat.leb_refl, Nat.sub_diag. cbn [andb Nat.even]. change (0 / 2)%nat with 0%nat.
    unfold Binomial.C. rewrite Nat.sub_0_r. replace (INR (fact 0)) with 1 by reflexivity.
    pose proof (INR_fact_neq_0 (Z.abs_nat n)). assert (2 ^ Z.abs_nat n <> 0) by (apply pow_nonzero; lra). field. split; assumption.
  - destruct (Nat.leb_spec (Z.abs_nat n) j); [lia|]. reflexivity.
Qed.
Lemma cmean_one_plus N n m : forall j, (j + m <= Z.abs_nat n)%nat -> (2 * Z.abs_nat n < N)%nat ->
  cmean N (fun k => RtoC (cos (node N k) ^ j * (1 + cos (node N k)) ^ m) * ph n (node N k))%C
  = RtoC (if Nat.eqb (j + m) (Z.abs_nat n) then / 2 ^ Z.abs_nat n else 0).
Proof.
  induction m as [|m IH]; intros j Hj HN.
  - rewrite Nat.add_0_r in *. rewrite <- harm_low by exact Hj. rewrite <- cmean_cos_pow with (N := N) by lia.
    apply cmean_ext. intros k _. simpl. rewrite Rmult_1_r. reflexivity.
  - rewrite (cmean_ext N _ (fun k => RtoC (cos (node N k) ^ j * (1 + cos (node N k)) ^ m) * ph n (node N k)
                                 + RtoC (cos (node N k) ^ S j * (1 + cos (node N k)) ^ m) * ph n (node N k))%C).
    + rewrite cmean_plus, !IH by lia. rewrite <- RtoC_plus. f_equal.
      replace (S j + m)%nat with (j + S m)%nat by lia.
      destruct (Nat.eqb_spec (j + m) (Z.abs_nat n)); [lia|]. ring.
    + intros k _. rewrite <- Cmult_plus_distr_r, <- RtoC_plus. f_equal. f_equal. simpl. ring.
Qed.
Lemma tmean_poly z A n N c : (2 * Z.abs_nat n < N)%nat ->
  tmean z A n N (fun x => poly c (S (Z.abs_nat n)) (x - z)) = (c (Z.abs_nat n) * RtoC (A ^ Z.abs_nat n / 2 ^ Z.abs_nat n))%C.
Proof.
  intros HN. assert (N0 : N <> O) by lia. set (a := Z.abs_nat n) in *. unfold tmean.
  rewrite (cmean_ext N _ (fun k => Csum_to (fun m => c m * RtoC (A ^ m) * (RtoC (cos (node N k) ^ 0 * (1 + cos (node N k)) ^ m) * ph n (node N k)))%C (S a))).
  - rewrite (cmean_Csum_to N (fun m k => c m * RtoC (A ^ m) * (RtoC (cos (node N k) ^ 0 * (1 + cos (node N k)) ^ m) * ph n (node N k)))%C).
    assert (E : forall m, (m < S a)%nat -> cmean N (fun k => c m * RtoC (A ^ m) * (RtoC (cos (node N k) ^ 0 * (1 + cos (node N k)) ^ m) * ph n (node N k)))%C
                = (c m * RtoC (A ^ m) * RtoC (if Nat.eqb m a then / 2 ^ a else 0))%C).
    { intros m Hm. rewrite cmean_scal. rewrite (cmean_one_plus N n m 0) by (fold a; lia). reflexivity. }
    rewrite (Csum_to_ext _ _ _ E). cbn [Csum_to]. rewrite Nat.eqb_refl.
    rewrite (Csum_to_ext _ (fun _ => RtoC 0)).
    + assert (Z0 : Csum_to (fun _ => RtoC 0) a = RtoC 0) by (clear; induction a; cbn; [reflexivity|rewrite IHa; ring]).
      rewrite Z0. unfold Rdiv. rewrite !RtoC_mult. ring.
    + intros m Hm. destruct (Nat.eqb_spec m a); [lia|]. ring.
  - intros k _. unfold poly. rewrite Csum_to_mult_r. apply Csum_to_ext. intros m _. rewrite tip_height_node by exact N0.
    replace (z + A * (1 + cos (node N k)) - z) with (A * (1 + cos (node N k))) by ring.
    rewrite Rpow_mult_distr, !RtoC_mult. cbn [pow]. ring.
Qed.

(** C64. Any quantity with a Taylor expansion of order |n| above the lowest tip
    position, demodulated at harmonic n with more than 2 |n| samples, scales as
    the |n|-th power of a small tapping amplitude; the factor is its |n|-th
    Taylor coefficient over 2^|n|. *)
Lemma C64_small_amplitude_proof :
  forall (D : Defaults) (f : R -> res CV) (F : R -> C) (z : R) (n : Z) (n_trapz : option nat) (c : nat -> C) (room : R),
  let N := given_or (d_n_trapz D) n_trapz in let a := Z.abs_nat n in
  (2 * a < N)%nat ->
  (forall x, exists v, f x = Ok v) ->
  0 < room -> (forall h, 0 <= h < room -> f (z + h) = Ok (Some (F (z + h)))) ->
  expands F z a c ->
  forall eps, 0 < eps -> exists delta, 0 < delta /\ forall A, 0 < A < delta ->
  exists v, demod D f (z + A) A n n_trapz = Ok (Some v) /\
    Cmod (v / RtoC (A ^ a) - c a / RtoC (2 ^ a))%C <= eps.
Proof.
  intros D f F z n nt c room N a HN Htot Hroom Hf Hexp eps Heps.
  assert (N0 : N <> O) by lia.
  assert (P2 : 0 < 2 ^ a) by (apply pow_lt; lra).
  destruct (Hexp (eps / 2 ^ a) (Rdiv_lt_0_compat _ _ Heps P2)) as (d & Hd & Hb).
  exists (Rmin (room / 2) (d / 2)). split; [apply Rmin_pos; lra|]. intros A [HA HA'].
  assert (A1 : 2 * A < room) by (pose proof (Rmin_l (room / 2) (d / 2)); lra).
  assert (A2 : 2 * A < d) by (pose proof (Rmin_r (room / 2) (d / 2)); lra).
  assert (Hk : forall k, 0 <= A * (1 + cos (node N k)) <= 2 * A).
  { intros k. pose proof (COS_bound (node N k)). split; nra. }
  exists (tmean z A n N F). split.
  - apply (demod_tip D f F z A n nt N0 Htot). intros k _. rewrite tip_height_node by exact N0. apply Hf.
    pose proof (Hk k). unfold N in *. lra.
  - assert (PA : 0 < A ^ a) by (apply pow_lt; exact HA).
    assert (NA : RtoC (A ^ a) <> RtoC 0) by (apply RtoC_neq_0; lra).
    assert (N2 : RtoC (2 ^ a) <> RtoC 0) by (apply RtoC_neq_0; lra).
    assert (E : tmean z A n N F = (c a * RtoC (A ^ a / 2 ^ a)
        + cmean N (fun k => (F (tip_height z A N k) - poly c (S a) (tip_height z A N k - z)) * ph n (node N k)))%C).
    { pose proof (tmean_poly z A n N c HN) as TP. fold a in TP. rewrite <- TP. unfold tmean. rewrite <- cmean_plus. apply cmean_ext. intros k _. ring. }
    rewrite E. set (R := cmean N _).
    replace ((c a * RtoC (A ^ a / 2 ^ a) + R) / RtoC (A ^ a) - c a / RtoC (2 ^ a))%C with (R / RtoC (A ^ a))%C.
    2:{ rewrite RtoC_div by lra. field. split; assumption. }
    rewrite Cmod_div by exact NA. rewrite Cmod_R, (Rabs_pos_eq (A ^ a)) by lra.
    apply (Rmult_le_reg_r (A ^ a)); [exact PA|]. replace (Cmod R / A ^ a * A ^ a) with (Cmod R) by (field; lra).
    apply cmean_bound; [exact N0|]. intros k _. rewrite Cmod_mult.
    assert (M1 : Cmod (ph n (node N k)) = 1).
    { rewrite ph_cos. unfold Cmod. cbn [fst snd]. rewrite <- sqrt_1. f_equal. pose proof (sin2_cos2 (IZR n * node N k)) as S. unfold Rsqr in S. simpl. lra. }
    rewrite M1, Rmult_1_r. rewrite tip_height_node by exact N0.
    replace (z + A * (1 + cos (node N k)) - z) with (A * (1 + cos (node N k))) by ring.
    destruct (Hk k) as [K1 K2].
    eapply Rle_trans; [apply Hb; split; [exact K1|lra]|].
    assert (Q : (A * (1 + cos (node N k))) ^ a <= 2 ^ a * A ^ a).
    { rewrite <- Rpow_mult_distr. apply pow_incr. split; lra. }
    replace (eps * A ^ a) with (eps / 2 ^ a * (2 ^ a * A ^ a)) by (field; lra).
    apply Rmult_le_compat_l; [|exact Q]. apply Rlt_le, Rdiv_lt_0_compat; assumption.
Qed.

(** ** Functions with expansions of every order *)
Definition at0 (M h : R) : Prop := 0 <= h /\ M * h < 1.
Lemma at0_mono : mono at0.
Proof. intros M M' h HM [H1 H2]. split; [exact H1|]. nra. Qed.
Fixpoint ex (n : nat) (g : R -> C) : Prop :=
  match n with
  | O => exists c, tends at0 g c
  | S m => exists c G, (exists M, forall h, at0 M h -> g h = (c + RtoC h * G h)%C) /\ ex m G
  end.
Lemma at0_both (P Q : R -> Prop) : (exists M, forall h, at0 M h -> P h) -> (exists M, forall h, at0 M h -> Q h) ->
  exists M, forall h, at0 M h -> P h /\ Q h.
Proof.
  intros [M1 H1] [M2 H2]. exists (Rmax M1 M2). intros h H. split.
  - apply H1, (at0_mono (Rmax M1 M2)); [apply Rmax_l|exact H].
  - apply H2, (at0_mono (Rmax M1 M2)); [apply Rmax_r|exact H].
Qed.
Lemma at0_imp (P Q : R -> Prop) : (forall h, 0 <= h -> P h -> Q h) -> (exists M, forall h, at0 M h -> P h) -> exists M, forall h, at0 M h -> Q h.
Proof. intros K [M H]. exists M. intros h Hh. apply K; [apply Hh|]. apply H, Hh. Qed.

Lemma ex_ext n : forall g g', (exists M, forall h, at0 M h -> g h = g' h) -> ex n g -> ex n g'.
Proof.
  destruct n as [|n]; intros g g' H.
  - intros [c Hc]. exists c. destruct H as [M H]. apply (tends_ext_ev at0 at0_mono g g' c M); assumption.
  - intros (c & G & HG & HE). exists c, G. split; [|exact HE].
    apply (at0_imp (fun h => g h = g' h /\ g h = (c + RtoC h * G h)%C)); [intros h _ [A B]; congruence|]. apply at0_both; assumption.
Qed.
Lemma ex_ext_all n g g' : (forall h, g h = g' h) -> ex n g -> ex n g'.
Proof. intros H. apply ex_ext. exists 0. intros h _. apply H. Qed.
Lemma tends_id : tends at0 (fun h => RtoC h) (RtoC 0).
Proof.
  intros eps He. exists (/ eps). intros h [H1 H2]. replace (RtoC h - RtoC 0)%C with (RtoC h) by ring.
  rewrite Cmod_R, Rabs_pos_eq by exact H1. apply (Rmult_lt_reg_l (/ eps)); [apply Rinv_0_lt_compat; exact He|].
  rewrite Rinv_l by lra. exact H2.
Qed.
Lemma tends_line G c d : tends at0 G d -> tends at0 (fun h => c + RtoC h * G h)%C c.
Proof.
  intros Hd. assert (K : tends at0 (fun h => c + RtoC h * G h)%C (c + RtoC 0 * d)%C).
  { apply tends_plus; [exact at0_mono|apply tends_const|]. apply tends_mult; [exact at0_mono|exact tends_id|exact Hd]. }
  replace (c + RtoC 0 * d)%C with c in K by ring. exact K.
Qed.
Lemma ex_weaken n : forall g, ex (S n) g -> ex n g.
Proof.
  induction n as [|n IH]; intros g (c & G & HG & HE).
  - destruct HE as [d Hd]. exists c. destruct HG as [M HG].
    apply (tends_ext_ev at0 at0_mono (fun h => c + RtoC h * G h)%C g c M); [intros h Hh; symmetry; now apply HG|].
    now apply (tends_line G c d).
  - exists c, G. split; [exact HG|]. apply IH, HE.
Qed.
Lemma ex_limit n : forall g, ex n g -> exists c, tends at0 g c.
Proof. induction n as [|n IH]; intros g H; [exact H|]. apply IH, ex_weaken, H. Qed.
Lemma ex_const n c : ex n (fun _ => c).
Proof.
  revert c. induction n as [|n IH]; intros c; [exists c; apply tends_const|]. exists c, (fun _ => RtoC 0). split; [|apply IH].
  exists 0. intros h _. ring.
Qed.
Lemma ex_hmul n g : ex n g -> ex n (fun h => RtoC h * g h)%C.
Proof.
  destruct n as [|n]; intros H.
  - destruct H as [c Hc]. exists (RtoC 0 * c)%C. apply tends_mult; [exact at0_mono|exact tends_id|exact Hc].
  - exists (RtoC 0), g. split; [|now apply ex_weaken]. exists 0. intros h _. ring.
Qed.
Lemma ex_id n : ex n (fun h => RtoC h).
Proof. apply (ex_ext_all n (fun h => RtoC h * RtoC 1)%C); [intros; ring|]. apply ex_hmul, ex_const. Qed.
Lemma ex_plus n : forall g k, ex n g -> ex n k -> ex n (fun h => g h + k h)%C.
Proof.
  induction n as [|n IH]; intros g k.
  - intros [c Hc] [d Hd]. exists (c + d)%C. apply tends_plus; [exact at0_mono|assumption|assumption].
  - intros (c & G & HG & EG) (d & K & HK & EK). exists (c + d)%C, (fun h => G h + K h)%C. split; [|now apply IH].
    apply (at0_imp (fun h => g h = (c + RtoC h * G h)%C /\ k h = (d + RtoC h * K h)%C)); [|now apply at0_both].
    intros h _ [-> ->]. ring.
Qed.
Lemma ex_mult n : forall g k, ex n g -> ex n k -> ex n (fun h => g h * k h)%C.
Proof.
  induction n as [|n IH]; intros g k.
  - intros [c Hc] [d Hd]. exists (c * d)%C. apply tends_mult; [exact at0_mono|assumption|assumption].
  - intros (c & G & HG & EG) (d & K & HK & EK).
    exists (c * d)%C, (fun h => c * K h + (d * G h + RtoC h * (G h * K h)))%C. split.
    + apply (at0_imp (fun h => g h = (c + RtoC h * G h)%C /\ k h = (d + RtoC h * K h)%C)); [|now apply at0_both].
      intros h _ [-> ->]. ring.
    + apply ex_plus; [apply IH; [apply ex_const|exact EK]|]. apply ex_plus; [apply IH; [apply ex_const|exact EG]|].
      apply ex_hmul. apply IH; assumption.
Qed.
Lemma ex_value n g : ex (S n) g -> exists c, tends at0 g c /\ g 0 = c.
Proof.
  intros H. pose proof H as (c & G & [M HG] & EG). destruct (ex_limit n G EG) as [d Hd].
  exists c. split.
  - apply (tends_ext_ev at0 at0_mono (fun h => c + RtoC h * G h)%C g c M); [intros h Hh; symmetry; now apply HG|].
    now apply (tends_line G c d).
  - rewrite HG; [ring|]. split; lra.
Qed.
Lemma ex_inv n : forall g c, ex n g -> tends at0 g c -> c <> RtoC 0 -> g 0 <> RtoC 0 -> ex n (fun h => / g h)%C.
Proof.
  induction n as [|n IH]; intros g c H Hc Hn H0.
  - exists (/ c)%C. apply tends_inv; [exact at0_mono|exact Hc|exact Hn].
  - assert (E1 : ex n (fun h => / g h)%C) by (apply (IH g c); [now apply ex_weaken|exact Hc|exact Hn|exact H0]).
    pose proof H as (a & G & HG & EG).
    assert (Ea : g 0 = a). { destruct HG as [M HG]. rewrite HG; [ring|]. split; lra. }
    rewrite Ea in H0.
    exists (/ a)%C, (fun h => (- / a) * (G h * / g h))%C. split.
    + assert (NZ : exists M, forall h, at0 M h -> g h <> RtoC 0).
      { destruct (tends_away at0 g c Hc Hn) as [M HM]. exists M. intros h Hh K. specialize (HM h Hh). rewrite K, Cmod_0 in HM.
        pose proof (proj1 (Cmod_gt_0 c) Hn). lra. }
      apply (at0_imp (fun h => g h = (a + RtoC h * G h)%C /\ g h <> RtoC 0)); [|now apply at0_both].
      intros h _ [E K]. rewrite E. rewrite E in K. field. split; assumption.
    + apply ex_mult; [apply ex_const|]. apply ex_mult; assumption.
Qed.
Lemma ex_div n g k c : ex n g -> ex n k -> tends at0 k c -> c <> RtoC 0 -> k 0 <> RtoC 0 -> ex n (fun h => g h / k h)%C.
Proof. intros Hg Hk Hc Hn H0. apply ex_mult; [exact Hg|]. apply (ex_inv n k c); assumption. Qed.

(** from the structural notion to the expansion *)
Lemma Csum_to_shift (a : nat -> C) d : Csum_to a (S d) = (a O + Csum_to (fun m => a (S m)) d)%C.
Proof. induction d as [|d IH]; [cbn; ring|]. cbn [Csum_to] in *. rewrite IH. ring. Qed.
Lemma ex_expands n : forall g, ex n g -> exists c, expands g 0 n c.
Proof.
  induction n as [|n IH]; intros g.
  - intros [c Hc]. exists (fun _ => c). intros eps He. destruct (Hc eps He) as [M HM].
    exists (/ (Rmax M 1)). assert (0 < Rmax M 1) by (pose proof (Rmax_r M 1); lra). split; [now apply Rinv_0_lt_compat|].
    intros h [H1 H2]. rewrite Rplus_0_l. assert (A : at0 M h).
    { split; [exact H1|]. pose proof (Rmax_l M 1). apply Rle_lt_trans with (Rmax M 1 * h); [nra|].
      apply (Rmult_lt_compat_l (Rmax M 1)) in H2; [|assumption]. rewrite Rinv_r in H2 by lra. exact H2. }
    specialize (HM h A). unfold poly. cbn [Csum_to pow]. replace (g h - (RtoC 0 + c * RtoC 1))%C with (g h - c)%C by ring. lra.
  - intros (c & G & [M HG] & EG). destruct (IH G EG) as [d Hd]. exists (fun m => match m with O => c | S m => d m end).
    intros eps He. destruct (Hd eps He) as (del & Hdel & HB).
    exists (Rmin del (/ (Rmax M 1))). assert (P : 0 < Rmax M 1) by (pose proof (Rmax_r M 1); lra).
    pose proof (Rinv_0_lt_compat _ P) as P'. split; [now apply Rmin_pos|].
    intros h [H1 H2]. pose proof (Rmin_l del (/ Rmax M 1)). pose proof (Rmin_r del (/ Rmax M 1)).
    assert (A : at0 M h).
    { split; [exact H1|]. pose proof (Rmax_l M 1). apply Rle_lt_trans with (Rmax M 1 * h); [nra|].
      assert (K : h < / Rmax M 1) by lra. apply (Rmult_lt_compat_l (Rmax M 1)) in K; [|assumption]. rewrite Rinv_r in K by lra. exact K. }
    rewrite Rplus_0_l. rewrite (HG h A). specialize (HB h ltac:(lra)). rewrite Rplus_0_l in HB.
    unfold poly. rewrite Csum_to_shift.
    assert (E : Csum_to (fun m => d m * RtoC (h ^ S m))%C (S n) = (RtoC h * poly d (S n) h)%C).
    { unfold poly. rewrite Cmult_comm, Csum_to_mult_r. apply Csum_to_ext. intros m _. cbn [pow]. rewrite RtoC_mult. ring. }
    cbn [pow]. cbn [pow] in E. rewrite E.
    replace (c + RtoC h * G h - (c * RtoC 1 + RtoC h * poly d (S n) h))%C with (RtoC h * (G h - poly d (S n) h))%C by ring.
    rewrite Cmod_mult, Cmod_R, Rabs_pos_eq by exact H1. nra.
Qed.
