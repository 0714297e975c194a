(** * Proofs: sampling error of a demodulation (C79) *)
From Coq Require Import String Reals Lra Lia ZArith List Bool.
From Coquelicot Require Import Coquelicot.
From Coq Require Import List.
From Verif Require Import Num NumLemmas LimLemmas ModelBase ModelSample ModelTip StackLemmas Spec SpecSampling
  ProofsStackQS ProofsStackQS2 ProofsBulkFF ProofsSym ProofsPassive DemodLemmas ProofsDemod ProofsTip ProofsTip2 ProofsTip3 ProofsTaylor.
Import ListNotations.
Open Scope R_scope.

Lemma tip_height_between x0 A N k : x0 - Rabs A <= tip_height (x0 - A) A N k <= x0 + Rabs A.
Proof.
  unfold tip_height. pose proof (COS_bound (2 * PI * INR k / INR N)) as [C1 C2]. set (c := cos _) in *.
  replace (x0 - A + A * (1 - c)) with (x0 - A * c) by ring.
  assert (H : Rabs (A * c) <= Rabs A).
  { rewrite Rabs_mult. rewrite <- (Rmult_1_r (Rabs A)) at 2. apply Rmult_le_compat_l; [apply Rabs_pos|]. apply Rabs_le. lra. }
  apply Rabs_le_between in H. lra.
Qed.
Lemma demod_tmean D (f : R -> C) x0 A n nt : let N := given_or (d_n_trapz D) nt in N <> O ->
  demod D (fun x => Ok (Some (f x))) x0 A n nt = Ok (Some (tmean (x0 - A) A n N f)).
Proof.
  intros N HN. replace x0 with ((x0 - A) + A) at 1 by ring. apply demod_tip; [exact HN|eauto|reflexivity].
Qed.
Lemma tmean_minus z A n N g h : tmean z A n N (fun x => g x - h x)%C = (tmean z A n N g - tmean z A n N h)%C.
Proof.
  assert (E : RtoC (-1) = (- RtoC 1)%C) by (unfold RtoC, Copp; cbn [fst snd]; f_equal; ring).
  rewrite (tmean_ext z A n N _ (fun x => g x + RtoC (-1) * h x)%C) by (intros; rewrite E; ring).
  rewrite tmean_plus, tmean_scal, E. ring.
Qed.
Lemma Cmod_le_parts z : Cmod z <= Rabs (Re z) + Rabs (Im z).
Proof.
  rewrite (surjective_pairing z) at 1. replace (fst z, snd z) with (RtoC (fst z) + (0, 1) * RtoC (snd z))%C
    by (unfold RtoC, Cplus, Cmult; cbn [fst snd]; f_equal; ring).
  eapply Rle_trans; [apply Cmod_triangle|]. rewrite Cmod_mult, !Cmod_R. unfold Re, Im.
  replace (Cmod (0, 1)) with 1 by (unfold Cmod; cbn [fst snd]; replace (0 ^ 2 + 1 ^ 2) with 1 by ring; now rewrite sqrt_1). lra.
Qed.
(** the limit of samples that stay within E of V does *)
Lemma fourier_within (D : Defaults) f x0 A n V E N0 : continuous_between (x0 - Rabs A) (x0 + Rabs A) f ->
  (forall N, (N0 <= N)%nat -> N <> O -> Cmod (tmean (x0 - A) A n N f - V)%C <= E) ->
  Cmod (fourier_coefficient f x0 A n - V)%C <= E.
Proof.
  intros Hc HN. destruct (C40_converges_to_fourier_integral_proof D f x0 A n Hc) as (v & Hv & _ & _ & L1 & L2).
  apply le_epsilon. intros eps He.
  destruct (proj2 (is_lim_seq_spec _ _) L1 (mkposreal (eps / 2) ltac:(lra))) as [N1 H1].
  destruct (proj2 (is_lim_seq_spec _ _) L2 (mkposreal (eps / 2) ltac:(lra))) as [N2 H2]. cbn [pos] in H1, H2.
  set (N := (S (N0 + N1 + N2))%nat). specialize (H1 N ltac:(lia)). specialize (H2 N ltac:(lia)). specialize (HN N ltac:(lia) ltac:(lia)).
  specialize (Hv N ltac:(lia)). rewrite (demod_tmean D f x0 A n (Some N)) in Hv by (cbn; lia). cbn [given_or] in Hv.
  injection Hv as Hv. rewrite <- Hv in H1, H2. set (w := tmean (x0 - A) A n N f) in *.
  replace (fourier_coefficient f x0 A n - V)%C with ((w - V) - (w - fourier_coefficient f x0 A n))%C by ring.
  eapply Rle_trans; [apply Cmod_triangle|]. rewrite Cmod_opp. apply Rplus_le_compat; [exact HN|].
  eapply Rle_trans; [apply Cmod_le_parts|]. unfold fourier_coefficient, Cminus, Cplus, Copp, Re, Im. cbn [fst snd].
  unfold Re, Im, Rminus in H1, H2. lra.
Qed.

(** C79. Sampling theorem for demod: the error of the n-th harmonic against the
    documented Fourier integral is at most twice the distance, on the swept
    interval, to any polynomial of degree below n_trapz - |n|. *)
Lemma C79_best_polynomial_proof :
  forall (D : Defaults) (f : R -> C) (x_0 A : R) (n : Z) (n_trapz : option nat) (c : nat -> C) (d : nat) (E : R),
  let N := given_or (d_n_trapz D) n_trapz in
  continuous_between (x_0 - Rabs A) (x_0 + Rabs A) f -> (d + Z.abs_nat n <= N)%nat -> N <> O ->
  (forall x, x_0 - Rabs A <= x <= x_0 + Rabs A -> Cmod (f x - poly c d (x - x_0))%C <= E) ->
  exists v : C, demod D (fun x => Ok (Some (f x))) x_0 A n n_trapz = Ok (Some v) /\
    Cmod (v - fourier_coefficient f x_0 A n)%C <= 2 * E.
Proof.
  intros D f x0 A n nt c d E N Hc Hd HN HE. exists (tmean (x0 - A) A n N f). split; [now apply demod_tmean|].
  set (V := Csum_to (fun m => c m * RtoC (A ^ m) * RtoC (cos_power_harmonic m n))%C d).
  assert (Q : forall M, (d + Z.abs_nat n <= M)%nat -> M <> O -> Cmod (tmean (x0 - A) A n M f - V)%C <= E).
  { intros M H1 H2. pose proof (C37_polynomials_exact_proof D c d x0 A n (Some M) H1 H2) as P.
    rewrite (demod_tmean D (fun x => poly c d (x - x0)) x0 A n (Some M)) in P by exact H2. cbn [given_or] in P. injection P as P.
    fold V in P. rewrite <- P, <- tmean_minus. apply tmean_bound; [exact H2|]. intros k _. apply HE, tip_height_between. }
  pose proof (fourier_within D f x0 A n V E _ Hc Q) as F.
  replace (tmean (x0 - A) A n N f - fourier_coefficient f x0 A n)%C
    with ((tmean (x0 - A) A n N f - V) - (fourier_coefficient f x0 A n - V))%C by ring.
  eapply Rle_trans; [apply Cmod_triangle|]. rewrite Cmod_opp. specialize (Q N Hd HN). lra.
Qed.
