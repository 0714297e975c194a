(** * Majorants: complex sequences whose discrete cosine coefficients are
    bounded, one by one, by those of a real sequence *)
From Coq Require Import Reals Lra Lia ZArith.
From Coquelicot Require Import Rcomplements Complex.
From Verif Require Import Num NumLemmas ProofsSym ProofsTaylor PosDef ProofsUniaxial.
Open Scope R_scope.

(** discrete cosine coefficient of a complex sequence *)
Definition hC (N : nat) (n : Z) (p : nat -> C) : C := (harm N n (fun k => Re (p k)), harm N n (fun k => Im (p k))).
Definition leq (N : nat) (p : nat -> C) (P : nat -> R) : Prop := forall n, Cmod (hC N n p) <= harm N n P.

Section MAJ.
Context (N : nat) (HN : N <> O).
Lemma hC_ext n p q : (forall k, (k < N)%nat -> p k = q k) -> hC N n p = hC N n q.
Proof. intros H. unfold hC. f_equal; apply harm_ext; intros k Hk; now rewrite H. Qed.
Lemma hC_plus n p q : hC N n (fun k => p k + q k)%C = (hC N n p + hC N n q)%C.
Proof. unfold hC, Cplus. cbn [fst snd]. rewrite <- !harm_plus. reflexivity. Qed.
Lemma hC_scal n c p : hC N n (fun k => c * p k)%C = (c * hC N n p)%C.
Proof.
  unfold hC. apply injective_projections; cbn [fst snd Cmult].
  - rewrite (harm_ext N n _ (fun k => Re c * Re (p k) + - Im c * Im (p k))) by (intros; unfold Re, Im; cbn; ring).
    rewrite harm_plus, !harm_scal. unfold Re, Im. ring.
  - rewrite (harm_ext N n _ (fun k => Re c * Im (p k) + Im c * Re (p k))) by (intros; unfold Re, Im; cbn; ring).
    rewrite harm_plus, !harm_scal. unfold Re, Im. ring.
Qed.
Lemma hC_real n P : hC N n (fun k => RtoC (P k)) = RtoC (harm N n P).
Proof.
  unfold hC, RtoC. f_equal. cbn [Im snd].
  rewrite (harm_ext N n (fun _ => 0) (fun _ => 0 * 0)) by (intros; ring). rewrite harm_scal. ring.
Qed.
Lemma hC_conj n p : hC N n (fun k => Cconj (p k)) = Cconj (hC N n p).
Proof.
  unfold hC, Cconj. cbn [fst snd]. f_equal. 
  rewrite (harm_ext N n _ (fun k => -1 * Im (p k))) by (intros; unfold Im; cbn; ring). rewrite harm_scal. ring.
Qed.

(** the directions of the complex plane *)
Definition dir (a b : R) (p : nat -> C) (k : nat) : R := a * Re (p k) + b * Im (p k).
Lemma harm_dir n a b p : harm N n (dir a b p) = a * Re (hC N n p) + b * Im (hC N n p).
Proof. unfold dir. rewrite harm_plus, !harm_scal. reflexivity. Qed.
Lemma harm_minus n g h : harm N n (fun k => g k - h k) = harm N n g - harm N n h.
Proof. rewrite (harm_ext N n _ (fun k => g k + -1 * h k)) by (intros; ring). rewrite harm_plus, harm_scal. ring. Qed.
Lemma leq_dir p P : leq N p P <-> (forall a b, a ^ 2 + b ^ 2 = 1 -> pd N (fun k => P k - dir a b p k)).
Proof.
  split.
  - intros H a b Hab n. rewrite harm_minus, harm_dir. specialize (H n). pose proof (along a b (hC N n p) Hab). lra.
  - intros H n. apply by_directions. intros a b Hab. specialize (H a b Hab n). rewrite harm_minus, harm_dir in H. lra.
Qed.
Lemma leq_ext p q P Q : (forall k, (k < N)%nat -> p k = q k) -> (forall k, (k < N)%nat -> P k = Q k) -> leq N p P -> leq N q Q.
Proof. intros H1 H2 H n. rewrite <- (hC_ext n p q H1), <- (harm_ext N n P Q H2). apply H. Qed.
Lemma leq_real P : pd N P -> leq N (fun k => RtoC (P k)) P.
Proof. intros H n. rewrite hC_real, Cmod_R, Rabs_pos_eq by apply H. apply Rle_refl. Qed.
Lemma leq_plus p P q Q : leq N p P -> leq N q Q -> leq N (fun k => p k + q k)%C (fun k => P k + Q k).
Proof. intros H1 H2 n. rewrite hC_plus, harm_plus. eapply Rle_trans; [apply Cmod_triangle|]. specialize (H1 n). specialize (H2 n). lra. Qed.
Lemma leq_scal c C0 p P : Cmod c <= C0 -> leq N p P -> leq N (fun k => c * p k)%C (fun k => C0 * P k).
Proof.
  intros Hc H n. rewrite hC_scal, harm_scal, Cmod_mult. apply Rmult_le_compat; try apply Cmod_ge_0; [exact Hc|apply H].
Qed.
Lemma leq_mult G p P : mult N G -> leq N p P -> leq N (fun k => RtoC (G k) * p k)%C (fun k => G k * P k).
Proof.
  intros HG H. apply leq_dir. intros a b Hab. apply (pd_ext N (fun k => G k * (P k - dir a b p k))).
  - intros k _. unfold dir, Re, Im. cbn. ring.
  - apply HG. exact (proj1 (leq_dir p P) H a b Hab).
Qed.
Definition convC (u : nat -> nat -> C) (h : nat -> C) : Prop :=
  forall k, (k < N)%nat -> forall eps, 0 < eps -> exists J0, forall J, (J0 <= J)%nat -> Cmod (u J k - h k)%C <= eps.
Lemma leq_lim u U p P : convC u p -> conv N U P -> (forall J, leq N (u J) (U J)) -> leq N p P.
Proof using HN.
  intros H1 H2 H. apply leq_dir. intros a b Hab.
  apply (pd_lim N HN (fun J k => U J k - dir a b (u J) k)).
  - intros k Hk eps He. destruct (H1 k Hk (eps / 2) ltac:(lra)) as [J1 G1]. destruct (H2 k Hk (eps / 2) ltac:(lra)) as [J2 G2].
    exists (max J1 J2). intros J HJ. specialize (G1 J ltac:(lia)). specialize (G2 J ltac:(lia)).
    assert (E : U J k - dir a b (u J) k - (P k - dir a b p k) = (U J k - P k) - (a * Re (u J k - p k)%C + b * Im (u J k - p k)%C)).
    { unfold dir, Re, Im. cbn. ring. }
    rewrite E. pose proof (along a b (u J k - p k)%C Hab) as L1. pose proof (along (- a) (- b) (u J k - p k)%C ltac:(rewrite <- Hab; ring)) as L2.
    apply Rabs_le_between in G2. apply Rabs_le. lra.
  - intros J. exact (proj1 (leq_dir _ _) (H J) a b Hab).
Qed.

(** geometric series: dividing by 1 - z G costs at most a division by 1 - rho G *)
Fixpoint gs (z : C) (G : nat -> R) (p : nat -> C) (J : nat) (k : nat) : C :=
  match J with O => RtoC 0 | S j => (p k + z * (RtoC (G k) * gs z G p j k))%C end.
Fixpoint gr (rho : R) (G : nat -> R) (P : nat -> R) (J : nat) (k : nat) : R :=
  match J with O => 0 | S j => P k + rho * (G k * gr rho G P j k) end.
Lemma gs_rem z G p J k : (1 - z * RtoC (G k) <> 0)%C ->
  (gs z G p J k - p k / (1 - z * RtoC (G k)) = - (p k / (1 - z * RtoC (G k))) * Cpown (z * RtoC (G k)) J)%C.
Proof.
  intros H. induction J as [|J IH]; cbn [gs Cpown]; [ring|].
  replace (p k + z * (RtoC (G k) * gs z G p J k) - p k / (1 - z * RtoC (G k)))%C
    with (z * RtoC (G k) * (gs z G p J k - p k / (1 - z * RtoC (G k))))%C by (field; exact H).
  rewrite IH. ring.
Qed.
Lemma gr_gs rho G P J k : RtoC (gr rho G P J k) = gs (RtoC rho) G (fun k => RtoC (P k)) J k.
Proof. induction J as [|J IH]; cbn [gs gr]; [reflexivity|]. rewrite <- IH, <- !RtoC_mult, <- RtoC_plus. reflexivity. Qed.
Lemma one_minus z x : Cmod z < x -> x < 1 -> (1 - z <> 0)%C.
Proof. intros H1 H2 E. apply (f_equal Cmod) in E. rewrite Cmod_0 in E. pose proof (Cmod_triangle (1 - z)%C z) as T. replace (1 - z + z)%C with (RtoC 1) in T by ring. rewrite Cmod_1 in T. lra. Qed.
Lemma one_minus' z : Cmod z < 1 -> (1 - z <> 0)%C.
Proof. intros H. apply (one_minus z ((Cmod z + 1) / 2)); lra. Qed.
Lemma conv_gs z G p : (forall k, (k < N)%nat -> Cmod (z * RtoC (G k))%C < 1) -> convC (gs z G p) (fun k => p k / (1 - z * RtoC (G k)))%C.
Proof.
  intros H k Hk eps He. specialize (H k Hk). set (w := (z * RtoC (G k))%C) in *.
  pose proof (Cmod_ge_0 (p k / (1 - w))%C) as P. set (B := Cmod (p k / (1 - w))%C) in *.
  pose proof (Cmod_ge_0 w) as Pw.
  destruct (pow_small (Cmod w) (eps / (B + 1))) as [J0 H0]; [rewrite Rabs_pos_eq; assumption|apply Rdiv_lt_0_compat; lra|].
  exists J0. intros J HJ. unfold w. rewrite gs_rem by (apply one_minus'; exact H). fold w.
  rewrite Cmod_mult, Cmod_opp, Cmod_pown. fold B. specialize (H0 J HJ). rewrite Rabs_pos_eq in H0 by assumption.
  apply Rle_trans with ((B + 1) * (eps / (B + 1))); [|right; field; lra].
  apply Rmult_le_compat; [exact P|apply pow_le; assumption|lra|exact H0].
Qed.
Lemma leq_geo z rho G p P : Cmod z <= rho -> mult N G -> (forall k, (k < N)%nat -> Rabs (rho * G k) < 1) -> leq N p P ->
  leq N (fun k => p k / (1 - z * RtoC (G k)))%C (fun k => P k / (1 - rho * G k)).
Proof using HN.
  intros Hz HG Hb H. pose proof (Cmod_ge_0 z) as Pz.
  assert (Bz : forall k, (k < N)%nat -> Cmod (z * RtoC (G k))%C < 1).
  { intros k Hk. eapply Rle_lt_trans; [|apply (Hb k Hk)]. rewrite Cmod_mult, Cmod_R, Rabs_mult, (Rabs_pos_eq rho) by lra.
    apply Rmult_le_compat_r; [apply Rabs_pos|exact Hz]. }
  apply (leq_lim (gs z G p) (gr rho G P)).
  - now apply conv_gs.
  - intros k Hk eps He.
    assert (Br : forall k, (k < N)%nat -> Cmod (RtoC rho * RtoC (G k))%C < 1) by (intros i Hi; rewrite <- RtoC_mult, Cmod_R; now apply Hb).
    destruct (conv_gs (RtoC rho) G (fun k => RtoC (P k)) Br k Hk eps He) as [J0 H0]. exists J0. intros J HJ. specialize (H0 J HJ).
    specialize (Hb k Hk). apply Rabs_lt_between in Hb.
    rewrite <- gr_gs, <- RtoC_mult, <- RtoC_minus, <- RtoC_div, <- RtoC_minus, Cmod_R in H0 by lra. exact H0.
  - induction J as [|J IH].
    + intros n. cbn [gs gr]. rewrite (hC_real n (fun _ => 0)).
      rewrite (harm_ext N n (fun _ => 0) (fun _ => 0 * 0)) by (intros; ring). rewrite harm_scal, Rmult_0_l, Cmod_0. apply Rle_refl.
    + cbn [gs gr]. apply leq_plus; [exact H|]. apply leq_scal; [exact Hz|]. apply leq_mult; assumption.
Qed.

(** ** The loop: F b/(1 - b G) as a function of the complex number b *)
Definition loop (F G : nat -> R) (b : C) (k : nat) : C := (RtoC (F k) * b / (1 - b * RtoC (G k)))%C.
Section LOOP.
Context (F G : nat -> R) (rho : R) (HF : pd N F) (HG : mult N G) (Hb : forall k, (k < N)%nat -> Rabs (rho * G k) < 1).
Definition c1 (n : Z) : R := harm N n F.
Definition d1 (n : Z) : R := harm N n (fun k => F k / (1 - rho * G k) ^ 2).
Lemma den b k : Cmod b <= rho -> (k < N)%nat -> (1 - b * RtoC (G k) <> 0)%C.
Proof using Hb.
  intros H Hk. apply one_minus'. pose proof (Cmod_ge_0 b). eapply Rle_lt_trans; [|apply (Hb k Hk)]. rewrite Cmod_mult, Cmod_R, Rabs_mult, (Rabs_pos_eq rho) by lra.
  apply Rmult_le_compat_r; [apply Rabs_pos|exact H].
Qed.
Lemma loop_maj b : Cmod b <= rho -> leq N (loop F G b) (fun k => rho * F k / (1 - rho * G k)).
Proof using HN HF HG Hb.
  intros H. apply (leq_ext (fun k => b * RtoC (F k) / (1 - b * RtoC (G k)))%C _ (fun k => rho * F k / (1 - rho * G k)) _).
  - intros k Hk. unfold loop. f_equal. ring.
  - reflexivity.
  - apply (leq_geo b rho G (fun k => b * RtoC (F k))%C (fun k => rho * F k)); [exact H|exact HG|exact Hb|].
    apply leq_scal; [exact H|now apply leq_real].
Qed.
Lemma loop_diff b b' n : Cmod b <= rho -> Cmod b' <= rho ->
  Cmod (hC N n (loop F G b) - hC N n (loop F G b') - RtoC (c1 n) * (b - b'))%C <= (d1 n - c1 n) * Cmod (b - b')%C.
Proof using HN HF HG Hb.
  intros H H'. pose proof (Cmod_ge_0 b) as Pb.
  set (q := fun k => (b * (RtoC (G k) * RtoC (F k)) / (1 - b * RtoC (G k)) / (1 - b' * RtoC (G k)) + b' * (RtoC (G k) * RtoC (F k)) / (1 - b' * RtoC (G k)))%C).
  set (Q := fun k => rho * (G k * F k) / (1 - rho * G k) / (1 - rho * G k) + rho * (G k * F k) / (1 - rho * G k)).
  assert (L : leq N q Q).
  { assert (L0 := leq_mult G _ _ HG (leq_real F HF)). unfold q, Q. apply leq_plus.
    - apply (leq_geo b' rho G (fun k => b * (RtoC (G k) * RtoC (F k)) / (1 - b * RtoC (G k)))%C (fun k => rho * (G k * F k) / (1 - rho * G k))); auto.
      apply (leq_geo b rho G (fun k => b * (RtoC (G k) * RtoC (F k)))%C (fun k => rho * (G k * F k))); auto.
      apply leq_scal; assumption.
    - apply (leq_geo b' rho G (fun k => b' * (RtoC (G k) * RtoC (F k)))%C (fun k => rho * (G k * F k))); auto. apply leq_scal; assumption. }
  assert (E : (hC N n (loop F G b) - hC N n (loop F G b') - RtoC (c1 n) * (b - b') = (b - b') * hC N n q)%C).
  { unfold c1. rewrite <- hC_real, <- hC_scal.
    replace (hC N n (loop F G b) - hC N n (loop F G b') - hC N n (fun k => RtoC (F k)) * (b - b'))%C
      with (hC N n (loop F G b) + (-1) * hC N n (loop F G b') + (- (b - b')) * hC N n (fun k => RtoC (F k)))%C by ring.
    rewrite <- !hC_scal, <- !hC_plus. apply hC_ext. intros k Hk. unfold loop, q. field. split; now apply den. }
  rewrite E, Cmod_mult, Rmult_comm. apply Rmult_le_compat_r; [apply Cmod_ge_0|].
  assert (ED : d1 n - c1 n = harm N n Q).
  { unfold d1, c1. rewrite <- harm_minus. apply harm_ext. intros k Hk. unfold Q. pose proof (Hb k Hk) as B. apply Rabs_lt_between in B. field. lra. }
  rewrite ED. apply L.
Qed.
Lemma loop_conj b n : Cmod b <= rho -> hC N n (loop F G (Cconj b)) = Cconj (hC N n (loop F G b)).
Proof using Hb.
  intros H. rewrite <- hC_conj. apply hC_ext. intros k Hk. unfold loop.
  rewrite Cconj_div by (now apply den). rewrite Cconj_minus, !Cconj_mult, !Cconj_R. reflexivity.
Qed.
Lemma loop_phase b n : Cmod b <= rho -> Rabs (Im (hC N n (loop F G b)) - c1 n * Im b) <= (d1 n - c1 n) * Rabs (Im b).
Proof using HN HF HG Hb.
  intros H. assert (H' : Cmod (Cconj b) <= rho) by (now rewrite Cmod_conj).
  assert (L := loop_diff b (Cconj b) n H H'). rewrite loop_conj in L by exact H.
  assert (X : forall w, (w - Cconj w)%C = (RtoC (2 * Im w) * (0, 1)%R)%C).
  { intros w. unfold Im. apply injective_projections; cbn; ring. }
  assert (I1 : Cmod (0, 1)%R = 1) by (unfold Cmod; cbn [fst snd]; replace (0 ^ 2 + 1 ^ 2) with 1 by ring; apply sqrt_1).
  rewrite !X in L.
  replace (RtoC (2 * Im (hC N n (loop F G b))) * (0, 1)%R - RtoC (c1 n) * (RtoC (2 * Im b) * (0, 1)%R))%C
    with (RtoC (2 * (Im (hC N n (loop F G b)) - c1 n * Im b)) * (0, 1)%R)%C in L by (rewrite !RtoC_mult, RtoC_minus, RtoC_mult; ring).
  rewrite !Cmod_mult, I1, !Cmod_R, !Rmult_1_r, !Rabs_mult, (Rabs_pos_eq 2) in L by lra. lra.
Qed.
End LOOP.
End MAJ.
