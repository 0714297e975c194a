(** * Lemmas about demodulation (proofs only) *)
From Coq Require Import String Reals Lra Lia ZArith List Bool.
From Coquelicot Require Import Rcomplements Complex.
From Verif Require Import Num NumLemmas ModelBase ModelSample ModelTip StackLemmas Spec ProofsSym.
Import ListNotations.
Open Scope R_scope.

(** the k-th sampling phase and the complex exponential *)
Definition node (N k : nat) : R := - PI + INR k * (2 * PI / INR N).
Definition ph (n : Z) (t : R) : C := Cexp (0, - (IZR n * t)).

Lemma ph_0 t : ph 0 t = RtoC 1.
Proof. unfold ph. replace (- (0 * t)) with 0 by ring. apply Cexp_0. Qed.
Lemma ph_add n m t : ph (n + m) t = (ph n t * ph m t)%C.
Proof.
  unfold ph. rewrite <- Cexp_plus. f_equal. unfold Cplus. simpl. f_equal; [ring|]. rewrite plus_IZR. ring.
Qed.
Lemma ph_conj n t : Cconj (ph n t) = ph (- n) t.
Proof.
  unfold ph. rewrite <- Cexp_conj. f_equal. unfold Cconj. simpl. f_equal. rewrite opp_IZR. ring.
Qed.
Lemma ph_opp n t : ph n (- t) = ph (- n) t.
Proof. unfold ph. f_equal. f_equal. rewrite opp_IZR. ring. Qed.
Lemma ph_plus n s t : ph n (s + t) = (ph n s * ph n t)%C.
Proof. unfold ph. rewrite <- Cexp_plus. f_equal. unfold Cplus. simpl. f_equal; ring. Qed.
Lemma ph_cos n t : ph n t = (cos (IZR n * t), - sin (IZR n * t)).
Proof.
  unfold ph, Cexp, Re, Im. cbn [fst snd]. rewrite exp_0, cos_neg, sin_neg. f_equal; ring.
Qed.
Lemma ph_2PI_Z (m : Z) : cos (IZR m * (2 * PI)) = 1 /\ sin (IZR m * (2 * PI)) = 0.
Proof.
  assert (H : forall p : nat, cos (INR p * (2 * PI)) = 1 /\ sin (INR p * (2 * PI)) = 0).
  { intros p. pose proof (cos_period 0 p) as H1. pose proof (sin_period 0 p) as H2.
    replace (0 + 2 * INR p * PI) with (INR p * (2 * PI)) in * by ring. rewrite H1, H2, cos_0, sin_0. auto. }
  destruct (Z_le_dec 0 m) as [Hm|Hm].
  - rewrite <- (Z2Nat.id m Hm), <- INR_IZR_INZ. apply H.
  - replace (IZR m * (2 * PI)) with (- (INR (Z.to_nat (- m)) * (2 * PI))).
    + rewrite cos_neg, sin_neg. destruct (H (Z.to_nat (- m))) as [-> ->]. split; lra.
    + rewrite INR_IZR_INZ, Z2Nat.id, opp_IZR by lia. ring.
Qed.
(** periodicity *)
Lemma ph_period n m t : ph n (t + IZR m * (2 * PI)) = ph n t.
Proof.
  rewrite ph_plus. replace (ph n (IZR m * (2 * PI))) with (RtoC 1); [ring|].
  rewrite ph_cos. destruct (ph_2PI_Z (n * m)) as [H1 H2].
  replace (IZR n * (IZR m * (2 * PI))) with (IZR (n * m) * (2 * PI)) by (rewrite mult_IZR; ring).
  rewrite H1, H2. unfold RtoC. f_equal. ring.
Qed.
Lemma cos_periodZ t m : cos (t + IZR m * (2 * PI)) = cos t.
Proof. rewrite cos_plus. destruct (ph_2PI_Z m) as [-> ->]. ring. Qed.

Lemma node_shift N k j : N <> O -> node N (k + j * N) = node N k + IZR (Z.of_nat j) * (2 * PI).
Proof.
  intros H. unfold node. rewrite plus_INR, mult_INR, <- INR_IZR_INZ. field. now apply not_0_INR.
Qed.
Lemma node_N N : N <> O -> node N N = PI.
Proof. intros H. unfold node. field. now apply not_0_INR. Qed.
Lemma node_0 N : node N 0 = - PI.
Proof. unfold node. simpl. ring. Qed.
Lemma node_rev N k : N <> O -> (k <= N)%nat -> node N (N - k) = - node N k.
Proof. intros H Hk. unfold node. rewrite minus_INR by exact Hk. field. now apply not_0_INR. Qed.

(** sums *)
Lemma csum_None {A} (h : A -> CV) l : (exists a, In a l /\ h a = None) -> csum (map h l) = None.
Proof.
  intros (a & Hin & Ha). induction l as [|b l IH]; [destruct Hin|]. cbn [map csum fold_right].
  destruct Hin as [->|Hin]; [now rewrite Ha|]. unfold csum in IH. rewrite IH by exact Hin. apply cadd_None_r.
Qed.
Lemma all_or_none {A} (h : A -> CV) (l : list A) :
  (exists a, In a l /\ h a = None) \/ (exists g : A -> C, forall a, In a l -> h a = Some (g a)).
Proof.
  destruct (List.Forall_Exists_dec (fun a => h a <> None)) with (l := l) as [H|H].
  - intros a. destruct (h a); [left|right]; congruence.
  - right. exists (fun a => match h a with Some c => c | None => RtoC 0 end).
    intros a Hin. rewrite Forall_forall in H. specialize (H a Hin). destruct (h a); congruence.
  - left. rewrite Exists_exists in H. destruct H as (a & Hin & Ha). exists a. split; [exact Hin|].
    destruct (h a); [exfalso; apply Ha; discriminate|reflexivity].
Qed.
Lemma csum_ext_in {A} (f g : A -> CV) l : (forall a, In a l -> f a = g a) -> csum (map f l) = csum (map g l).
Proof. intros H. f_equal. now apply map_ext_in. Qed.
Lemma csum_all {A} (h : A -> CV) (g : A -> C) l : (forall a, In a l -> h a = Some (g a)) ->
  csum (map h l) = Some (Csum (map g l)).
Proof.
  induction l as [|a l IH]; intros H; [reflexivity|]. cbn [map csum fold_right].
  rewrite (H a) by now left. unfold csum in IH. rewrite IH by (intros b Hb; apply H; now right). reflexivity.
Qed.

Lemma Csum_tele (g : nat -> C) N : Csum (map (fun k => g (S k)) (seq 0 N)) = (Csum (map g (seq 0 N)) - g O + g N)%C.
Proof.
  induction N as [|N IH]; [simpl; ring|].
  rewrite seq_S, !map_app, !Csum_app, IH. simpl. ring.
Qed.

Lemma combine_app_r {A B} (l : list A) (l1 l2 : list B) : length l = length l1 -> combine l (l1 ++ l2) = combine l l1.
Proof. revert l1. induction l as [|a l IH]; intros [|b l1]; simpl; intros H; try lia; auto. f_equal. auto. Qed.

Lemma trapezoid_periodic (g : nat -> CV) N : N <> O -> g N = g O ->
  trapezoid (map g (seq 0 (N + 1))) = csum (map g (seq 0 N)).
Proof.
  intros HN Hg. unfold trapezoid.
  assert (E : combine (tl (map g (seq 0 (N + 1)))) (map g (seq 0 (N + 1)))
              = map (fun k => (g (S k), g k)) (seq 0 N)).
  { replace (tl (map g (seq 0 (N + 1)))) with (map (fun k => g (S k)) (seq 0 N)).
    - replace (N + 1)%nat with (S N) by lia. rewrite seq_S, map_app, combine_app_r by (now rewrite !map_length).
      apply combine_map_same.
    - replace (N + 1)%nat with (S N) by lia. cbn [seq map tl]. rewrite <- seq_shift, map_map. reflexivity. }
  rewrite E, map_map. cbn [fst snd]. clear E.
  destruct (all_or_none g (seq 0 N)) as [(a & Hin & Ha)|[h Hh]].
  - rewrite (csum_None g) by eauto. apply csum_None. exists a. split; [exact Hin|].
    rewrite Ha, cadd_None_r. reflexivity.
  - assert (Hh' : forall k, (k <= N)%nat -> g k = Some (if Nat.eqb k N then h O else h k)).
    { intros k Hk. destruct (Nat.eqb_spec k N) as [->|Hne].
      - rewrite Hg. apply Hh, in_seq. lia.
      - apply Hh, in_seq. lia. }
    set (h' := fun k => if Nat.eqb k N then h O else h k) in Hh'.
    rewrite (csum_all g h') by (intros k Hk; apply in_seq in Hk; apply Hh'; lia).
    rewrite (csum_all _ (fun k => (h' (S k) + h' k) * (/ 2))%C).
    + f_equal. rewrite (Csum_ext_in _ (fun k => / 2 * (h' (S k) + h' k))%C) by (intros; ring).
      rewrite Csum_scal, (Csum_plus (fun k => h' (S k)) h'), Csum_tele.
      assert (h' N = h' O) as ->.
      { unfold h'. rewrite Nat.eqb_refl. destruct (Nat.eqb_spec 0 N); [congruence|reflexivity]. }
      field. exact C2_neq_0.
    + intros k Hk. apply in_seq in Hk. rewrite (Hh' (S k)), (Hh' k) by lia. unfold cadd. cbn [olift2].
      unfold rc. rewrite cdiv_ok by apply C2_neq_0. reflexivity.
Qed.

Lemma combine_map_seq {A B D} (f : A -> B) (g : A -> D) l : combine (map f l) (map g l) = map (fun a => (f a, g a)) l.
Proof. induction l; simpl; [reflexivity|]. f_equal. auto. Qed.

(** ** Demodulation is a mean over N phases *)
Definition height (x0 A : R) (N k : nat) : R := x0 + cos (node N k) * A.
Definition mean (N : nat) (h : nat -> CV) : CV := (csum (map h (seq 0 N)) / rc (INR N))%cv.
Definition dmean (x0 A : R) (n : Z) (N : nat) (F : R -> CV) : CV :=
  mean N (fun k => (F (height x0 A N k) * Some (ph n (node N k)))%cv).

Lemma cos_PI_opp : cos (- PI) = cos PI. Proof. apply cos_neg. Qed.

Lemma height_N x0 A N : N <> O -> height x0 A N N = height x0 A N 0.
Proof. intros H. unfold height. rewrite node_N, node_0, cos_neg by exact H. reflexivity. Qed.

Lemma ph_N n N : N <> O -> ph n (node N N) = ph n (node N 0).
Proof.
  intros H. rewrite node_N, node_0 by exact H.
  replace PI with (- PI + IZR 1 * (2 * PI)) at 1 by ring. apply ph_period.
Qed.

Lemma demod_mean D f F x0 A n nt :
  let N := dflt (d_n_trapz D) nt in
  N <> O ->
  (exists c, f (x0 + 0 * A) = Ok c) ->
  (forall k, (k <= N)%nat -> f (height x0 A N k) = Ok (F (height x0 A N k))) ->
  demod D f x0 A n nt = Ok (dmean x0 A n N F).
Proof.
  intros N HN [c Hc] Hf. unfold demod. fold N. rewrite Hc. cbn [rbind].
  rewrite (mapM_ok _ (fun t => F (x0 + cos t * A))).
  2: { intros t Hin. unfold thetas in Hin. apply in_map_iff in Hin. destruct Hin as (k & <- & Hk).
       apply in_seq in Hk. fold (node N k). apply Hf. lia. }
  cbn [rbind]. unfold thetas. rewrite map_map, combine_map_seq, map_map. cbn [fst snd].
  f_equal. unfold dmean, mean. f_equal.
  apply (trapezoid_periodic (fun k => (F (height x0 A N k) * Some (ph n (node N k)))%cv) N HN).
  rewrite height_N, ph_N by exact HN. reflexivity.
Qed.

(** what a successful call has evaluated *)
Definition val (f : R -> res CV) (x : R) : CV := match f x with Ok v => v | Raise _ => None end.

Lemma mapM_inv {A B} (f : A -> res B) l l' : mapM f l = Ok l' -> forall a, In a l -> exists b, f a = Ok b.
Proof.
  revert l'. induction l as [|x l IH]; intros l' H a Hin; [destruct Hin|].
  cbn [mapM] in H. destruct (f x) as [b|] eqn:E; [|discriminate]. cbn [rbind] in H.
  destruct (mapM f l) as [bs|] eqn:E2; [|discriminate].
  destruct Hin as [<-|Hin]; [eauto|]. eapply IH; eauto.
Qed.

Lemma demod_ok_inv D f x0 A n nt v :
  demod D f x0 A n nt = Ok v ->
  let N := dflt (d_n_trapz D) nt in
  (exists c, f (x0 + 0 * A) = Ok c) /\
  (forall k, (k <= N)%nat -> f (height x0 A N k) = Ok (val f (height x0 A N k))).
Proof.
  intros H N. unfold demod in H. fold N in H.
  destruct (f (x0 + 0 * A)) as [c|] eqn:E; [|discriminate]. cbn [rbind] in H.
  destruct (mapM _ (thetas N)) as [fs|] eqn:E2; [|discriminate].
  split; [eauto|]. intros k Hk. unfold val.
  destruct (mapM_inv _ _ _ E2 (node N k)) as [b Hb].
  - unfold thetas. apply in_map_iff. exists k. split; [reflexivity|]. apply in_seq. lia.
  - unfold height. rewrite Hb. reflexivity.
Qed.

Lemma demod_inv D f x0 A n nt v :
  let N := dflt (d_n_trapz D) nt in
  N <> O -> demod D f x0 A n nt = Ok v -> v = dmean x0 A n N (val f).
Proof.
  intros N HN H. destruct (demod_ok_inv _ _ _ _ _ _ _ H) as [Hc Hf].
  rewrite (demod_mean D f (val f)) in H by assumption. now injection H as <-.
Qed.

Lemma demod_N0 D f x0 A n nt v : dflt (d_n_trapz D) nt = O -> demod D f x0 A n nt = Ok v -> v = None.
Proof.
  intros HN H. unfold demod in H. rewrite HN in H. destruct (f _); [|discriminate]. cbn [rbind] in H.
  destruct (mapM _ _); [|discriminate]. cbn [rbind] in H. injection H as <-. apply cdiv_zero.
Qed.

Lemma mean_ext N h h' : (forall k, (k < N)%nat -> h k = h' k) -> mean N h = mean N h'.
Proof. intros H. unfold mean. f_equal. apply csum_ext_in. intros k Hk. apply in_seq in Hk. apply H. lia. Qed.

Lemma mean_Some N h (g : nat -> C) : N <> O -> (forall k, (k < N)%nat -> h k = Some (g k)) ->
  mean N h = Some (Csum (map g (seq 0 N)) / RtoC (INR N))%C.
Proof.
  intros HN H. unfold mean. rewrite (csum_all h g) by (intros k Hk; apply in_seq in Hk; apply H; lia).
  unfold rc. rewrite cdiv_ok; [reflexivity|]. apply RtoC_neq_0. now apply not_0_INR.
Qed.

(** mean of complex numbers *)
Definition cmean (N : nat) (g : nat -> C) : C := (Csum (map g (seq 0 N)) / RtoC (INR N))%C.

Lemma mean_None N h k : (k < N)%nat -> h k = None -> mean N h = None.
Proof.
  intros Hk H. unfold mean. rewrite csum_None; [reflexivity|]. exists k. split; [apply in_seq; lia|exact H].
Qed.

Lemma mean_cases N h : N <> O ->
  (mean N h = None /\ exists k, (k < N)%nat /\ h k = None) \/
  (exists g, (forall k, (k < N)%nat -> h k = Some (g k)) /\ mean N h = Some (cmean N g)).
Proof.
  intros HN. destruct (all_or_none h (seq 0 N)) as [(k & Hk & E)|[g Hg]].
  - apply in_seq in Hk. left. split; [apply (mean_None N h k); [lia|exact E]|]. exists k. split; [lia|exact E].
  - right. exists g.
    assert (H : forall k, (k < N)%nat -> h k = Some (g k)) by (intros k Hk; apply Hg, in_seq; lia).
    split; [exact H|]. now apply mean_Some.
Qed.

Lemma INR_C_neq_0 N : N <> O -> RtoC (INR N) <> RtoC 0.
Proof. intros H. apply RtoC_neq_0. now apply not_0_INR. Qed.

Lemma cmean_ext N g g' : (forall k, (k < N)%nat -> g k = g' k) -> cmean N g = cmean N g'.
Proof. intros H. unfold cmean. f_equal. apply Csum_ext_in. intros k Hk. apply in_seq in Hk. apply H. lia. Qed.
Lemma cmean_scal N (c : C) g : cmean N (fun k => c * g k)%C = (c * cmean N g)%C.
Proof. unfold cmean. rewrite Csum_scal. unfold Cdiv. ring. Qed.
Lemma cmean_plus N g g' : cmean N (fun k => g k + g' k)%C = (cmean N g + cmean N g')%C.
Proof. unfold cmean. rewrite Csum_plus. unfold Cdiv. ring. Qed.
Lemma cmean_const N c : N <> O -> cmean N (fun _ => c) = c.
Proof.
  intros HN. unfold cmean.
  replace (Csum (map (fun _ => c) (seq 0 N))) with (RtoC (INR N) * c)%C.
  - field. now apply INR_C_neq_0.
  - clear HN. generalize O. induction N as [|N IH]; intros s; [simpl; ring|].
    cbn [seq map Csum fold_right]. rewrite S_INR, RtoC_plus. specialize (IH (S s)). unfold Csum in IH.
    rewrite <- IH. ring.
Qed.
Lemma cmean_shift1 N g : g N = g O -> cmean N (fun k => g (S k)) = cmean N g.
Proof. intros H. unfold cmean. f_equal. rewrite Csum_tele, H. ring. Qed.
Lemma cmean_shift N g j : (forall k, g (k + N)%nat = g k) -> cmean N (fun k => g (k + j)%nat) = cmean N g.
Proof.
  intros H. induction j as [|j IH].
  - apply cmean_ext. intros k _. now rewrite Nat.add_0_r.
  - rewrite <- IH. rewrite <- (cmean_shift1 N (fun k => g (k + j)%nat)).
    + apply cmean_ext. intros k _. f_equal. lia.
    + replace (N + j)%nat with (0 + j + N)%nat by lia. now rewrite H.
Qed.
Lemma Csum_rev l : Csum (rev l) = Csum l.
Proof. induction l as [|a l IH]; [reflexivity|]. cbn [rev]. rewrite Csum_app, IH. simpl. ring. Qed.
Lemma rev_seq_map (g : nat -> C) N : map (fun k => g (N - k)%nat) (seq 0 N) = rev (map (fun k => g (S k)) (seq 0 N)).
Proof.
  induction N as [|N IH]; [reflexivity|].
  rewrite seq_S at 2. rewrite map_app, rev_app_distr. cbn [map rev app seq].
  f_equal. rewrite <- IH, <- seq_shift, map_map. apply map_ext_in. intros k Hk. f_equal. 
Qed.
Lemma cmean_rev N g : g N = g O -> cmean N (fun k => g (N - k)%nat) = cmean N g.
Proof. intros H. rewrite <- (cmean_shift1 N g H). unfold cmean. f_equal. now rewrite rev_seq_map, Csum_rev. Qed.

Lemma cmean_bound N g B : N <> O -> (forall k, (k < N)%nat -> Cmod (g k) <= B) -> Cmod (cmean N g) <= B.
Proof.
  intros HN H. unfold cmean. rewrite Cmod_div by now apply INR_C_neq_0.
  rewrite Cmod_R. assert (HP : 0 < INR N) by (apply lt_0_INR; lia). rewrite Rabs_pos_eq by lra.
  apply Rle_div_l; [exact HP|]. eapply Rle_trans; [apply Csum_triang|].
  assert (K : forall s M, (s + M <= N)%nat -> fold_right Rplus 0 (map (fun a => Cmod (g a)) (seq s M)) <= INR M * B).
  { intros s M. revert s. induction M as [|M IH]; intros s Hs; [simpl; lra|].
    cbn [seq map fold_right]. rewrite S_INR. specialize (IH (S s) ltac:(lia)). specialize (H s ltac:(lia)). lra. }
  specialize (K O N ltac:(lia)). lra.
Qed.

(** ** Sums of roots of unity *)
Lemma geom_sum (w : C) M : (Csum (map (fun k => Cpown w k) (seq 0 M)) * (w - 1) = Cpown w M - 1)%C.
Proof.
  induction M as [|M IH]; [simpl; ring|].
  rewrite seq_S, map_app, Csum_app. cbn [map Csum fold_right]. rewrite Cmult_plus_distr_r, IH. simpl. ring.
Qed.

Lemma ph_pow n t k : ph n (INR k * t) = Cpown (ph n t) k.
Proof.
  induction k as [|k IH].
  - rewrite ph_cos. simpl. rewrite Rmult_0_l, Rmult_0_r, cos_0, sin_0. unfold RtoC. f_equal. ring.
  - rewrite S_INR. replace ((INR k + 1) * t) with (t + INR k * t) by ring. rewrite ph_plus, IH. reflexivity.
Qed.

Lemma cos1_sin0 x : cos x = 1 -> exists m : Z, x = IZR m * (2 * PI).
Proof.
  intros H. assert (S : sin (x / 2) = 0).
  { pose proof (cos_2a_sin (x / 2)) as E. replace (2 * (x / 2)) with x in E by lra. rewrite H in E.
    assert (sin (x / 2) * sin (x / 2) = 0) by lra. nra. }
  apply sin_eq_0_0 in S. destruct S as [m Hm]. exists m. lra.
Qed.

(** the mean of e^{-i m theta} over the nodes vanishes unless N divides m *)
Lemma mean_ph m N : N <> O -> ~ (Z.of_nat N | m)%Z -> cmean N (fun k => ph m (node N k)) = RtoC 0.
Proof.
  intros HN Hdiv. set (w := ph m (2 * PI / INR N)).
  assert (Hw : w <> RtoC 1).
  { intros E. unfold w in E. rewrite ph_cos in E. injection E as E1 _. apply cos1_sin0 in E1.
    destruct E1 as [j Hj]. apply Hdiv. exists j. apply eq_IZR. rewrite mult_IZR, <- INR_IZR_INZ.
    assert (INR N <> 0) by now apply not_0_INR. pose proof PI_RGT_0.
    assert (E : IZR m * (2 * PI) = IZR j * INR N * (2 * PI)).
    { replace (IZR m * (2 * PI)) with (IZR m * (2 * PI / INR N) * INR N) by (field; auto). rewrite Hj. ring. }
    apply Rmult_eq_reg_r in E; [exact E|lra]. }
  assert (HwN : Cpown w N = RtoC 1).
  { unfold w. rewrite <- ph_pow. replace (INR N * (2 * PI / INR N)) with (0 + IZR 1 * (2 * PI))
      by (field; now apply not_0_INR). rewrite ph_period, ph_cos, Rmult_0_r, cos_0, sin_0.
    unfold RtoC. f_equal. ring. }
  rewrite (cmean_ext N _ (fun k => ph m (- PI) * Cpown w k)%C).
  - rewrite cmean_scal. unfold cmean. pose proof (geom_sum w N) as G. rewrite HwN in G.
    replace (1 - 1)%C with (RtoC 0) in G by ring.
    apply Cmult_integral in G. destruct G as [G|G]; [replace (Csum (map _ _)) with (RtoC 0) by (symmetry; exact G); unfold Cdiv; ring|].
    exfalso. apply Hw. now apply Csub_eq0.
  - intros k _. unfold node. rewrite ph_plus, ph_pow. reflexivity.
Qed.

(** at multiples of N all phases coincide *)
Lemma ph_PI m : ph m PI = RtoC (if Z.even m then 1 else -1).
Proof.
  destruct (Z.even m) eqn:E.
  - apply Z.even_spec in E. destruct E as [j ->]. rewrite ph_cos.
    replace (IZR (2 * j) * PI) with (IZR j * (2 * PI)) by (rewrite mult_IZR; ring).
    destruct (ph_2PI_Z j) as [-> ->]. unfold RtoC. f_equal. ring.
  - assert (O : Z.odd m = true) by (rewrite <- Z.negb_even, E; reflexivity).
    apply Z.odd_spec in O. destruct O as [j ->]. rewrite ph_cos.
    replace (IZR (2 * j + 1) * PI) with (PI + IZR j * (2 * PI)) by (rewrite plus_IZR, mult_IZR; ring).
    rewrite cos_plus, sin_plus. destruct (ph_2PI_Z j) as [-> ->]. rewrite cos_PI, sin_PI. unfold RtoC. f_equal; ring.
Qed.
Lemma ph_mPI m : ph m (- PI) = ph m PI.
Proof. rewrite ph_opp, !ph_PI. now rewrite Z.even_opp. Qed.

Lemma ph_alias p N k : N <> O -> ph (p * Z.of_nat N) (node N k) = RtoC (if Z.even (p * Z.of_nat N) then 1 else -1).
Proof.
  intros HN. unfold node. rewrite ph_plus, ph_mPI, ph_PI.
  replace (ph (p * Z.of_nat N) (INR k * (2 * PI / INR N))) with (RtoC 1); [ring|].
  rewrite ph_cos, mult_IZR, <- INR_IZR_INZ.
  replace (IZR p * INR N * (INR k * (2 * PI / INR N))) with (IZR (p * Z.of_nat k) * (2 * PI))
    by (rewrite mult_IZR, <- INR_IZR_INZ; field; now apply not_0_INR).
  destruct (ph_2PI_Z (p * Z.of_nat k)) as [-> ->]. unfold RtoC. f_equal. ring.
Qed.

(** nodes are symmetric *)
Lemma height_rev x0 A N k : N <> O -> (k <= N)%nat -> height x0 A N (N - k) = height x0 A N k.
Proof. intros H Hk. unfold height. rewrite node_rev, cos_neg by assumption. reflexivity. Qed.
Lemma height_range x0 A N k : x0 - Rabs A <= height x0 A N k <= x0 + Rabs A.
Proof.
  unfold height. destruct (COS_bound (node N k)) as [H1 H2]. unfold Rabs. destruct (Rcase_abs A); nra.
Qed.
Lemma height_add x0 A N k j : N <> O -> height x0 A N (k + j * N) = height x0 A N k.
Proof. intros H. unfold height. rewrite node_shift, cos_periodZ by exact H. reflexivity. Qed.
Lemma ph_node_add n N k j : N <> O -> ph n (node N (k + j * N)) = ph n (node N k).
Proof. intros H. rewrite node_shift, ph_period by exact H. reflexivity. Qed.
