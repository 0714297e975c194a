(** * Proofs: demodulation *)
From Coq Require Import String Reals Lra Lia ZArith List Bool.
From Coquelicot Require Import Coquelicot.
From Verif Require Import Num NumLemmas ModelBase ModelSample ModelTip StackLemmas Spec ProofsSym DemodLemmas.
Import ListNotations.
Open Scope R_scope.

Lemma demod_ok_N0 D f x0 A n nt : dflt (d_n_trapz D) nt = O ->
  (exists c, f (x0 + 0 * A) = Ok c) -> (exists c, f (height x0 A 0 0) = Ok c) ->
  demod D f x0 A n nt = Ok None.
Proof.
  intros HN [c Hc] [c' Hc']. unfold demod. rewrite HN, Hc. cbn [rbind]. unfold thetas. cbn [seq Nat.add map mapM].
  unfold height, node in Hc'. rewrite Hc'. cbn [rbind]. f_equal. apply cdiv_zero.
Qed.

Lemma mean_lin N (a b : C) h h' :
  mean N (fun k => (Some a * h k + Some b * h' k)%cv) = (Some a * mean N h + Some b * mean N h')%cv.
Proof.
  destruct (Nat.eq_dec N 0) as [->|HN].
  { unfold mean. cbn [INR]. unfold rc. rewrite !cdiv_zero. reflexivity. }
  destruct (mean_cases N h HN) as [[E (k & Hk & Ek)]|(g & Hg & E)]; rewrite E.
  { rewrite (mean_None _ _ k Hk); [reflexivity|]. rewrite Ek. reflexivity. }
  destruct (mean_cases N h' HN) as [[E' (k & Hk & Ek)]|(g' & Hg' & E')]; rewrite E'.
  { rewrite (mean_None _ _ k Hk); [reflexivity|]. rewrite Ek, cmul_None_r, cadd_None_r. reflexivity. }
  rewrite (mean_Some N _ (fun k => a * g k + b * g' k)%C HN).
  - fold (cmean N (fun k => a * g k + b * g' k)%C). rewrite cmean_plus, !cmean_scal. reflexivity.
  - intros k Hk. rewrite Hg, Hg' by exact Hk. reflexivity.
Qed.

(** C36. Demodulation is linear: if f and g demodulate to u and v, then
    a f + b g demodulates to a u + b v (non-finite values included). *)
Lemma C36_linear_proof :
  forall (D : Defaults) (f g : R -> res CV) (a b : C) (x_0 x_amplitude : R) (n : Z) (n_trapz : option nat) (u v : CV),
  demod D f x_0 x_amplitude n n_trapz = Ok u ->
  demod D g x_0 x_amplitude n n_trapz = Ok v ->
  demod D (fun x => let! y := f x in let! z := g x in Ok (Some a * y + Some b * z)%cv) x_0 x_amplitude n n_trapz
  = Ok (Some a * u + Some b * v)%cv.
Proof.
  intros D f g a b x0 A n nt u v Hu Hv.
  destruct (demod_ok_inv _ _ _ _ _ _ _ Hu) as [[c Hc] Hf].
  destruct (demod_ok_inv _ _ _ _ _ _ _ Hv) as [[c' Hc'] Hg].
  set (N := dflt (d_n_trapz D) nt) in *.
  destruct (Nat.eq_dec N 0) as [E|HN].
  - rewrite (demod_N0 _ _ _ _ _ _ _ E Hu). apply demod_ok_N0; [exact E| |].
    + rewrite Hc, Hc'. cbn [rbind]. eauto.
    + rewrite E in Hf, Hg. rewrite Hf, Hg by lia. cbn [rbind]. eauto.
  - rewrite (demod_mean D _ (fun x => Some a * val f x + Some b * val g x)%cv); [|exact HN| |].
    + fold N. rewrite (demod_inv _ _ _ _ _ _ _ HN Hu), (demod_inv _ _ _ _ _ _ _ HN Hv). f_equal.
      unfold dmean. fold N. rewrite <- mean_lin. apply mean_ext. intros k _.
      destruct (val f (height x0 A N k)) as [p|]; destruct (val g (height x0 A N k)) as [q|];
        cbn [cmul cadd olift2]; try reflexivity. unfold cmul, cadd. cbn [olift2]. f_equal. ring.
    + rewrite Hc, Hc'. cbn [rbind]. eauto.
    + intros k Hk. fold N. rewrite Hf, Hg by exact Hk. reflexivity.
Qed.

(** C36. Constants: with N >= 1 intervals a constant demodulates to itself at
    n = 0, and to 0 at every harmonic N does not divide; the same holds for
    any function if the amplitude is 0. *)
Lemma C36_zero_amplitude_proof :
  forall (D : Defaults) (f : R -> res CV) (c : C) (x_0 : R) (n : Z) (n_trapz : option nat),
  let N := match n_trapz with Some N => N | None => d_n_trapz D end in
  N <> O -> f x_0 = Ok (Some c) ->
  (n = 0%Z -> demod D f x_0 0 n n_trapz = Ok (Some c)) /\
  (~ (Z.of_nat N | n)%Z -> demod D f x_0 0 n n_trapz = Ok (Some (RtoC 0))).
Proof.
  intros D f c x0 n nt N HN Hf.
  assert (En : N = dflt (d_n_trapz D) nt) by (unfold N, dflt; destruct nt; reflexivity).
  assert (E : demod D f x0 0 n nt = Ok (Some (c * cmean N (fun k => ph n (node N k)))%C)).
  { rewrite (demod_mean D f (fun _ => Some c)).
    - rewrite <- En. f_equal. unfold dmean. rewrite <- cmean_scal. now apply mean_Some.
    - congruence.
    - exists (Some c). transitivity (f x0); [f_equal; ring|exact Hf].
    - intros k _. transitivity (f x0); [f_equal; unfold height; ring|exact Hf]. }
  rewrite E. split.
  - intros ->. do 2 f_equal. rewrite (cmean_ext N _ (fun _ => RtoC 1)) by (intros; apply ph_0).
    rewrite cmean_const by exact HN. ring.
  - intros Hd. rewrite mean_ph by assumption. do 2 f_equal. ring.
Qed.
Lemma C36_constants_proof :
  forall (D : Defaults) (c : C) (x_0 x_amplitude : R) (n : Z) (n_trapz : option nat),
  let N := match n_trapz with Some N => N | None => d_n_trapz D end in
  N <> O ->
  (n = 0%Z -> demod D (fun _ => Ok (Some c)) x_0 x_amplitude n n_trapz = Ok (Some c)) /\
  (~ (Z.of_nat N | n)%Z -> demod D (fun _ => Ok (Some c)) x_0 x_amplitude n n_trapz = Ok (Some (RtoC 0))).
Proof.
  intros D c x0 A n nt N HN.
  assert (En : N = dflt (d_n_trapz D) nt) by (unfold N, dflt; destruct nt; reflexivity).
  assert (E : demod D (fun _ => Ok (Some c)) x0 A n nt = Ok (Some (c * cmean N (fun k => ph n (node N k)))%C)).
  { rewrite (demod_mean D _ (fun _ => Some c)).
    - rewrite <- En. f_equal. unfold dmean. rewrite <- cmean_scal. now apply mean_Some.
    - congruence.
    - eauto.
    - reflexivity. }
  rewrite E. split.
  - intros ->. do 2 f_equal. rewrite (cmean_ext N _ (fun _ => RtoC 1)) by (intros; apply ph_0).
    rewrite cmean_const by exact HN. ring.
  - intros Hd. rewrite mean_ph by assumption. do 2 f_equal. ring.
Qed.
(** C36. Example: third harmonic of a constant with the default 32 intervals *)
Lemma C36_example_proof :
  demod defaults0 (fun _ => Ok (Some (2, 5)%R)) 7 1 3 None = Ok (Some (RtoC 0)).
Proof. apply C36_constants_proof; [discriminate|]. intros [j H]. cbn in H. lia. Qed.

(** ** C38 *)
Lemma demod_raise_indep D f x0 A n n' nt e : demod D f x0 A n nt = Raise e -> demod D f x0 A n' nt = Raise e.
Proof.
  unfold demod. destruct (f _); [|auto]. cbn [rbind]. destruct (mapM _ _); [discriminate|auto].
Qed.
Lemma demod_ok_indep D f x0 A n n' nt v : demod D f x0 A n nt = Ok v -> exists v', demod D f x0 A n' nt = Ok v'.
Proof.
  intros H. destruct (demod D f x0 A n' nt) as [v'|e] eqn:E; [eauto|].
  apply (demod_raise_indep _ _ _ _ _ n) in E. congruence.
Qed.
Lemma mean_scal N (a : C) h : mean N (fun k => (Some a * h k)%cv) = (Some a * mean N h)%cv.
Proof.
  destruct (Nat.eq_dec N 0) as [->|HN].
  { unfold mean. cbn [INR]. unfold rc. rewrite !cdiv_zero. reflexivity. }
  destruct (mean_cases N h HN) as [[E (k & Hk & Ek)]|(g & Hg & E)]; rewrite E.
  { rewrite (mean_None _ _ k Hk); [reflexivity|]. rewrite Ek. reflexivity. }
  rewrite (mean_Some N _ (fun k => a * g k)%C HN).
  - fold (cmean N (fun k => a * g k)%C). rewrite cmean_scal. reflexivity.
  - intros k Hk. rewrite Hg by exact Hk. reflexivity.
Qed.

(** C38. Aliasing: with N intervals, demodulating any function at harmonic
    n + p N gives (-1)^(p N) times the result at harmonic n. *)
Lemma C38_aliasing_proof :
  forall (D : Defaults) (f : R -> res CV) (x_0 x_amplitude : R) (n p : Z) (n_trapz : option nat),
  let N := match n_trapz with Some N => N | None => d_n_trapz D end in
  demod D f x_0 x_amplitude (n + p * Z.of_nat N) n_trapz
  = map_res (fun v => rc (sgn_pow (p * Z.of_nat N)) * v)%cv (demod D f x_0 x_amplitude n n_trapz).
Proof.
  intros D f x0 A n p nt N.
  assert (En : N = dflt (d_n_trapz D) nt) by (unfold N, dflt; destruct nt; reflexivity).
  destruct (demod D f x0 A n nt) as [v|e] eqn:E; cbn [map_res].
  - destruct (demod_ok_indep _ _ _ _ _ (n + p * Z.of_nat N) _ _ E) as [v' E']. rewrite E'. f_equal.
    destruct (Nat.eq_dec N 0) as [E0|HN].
    + rewrite (demod_N0 _ _ _ _ _ _ _ (eq_trans (eq_sym En) E0) E), (demod_N0 _ _ _ _ _ _ _ (eq_trans (eq_sym En) E0) E').
      reflexivity.
    + assert (HN' : dflt (d_n_trapz D) nt <> O) by congruence.
      rewrite (demod_inv _ _ _ _ _ _ _ HN' E), (demod_inv _ _ _ _ _ _ _ HN' E').
      rewrite <- En. unfold dmean, rc. rewrite <- mean_scal. apply mean_ext. intros k _.
      rewrite ph_add, ph_alias by exact HN. fold (sgn_pow (p * Z.of_nat N)).
      destruct (val f (height x0 A N k)); [|reflexivity]. unfold cmul. cbn [olift2]. f_equal. ring.
  - eapply demod_raise_indep. exact E.
Qed.
(** C38. With the default 32 intervals the 32nd harmonic of any constant
    signal is that constant instead of 0. *)
Lemma C38_default_aliases_mean_proof :
  forall c x_0 x_amplitude,
  demod defaults0 (fun _ => Ok (Some c)) x_0 x_amplitude 32 None = Ok (Some c).
Proof.
  intros c x0 A. pose proof (C38_aliasing_proof defaults0 (fun _ => Ok (Some c)) x0 A 0 1 None) as H.
  cbv zeta in H. cbn [d_n_trapz defaults0] in H. 
  assert (H32 : d_n_trapz defaults0 <> O) by discriminate.
  rewrite (proj1 (C36_constants_proof defaults0 c x0 A 0 None H32) eq_refl) in H.
  change (0 + 1 * Z.of_nat 32)%Z with 32%Z in H. rewrite H. cbn. unfold rc, sgn_pow, cmul. cbn. do 2 f_equal. ring.
Qed.

(** ** C39 *)
Lemma mean_rev N h : N <> O -> h N = h O -> mean N (fun k => h (N - k)%nat) = mean N h.
Proof.
  intros HN H0. destruct (mean_cases N h HN) as [[E (k & Hk & Ek)]|(g & Hg & E)]; rewrite E.
  - destruct k as [|k].
    + apply (mean_None N _ 0); [lia|]. rewrite Nat.sub_0_r. congruence.
    + apply (mean_None N _ (N - S k)); [lia|]. rewrite <- Ek. f_equal. lia.
  - set (g' := fun k => if Nat.eqb k N then g O else g k).
    rewrite (mean_Some N _ (fun k => g' (N - k)%nat) HN).
    + fold (cmean N (fun k => g' (N - k)%nat)). rewrite cmean_rev.
      * f_equal. apply cmean_ext. intros k Hk. unfold g'. destruct (Nat.eqb_spec k N); [lia|reflexivity].
      * unfold g'. rewrite Nat.eqb_refl. destruct (Nat.eqb_spec 0 N); [lia|reflexivity].
    + intros k Hk. unfold g'. destruct (Nat.eqb_spec (N - k) N) as [E'|Hne].
      * rewrite E', H0. apply Hg. lia.
      * apply Hg. lia.
Qed.

Lemma dmean_opp x0 A n N F : N <> O -> dmean x0 A (- n) N F = dmean x0 A n N F.
Proof.
  intros HN. unfold dmean. rewrite <- (mean_rev N (fun k => (F (height x0 A N k) * Some (ph n (node N k)))%cv) HN).
  - apply mean_ext. intros k Hk. rewrite height_rev, node_rev, ph_opp by lia. reflexivity.
  - rewrite height_N, ph_N by exact HN. reflexivity.
Qed.

(** C39. Demodulation at -n equals demodulation at n, for every function. *)
Lemma C39_negative_harmonic_proof :
  forall (D : Defaults) (f : R -> res CV) (x_0 x_amplitude : R) (n : Z) (n_trapz : option nat),
  demod D f x_0 x_amplitude (- n) n_trapz = demod D f x_0 x_amplitude n n_trapz.
Proof.
  intros D f x0 A n nt.
  destruct (demod D f x0 A n nt) as [v|e] eqn:E; [|eapply demod_raise_indep; exact E].
  destruct (demod_ok_indep _ _ _ _ _ (- n) _ _ E) as [v' E']. rewrite E'. f_equal.
  destruct (Nat.eq_dec (dflt (d_n_trapz D) nt) 0) as [E0|HN].
  - now rewrite (demod_N0 _ _ _ _ _ _ _ E0 E), (demod_N0 _ _ _ _ _ _ _ E0 E').
  - rewrite (demod_inv _ _ _ _ _ _ _ HN E), (demod_inv _ _ _ _ _ _ _ HN E'). now apply dmean_opp.
Qed.

Lemma mean_conj N h : conjV (mean N h) = mean N (fun k => conjV (h k)).
Proof. unfold mean. rewrite conjV_div, conjV_sum, map_map, conjV_rc. reflexivity. Qed.

(** C39. Conjugating the function conjugates the result. *)
Lemma C39_conjugation_proof :
  forall (D : Defaults) (f : R -> res CV) (x_0 x_amplitude : R) (n : Z) (n_trapz : option nat),
  demod D (fun x => map_res conjV (f x)) x_0 x_amplitude n n_trapz
  = map_res conjV (demod D f x_0 x_amplitude n n_trapz).
Proof.
  intros D f x0 A n nt. set (N := dflt (d_n_trapz D) nt).
  destruct (demod D f x0 A n nt) as [v|e] eqn:E; cbn [map_res].
  - destruct (demod_ok_inv _ _ _ _ _ _ _ E) as [[c Hc] Hf]. fold N in Hf.
    destruct (Nat.eq_dec N 0) as [E0|HN].
    + rewrite (demod_N0 _ _ _ _ _ _ _ E0 E). apply demod_ok_N0; [exact E0| |].
      * rewrite Hc. cbn. eauto.
      * rewrite E0 in Hf. rewrite Hf by lia. cbn. eauto.
    + rewrite (demod_inv _ _ _ _ _ _ _ HN E). rewrite <- dmean_opp by exact HN.
      rewrite (demod_mean D _ (fun x => conjV (val f x))); [|exact HN| |].
      * f_equal. fold N. unfold dmean. rewrite mean_conj. apply mean_ext. intros k _.
        destruct (val f (height x0 A N k)) as [p|]; [|reflexivity]. unfold cmul. cbn [olift2 conjV].
        rewrite Cconj_mult, ph_conj, Z.opp_involutive. reflexivity.
      * rewrite Hc. cbn. eauto.
      * intros k Hk. fold N. rewrite Hf by exact Hk. reflexivity.
  - revert E. unfold demod. destruct (f (x0 + 0 * A)) as [c|e'] eqn:Ec; cbn [rbind map_res]; [|intros [= ->]; reflexivity].
    fold N. intros H.
    assert (K : forall l, mapM (fun t => map_res conjV (f (x0 + cos t * A))) l
              = map_res (map conjV) (mapM (fun t => f (x0 + cos t * A)) l)).
    { induction l as [|t l IH]; [reflexivity|]. cbn [mapM]. destruct (f (x0 + cos t * A)); [|reflexivity].
      cbn [map_res rbind]. rewrite IH. destruct (mapM (fun t => f (x0 + cos t * A)) l); reflexivity. }
    rewrite K. destruct (mapM _ (thetas N)); cbn [map_res rbind] in *; [discriminate|]. injection H as ->. reflexivity.
Qed.

(** C39. A real-valued function has real harmonics. *)
Lemma C39_real_proof :
  forall (D : Defaults) (f : R -> R) (x_0 x_amplitude : R) (n : Z) (n_trapz : option nat),
  match n_trapz with Some N => N | None => d_n_trapz D end <> O ->
  exists r : R, demod D (fun x => Ok (rc (f x))) x_0 x_amplitude n n_trapz = Ok (rc r).
Proof.
  intros D f x0 A n nt HN. set (N := dflt (d_n_trapz D) nt).
  assert (En : N <> O) by (unfold N; destruct nt; exact HN).
  rewrite (demod_mean D _ (fun x => rc (f x))); [|exact En|eauto|reflexivity]. fold N.
  assert (H : conjV (dmean x0 A n N (fun x => rc (f x))) = dmean x0 A n N (fun x => rc (f x))).
  { rewrite <- (dmean_opp x0 A n N _ En) at 2. unfold dmean. rewrite mean_conj. apply mean_ext. intros k _.
    rewrite conjV_mul, conjV_rc. cbn [conjV]. now rewrite ph_conj. }
  destruct (dmean x0 A n N (fun x => rc (f x))) as [c|] eqn:E.
  - assert (H' : Cconj c = c) by (cbn [conjV] in H; congruence). exists (Re c). unfold rc. do 2 f_equal. apply C_eq; [reflexivity|].
    destruct c as [p q]. unfold Cconj in H. simpl in H. injection H as H. unfold Im, Re. simpl. lra.
  - exfalso. unfold dmean in E.
    rewrite (mean_Some N _ (fun k => RtoC (f (height x0 A N k)) * ph n (node N k))%C En) in E; [discriminate|reflexivity].
Qed.

Lemma mean_shift N h j : N <> O -> (j <= N)%nat -> (forall k, h (k + N)%nat = h k) ->
  mean N (fun k => h (k + j)%nat) = mean N h.
Proof.
  intros HN Hj Hper. destruct (mean_cases N h HN) as [[E (k & Hk & Ek)]|(g & Hg & E)]; rewrite E.
  - destruct (le_lt_dec j k) as [Hle|Hlt].
    + apply (mean_None N _ (k - j)); [lia|]. rewrite <- Ek. f_equal. lia.
    + apply (mean_None N _ (k + N - j)); [lia|]. replace (k + N - j + j)%nat with (k + N)%nat by lia. now rewrite Hper.
  - set (g' := fun k => g (k mod N)%nat).
    rewrite (mean_Some N _ (fun k => g' (k + j)%nat) HN).
    + fold (cmean N (fun k => g' (k + j)%nat)). rewrite cmean_shift.
      * f_equal. apply cmean_ext. intros k Hk. unfold g'. now rewrite Nat.mod_small.
      * intros k. unfold g'. f_equal. replace (k + N)%nat with (k + 1 * N)%nat by lia. now apply Nat.mod_add.
    + intros k Hk. unfold g'. destruct (le_lt_dec N (k + j)) as [Hle|Hlt].
      * replace (k + j)%nat with (k + j - N + N)%nat by lia. rewrite Hper.
        replace ((k + j - N + N) mod N)%nat with ((k + j - N + 1 * N) mod N)%nat by (f_equal; lia).
        rewrite Nat.mod_add by exact HN.
        destruct (Nat.eq_dec (k + j - N) N) as [E'|Hne]; [lia|].
        rewrite Nat.mod_small by lia. apply Hg. lia.
      * rewrite Nat.mod_small by lia. now apply Hg.
Qed.

(** C39. With an even number of intervals, flipping the sign of the amplitude
    multiplies the n-th harmonic by (-1)^n. *)
Lemma C39_amplitude_sign_proof :
  forall (D : Defaults) (f : R -> res CV) (x_0 x_amplitude : R) (n : Z) (n_trapz : option nat) (v : CV),
  let N := match n_trapz with Some N => N | None => d_n_trapz D end in
  Nat.even N = true -> N <> O ->
  demod D f x_0 x_amplitude n n_trapz = Ok v ->
  demod D f x_0 (- x_amplitude) n n_trapz = Ok (rc (sgn_pow n) * v)%cv.
Proof.
  intros D f x0 A n nt v N Hev HN E.
  assert (En : N = dflt (d_n_trapz D) nt) by (unfold N; destruct nt; reflexivity).
  destruct (demod_ok_inv _ _ _ _ _ _ _ E) as [[c Hc] Hf]. rewrite <- En in Hf.
  apply Nat.even_spec in Hev. destruct Hev as [m Hm].
  assert (Hnode : forall k, node N (k + m) = node N k + PI).
  { intros k. unfold node. rewrite plus_INR. replace (INR N) with (2 * INR m) by (rewrite Hm, mult_INR; reflexivity).
    field. apply not_0_INR. lia. }
  assert (Hh : forall k, height x0 (- A) N k = height x0 A N (k + m)).
  { intros k. unfold height. rewrite Hnode, neg_cos. ring. }
  assert (Hp : forall k, ph n (node N k) = (RtoC (sgn_pow n) * ph n (node N (k + m)))%C).
  { intros k. rewrite Hnode, ph_plus, ph_PI. fold (sgn_pow n).
    assert (Hs : (RtoC (sgn_pow n) * RtoC (sgn_pow n))%C = RtoC 1).
    { rewrite <- RtoC_mult. f_equal. unfold sgn_pow. destruct (Z.even n); ring. }
    rewrite (Cmult_comm (ph n (node N k))), Cmult_assoc, Hs. ring. }
  assert (Hper : forall k, height x0 A N (k + N) = height x0 A N k).
  { intros k. replace (k + N)%nat with (k + 1 * N)%nat by lia. now apply height_add. }
  rewrite (demod_mean D f (val f)).
  - rewrite <- En. f_equal. assert (HN' : dflt (d_n_trapz D) nt <> O) by congruence.
    rewrite (demod_inv _ _ _ _ _ _ _ HN' E). rewrite <- En.
    unfold dmean, rc. rewrite <- mean_scal.
    rewrite <- (mean_shift N (fun k => (Some (RtoC (sgn_pow n)) * (val f (height x0 A N k) * Some (ph n (node N k))))%cv) m HN).
    + apply mean_ext. intros k _. rewrite Hh, (Hp k).
      destruct (val f (height x0 A N (k + m))); [|reflexivity]. unfold cmul. cbn [olift2]. f_equal. ring.
    + lia.
    + intros k. rewrite Hper. replace (k + N)%nat with (k + 1 * N)%nat by lia. now rewrite ph_node_add.
  - congruence.
  - exists c. rewrite <- Hc. f_equal. ring.
  - rewrite <- En. intros k Hk. rewrite Hh. destruct (le_lt_dec (k + m) N) as [Hle|Hlt].
    + now apply Hf.
    + replace (k + m)%nat with (k + m - N + N)%nat by lia. rewrite Hper. apply Hf. lia.
Qed.
(** C39. Example (the hypotheses hold for the identity function, default
    settings): the first harmonic is odd in the amplitude. *)
Lemma C39_example_proof : forall v,
  demod defaults0 (fun x => Ok (rc x)) 3 2 1 None = Ok v ->
  demod defaults0 (fun x => Ok (rc x)) 3 (-2) 1 None = Ok (rc (-1) * v)%cv.
Proof.
  intros v H. replace (-2) with (- (2)) by ring. apply (C39_amplitude_sign_proof defaults0 _ 3 2 1 None v); [reflexivity|discriminate|exact H].
Qed.

(** ** C37 *)
(** Pascal's triangle with an integer index *)
Fixpoint pas (m : nat) (k : Z) : R :=
  match m with O => if Z.eqb k 0 then 1 else 0 | S m' => pas m' k + pas m' (k - 1) end.
Lemma pas_neg m : forall k, (k < 0)%Z -> pas m k = 0.
Proof.
  induction m as [|m IH]; intros k Hk; cbn [pas].
  - destruct (Z.eqb_spec k 0); [lia|reflexivity].
  - rewrite !IH by lia. ring.
Qed.
Lemma pas_big m : forall k, (Z.of_nat m < k)%Z -> pas m k = 0.
Proof.
  induction m as [|m IH]; intros k Hk; cbn [pas].
  - destruct (Z.eqb_spec k 0); [lia|reflexivity].
  - rewrite !IH by lia. ring.
Qed.
Lemma pas_C m : forall k, (k <= m)%nat -> pas m (Z.of_nat k) = Binomial.C m k.
Proof.
  induction m as [|m IH]; intros k Hk.
  - assert (k = O) by lia. subst. cbn. unfold Binomial.C. simpl. field.
  - cbn [pas]. destruct k as [|k].
    + rewrite IH by lia. rewrite pas_neg by (cbn; lia). unfold Binomial.C. rewrite !Nat.sub_0_r. simpl (fact 0).
      field. repeat split; solve [apply INR_fact_neq_0 | simpl; lra].
    + replace (Z.of_nat (S k) - 1)%Z with (Z.of_nat k) by lia. rewrite (IH k) by lia.
      destruct (Nat.eq_dec k m) as [->|Hne].
      * rewrite pas_big by lia. unfold Binomial.C. rewrite !Nat.sub_diag. simpl (fact 0).
        field. repeat split; solve [apply INR_fact_neq_0 | simpl; lra].
      * rewrite IH by lia. rewrite Rplus_comm. apply pascal. lia.
Qed.
Lemma pas_sym m : forall k, pas m (Z.of_nat m - k) = pas m k.
Proof.
  induction m as [|m IH]; intros k.
  - cbn [pas Z.of_nat]. destruct (Z.eqb_spec (0 - k) 0), (Z.eqb_spec k 0); try lia; reflexivity.
  - cbn [pas]. replace (Z.of_nat (S m) - k)%Z with (Z.of_nat m - (k - 1))%Z by lia. rewrite IH.
    replace (Z.of_nat m - (k - 1) - 1)%Z with (Z.of_nat m - k)%Z by lia. rewrite IH. ring.
Qed.
(** recursive form of the harmonics of cos^m *)
Definition coefZ (m : nat) (n : Z) : R := if Z.even (Z.of_nat m - n) then pas m ((Z.of_nat m - n) / 2) / 2 ^ m else 0.
Lemma coefZ_rec m n : coefZ (S m) n = (coefZ m (n - 1) + coefZ m (n + 1)) / 2.
Proof.
  unfold coefZ. replace (Z.of_nat (S m) - n)%Z with (Z.of_nat m - (n - 1))%Z by lia.
  assert (E : Z.even (Z.of_nat m - (n + 1)) = Z.even (Z.of_nat m - (n - 1))).
  { replace (Z.of_nat m - (n - 1))%Z with (Z.of_nat m - (n + 1) + 2 * 1)%Z by lia.
    now rewrite Z.even_add_mul_2. }
  rewrite E. destruct (Z.even (Z.of_nat m - (n - 1))); [|field].
  cbn [pas pow]. replace ((Z.of_nat m - (n + 1)) / 2)%Z with ((Z.of_nat m - (n - 1)) / 2 - 1)%Z.
  - field. apply pow_nonzero. lra.
  - replace (Z.of_nat m - (n + 1))%Z with ((Z.of_nat m - (n - 1)) + (-1) * 2)%Z by lia.
    rewrite Z.div_add by lia. lia.
Qed.
Lemma coefZ_spec m n : coefZ m n = cos_power_harmonic m n.
Proof.
  unfold coefZ, cos_power_harmonic. set (a := Z.abs_nat n).
  assert (Hpar : Z.even (Z.of_nat m - n) = Z.even (Z.of_nat m - Z.of_nat a)).
  { rewrite !Z.even_sub. f_equal. unfold a. rewrite Zabs2Nat.id_abs. symmetry.
    destruct (Z.abs_spec n) as [[_ ->]|[_ ->]]; [reflexivity|apply Z.even_opp]. }
  rewrite Hpar.
  assert (Hsym : Z.even (Z.of_nat m - Z.of_nat a) = true ->
     pas m ((Z.of_nat m - n) / 2) = pas m ((Z.of_nat m - Z.of_nat a) / 2)).
  { intros Hev. unfold a. rewrite Zabs2Nat.id_abs. destruct (Z.abs_spec n) as [[_ ->]|[_ E]]; [reflexivity|].
    rewrite E. rewrite <- pas_sym. f_equal.
    rewrite <- Hpar in Hev. apply Z.even_spec in Hev. destruct Hev as [j Hj].
    rewrite Hj. replace (Z.of_nat m - - n)%Z with ((Z.of_nat m - j) * 2)%Z by lia.
    replace (2 * j)%Z with (j * 2)%Z by lia. rewrite !Z.div_mul by lia. reflexivity. }
  destruct (Nat.leb_spec a m) as [Hle|Hlt]; cbn [andb].
  - rewrite <- Nat2Z.inj_sub by exact Hle. rewrite <- Nat2Z.inj_sub in Hsym by exact Hle.
    assert (Ev : Z.even (Z.of_nat (m - a)) = Nat.even (m - a)).
    { destruct (Nat.even (m - a)) eqn:E.
      - apply Nat.even_spec in E. destruct E as [j Hj]. rewrite Hj, Nat2Z.inj_mul. apply Z.even_mul.
      - rewrite <- Nat.negb_odd in E. apply negb_false_iff, Nat.odd_spec in E. destruct E as [j Hj].
        rewrite Hj, Nat2Z.inj_add, Nat2Z.inj_mul. rewrite Z.add_comm. now rewrite Z.even_add_mul_2. }
    rewrite Ev in *. destruct (Nat.even (m - a)) eqn:E; [|reflexivity].
    rewrite Hsym by reflexivity. f_equal.
    replace (Z.of_nat (m - a) / 2)%Z with (Z.of_nat ((m - a) / 2)) by (rewrite Nat2Z.inj_div; reflexivity).
    apply pas_C. assert ((m - a) / 2 <= m - a)%nat by (apply Nat.div_le_upper_bound; lia). lia.
  - destruct (Z.even (Z.of_nat m - Z.of_nat a)) eqn:E; [|reflexivity].
    rewrite Hsym by reflexivity. rewrite pas_neg; [field; apply pow_nonzero; lra|].
    apply Z.div_lt_upper_bound; lia.
Qed.

Lemma cos_ph t : RtoC (cos t) = ((ph (-1) t + ph 1 t) / 2)%C.
Proof.
  rewrite !ph_cos. replace (-1 * t) with (- t) by ring. rewrite Rmult_1_l, cos_neg, sin_neg.
  apply C_eq; unfold Re, Im; simpl; field.
Qed.

Lemma cmean_cos_pow N m : forall n, (m + Z.abs_nat n < N)%nat ->
  cmean N (fun k => RtoC (cos (node N k) ^ m) * ph n (node N k))%C = RtoC (coefZ m n).
Proof.
  induction m as [|m IH]; intros n Hn.
  - rewrite (cmean_ext N _ (fun k => ph n (node N k))) by (intros; simpl; ring).
    unfold coefZ. cbn [Z.of_nat pas pow]. destruct (Z.eq_dec n 0) as [->|Hne].
    + rewrite (cmean_ext N _ (fun _ => RtoC 1)) by (intros; apply ph_0). rewrite cmean_const by lia.
      cbn. f_equal. field.
    + rewrite mean_ph.
      * f_equal. destruct (Z.even (0 - n)) eqn:E; [|reflexivity].
        apply Z.even_spec in E. destruct E as [j Hj]. rewrite Hj, Z.mul_comm, Z.div_mul by lia.
        destruct (Z.eqb_spec j 0); [lia|field].
      * lia.
      * intros [j Hj]. assert (j <> 0%Z) by (intros ->; lia). nia.
  - rewrite coefZ_rec, (cmean_ext N _ (fun k => / 2 * (RtoC (cos (node N k) ^ m) * ph (n - 1) (node N k) +
      RtoC (cos (node N k) ^ m) * ph (n + 1) (node N k)))%C).
    + rewrite cmean_scal, cmean_plus, !IH by lia. rewrite RtoC_div, RtoC_plus by lra. unfold Cdiv. ring.
    + intros k _. cbn [pow]. rewrite RtoC_mult, cos_ph.
      replace (n - 1)%Z with (n + -1)%Z by lia. rewrite !ph_add. field. exact C2_neq_0.
Qed.

Lemma cmean_Csum_to N (g : nat -> nat -> C) d :
  cmean N (fun k => Csum_to (fun m => g m k) d) = Csum_to (fun m => cmean N (g m)) d.
Proof.
  induction d as [|d IH]; cbn [Csum_to].
  - unfold cmean. rewrite Csum_zero. unfold Cdiv. ring.
  - rewrite cmean_plus, IH. reflexivity.
Qed.
Lemma Csum_to_ext a b d : (forall m, (m < d)%nat -> a m = b m) -> Csum_to a d = Csum_to b d.
Proof. induction d as [|d IH]; intros H; cbn; [reflexivity|]. rewrite IH, H by (auto with arith). reflexivity. Qed.
Lemma Csum_to_mult_r a (c : C) d : (Csum_to a d * c = Csum_to (fun m => a m * c) d)%C.
Proof. induction d as [|d IH]; cbn; [ring|]. rewrite <- IH. ring. Qed.

(** C37. Polynomials are demodulated exactly: for f(x) = sum of
    c_m (x - x_0)^m over m < d, and at least d + |n| intervals (degree d - 1
    plus |n| plus 1), the result is the sum of c_m A^m times the n-th Fourier
    coefficient of cos^m. *)
Lemma C37_polynomials_exact_proof :
  forall (D : Defaults) (c : nat -> C) (d : nat) (x_0 A : R) (n : Z) (n_trapz : option nat),
  let N := match n_trapz with Some N => N | None => d_n_trapz D end in
  (d + Z.abs_nat n <= N)%nat -> N <> O ->
  demod D (fun x => Ok (Some (poly c d (x - x_0)))) x_0 A n n_trapz
  = Ok (Some (Csum_to (fun m => c m * RtoC (A ^ m) * RtoC (cos_power_harmonic m n))%C d)).
Proof.
  intros D c d x0 A n nt N Hd HN.
  assert (En : N = dflt (d_n_trapz D) nt) by (unfold N; destruct nt; reflexivity).
  rewrite (demod_mean D _ (fun x => Some (poly c d (x - x0)))); [|congruence|eauto|reflexivity].
  rewrite <- En. f_equal. unfold dmean.
  rewrite (mean_Some N _ (fun k => Csum_to (fun m => c m * RtoC (A ^ m) * (RtoC (cos (node N k) ^ m) * ph n (node N k)))%C d) HN).
  - fold (cmean N (fun k => Csum_to (fun m => c m * RtoC (A ^ m) * (RtoC (cos (node N k) ^ m) * ph n (node N k)))%C d)).
    f_equal. rewrite (cmean_Csum_to N (fun m k => c m * RtoC (A ^ m) * (RtoC (cos (node N k) ^ m) * ph n (node N k)))%C).
    apply Csum_to_ext. intros m Hm. rewrite cmean_scal, cmean_cos_pow by lia. now rewrite coefZ_spec.
  - intros k _. unfold cmul. cbn [olift2]. f_equal. unfold poly. rewrite Csum_to_mult_r. apply Csum_to_ext.
    intros m _. unfold height. replace (x0 + cos (node N k) * A - x0) with (cos (node N k) * A) by ring.
    rewrite Rpow_mult_distr, RtoC_mult. ring.
Qed.
(** C37. In particular harmonics above the degree vanish. *)
Lemma C37_high_harmonics_vanish_proof :
  forall (D : Defaults) (c : nat -> C) (d : nat) (x_0 A : R) (n : Z) (n_trapz : option nat),
  let N := match n_trapz with Some N => N | None => d_n_trapz D end in
  (d <= Z.abs_nat n)%nat -> (d + Z.abs_nat n <= N)%nat -> N <> O ->
  demod D (fun x => Ok (Some (poly c d (x - x_0)))) x_0 A n n_trapz = Ok (Some (RtoC 0)).
Proof.
  intros D c d x0 A n nt N Hdn Hd HN. rewrite C37_polynomials_exact_proof by assumption. do 2 f_equal.
  rewrite (Csum_to_ext _ (fun _ => RtoC 0)).
  - clear. induction d; cbn; [reflexivity|]. rewrite IHd. ring.
  - intros m Hm. unfold cos_power_harmonic. destruct (Nat.leb_spec (Z.abs_nat n) m); [lia|]. cbn [andb]. ring.
Qed.
(** C37. Example: x^2 at the second harmonic is A^2/4 (4 intervals give an
    alias, 5 are enough). *)
Lemma C37_example_proof :
  demod defaults0 (fun x => Ok (Some (poly (fun m => if Nat.eqb m 2 then RtoC 1 else RtoC 0) 3 (x - 7)))) 7 6 2 (Some 5%nat)
  = Ok (Some (RtoC 9)).
Proof.
  rewrite C37_polynomials_exact_proof by (cbn; lia). do 2 f_equal. cbn [Csum_to Nat.eqb].
  unfold cos_power_harmonic. change (Z.abs_nat 2) with 2%nat. cbn. unfold Binomial.C. cbn. rewrite <- !RtoC_mult, <- !RtoC_plus. f_equal. field.
Qed.

(** ** C40 *)
Lemma riemann_bound (h : R -> R) (N : nat) (eps del : R) : N <> O -> 0 <= eps ->
  (forall t, - PI <= t <= PI -> continuous h t) ->
  (forall s t, - PI <= s <= PI -> - PI <= t <= PI -> Rabs (s - t) < del -> Rabs (h s - h t) <= eps) ->
  2 * PI / INR N < del ->
  forall m, (m <= N)%nat ->
  ex_RInt h (- PI) (node N m) /\
  Rabs (RInt h (- PI) (node N m) - 2 * PI / INR N * Rsum (map (fun k => h (node N k)) (seq 0 m)))
    <= INR m * (2 * PI / INR N) * eps.
Proof.
  intros HN Heps Hcont Hu Hw. pose proof PI_RGT_0 as HPI.
  assert (HNp : 0 < INR N) by (apply lt_0_INR; lia).
  set (w := 2 * PI / INR N) in *.
  assert (Hwp : 0 < w) by (apply Rdiv_lt_0_compat; lra).
  assert (Hrange : forall k, (k <= N)%nat -> - PI <= node N k <= PI).
  { intros k Hk. assert (Hw2 : INR N * w = 2 * PI) by (unfold w; field; lra).
    unfold node. fold w. apply le_INR in Hk. pose proof (pos_INR k). nra. }
  induction m as [|m IH]; intros Hm.
  - rewrite node_0. split; [apply ex_RInt_point|]. rewrite RInt_point. cbn. unfold zero. cbn.
    rewrite Rmult_0_r, Rminus_0_r, Rabs_R0. lra.
  - destruct (IH ltac:(lia)) as [IH1 IH2].
    assert (Hstep : node N (S m) = node N m + w) by (unfold node; fold w; rewrite S_INR; ring).
    assert (Hm1 := Hrange m ltac:(lia)). assert (Hm2 := Hrange (S m) Hm).
    assert (Hex : ex_RInt h (node N m) (node N (S m))).
    { apply (ex_RInt_continuous (V := R_CompleteNormedModule)). intros t Ht.
      rewrite Rmin_left, Rmax_right in Ht by lra. apply Hcont. lra. }
    split; [eapply ex_RInt_Chasles; eauto|].
    assert (E : RInt h (- PI) (node N (S m)) = RInt h (- PI) (node N m) + RInt h (node N m) (node N (S m))).
    { symmetry. apply (RInt_Chasles h _ _ _ IH1 Hex). }
    rewrite E, seq_S, map_app.
    assert (ES : forall a b, Rsum (a ++ b) = Rsum a + Rsum b).
    { induction a; intros b; simpl; [ring|]. unfold Rsum in *. rewrite IHa. ring. }
    rewrite ES. cbn [map Nat.add].
    assert (Hpiece : Rabs (RInt h (node N m) (node N (S m)) - w * h (node N m)) <= w * eps).
    { assert (Ec : w * h (node N m) = RInt (fun _ => h (node N m)) (node N m) (node N (S m))).
      { rewrite RInt_const. unfold scal. cbn. unfold mult. cbn. rewrite Hstep. ring. }
      rewrite Ec.
      assert (Ed : RInt h (node N m) (node N (S m)) - RInt (fun _ => h (node N m)) (node N m) (node N (S m))
         = RInt (fun t => minus (h t) (h (node N m))) (node N m) (node N (S m))).
      { symmetry. apply (RInt_minus (V := R_CompleteNormedModule)); [exact Hex|apply ex_RInt_const]. }
      rewrite Ed. replace (w * eps) with ((node N (S m) - node N m) * eps) by (rewrite Hstep; ring).
      apply abs_RInt_le_const; [lra| |].
      - apply (ex_RInt_minus (V := R_NormedModule)); [exact Hex|apply ex_RInt_const].
      - intros t Ht. apply Hu; [lra|lra|]. rewrite Rabs_pos_eq; lra. }
    unfold Rsum at 2. cbn [fold_right]. rewrite S_INR.
    match goal with |- Rabs ?X <= _ =>
      replace X with ((RInt h (- PI) (node N m) - w * Rsum (map (fun k => h (node N k)) (seq 0 m)))
        + (RInt h (node N m) (node N (S m)) - w * h (node N m))) by ring end.
    eapply Rle_trans; [apply Rabs_triang|]. lra.
Qed.

Lemma riemann_mean (h : R -> R) :
  (forall t, - PI <= t <= PI -> continuous h t) ->
  ex_RInt h (- PI) PI /\
  is_lim_seq (fun N => Rsum (map (fun k => h (node N k)) (seq 0 N)) / INR N) (RInt h (- PI) PI / (2 * PI)).
Proof.
  intros Hc. pose proof PI_RGT_0 as HPI. split.
  { apply (ex_RInt_continuous (V := R_CompleteNormedModule)). intros t Ht.
    rewrite Rmin_left, Rmax_right in Ht by lra. apply Hc. lra. }
  apply is_lim_seq_spec. intros eps.
  assert (He2 : 0 < eps / 2) by (destruct eps as [e He]; simpl; lra).
  assert (Hc' : forall x, - PI <= x <= PI -> continuity_pt h x).
  { intros x Hx. apply continuity_pt_filterlim. apply Hc. exact Hx. }
  destruct (Heine_cor2 Hc' (mkposreal _ He2)) as [del Hdel].
  destruct (nfloor_ex (2 * PI / del)) as [M HM].
  { apply Rlt_le, Rdiv_lt_0_compat; [lra|apply cond_pos]. }
  exists (S M). intros N HN.
  assert (HN0 : N <> O) by lia. assert (HNp : 0 < INR N) by (apply lt_0_INR; lia).
  assert (Hw : 2 * PI / INR N < del).
  { apply Rlt_div_l; [exact HNp|]. destruct HM as [_ HM].
    assert (2 * PI / del < INR N) by (eapply Rlt_le_trans; [exact HM|]; rewrite <- S_INR; now apply le_INR).
    apply Rlt_div_l in H; [lra|apply cond_pos]. }
  destruct (riemann_bound h N (eps / 2) del HN0 (Rlt_le _ _ He2) Hc) with (m := N) as [_ HB].
  { intros s t Hs Ht Hst. left. apply (Hdel s t Hs Ht Hst). }
  { exact Hw. }
  { lia. }
  rewrite node_N in HB by exact HN0.
  set (S0 := Rsum (map (fun k => h (node N k)) (seq 0 N))) in *. set (I0 := RInt h (- PI) PI) in *.
  replace (S0 / INR N - I0 / (2 * PI)) with (- ((I0 - 2 * PI / INR N * S0) / (2 * PI))) by (field; split; lra).
  rewrite Rabs_Ropp. unfold Rdiv at 1. rewrite Rabs_mult, (Rabs_pos_eq (/ (2 * PI))) by (left; apply Rinv_0_lt_compat; lra).
  replace (INR N * (2 * PI / INR N) * (eps / 2)) with (2 * PI * (eps / 2)) in HB by (field; lra).
  apply Rle_lt_trans with (2 * PI * (eps / 2) * / (2 * PI)).
  - apply Rmult_le_compat_r; [left; apply Rinv_0_lt_compat; lra|exact HB].
  - replace (2 * PI * (eps / 2) * / (2 * PI)) with (eps / 2) by (field; lra). lra.
Qed.

Lemma Re_cmean N g : Re (cmean N g) = Rsum (map (fun k => Re (g k)) (seq 0 N)) / INR N.
Proof.
  unfold cmean. replace (Csum (map g (seq 0 N)) / RtoC (INR N))%C with (Csum (map g (seq 0 N)) * RtoC (/ INR N))%C.
  - unfold Rdiv. rewrite <- (map_map g Re). set (l := map g (seq 0 N)).
    assert (E : Re (Csum l) = Rsum (map Re l)).
    { clearbody l. induction l as [|a l IH]; [reflexivity|]. cbn [map Csum fold_right]. unfold Rsum in *. simpl. rewrite <- IH. reflexivity. }
    rewrite <- E. destruct (Csum l) as [p q]. unfold Re. simpl. ring.
  - destruct (Nat.eq_dec N 0) as [->|HN].
    + cbn. unfold Cdiv. ring.
    + rewrite RtoC_inv by now apply not_0_INR. reflexivity.
Qed.
Lemma Im_cmean N g : Im (cmean N g) = Rsum (map (fun k => Im (g k)) (seq 0 N)) / INR N.
Proof.
  unfold cmean. replace (Csum (map g (seq 0 N)) / RtoC (INR N))%C with (Csum (map g (seq 0 N)) * RtoC (/ INR N))%C.
  - unfold Rdiv. rewrite <- (map_map g Im). set (l := map g (seq 0 N)).
    assert (E : Im (Csum l) = Rsum (map Im l)).
    { clearbody l. induction l as [|a l IH]; [reflexivity|]. cbn [map Csum fold_right]. unfold Rsum in *. simpl. rewrite <- IH. reflexivity. }
    rewrite <- E. destruct (Csum l) as [p q]. unfold Im. simpl. ring.
  - destruct (Nat.eq_dec N 0) as [->|HN].
    + cbn. unfold Cdiv. ring.
    + rewrite RtoC_inv by now apply not_0_INR. reflexivity.
Qed.

Lemma sweep_range x0 A t : x0 - Rabs A <= x0 + A * cos t <= x0 + Rabs A.
Proof. destruct (COS_bound t) as [H1 H2]. unfold Rabs. destruct (Rcase_abs A); nra. Qed.

Lemma sweep_continuous (f : R -> C) (p : C -> R) x0 A :
  (forall z w, Rabs (p z - p w) <= Cmod (z - w)%C) ->
  continuous_between (x0 - Rabs A) (x0 + Rabs A) f ->
  forall t, continuous (fun t => p (f (x0 + A * cos t))) t.
Proof.
  intros Hp Hf t.
  assert (HA : continuous (fun t => x0 + A * cos t) t).
  { apply (continuous_plus (V := R_NormedModule)); [apply continuous_const|].
    apply (continuous_mult (K := R_AbsRing)); [apply continuous_const|].
    apply continuity_pt_filterlim. apply continuity_cos. }
  intros P [eps HP]. destruct (Hf _ (sweep_range x0 A t) eps (cond_pos eps)) as (del & Hd & H).
  assert (L : locally (x0 + A * cos t) (fun y => Rabs (y - (x0 + A * cos t)) < del)).
  { exists (mkposreal del Hd). intros y Hy. exact Hy. }
  specialize (HA _ L). unfold filtermap in *. eapply filter_imp; [|exact HA].
  intros s Hs. apply HP. cbv beta in Hs. unfold ball. cbn. unfold AbsRing_ball. cbn.
  change (Rabs (p (f (x0 + A * cos s)) - p (f (x0 + A * cos t))) < eps).
  eapply Rle_lt_trans; [apply Hp|]. apply H; [apply sweep_range|exact Hs].
Qed.

(** C40. For every f continuous on the swept interval, as n_trapz grows the
    result converges to the documented integral
    1/(2 pi) int_{-pi}^{pi} f(x_0 + A cos t) e^{-i n t} dt. *)
Lemma C40_converges_to_fourier_integral_proof :
  forall (D : Defaults) (f : R -> C) (x_0 A : R) (n : Z),
  continuous_between (x_0 - Rabs A) (x_0 + Rabs A) f ->
  exists v : nat -> C,
    (forall N, N <> O -> demod D (fun x => Ok (Some (f x))) x_0 A n (Some N) = Ok (Some (v N))) /\
    ex_RInt (fun t => Re (fourier_integrand f x_0 A n t)) (- PI) PI /\
    ex_RInt (fun t => Im (fourier_integrand f x_0 A n t)) (- PI) PI /\
    is_lim_seq (fun N => Re (v N)) (RInt (fun t => Re (fourier_integrand f x_0 A n t)) (- PI) PI / (2 * PI)) /\
    is_lim_seq (fun N => Im (v N)) (RInt (fun t => Im (fourier_integrand f x_0 A n t)) (- PI) PI / (2 * PI)).
Proof.
  intros D f x0 A n Hf.
  set (g := fun N k => fourier_integrand f x0 A n (node N k)).
  exists (fun N => cmean N (g N)). split.
  - intros N HN. rewrite (demod_mean D _ (fun x => Some (f x))); [|exact HN|eauto|reflexivity].
    f_equal. cbn [dflt]. unfold dmean. rewrite (mean_Some N _ (g N) HN); [reflexivity|].
    intros k _. unfold cmul, g, fourier_integrand. cbn [olift2]. rewrite ph_cos. unfold height.
    rewrite (Rmult_comm A). reflexivity.
  - assert (Cre : forall t, continuous (fun t => Re (f (x0 + A * cos t))) t).
    { apply sweep_continuous; [|exact Hf]. intros z w. replace (Re z - Re w) with (Re (z - w)%C)
        by (destruct z, w; unfold Re; simpl; ring). apply Cmod_ge_Re. }
    assert (Cim : forall t, continuous (fun t => Im (f (x0 + A * cos t))) t).
    { apply sweep_continuous; [|exact Hf]. intros z w. replace (Im z - Im w) with (Im (z - w)%C)
        by (destruct z, w; unfold Im; simpl; ring).
      set (y := (z - w)%C). replace (Im y) with (- Re ((0, 1)%R * y)%C) by (destruct y; unfold Re, Im; simpl; ring).
      rewrite Rabs_Ropp. eapply Rle_trans; [apply Cmod_ge_Re|]. rewrite Cmod_mult.
      replace (Cmod (0, 1)) with 1; [lra|]. unfold Cmod. simpl. replace (0 * (0 * 1) + 1 * (1 * 1)) with 1 by ring.
      now rewrite sqrt_1. }
    assert (Ccos : forall t, continuous (fun t => cos (IZR n * t)) t).
    { intros t. apply continuous_comp; [apply (continuous_mult (K := R_AbsRing)); [apply continuous_const|apply continuous_id]|].
      apply continuity_pt_filterlim. apply continuity_cos. }
    assert (Csin : forall t, continuous (fun t => sin (IZR n * t)) t).
    { intros t. apply continuous_comp; [apply (continuous_mult (K := R_AbsRing)); [apply continuous_const|apply continuous_id]|].
      apply continuity_pt_filterlim. apply continuity_sin. }
    assert (H1 : forall t, continuous (fun t => Re (fourier_integrand f x0 A n t)) t).
    { intros t. apply (continuous_ext (fun t => Re (f (x0 + A * cos t)) * cos (IZR n * t) + Im (f (x0 + A * cos t)) * sin (IZR n * t))).
      - intros s. unfold fourier_integrand. destruct (f (x0 + A * cos s)) as [p q]. unfold Re, Im. simpl. ring.
      - apply (continuous_plus (V := R_NormedModule)); apply (continuous_mult (K := R_AbsRing)); auto. }
    assert (H2 : forall t, continuous (fun t => Im (fourier_integrand f x0 A n t)) t).
    { intros t. apply (continuous_ext (fun t => Im (f (x0 + A * cos t)) * cos (IZR n * t) - Re (f (x0 + A * cos t)) * sin (IZR n * t))).
      - intros s. unfold fourier_integrand. destruct (f (x0 + A * cos s)) as [p q]. unfold Re, Im. simpl. ring.
      - apply (continuous_minus (V := R_NormedModule)); apply (continuous_mult (K := R_AbsRing)); auto. }
    destruct (riemann_mean _ (fun t _ => H1 t)) as [E1 L1]. destruct (riemann_mean _ (fun t _ => H2 t)) as [E2 L2].
    split; [exact E1|]. split; [exact E2|]. split.
    + eapply is_lim_seq_ext; [|exact L1]. intros N. cbv beta. now rewrite Re_cmean.
    + eapply is_lim_seq_ext; [|exact L2]. intros N. cbv beta. now rewrite Im_cmean.
Qed.
(** C40. Example: the hypothesis holds for a non-polynomial function *)
Lemma C40_example_proof : continuous_between (5 - Rabs 2) (5 + Rabs 2) (fun x => RtoC (/ x)).
Proof.
  rewrite Rabs_pos_eq by lra. intros x Hx eps He. exists (eps * 9). split; [lra|]. intros y Hy Hd.
  rewrite <- RtoC_minus, Cmod_R. replace (/ y - / x) with ((x - y) * / (y * x)) by (field; lra).
  rewrite Rabs_mult, (Rabs_minus_sym x y). rewrite (Rabs_pos_eq (/ (y * x))) by (left; apply Rinv_0_lt_compat; nra).
  assert (H9 : 9 <= y * x) by nra.
  assert (/ (y * x) <= / 9) by (apply Rinv_le_contravar; lra).
  assert (0 < / (y * x)) by (apply Rinv_0_lt_compat; lra).
  pose proof (Rabs_pos (y - x)). nra.
Qed.

(** ** C41 *)
Lemma demod_local D f g x0 A n nt :
  (forall x, x0 - Rabs A <= x <= x0 + Rabs A -> f x = g x) -> demod D f x0 A n nt = demod D g x0 A n nt.
Proof.
  intros H. unfold demod. rewrite H by (pose proof (Rabs_pos A); lra).
  assert (E : mapM (fun t => f (x0 + cos t * A)) (thetas (dflt (d_n_trapz D) nt))
            = mapM (fun t => g (x0 + cos t * A)) (thetas (dflt (d_n_trapz D) nt))).
  { apply mapM_ext. intros t _. apply H. pose proof (sweep_range x0 A t). lra. }
  rewrite E. reflexivity.
Qed.

(** C41. fdm.eff_pol_n only looks at heights in [z_tip, z_tip + 2 A_tip]: two
    samples (or tip settings) whose effective polarizabilities agree there
    have the same harmonics. *)
Lemma C41_fdm_tapping_range_proof :
  forall (laggauss : laggauss_t) (D : Defaults) (s s' : sample) (z_tip A_tip : R) (n : Z) n_trapz
    r_tip L_tip g_factor d_Q0 d_Q1 d_Qa n_lag method r_tip' L_tip' g_factor' d_Q0' d_Q1' d_Qa' n_lag' method',
  0 <= A_tip ->
  (forall z, z_tip <= z <= z_tip + 2 * A_tip ->
     fdm_eff_pol laggauss D s (Some z) r_tip L_tip g_factor d_Q0 d_Q1 d_Qa n_lag method
     = fdm_eff_pol laggauss D s' (Some z) r_tip' L_tip' g_factor' d_Q0' d_Q1' d_Qa' n_lag' method') ->
  fdm_eff_pol_n laggauss D s A_tip n (Some z_tip) n_trapz r_tip L_tip g_factor d_Q0 d_Q1 d_Qa n_lag method
  = fdm_eff_pol_n laggauss D s' A_tip n (Some z_tip) n_trapz r_tip' L_tip' g_factor' d_Q0' d_Q1' d_Qa' n_lag' method'.
Proof.
  intros. unfold fdm_eff_pol_n. apply demod_local. intros x Hx. cbn [dflt] in Hx.
  rewrite Rabs_pos_eq in Hx by assumption. apply H0. lra.
Qed.
(** C41. The same for pdm.eff_pol_n. *)
Lemma C41_pdm_tapping_range_proof :
  forall (D : Defaults) (s s' : sample) (z_tip A_tip : R) (n : Z) n_trapz
    r_tip eps_tip alpha_tip r_tip' eps_tip' alpha_tip',
  0 <= A_tip ->
  (forall z, z_tip <= z <= z_tip + 2 * A_tip ->
     pdm_eff_pol D s (Some z) r_tip eps_tip alpha_tip = pdm_eff_pol D s' (Some z) r_tip' eps_tip' alpha_tip') ->
  pdm_eff_pol_n D s A_tip n (Some z_tip) n_trapz r_tip eps_tip alpha_tip
  = pdm_eff_pol_n D s' A_tip n (Some z_tip) n_trapz r_tip' eps_tip' alpha_tip'.
Proof.
  intros. unfold pdm_eff_pol_n. apply demod_local. intros x Hx. cbn [dflt] in Hx.
  rewrite Rabs_pos_eq in Hx by assumption. apply H0. lra.
Qed.

Lemma val_demod_None D f x0 A n nt v k :
  let N := dflt (d_n_trapz D) nt in
  (k < N)%nat -> f (height x0 A N k) = Ok None -> demod D f x0 A n nt = Ok v -> v = None.
Proof.
  intros N Hk Hf H. assert (HN : N <> O) by lia.
  rewrite (demod_inv _ _ _ _ _ _ _ HN H). unfold dmean. fold N.
  apply (mean_None _ _ k Hk). unfold val. now rewrite Hf.
Qed.

(** C41. The lowest height is always sampled, and the highest one if the
    number of intervals is even: a non-finite value there makes the harmonic
    non-finite. *)
Lemma C41_ends_are_reached_proof :
  forall (laggauss : laggauss_t) (D : Defaults) (s : sample) (z_tip A_tip : R) (n : Z) n_trapz
    r_tip L_tip g_factor d_Q0 d_Q1 d_Qa n_lag method v,
  let N := match n_trapz with Some N => N | None => d_n_trapz D end in
  let alpha := fun z => fdm_eff_pol laggauss D s (Some z) r_tip L_tip g_factor d_Q0 d_Q1 d_Qa n_lag method in
  N <> O ->
  fdm_eff_pol_n laggauss D s A_tip n (Some z_tip) n_trapz r_tip L_tip g_factor d_Q0 d_Q1 d_Qa n_lag method = Ok v ->
  (alpha z_tip = Ok None -> v = None) /\
  (Nat.even N = true -> alpha (z_tip + 2 * A_tip) = Ok None -> v = None).
Proof.
  intros lg D s z A n nt r L g dQ0 dQ1 dQa nl meth v N alpha HN H.
  assert (En : N = dflt (d_n_trapz D) nt) by (unfold N; destruct nt; reflexivity).
  unfold fdm_eff_pol_n in H. cbn [dflt] in H. split.
  - intros E. eapply (val_demod_None _ _ _ _ _ _ _ 0); [|rewrite <- E|exact H].
    + rewrite <- En. lia.
    + unfold alpha. do 2 f_equal. unfold height. rewrite node_0, cos_neg, cos_PI. ring.
  - intros Hev E. apply Nat.even_spec in Hev. destruct Hev as [m Hm].
    eapply (val_demod_None _ _ _ _ _ _ _ m); [|rewrite <- E|exact H].
    + rewrite <- En. lia.
    + unfold alpha. do 2 f_equal. unfold height. rewrite <- En. replace (node N m) with 0; [rewrite cos_0; ring|].
      unfold node. replace (INR N) with (2 * INR m) by (rewrite Hm, mult_INR; reflexivity). field. apply not_0_INR. lia.
Qed.

(** C41. Without tapping (A_tip = 0) the zeroth harmonic is eff_pol itself and
    every other one (not divisible by the number of intervals) is 0; for both
    models. *)
Lemma C41_no_tapping_proof :
  forall (laggauss : laggauss_t) (D : Defaults) (s : sample) (z_tip : R) (n : Z) n_trapz
    r_tip L_tip g_factor d_Q0 d_Q1 d_Qa n_lag method eps_tip alpha_tip (a : C),
  let N := match n_trapz with Some N => N | None => d_n_trapz D end in
  N <> O -> (n = 0%Z \/ ~ (Z.of_nat N | n)%Z) ->
  let expected := Ok (Some (if Z.eqb n 0 then a else RtoC 0)) in
  (fdm_eff_pol laggauss D s (Some z_tip) r_tip L_tip g_factor d_Q0 d_Q1 d_Qa n_lag method = Ok (Some a) ->
   fdm_eff_pol_n laggauss D s 0 n (Some z_tip) n_trapz r_tip L_tip g_factor d_Q0 d_Q1 d_Qa n_lag method = expected) /\
  (pdm_eff_pol D s (Some z_tip) r_tip eps_tip alpha_tip = Ok (Some a) ->
   pdm_eff_pol_n D s 0 n (Some z_tip) n_trapz r_tip eps_tip alpha_tip = expected).
Proof.
  intros lg D s z n nt r L g dQ0 dQ1 dQa nl meth et at_ a N HN Hn expected.
  unfold fdm_eff_pol_n, pdm_eff_pol_n, expected. cbn [dflt]. rewrite Rplus_0_r.
  split; intros H; match goal with |- demod D ?f _ _ _ _ = _ =>
      destruct (C36_zero_amplitude_proof D f a z n nt HN H) as [H1 H2] end;
    (destruct Hn as [->|Hn]; [rewrite H1 by reflexivity; reflexivity|]; rewrite H2 by exact Hn;
     destruct (Z.eqb_spec n 0) as [->|]; [exfalso; apply Hn; apply Z.divide_0_r|reflexivity]).
Qed.
