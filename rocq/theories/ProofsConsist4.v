(** * Proofs: a lossless sample lost by the restriction on the imaginary part (C65) *)
From Coq Require Import String Reals Lra Lia ZArith List Bool Permutation Sorted.
From Coquelicot Require Import Rcomplements Complex.
From Verif Require Import Num NumLemmas LimLemmas ModelBase ModelSample ModelTip NArr SpecArr NArrLemmas ModelObj SpecObj
  ModelArr ModelArrTip ModelInv StackLemmas Spec SpecPoly SpecInv SpecNear FTA ArrSample
  ProofsStackQS ProofsStackQS2 ProofsPassive DemodLemmas ProofsDemod ProofsTip ProofsTip2 ProofsTip3 ProofsTaylor
  ProofsArr ProofsArr2 ProofsArrTip InvLemmas ProofsInv ProofsInv2 ProofsInv3 ProofsInv4 ProofsInv5
  ProofsNear ProofsConsist ProofsConsist2 ProofsConsist3.
Import ListNotations.
Open Scope R_scope.

Lemma Re_le_mod c : Rabs (Re c) <= Cmod c.
Proof.
  rewrite <- sqrt_Rsqr_abs. unfold Cmod. apply sqrt_le_1_alt. unfold Rsqr, Re. pose proof (pow2_ge_0 (snd c)). nra.
Qed.

(** ** Powers near one *)
Lemma Cpown_near_1 : forall (z : C) t n, Cmod (z - 1)%C <= t -> Cmod (Cpown z n - 1)%C <= (1 + t) ^ n - 1.
Proof.
  intros z t n H. assert (T0 : 0 <= t) by (eapply Rle_trans; [apply Cmod_ge_0|exact H]).
  assert (Hz : Cmod z <= 1 + t).
  { pose proof (Cmod_triangle (z - 1)%C 1%C) as K. replace (z - 1 + 1)%C with z in K by ring. rewrite Cmod_1 in K. lra. }
  induction n as [|n IH]; cbn [Cpown pow].
  - replace (1 - 1)%C with (RtoC 0) by ring. rewrite Cmod_0. lra.
  - replace (z * Cpown z n - 1)%C with (z * (Cpown z n - 1) + (z - 1))%C by ring.
    eapply Rle_trans; [apply Cmod_triangle|]. rewrite Cmod_mult.
    assert (P : 1 <= (1 + t) ^ n) by (apply pow_R1_Rle; lra). pose proof (Cmod_ge_0 (Cpown z n - 1)%C). pose proof (Cmod_ge_0 z). nra.
Qed.
Lemma pow_near_1 : forall t n, 0 <= t -> INR n * t <= 1 / 3 -> (1 + t) ^ n - 1 <= 1 / 2.
Proof.
  intros t n H0 H.
  assert (B : forall m, INR m * t <= 1 / 3 -> (1 + t) ^ m * (1 - INR m * t) <= 1).
  { induction m as [|m IH]; intros Hm; [cbn [pow INR]; lra|]. rewrite S_INR in *. cbn [pow].
    assert (P : 0 < (1 + t) ^ m) by (apply pow_lt; lra). pose proof (pos_INR m) as I0.
    assert (Q : INR m * t <= 1 / 3) by nra. specialize (IH Q).
    assert (I : (1 + t) * (1 - (INR m + 1) * t) <= 1 - INR m * t) by nra.
    replace ((1 + t) * (1 + t) ^ m * (1 - (INR m + 1) * t)) with ((1 + t) ^ m * ((1 + t) * (1 - (INR m + 1) * t))) by ring. nra. }
  specialize (B n H). assert (P : 0 < (1 + t) ^ n) by (apply pow_lt; lra). nra.
Qed.
Lemma small_powers : forall k, INR (4 * k + 6) * ((5 / 16) ^ (4 * k + 5) * (25 / 16)) <= 1 / 3.
Proof.
  induction k as [|k IH].
  - cbn [Nat.mul Nat.add]. cbn [INR pow]. lra.
  - replace (4 * S k + 6)%nat with ((4 * k + 6) + 4)%nat by lia. replace (4 * S k + 5)%nat with ((4 * k + 5) + 4)%nat by lia.
    rewrite plus_INR, pow_add. assert (P : 0 < (5 / 16) ^ (4 * k + 5)) by (apply pow_lt; lra).
    assert (I : 6 <= INR (4 * k + 6)). { replace 6 with (INR 6) by (cbn [INR]; lra). apply le_INR. lia. }
    replace (INR 4) with 4 by (cbn [INR]; lra). replace ((5 / 16) ^ 4) with (625 / 65536) by (cbn [pow]; field).
    set (n := INR (4 * k + 6)) in *. set (p := (5 / 16) ^ (4 * k + 5)) in *. nra.
Qed.
Lemma quarter_turns : forall k, Cpown (0, - (1 / 2))%R (4 * k + 5) = (0, - (1 / 2) ^ (4 * k + 5))%R.
Proof.
  induction k as [|k IH].
  - cbn [Nat.mul Nat.add Cpown pow]. unfold Cmult, RtoC. cbn [fst snd]. f_equal; ring.
  - replace (4 * S k + 5)%nat with (S (S (S (S (4 * k + 5))))) by lia. cbn [Cpown pow]. rewrite IH. unfold Cmult. cbn [fst snd]. f_equal; ring.
Qed.

(** ** The truncated series bends the solution below the real axis *)
Lemma solution_below : forall (b : C) k, let f := (0, - (1 / 2))%R in let m := (4 * k + 5)%nat in
  (b - RtoC (1 / 2) = b * Cpown (b * f) m * (1 - RtoC (1 / 2) * f))%C -> Cmod (b - RtoC (1 / 2))%C < 1 / 8 -> Im b < 0.
Proof.
  intros b k f m H Hb.
  set (z := (2 * b)%C). set (w := (1 / 4, -1)%R : C).
  assert (E : (z - 1 = RtoC ((1 / 4) ^ m) * Cpown z (S m) * w)%C).
  { assert (Ez : Cpown z (S m) = (RtoC (2 ^ S m) * Cpown b (S m))%C) by (unfold z; rewrite Cpown_mult, Cpown_R; reflexivity).
    rewrite Ez. replace (z - 1)%C with (2 * (b - RtoC (1 / 2)))%C.
    2:{ unfold z. replace (RtoC (1 / 2)) with (/ 2)%C by (rewrite <- RtoC_inv by lra; f_equal; field). field. exact C2_neq_0. }
    rewrite H, Cpown_mult. pose proof (quarter_turns k) as QT. fold m in QT. fold f in QT. rewrite QT. unfold f.
    replace ((0, - (1 / 2) ^ m)%R : C) with (RtoC ((1 / 2) ^ m) * (0, -1)%R)%C by (unfold RtoC, Cmult; cbn [fst snd]; f_equal; ring).
    replace (2 * (b * (Cpown b m * (RtoC ((1 / 2) ^ m) * (0, -1)%R)) * (1 - RtoC (1 / 2) * (0, - (1 / 2))%R)))%C
      with (RtoC 2 * RtoC ((1 / 2) ^ m) * Cpown b (S m) * ((0, -1)%R * (1 - RtoC (1 / 2) * (0, - (1 / 2))%R)))%C by (cbn [Cpown]; ring).
    replace (RtoC ((1 / 4) ^ m) * (RtoC (2 ^ S m) * Cpown b (S m)) * w)%C with (RtoC ((1 / 4) ^ m) * RtoC (2 ^ S m) * Cpown b (S m) * w)%C by ring.
    f_equal; [f_equal|].
    - rewrite <- !RtoC_mult. f_equal. cbn [pow]. replace (1 / 2) with (1 / 4 * 2) by field. rewrite Rpow_mult_distr. ring.
    - unfold w, RtoC, Cmult, Cminus, Cplus, Copp. cbn [fst snd]. f_equal; field. }
  assert (Z1 : Cmod (z - 1)%C < 1 / 4).
  { replace (z - 1)%C with (2 * (b - RtoC (1 / 2)))%C.
    - rewrite Cmod_mult, Cmod_R, (Rabs_pos_eq 2) by lra. lra.
    - unfold z. replace (RtoC (1 / 2)) with (/ 2)%C by (rewrite <- RtoC_inv by lra; f_equal; field). field. exact C2_neq_0. }
  assert (Z2 : Cmod z <= 5 / 4).
  { pose proof (Cmod_triangle (z - 1)%C 1%C) as K. replace (z - 1 + 1)%C with z in K by ring. rewrite Cmod_1 in K. lra. }
  assert (W : Cmod w <= 5 / 4).
  { unfold Cmod, w. cbn [fst snd]. rewrite <- (sqrt_Rsqr (5 / 4)) by lra. apply sqrt_le_1_alt. unfold Rsqr. lra. }
  set (t := (5 / 16) ^ m * (25 / 16)).
  assert (T : Cmod (z - 1)%C <= t).
  { rewrite E, !Cmod_mult, Cmod_R, Cmod_pown, Rabs_pos_eq by (apply pow_le; lra).
    assert (P1 : Cmod z ^ S m <= (5 / 4) ^ S m) by (apply pow_incr; split; [apply Cmod_ge_0|exact Z2]).
    assert (P2 : 0 <= Cmod z ^ S m) by (apply pow_le, Cmod_ge_0).
    assert (P3 : 0 < (1 / 4) ^ m) by (apply pow_lt; lra). pose proof (Cmod_ge_0 w).
    replace t with ((1 / 4) ^ m * (5 / 4) ^ S m * (5 / 4)).
    - apply Rmult_le_compat; [apply Rmult_le_pos; lra|lra| |exact W]. apply Rmult_le_compat_l; lra.
    - unfold t. cbn [pow]. replace (5 / 16) with (1 / 4 * (5 / 4)) by field. rewrite Rpow_mult_distr. field. }
  assert (T0 : 0 <= t) by (eapply Rle_trans; [apply Cmod_ge_0|exact T]).
  assert (TM : INR (S m) * t <= 1 / 3).
  { pose proof (small_powers k) as K. unfold t, m. replace (S (4 * k + 5)) with (4 * k + 6)%nat by lia. exact K. }
  pose proof (Cpown_near_1 z t (S m) T) as N1. pose proof (pow_near_1 t (S m) T0 TM) as N2.
  set (Z := Cpown z (S m)) in *. assert (N3 : Cmod (Z - 1)%C <= 1 / 2) by lra.
  pose proof (Im_le_mod (Z - 1)%C) as I1. pose proof (Re_le_mod (Z - 1)%C) as R1.
  assert (IE : Im (z - 1)%C = (1 / 4) ^ m * (- Re Z + Im Z / 4)).
  { rewrite E. unfold w. destruct Z as [x y]. unfold RtoC, Cmult, Re, Im. cbn [fst snd]. field. }
  assert (IZ : Im (z - 1)%C = 2 * Im b) by (unfold z; destruct b as [x y]; unfold RtoC, Cmult, Cminus, Cplus, Copp, Im; cbn [fst snd]; ring).
  assert (P3 : 0 < (1 / 4) ^ m) by (apply pow_lt; lra).
  assert (S1 : Rabs (Im Z) <= 1 / 2).
  { replace (Im Z) with (Im (Z - 1)%C); [lra|]. destruct Z as [x y]. unfold Cminus, Cplus, Copp, RtoC, Im. cbn [fst snd]. ring. }
  assert (S2 : Rabs (Re Z - 1) <= 1 / 2).
  { replace (Re Z - 1) with (Re (Z - 1)%C); [lra|]. destruct Z as [x y]. unfold Cminus, Cplus, Copp, RtoC, Re. cbn [fst snd]. ring. }
  apply Rabs_le_between in S1. apply Rabs_le_between in S2. nra.
Qed.
Lemma permitivitty_sign : forall b e, permitivitty (Some b) (Some (RtoC 1)) = Some e -> 0 <= Im e -> Re b < 1 -> 0 <= Im b.
Proof.
  intros b e H HI HR. unfold permitivitty, rc in H. cbn [cmul cadd csub olift2] in H.
  apply cdiv_Some in H. destruct H as (u & w & Eu & Ew & N & E). injection Eu as <-. injection Ew as <-.
  assert (M : (e * (1 - b) = 1 + b)%C) by (rewrite E; field; exact N).
  apply Rnot_lt_le. intro Hb. destruct b as [x y], e as [p q]. unfold Im, Re in *. cbn [fst snd] in *.
  unfold RtoC, Cmult, Cminus, Cplus, Copp in M. cbn [fst snd] in M. injection M as M1 M2.
  assert (K1 : p * (1 - x) + q * y = 1 + x) by lra. assert (K2 : q * (1 - x) = y * (1 + p)) by lra.
  assert (0 <= q * (1 - x)) by (apply Rmult_le_pos; lra). assert (p <= -1) by nra. nra.
Qed.

(** ** One sample at one height *)
Lemma tmean_1 : forall g, tmean 0 0 0 1 g = g 0.
Proof.
  intro g. unfold tmean, cmean. cbn [seq map]. unfold Csum. cbn [fold_right]. rewrite ph_0.
  replace (tip_height 0 0 1 0) with 0 by (unfold tip_height; ring). cbn [INR]. field. apply RtoC_neq_0. lra.
Qed.

(** C65. Room to spare is needed.  A lossless sample (permittivity 3) meets the
    restriction [reject_negative_eps_imag] exactly.  With a complex g-factor
    there are arbitrarily large n_tayl for which the inverse, applied to the
    exact signal, returns nothing within 1/8 of its reflection coefficient 1/2. *)
Lemma C65_lossless_lost_refuted_proof : forall eig sb sr (laggauss : laggauss_t) D, library eig sb sr ->
  let g := (3 / 4, -1)%R : C in let s := stack [RtoC 1; RtoC 3] [] None in let beta := RtoC (1 / 2) in
  let invert a J := fdm_refl_coef_qs_from_eff_pol_n eig sb sr D (scalar (Some a)) (scalar 0%R) (scalar 0%Z) (Some (scalar 0%R))
    (Some (scalar 1%R)) (Some (scalar 1%R)) (Some (scalar g)) (Some (scalar (1 / 2)%R)) (Some (scalar (1 / 2)%R))
    (Some 1%nat) (Some J) (Some 1%R) true false (Some (scalar (RtoC 1))) in
  refl_coef_qs s (rr 0) = Ok (Some beta) /\ admissible 1 true false (RtoC 1) beta /\
  exists a,
    fdm_eff_pol_n laggauss D s 0 0 (Some 0%R) (Some 1%nat) (Some 1%R) (Some 1%R) (Some g) (Some (1 / 2)%R) (Some (1 / 2)%R) None None None
      = Ok (Some a) /\
    forall J0, exists J result, (J0 <= J)%nat /\ invert a J = Ok result /\ elements result = [] /\
      forall b, In (Some b) (unmasked result []) -> 1 / 8 <= Cmod (b - beta)%C.
Proof.
  intros eig sb sr lg D LIB g s beta invert.
  assert (Hs : refl_coef_qs s (rr 0) = Ok (Some beta)).
  { unfold s, beta. rewrite bulk_qs.
    - do 2 f_equal. rewrite <- RtoC_minus, <- RtoC_plus, <- RtoC_div by lra. f_equal. field.
    - apply RtoC_neq_0. lra.
    - rewrite <- RtoC_plus. apply RtoC_neq_0. lra. }
  split; [exact Hs|]. split; [destruct half_admissible as (h1 & h2 & _); split; [exact h1|]; split; [exact h2|discriminate]|].
  set (f := (0, - (1 / 2))%R : C).
  assert (Ff : fdm_f 0 (1 / 2) 1 1 g = f).
  { rewrite f_at_0. unfold g, f, RtoC, Cmult, Cminus, Cplus, Copp. cbn [fst snd]. f_equal; field. }
  assert (HD : (1 - beta * f <> 0)%C).
  { intro E. apply (f_equal fst) in E. unfold beta, f, RtoC, Cmult, Cminus, Cplus, Copp in E. cbn [fst snd] in E. lra. }
  assert (F0 : f <> RtoC 0). { intro E. apply (f_equal snd) in E. unfold f, RtoC in E. cbn [fst snd] in E. lra. }
  assert (H1 : 1%nat <> O) by discriminate.
  assert (TH : forall k, (k < 1)%nat -> tip_height 0 0 1 k = 0) by (intros k _; unfold tip_height; ring).
  assert (RG : fdm_regular 0 (1 / 2) 1 1) by (unfold fdm_regular; lra).
  set (a := (1 + beta * f / (2 * (1 - beta * f)))%C). exists a. split.
  { rewrite eff_pol_n_none_bulk by reflexivity.
    rewrite (fdm_n_value lg D s 0 0 (Some 0) (Some 1%nat) (Some 1) (Some 1) (Some g) (Some (1 / 2)) (Some (1 / 2)) None None beta eq_refl Hs H1).
    - cbn [given_or]. rewrite tmean_1, Ff. reflexivity.
    - intros k Hk. cbn [given_or] in Hk |- *. rewrite (TH k Hk). cbv zeta. rewrite Ff. auto. }
  intros J0. set (m := (4 * J0 + 5)%nat). exists (S m).
  set (v := fun x => (fdm_f x (1 / 2) 1 1 g / 2)%C). set (w := fun x => fdm_f x (1 / 2) 1 1 g).
  set (cs := map (sc 0 0 0 1 v w (RtoC 1)) (seq 0 (S m))).
  destruct (C31_fdm_complete_proof eig sb sr D (scalar (Some a)) (scalar 0%R) (scalar 0%Z) (Some (scalar 0%R))
    (Some (scalar 1%R)) (Some (scalar 1%R)) (Some (scalar g)) (Some (scalar (1 / 2)%R)) (Some (scalar (1 / 2)%R))
    (Some 1%nat) (Some (S m)) (Some 1%R) true false (Some (scalar (RtoC 1))) [] (fun _ => cs) (fun _ => a) m LIB) as (result & ER & EL & _).
  - apply (env_as_array (Some (RtoC 1))).
  - apply bshapes_spec. reflexivity.
  - exists []. apply index_scalar.
  - unfold m. lia.
  - intros i Hi. rewrite !entry_scalar. cbn [at_index]. rewrite !entry_scalar. cbn [given_or].
    assert (NC : forall j, (j < S m)%nat -> nth j cs (RtoC 0) = sc 0 0 0 1 v w (RtoC 1) j).
    { intros j Hj. unfold cs. rewrite (nth_indep _ _ (sc 0 0 0 1 v w (RtoC 1) O)) by (rewrite map_length, seq_length; exact Hj).
      rewrite map_nth, seq_nth by exact Hj. reflexivity. }
    split; [reflexivity|]. split; [|split].
    + split.
      * rewrite NC by lia. unfold m. replace (4 * J0 + 5)%nat with (S (4 * J0 + 4)) by lia. cbn [sc]. rewrite tmean_1. unfold v, w. rewrite Ff.
        apply Cmult_neq_0; [|apply Cpown_neq_0, F0]. intro E. apply F0. replace f with (f / 2 * 2)%C by (field; exact C2_neq_0). rewrite E. ring.
      * intros k Hk. apply nth_overflow. unfold cs. rewrite map_length, seq_length. lia.
    + unfold cs. rewrite map_length, seq_length. reflexivity.
    + rewrite (fdm_defaults_eq D (Some 1) (Some 1) (Some g) (Some (1 / 2)) (Some (1 / 2)) None) by (cbn [given_or]; lra). cbn [given_or].
      intros j Hj. unfold cs in Hj. rewrite map_length, seq_length in Hj. rewrite NC by exact Hj. destruct j as [|j].
      * apply taylor_coef_0.
      * rewrite (taylor_coef_S D 0 0 0 (Some 1%nat) (1 / 2) (1 / 2) 1 1 g H1).
        -- cbn [sc given_or]. do 2 f_equal. apply tmean_ext. intros k Hk. unfold v, w. field. exact C2_neq_0.
        -- intros k Hk. cbn [given_or] in Hk |- *. rewrite (TH k Hk). exact RG.
        -- intros k Hk. cbn [given_or] in Hk |- *. rewrite (TH k Hk). exact RG.
  - exists result. split; [unfold m; lia|]. split; [exact ER|]. split; [exact EL|]. intros b Hb.
    apply Rnot_lt_le. intro Hnear.
    destruct (C30_fdm_sound_proof eig sb sr lg D (scalar (Some a)) (scalar 0%R) (scalar 0%Z) (Some (scalar 0%R))
      (Some (scalar 1%R)) (Some (scalar 1%R)) (Some (scalar g)) (Some (scalar (1 / 2)%R)) (Some (scalar (1 / 2)%R))
      (Some 1%nat) (Some (S m)) (Some 1%R) true false (Some (scalar (RtoC 1))) result LIB) with (i := @nil nat) (v := Some b)
      as (b' & Eb & Ha & Hsol).
    + apply (env_as_array (Some (RtoC 1))).
    + exact ER.
    + rewrite EL. apply index_scalar.
    + exact Hb.
    + injection Eb as <-. destruct Ha as (_ & Him & _). destruct (Him eq_refl) as (e & He & Hie). clear Him.
      cbn [at_index given_or] in He. rewrite entry_scalar in He.
      assert (RB : 3 / 8 <= Re b <= 5 / 8).
      { pose proof (Re_le_mod (b - beta)%C) as K. replace (Re (b - beta)%C) with (Re b - 1 / 2) in K
          by (unfold beta; destruct b; unfold Cminus, Cplus, Copp, RtoC, Re; cbn [fst snd]; ring).
        assert (K' : Rabs (Re b - 1 / 2) <= 1 / 8) by lra. apply Rabs_le_between in K'. lra. }
      pose proof (permitivitty_sign b e He Hie ltac:(lra)) as Hpos.
      assert (B1 : (1 - b <> 0)%C).
      { intro E. apply (f_equal Re) in E. destruct b as [x y]. unfold Cminus, Cplus, Copp, RtoC, Re in *. cbn [fst snd] in *. lra. }
      assert (B2 : (1 + b <> 0)%C).
      { intro E. apply (f_equal Re) in E. destruct b as [x y]. unfold Cminus, Cplus, Copp, RtoC, Re in *. cbn [fst snd] in *. lra. }
      assert (Hsb : refl_coef_qs (stack [RtoC 1; ((1 + b) / (1 - b))%C] [] None) (rr 0) = Ok (Some b)).
      { rewrite bulk_qs.
        - do 2 f_equal. field. split; [exact B1|]. intro E. apply C2_neq_0. rewrite <- E.
          replace (RtoC 2) with (RtoC 1 + RtoC 1)%C by (rewrite <- RtoC_plus; f_equal; ring). ring.
        - intro E. apply B2. replace (1 + b)%C with ((1 + b) / (1 - b) * (1 - b))%C by (field; exact B1). rewrite E. ring.
        - intro E. apply C2_neq_0. replace (RtoC 2) with ((1 + (1 + b) / (1 - b)) * (1 - b))%C; [rewrite E; ring|].
          replace (RtoC 2) with (RtoC 1 + RtoC 1)%C by (rewrite <- RtoC_plus; f_equal; ring). field. exact B1. }
      specialize (Hsol (stack [RtoC 1; ((1 + b) / (1 - b))%C] [] None) None None eq_refl Hsb). cbn [at_index] in Hsol. rewrite !entry_scalar in Hsol.
      rewrite taylor_none_bulk in Hsol by reflexivity.
      rewrite (fdm_taylor_value lg D (stack [RtoC 1; ((1 + b) / (1 - b))%C] [] None) 0 0 (Some 0) (Some 1%nat) (Some 1) (Some 1) (Some g) (Some (1 / 2)) (Some (1 / 2)) None None b m eq_refl Hsb H1) in Hsol.
      2:{ intros k Hk. cbn [given_or] in Hk |- *. rewrite (TH k Hk). cbv zeta. auto. }
      cbn [given_or Z.eqb] in Hsol. rewrite tmean_1, Ff in Hsol.
      apply (f_equal (fun r => match r with Ok (Some x) => x | _ => RtoC 0 end)) in Hsol. cbn beta iota in Hsol.
      assert (BF : (1 - b * f <> 0)%C).
      { intro E. apply (f_equal Im) in E. destruct b as [x y]. unfold f, Cmult, Cminus, Cplus, Copp, RtoC, Re, Im in *. cbn [fst snd] in *. lra. }
      rewrite geom_remainder in Hsol by exact BF.
      assert (Key : (b - beta = b * Cpown (b * f) m * (1 - beta * f))%C).
      { assert (X : (b * f / 2 * (1 / (1 - b * f) - Cpown (b * f) m / (1 - b * f)) = beta * f / (2 * (1 - beta * f)))%C).
        { unfold a in Hsol. match goal with |- ?u = ?v => replace u with (1 + u - 1)%C by ring; replace v with (1 + v - 1)%C by ring end. rewrite Hsol. reflexivity. }
        assert (Y : (b * (1 - Cpown (b * f) m) * (1 - beta * f) = beta * (1 - b * f))%C).
        { replace (b * (1 - Cpown (b * f) m) * (1 - beta * f))%C with
            ((b * f / 2 * (1 / (1 - b * f) - Cpown (b * f) m / (1 - b * f))) * (2 * (1 - b * f) * (1 - beta * f) / f))%C
            by (field; repeat split; try assumption; exact C2_neq_0).
          rewrite X. field. repeat split; try assumption; exact C2_neq_0. }
        replace (b - beta)%C with (b * (1 - Cpown (b * f) m) * (1 - beta * f) - beta * (1 - b * f) + b * Cpown (b * f) m * (1 - beta * f))%C by ring.
        rewrite Y. ring. }
      pose proof (solution_below b J0 Key Hnear). lra.
Qed.
