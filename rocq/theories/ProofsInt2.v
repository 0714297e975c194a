From Coq Require Import String Reals Lra Lia ZArith List Bool.
From Coquelicot Require Import Rcomplements Complex.
From Verif Require Import Num ModelBase ModelSample ModelTip ModelInt SpecInt ProofsInt.
Import ListNotations.
Open Scope R_scope.

Lemma pow_mod w sg x y k : same_bits w (x ^ Z.of_nat k) (y ^ Z.of_nat k) ->
  n_pow (Word w sg) (I x) k = n_pow (Word w sg) (I y) k.
Proof. intros H. cbn [n_pow]. now rewrite (wrap_mod w sg _ _ H). Qed.

Lemma i_transfer_squares t s q q' nu nu' pol :
  n_pow t q 2 = n_pow t q' 2 -> n_pow t nu 2 = n_pow t nu' 2 ->
  i_transfer_matrix t s (Some q) None (Some nu) pol = i_transfer_matrix t s (Some q') None (Some nu') pol.
Proof.
  intros Eq En. unfold i_transfer_matrix. cbn [i_resolve_nu i_resolve_q rbind]. rewrite Eq, En. reflexivity.
Qed.

(** Out of range, only the low bits of the squares matter: integers whose squares
    agree in them give the same transfer matrix, whatever the sample.  *)
Lemma C88_only_low_bits_proof : forall w sg s q q' nu nu' pol,
  same_bits w (q ^ 2) (q' ^ 2) -> same_bits w (nu ^ 2) (nu' ^ 2) ->
  i_transfer_matrix (Word w sg) s (Some (I q)) None (Some (I nu)) pol
  = i_transfer_matrix (Word w sg) s (Some (I q')) None (Some (I nu')) pol.
Proof.
  intros w sg s q q' nu nu' pol Hq Hn. apply i_transfer_squares; apply (pow_mod w sg _ _ 2); assumption.
Qed.

(** A momentum whose square is a multiple of 2^bits is treated as normal incidence. *)
Lemma C88_normal_incidence_proof : forall w sg s q nu pol, (0 < w)%nat ->
  same_bits w (q ^ 2) 0 -> power_fits (Word w sg) 2 nu ->
  opt_ok (power_fits (Word w sg) 2) (i_nu_vac s) ->
  i_refl_coef (Word w sg) s (Some (I q)) None (Some nu) pol
    = refl_coef (in_floats s) (Some 0) None (Some (real_of nu)) pol /\
  i_trans_coef (Word w sg) s (Some (I q)) None (Some nu) pol
    = trans_coef (in_floats s) (Some 0) None (Some (real_of nu)) pol.
Proof.
  intros w sg s q nu pol Hw Hq Hn Hs.
  assert (E : n_pow (Word w sg) (I q) 2 = n_pow (Word w sg) (I 0) 2).
  { apply (pow_mod w sg q 0 2). exact Hq. }
  pose proof (i_transfer_squares (Word w sg) s (I q) (I 0) nu nu pol E eq_refl) as E2.
  assert (P0 : opt_ok (power_fits (Word w sg) 2) (Some (I 0))).
  { pose proof (pow2_pos w). destruct sg; cbn; lia. }
  destruct (C88_far_field_in_range_proof (Word w sg) s (Some (I 0)) None (Some nu) pol Hw P0 Hn Hs) as (_ & R1 & R2).
  unfold i_refl_coef, i_trans_coef in *. rewrite E2. split; [exact R1|exact R2].
Qed.

(** ** The wavenumber wraps to zero *)
Definition mnone (M : mat) : Prop := m00 M = None /\ m01 M = None /\ m10 M = None /\ m11 M = None.
Lemma cmul_none_l x : cmul None x = None. Proof. reflexivity. Qed.
Lemma mmul_none A B : mnone A -> mnone (mmul A B).
Proof. intros (a & b & c & d). unfold mnone, mmul. cbn [m00 m01 m10 m11]. rewrite a, b, c, d. auto. Qed.
Lemma chain_none : forall l M, mnone M -> mnone (chain M l).
Proof.
  unfold chain. induction l as [|x l IH]; intros M H; cbn [fold_left]; [exact H|].
  apply IH, mmul_none, mmul_none, H.
Qed.
Lemma trans_matrix_none : mnone (trans_matrix None).
Proof. repeat split. Qed.
Lemma cdiv_zero x : cdiv x (rc 0) = None.
Proof. destruct x; cbn; [|reflexivity]. destruct (Ceq_dec _ _) as [|N]; [reflexivity|now destruct N]. Qed.
Lemma cdiv_none x : cdiv x None = None. Proof. destruct x; reflexivity. Qed.
Lemma cmul_none x : cmul x None = None. Proof. destruct x; reflexivity. Qed.
Lemma csqrt_zero : csqrt (rc 0) = rc 0.
Proof.
  unfold csqrt, rc. cbn [olift1]. f_equal. unfold Csqrt. rewrite Cmod_0. cbn.
  replace ((0 + 0) / 2) with 0 by lra. replace ((0 - 0) / 2) with 0 by lra. rewrite sqrt_0.
  destruct (Rle_dec 0 0); unfold RtoC; f_equal; ring.
Qed.

(** A wavenumber whose square is a multiple of 2^bits counts as zero: at normal
    incidence every far-field coefficient of every sample is nan. *)
Lemma C88_wavenumber_lost_proof : forall w sg s nu pol, (0 < w)%nat ->
  same_bits w (nu ^ 2) 0 -> (2 <= length (i_eps_stack s))%nat -> (pol = "p"%string \/ pol = "s"%string) ->
  i_refl_coef (Word w sg) s None None (Some (I nu)) pol = Ok None /\
  i_trans_coef (Word w sg) s None None (Some (I nu)) pol = Ok None.
Proof.
  intros w sg s nu pol Hw Hn Hl Hp.
  assert (K : exists M, i_transfer_matrix (Word w sg) s None None (Some (I nu)) pol = Ok M /\ mnone M).
  { unfold i_transfer_matrix. cbn [i_resolve_nu i_resolve_q rbind].
    assert (E : val (n_pow (Word w sg) (I nu) 2) = 0).
    { rewrite (pow_mod w sg nu 0 2 Hn). cbn [n_pow val].
      rewrite wrap_id; [reflexivity|exact Hw|]. pose proof (pow2_pos w). destruct sg; cbn; lia. }
    rewrite E. cbn [n_pow val]. replace (0 ^ 2) with 0 by ring.
    destruct (i_eps_stack s) as [|e0 [|e1 es]] eqn:Es; cbn [length] in Hl; [lia..|].
    assert (Ep : exists b, (if String.eqb pol "p" then Ok true else if String.eqb pol "s" then Ok false else Raise (ValueError msg_pol)) = Ok b)
      by (destruct Hp as [-> | ->]; cbn; eauto).
    destruct Ep as [b Ep]. rewrite Ep. cbn [rbind length Nat.eqb Nat.sub seq map].
    set (nuz := _ :: _ :: map _ es).
    assert (Z0 : trans_factor b (e0 :: e1 :: es) nuz 0 = None).
    { assert (N0 : forall e : CV, csqrt (e * rc 0 - rc 0)%cv = None \/ csqrt (e * rc 0 - rc 0)%cv = rc 0).
      { intros [e|]; [right|left; reflexivity]. rewrite <- csqrt_zero at 3. f_equal. unfold rc. cbn. f_equal. ring. }
      unfold trans_factor, nuz. cbn [nth Nat.add].
      destruct (N0 e0) as [-> | ->]; destruct b.
      - rewrite cmul_none. apply cdiv_none.
      - apply cdiv_none.
      - replace (e1 * rc 0)%cv with (match e1 with Some _ => rc 0 | None => None end)
          by (destruct e1; [unfold rc; cbn; f_equal; ring|reflexivity]).
        destruct e1; [apply cdiv_zero|apply cdiv_none].
      - apply cdiv_zero. }
    rewrite Z0. destruct (Nat.ltb 2 _); eexists; (split; [reflexivity|]).
    - apply chain_none, trans_matrix_none.
    - apply trans_matrix_none. }
  destruct K as (M & E & N0 & N1 & N2 & N3). unfold i_refl_coef, i_trans_coef. rewrite E. cbn [rbind].
  rewrite N0, N2. split; reflexivity.
Qed.

(** ** The square of the wavenumber wraps to a negative number *)
Definition creal (x : CV) : Prop := match x with Some z => Im z = 0 | None => True end.
Definition cimag (x : CV) : Prop := match x with Some z => Re z = 0 | None => True end.
Lemma creal_add x y : creal x -> creal y -> creal (x + y)%cv.
Proof. destruct x as [[a b]|], y as [[c d]|]; cbn; intros; try exact Logic.I. lra. Qed.
Lemma creal_mul x y : creal x -> creal y -> creal (x * y)%cv.
Proof. destruct x as [[a b]|], y as [[c d]|]; cbn; intros; try exact Logic.I. subst. ring. Qed.
Lemma Im_inv_real c : Im (/ (c, 0))%C = 0.
Proof. cbn. unfold Rdiv. ring. Qed.
Lemma creal_div x y : creal x -> creal y -> creal (x / y)%cv.
Proof.
  destruct x as [[a b]|], y as [[c d]|]; cbn [cdiv creal]; intros Hx Hy; try exact Logic.I.
  destruct (Ceq_dec _ _); [exact Logic.I|]. cbn in *. subst. unfold Rdiv. ring.
Qed.
Lemma creal_div_imag x y : cimag x -> cimag y -> creal (x / y)%cv.
Proof.
  destruct x as [[a b]|], y as [[c d]|]; cbn [cdiv creal cimag]; intros Hx Hy; try exact Logic.I.
  destruct (Ceq_dec _ _); [exact Logic.I|]. cbn in *. subst. unfold Rdiv. ring.
Qed.
Lemma cimag_mul x y : creal x -> cimag y -> cimag (x * y)%cv.
Proof. destruct x as [[a b]|], y as [[c d]|]; cbn; intros; try exact Logic.I. subst. ring. Qed.
Lemma creal_rot k x : cimag x -> creal (Some (0, k)%R * x)%cv.
Proof. destruct x as [[a b]|]; cbn; intros; try exact Logic.I. subst. ring. Qed.
Lemma creal_exp x : creal x -> creal (cexp x).
Proof. destruct x as [[a b]|]; cbn; intros; try exact Logic.I. subst. rewrite sin_0. ring. Qed.
Lemma creal_rc x : creal (rc x). Proof. reflexivity. Qed.
Definition mreal (M : mat) : Prop := creal (m00 M) /\ creal (m01 M) /\ creal (m10 M) /\ creal (m11 M).
Lemma mreal_mul A B : mreal A -> mreal B -> mreal (mmul A B).
Proof.
  intros (a & b & c & d) (e & f & g & h).
  repeat split; cbn [mmul m00 m01 m10 m11]; apply creal_add; apply creal_mul; assumption.
Qed.
Lemma mreal_trans x : creal x -> mreal (trans_matrix x).
Proof.
  intros H. repeat split; cbn [trans_matrix m00 m01 m10 m11];
    (apply creal_div; [apply creal_add; [apply creal_rc|apply creal_mul; [apply creal_rc|exact H]]|apply creal_rc]).
Qed.
Lemma mreal_prop x y : creal x -> creal y -> mreal (prop_matrix x y).
Proof. intros Hx Hy. repeat split; cbn [prop_matrix m00 m01 m10 m11]; apply creal_mul; auto using creal_rc. Qed.
Lemma mreal_chain : forall l M, mreal M -> (forall tp, In tp l -> mreal (fst tp) /\ mreal (snd tp)) -> mreal (chain M l).
Proof.
  unfold chain. induction l as [|x l IH]; intros M H Hl; cbn [fold_left]; [exact H|].
  apply IH; [|intros; apply Hl; right; assumption].
  destruct (Hl x (or_introl eq_refl)). apply mreal_mul; [apply mreal_mul|]; assumption.
Qed.
Lemma nth_prop {A} (P : A -> Prop) d l i : P d -> (forall x, In x l -> P x) -> P (nth i l d).
Proof.
  intros Hd H. destruct (nth_in_or_default i l d) as [I0 | ->]; auto.
Qed.
Lemma csqrt_neg y : 0 <= y -> csqrt (rc (- y)) = Some (0, sqrt y).
Proof.
  intros H. unfold csqrt, rc. cbn [olift1]. f_equal. unfold Csqrt.
  rewrite Cmod_R. cbn [Re Im RtoC fst snd]. rewrite Rabs_left1 by lra.
  replace ((- - y + - y) / 2) with 0 by field. replace ((- - y - - y) / 2) with y by field.
  rewrite sqrt_0. destruct (Rle_dec 0 0); [f_equal; ring|lra].
Qed.

(** For wavenumbers whose square needs the sign bit, the square is stored as a
    negative number: at normal incidence, light in a lossless stack is treated as
    evanescent, and the coefficients are real for every thickness: no
    interference.  (For a 32-bit integer these are the wavenumbers from 46341 to
    65535 per metre, that is 464 to 655 per centimetre.) *)
Lemma C88_no_interference_proof : forall w s nu pol r, (0 < w)%nat ->
  Forall (fun e => exists x, 0 < x /\ e = Some (RtoC x)) (i_eps_stack s) ->
  (2 ^ Z.of_nat w <= 2 * nu ^ 2 < 2 * 2 ^ Z.of_nat w)%Z ->
  (i_refl_coef (Word w true) s None None (Some (I nu)) pol = Ok (Some r) \/
   i_trans_coef (Word w true) s None None (Some (I nu)) pol = Ok (Some r)) -> Im r = 0.
Proof.
  intros w s nu pol r Hw He Hnu Hr.
  assert (E : val (n_pow (Word w true) (I nu) 2) = - IZR (2 ^ Z.of_nat w - nu ^ 2)).
  { cbn [n_pow val]. change (Z.of_nat 2) with 2%Z. rewrite <- opp_IZR. f_equal.
    rewrite (wrap_mod w true (nu ^ 2) (nu ^ 2 - 2 ^ Z.of_nat w)) by (exists 1%Z; lia).
    rewrite wrap_id; [lia|exact Hw|cbn [fits]; lia]. }
  set (m := IZR (2 ^ Z.of_nat w - nu ^ 2)) in E.
  assert (Hm : 0 < m) by (unfold m; apply IZR_lt; lia).
  assert (K : forall M, i_transfer_matrix (Word w true) s None None (Some (I nu)) pol = Ok M -> mreal M).
  { intros M. unfold i_transfer_matrix. cbn [i_resolve_nu i_resolve_q rbind]. rewrite E.
    cbn [n_pow val]. replace (0 ^ 2) with 0 by ring.
    destruct (Nat.eqb _ 0); [discriminate|].
    set (nuz := map _ (i_eps_stack s)).
    assert (HI : forall z, In z nuz -> cimag z).
    { intros z Hz. apply in_map_iff in Hz. destruct Hz as (e & <- & Hin).
      rewrite Forall_forall in He. destruct (He e Hin) as (x & Hx & ->).
      replace (Some (RtoC x) * rc (- m) - rc 0)%cv with (rc (- (x * m)))
        by (unfold rc; cbn; f_equal; unfold RtoC; apply injective_projections; cbn; ring).
      rewrite csqrt_neg by nra. reflexivity. }
    assert (HR : forall z, In z (i_eps_stack s) -> creal z).
    { intros z Hz. rewrite Forall_forall in He. destruct (He z Hz) as (x & Hx & ->). reflexivity. }
    destruct (if String.eqb pol "p" then Ok true else if String.eqb pol "s" then Ok false else Raise (ValueError msg_pol)) as [b|]; cbn [rbind]; [|discriminate].
    assert (HT : forall T, In T (map trans_matrix (map (trans_factor b (i_eps_stack s) nuz) (seq 0 (length (i_eps_stack s) - 1)))) -> mreal T).
    { intros T HT. rewrite map_map in HT. apply in_map_iff in HT. destruct HT as (i & <- & _).
      apply mreal_trans. unfold trans_factor. destruct b; apply creal_div_imag;
        try (apply cimag_mul; [apply nth_prop; [exact Logic.I|exact HR]|]); apply nth_prop; try exact Logic.I; exact HI. }
    destruct (map trans_matrix _) as [|T0 Ts]; [discriminate|].
    destruct (Nat.ltb 2 _); intros EM; injection EM as <-; [|apply HT; now left].
    apply mreal_chain; [apply HT; now left|]. intros [T P] Hin. cbn [fst snd]. split.
    - apply HT. right. eapply in_combine_l, Hin.
    - apply in_combine_r in Hin. apply in_map_iff in Hin. destruct Hin as ([z d] & <- & Hz). cbn [fst snd].
      assert (Cz : cimag (z * rc (val d))%cv).
      { assert (cimag z).
        { apply HI. apply in_combine_l in Hz. destruct nuz as [|n0 nl]; [destruct Hz|].
          right. cbn [tl] in Hz. clear -Hz. revert Hz. induction nl as [|a [|b l] IH]; cbn; intros H; [exact H|destruct H|].
          destruct H as [<-|H]; [now left|right; apply IH, H]. }
        destruct z as [[a b']|]; cbn in *; [subst; ring|exact Logic.I]. }
      apply mreal_prop; apply creal_exp, creal_rot, Cz. }
  destruct Hr as [Hr|Hr]; [unfold i_refl_coef in Hr|unfold i_trans_coef in Hr];
    destruct (i_transfer_matrix _ s None None _ pol) as [M|]; cbn [rbind] in Hr; try discriminate;
    destruct (K M eq_refl) as (R0 & R1 & R2 & R3); injection Hr as Hr.
  - change (creal (Some r)). rewrite <- Hr. apply creal_div; assumption.
  - change (creal (Some r)). rewrite <- Hr. apply (creal_div (rc 1) (m00 M)); [apply creal_rc|assumption].
Qed.
