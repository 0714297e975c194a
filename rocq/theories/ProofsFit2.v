(** * Proofs: what inversion by minimisation returns *)
From Coq Require Import String Reals Lra Lia ZArith List Bool.
From Coquelicot Require Import Rcomplements Complex.
From Verif Require Import Num NumLemmas LimLemmas ModelBase ModelSample ModelTip StackLemmas Spec
  ProofsStackQS ProofsStackQS2 ProofsBulkFF ProofsSym ProofsPassive DemodLemmas ProofsDemod ProofsTip ProofsTip2 ProofsTip3
  ProofsTaylor PosDef ProofsContrast ProofsContrast2 SpecMajor Majorant ProofsMajor ProofsMajor2 ModelFit ProofsFit.
Import ListNotations.
Open Scope R_scope.

Lemma folded_self (e : C) : 0 <= Im e -> folded (Re e, Im e) = e.
Proof. intros H. unfold folded. cbn [fst snd]. rewrite Rabs_pos_eq by exact H. unfold Re, Im. destruct e as [x y]. apply injective_projections; cbn; ring. Qed.
Lemma folded_even x y : folded (x, - y) = folded (x, y).
Proof. unfold folded. cbn [fst snd]. now rewrite Rabs_Ropp. Qed.
Lemma folded_Im x : 0 <= Im (folded x).
Proof. unfold folded, Im. cbn. pose proof (Rabs_pos (snd x)). lra. Qed.

(** C105. The objective of the script, for any parameters, methods and targets:
    it is never negative; it takes the same value at both signs of the second
    coordinate; at the real and imaginary part of a passive material it is the
    distance of the target from the signal of that material, so 0 for its own
    noiseless signal. A signal of a material with negative imaginary part is
    attained at the two coordinates only if the passive mirror image has the
    same signal. *)
Lemma C105_objective_proof :
  forall (laggauss : laggauss_t) (D : Defaults) (p : params) (alpha : C),
  (forall x delta, minimization_function laggauss D x (Some alpha) p = Ok (Some delta) -> 0 <= delta) /\
  (forall x y, minimization_function laggauss D (x, - y) (Some alpha) p = minimization_function laggauss D (x, y) (Some alpha) p) /\
  (forall e a : C, simulate laggauss D p e = Ok (Some a) -> 0 <= Im e ->
     minimization_function laggauss D (Re e, Im e) (Some alpha) p = Ok (Some (Cmod (alpha - a)%C))) /\
  (forall e a : C, simulate laggauss D p e = Ok (Some a) -> simulate laggauss D p (Cconj e) = Ok (Some alpha) -> 0 <= Im e ->
     minimization_function laggauss D (Re (Cconj e), Im (Cconj e)) (Some alpha) p = Ok (Some 0) -> a = alpha).
Proof.
  intros lg D p al. repeat split.
  - intros x d H. unfold minimization_function in H. destruct (simulate lg D p (folded x)) as [[t|]|]; [|discriminate|discriminate].
    cbn [rbind] in H. apply (f_equal (fun y => match y with Ok (Some u) => u | _ => d end)) in H. cbn in H. rewrite <- H. apply Cmod_ge_0.
  - intros x y. unfold minimization_function. now rewrite folded_even.
  - intros e a Ha He. unfold minimization_function. rewrite (folded_self e He), Ha. reflexivity.
  - intros e a Ha Hc He H. unfold minimization_function in H.
    replace (folded (Re (Cconj e), Im (Cconj e))) with e in H.
    2:{ unfold Cconj, Re, Im. cbn [fst snd]. rewrite folded_even. symmetry. exact (folded_self e He). }
    rewrite Ha in H. cbn in H. apply (f_equal (fun y => match y with Ok (Some u) => u | _ => 1 end)) in H. cbn beta iota in H.
    apply Cmod_eq_0 in H. replace a with (al - (al - a))%C by ring. rewrite H. ring.
Qed.

(** C105. Whatever the optimiser does, a run that ends returns one permittivity
    per signal and none with a negative imaginary part. *)
Lemma C105_passive_proof :
  forall (minimize : minimiser) (laggauss : laggauss_t) (D : Defaults) (p : params) (alpha_eff_n : list CV) (initial_guess out : list C),
  length initial_guess = length alpha_eff_n ->
  invert_by_minimization minimize laggauss D alpha_eff_n initial_guess p = Ok out ->
  length out = length alpha_eff_n /\ (forall e, In e out -> 0 <= Im e) /\
  (forall i a g e, nth_error alpha_eff_n i = Some a -> nth_error initial_guess i = Some g -> nth_error out i = Some e ->
     exists x, minimize (fun x => minimization_function laggauss D x a p) (Re g, Im g) = Ok x /\ Re e = fst x /\ Im e = Rabs (snd x)).
Proof.
  intros mi lg D p al. induction al as [|a l IH]; intros [|g m] out HL H; try discriminate.
  - apply (f_equal (fun y => match y with Ok u => u | _ => out end)) in H. cbn in H. subst out. split; [reflexivity|]. split; [intros e []|]. intros [|i] a g e H; discriminate H.
  - cbn [invert_by_minimization] in H. destruct (mi _ _) as [x|] eqn:Ex; [|discriminate]. cbn [rbind] in H.
    destruct (invert_by_minimization mi lg D l m p) as [rest|] eqn:Er; [|discriminate]. cbn [rbind] in H.
    apply (f_equal (fun y => match y with Ok u => u | _ => out end)) in H. cbv beta iota in H. subst out.
    destruct (IH m rest ltac:(cbn in HL; lia) Er) as (L1 & L2 & L3). split; [cbn; now rewrite L1|]. split.
    + intros e [<-|He]; [apply folded_Im|now apply L2].
    + intros [|i] a' g' e Ha Hg He.
      * cbn in Ha, Hg, He. injection Ha as <-. injection Hg as <-. apply (f_equal (fun y => match y with Some u => u | _ => e end)) in He. cbv beta iota in He. subst e.
        exists x. split; [exact Ex|]. unfold folded, Re, Im. cbn. split; ring.
      * exact (L3 i a' g' e Ha Hg He).
Qed.

Lemma simulate_value lg D p e b rho kappa :
  let N := given_or (d_n_trapz D) (p_n_trapz p) in let z := given_or (d_z_tip D) (p_z_tip p) in
  let r := given_or (d_r_tip D) (p_r_tip p) in let L := given_or (d_L_tip D) (p_L_tip p) in let g := given_or (d_g_factor D) (p_g_factor p) in
  let d0 := given_or (131 / 100 * L / (L + 2 * r)) (p_d_Q0 p) in let d1 := given_or (d_d_Q1 D) (p_d_Q1 p) in
  p_method p = None \/ p_method p = Some "bulk"%string -> d_eps_env D <> RtoC 0 -> N <> O ->
  (forall k, (k < N)%nat -> let x := tip_height z (p_A_tip p) N k in
     fdm_regular x d0 r L /\ fdm_regular x d1 r L /\ rho * Cmod (fdm_f x d1 r L g) <= kappa) -> kappa < 1 -> rho < 1 ->
  refl_coef_qs_single (Some (d_eps_env D)) (Some e) = Some b -> Cmod b <= rho ->
  simulate lg D p e = Ok (Some (tmean z (p_A_tip p) (p_n p) N (fun x => 1 + b * fdm_f x d0 r L g / (2 * (1 - b * fdm_f x d1 r L g)))%C)).
Proof.
  intros N z r L g d0 d1 Hm Hv HN HK Hk Hr Hb Hrho. assert (He := nonzero_eps _ _ _ _ Hv Hb Hrho Hr).
  destruct (bulk_call _ _ _ Hv He Hb) as [M Rf]. unfold simulate.
  assert (EM : p_method p = None \/ p_method p = Some "bulk"%string) by exact Hm.
  assert (NZ : forall k, (k < N)%nat -> (1 - b * fdm_f (tip_height z (p_A_tip p) N k) d1 r L g <> 0)%C).
  { intros k Hi E. destruct (HK k Hi) as (_ & _ & B). set (x := tip_height z (p_A_tip p) N k) in *.
    assert (B1 : Cmod (b * fdm_f x d1 r L g)%C <= kappa).
    { rewrite Cmod_mult. eapply Rle_trans; [|exact B]. apply Rmult_le_compat_r; [apply Cmod_ge_0|exact Hrho]. }
    assert (I := one_minus_mod _ _ B1 Hk). rewrite E, Cmod_0 in I. lra. }
  destruct Hm as [-> | ->]; [rewrite eff_pol_n_none_bulk by exact M|]; apply (fdm_n_value lg D _ _ _ _ _ _ _ _ _ _ _ _ b M Rf HN);
    intros k Hi; destruct (HK k Hi) as (A1 & A2 & _); exact (conj A1 (conj A2 (NZ k Hi))).
Qed.

(** C105. What a residual says about the answer: for any tip, also with a complex
    g factor, and any two materials with reflection coefficients of modulus at
    most rho, with c the n-th cosine coefficient of f0/2, F a bound of |f0|/2 and
    kappa < 1 a bound of the loop gain rho |f1| over the stroke, every point the
    optimiser may stop at satisfies
      (|c| - F (1/(1 - kappa)^2 - 1)) |b' - b| <= residual + noise,
    and the permittivity it returns is in error by at most 2 |eps_env|/(1 - rho)^2
    times that bound. *)
Lemma C105_residual_proof :
  forall (laggauss : laggauss_t) (D : Defaults) (p : params) (e b b' : C) (x : R * R) (rho kappa F : R),
  let N := given_or (d_n_trapz D) (p_n_trapz p) in let z := given_or (d_z_tip D) (p_z_tip p) in
  let r := given_or (d_r_tip D) (p_r_tip p) in let L := given_or (d_L_tip D) (p_L_tip p) in let g := given_or (d_g_factor D) (p_g_factor p) in
  let d0 := given_or (131 / 100 * L / (L + 2 * r)) (p_d_Q0 p) in let d1 := given_or (d_d_Q1 D) (p_d_Q1 p) in
  p_method p = None \/ p_method p = Some "bulk"%string -> d_eps_env D <> RtoC 0 -> N <> O ->
  (forall k, (k < N)%nat -> let x := tip_height z (p_A_tip p) N k in
     fdm_regular x d0 r L /\ fdm_regular x d1 r L /\ Cmod (fdm_f x d0 r L g) <= 2 * F /\ rho * Cmod (fdm_f x d1 r L g) <= kappa) ->
  kappa < 1 -> rho < 1 ->
  refl_coef_qs_single (Some (d_eps_env D)) (Some e) = Some b -> Cmod b <= rho ->
  refl_coef_qs_single (Some (d_eps_env D)) (Some (fst x, Rabs (snd x))) = Some b' -> Cmod b' <= rho ->
  let c : C := (cosine z (p_A_tip p) (p_n p) N (fun x => Re (fdm_f x d0 r L g) / 2), cosine z (p_A_tip p) (p_n p) N (fun x => Im (fdm_f x d0 r L g) / 2)) in
  let margin := Cmod c - F * (/ (1 - kappa) ^ 2 - 1) in
  exists a : C, simulate laggauss D p e = Ok (Some a) /\
  forall alpha : C, exists delta, minimization_function laggauss D x (Some alpha) p = Ok (Some delta) /\
    margin * Cmod (b' - b)%C <= delta + Cmod (alpha - a)%C /\
    (0 < margin -> Cmod ((fst x, Rabs (snd x)) - e)%C <= 2 * Cmod (d_eps_env D) / (1 - rho) ^ 2 * ((delta + Cmod (alpha - a)%C) / margin)).
Proof.
  intros lg D p e b b' x rho kappa F N z r L g d0 d1 Hm Hv HN HK Hk Hr Hb Hrho Hb' Hrho' c margin.
  assert (Fx : folded x = (fst x, Rabs (snd x))) by (unfold folded; apply injective_projections; cbn; ring).
  assert (HK' : forall k, (k < N)%nat -> let x := tip_height z (p_A_tip p) N k in
     fdm_regular x d0 r L /\ fdm_regular x d1 r L /\ rho * Cmod (fdm_f x d1 r L g) <= kappa).
  { intros k Hi. destruct (HK k Hi) as (A1 & A2 & _ & A3). exact (conj A1 (conj A2 A3)). }
  assert (V := simulate_value lg D p e b rho kappa Hm Hv HN HK' Hk Hr Hb Hrho).
  assert (V' := simulate_value lg D p _ b' rho kappa Hm Hv HN HK' Hk Hr Hb' Hrho').
  fold N z r L g d0 d1 in V, V'.
  eexists. split; [exact V|]. intros al. unfold minimization_function. rewrite Fx, V'. cbn [rbind csub olift2 cabs olift1]. eexists. split; [reflexivity|].
  set (T := tmean z (p_A_tip p) (p_n p) N (fun x => 1 + b * fdm_f x d0 r L g / (2 * (1 - b * fdm_f x d1 r L g)))%C).
  set (T' := tmean z (p_A_tip p) (p_n p) N (fun x => 1 + b' * fdm_f x d0 r L g / (2 * (1 - b' * fdm_f x d1 r L g)))%C).
  assert (S : margin * Cmod (b' - b)%C <= Cmod (al - T')%C + Cmod (al - T)%C).
  { assert (Dd := signal_diff z (p_A_tip p) (p_n p) N (fun x => fdm_f x d0 r L g) (fun x => fdm_f x d1 r L g) b' b F kappa HN).
    fold T T' in Dd. set (W := tmean z (p_A_tip p) (p_n p) N (fun x => fdm_f x d0 r L g / 2)%C) in Dd.
    assert (CW : Cmod W = Cmod c) by (apply first_coef; exact HN).
    assert (D1 : Cmod (T' - T - (b' - b) * W)%C <= F * (/ (1 - kappa) ^ 2 - 1) * Cmod (b' - b)%C).
    { apply Dd; [|exact Hk]. intros i Hi. destruct (HK i Hi) as (_ & _ & A2 & A3). pose proof (Cmod_ge_0 (fdm_f (tip_height z (p_A_tip p) N i) d1 r L g)).
      split; [exact A2|]. split; (eapply Rle_trans; [|exact A3]; apply Rmult_le_compat_r; assumption). }
    assert (D2 : Cmod ((b' - b) * W)%C <= Cmod (T' - T)%C + Cmod (T' - T - (b' - b) * W)%C).
    { set (X := ((b' - b) * W)%C). assert (Tr := Cmod_triangle (T' - T)%C (- (T' - T - X))%C).
      replace (T' - T + - (T' - T - X))%C with X in Tr by ring. rewrite Cmod_opp in Tr. exact Tr. }
    assert (D3 : Cmod (T' - T)%C <= Cmod (al - T')%C + Cmod (al - T)%C).
    { replace (T' - T)%C with (- (al - T') + (al - T))%C by ring. eapply Rle_trans; [apply Cmod_triangle|]. rewrite Cmod_opp. lra. }
    rewrite Cmod_mult, CW in D2. unfold margin. lra. }
  split; [exact S|]. intros Pm. assert (E := eps_error _ _ _ _ _ _ Hv Hb Hb' Hrho Hrho' Hr).
  eapply Rle_trans; [exact E|]. apply Rmult_le_compat_l.
  - unfold Rdiv. apply Rmult_le_pos; [pose proof (Cmod_ge_0 (d_eps_env D)); lra|]. left. apply Rinv_0_lt_compat, pow_lt. lra.
  - apply Rle_div_r; [exact Pm|]. lra.
Qed.
