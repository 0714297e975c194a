(** * Properties (generated by tools/gen_prop.py from ProofsFit2.v; statements
    only, each proved there) *)
From Coq Require Import String Reals Lra Lia ZArith List Bool.
From Coquelicot Require Import Rcomplements Complex.
From Verif Require Import Num NumLemmas LimLemmas ModelBase ModelSample ModelTip StackLemmas Spec
  ProofsStackQS ProofsStackQS2 ProofsBulkFF ProofsSym ProofsPassive DemodLemmas ProofsDemod ProofsTip ProofsTip2 ProofsTip3
  ProofsTaylor PosDef ProofsContrast ProofsContrast2 SpecMajor Majorant ProofsMajor ProofsMajor2 ModelFit ProofsFit.
Import ListNotations.
Open Scope R_scope.
From Verif Require Import ProofsFit2.

(** C105. The objective of the script, for any parameters, methods and targets:
    it is never negative; it takes the same value at both signs of the second
    coordinate; at the real and imaginary part of a passive material it is the
    distance of the target from the signal of that material, so 0 for its own
    noiseless signal. A signal of a material with negative imaginary part is
    attained at the two coordinates only if the passive mirror image has the
    same signal. *)
Theorem C105_objective :
  forall (laggauss : laggauss_t) (D : Defaults) (p : params) (alpha : C),
  (forall x delta, minimization_function laggauss D x (Some alpha) p = Ok (Some delta) -> 0 <= delta) /\
  (forall x y, minimization_function laggauss D (x, - y) (Some alpha) p = minimization_function laggauss D (x, y) (Some alpha) p) /\
  (forall e a : C, simulate laggauss D p e = Ok (Some a) -> 0 <= Im e ->
     minimization_function laggauss D (Re e, Im e) (Some alpha) p = Ok (Some (Cmod (alpha - a)%C))) /\
  (forall e a : C, simulate laggauss D p e = Ok (Some a) -> simulate laggauss D p (Cconj e) = Ok (Some alpha) -> 0 <= Im e ->
     minimization_function laggauss D (Re (Cconj e), Im (Cconj e)) (Some alpha) p = Ok (Some 0) -> a = alpha).
Proof. exact C105_objective_proof. Qed.
Print Assumptions C105_objective.

(** C105. Whatever the optimiser does, a run that ends returns one permittivity
    per signal and none with a negative imaginary part. *)
Theorem C105_passive :
  forall (minimize : minimiser) (laggauss : laggauss_t) (D : Defaults) (p : params) (alpha_eff_n : list CV) (initial_guess out : list C),
  length initial_guess = length alpha_eff_n ->
  invert_by_minimization minimize laggauss D alpha_eff_n initial_guess p = Ok out ->
  length out = length alpha_eff_n /\ (forall e, In e out -> 0 <= Im e) /\
  (forall i a g e, nth_error alpha_eff_n i = Some a -> nth_error initial_guess i = Some g -> nth_error out i = Some e ->
     exists x, minimize (fun x => minimization_function laggauss D x a p) (Re g, Im g) = Ok x /\ Re e = fst x /\ Im e = Rabs (snd x)).
Proof. exact C105_passive_proof. Qed.
Print Assumptions C105_passive.

(** C105. What a residual says about the answer: for any tip, also with a complex
    g factor, and any two materials with reflection coefficients of modulus at
    most rho, with c the n-th cosine coefficient of f0/2, F a bound of |f0|/2 and
    kappa < 1 a bound of the loop gain rho |f1| over the stroke, every point the
    optimiser may stop at satisfies
      (|c| - F (1/(1 - kappa)^2 - 1)) |b' - b| <= residual + noise,
    and the permittivity it returns is in error by at most 2 |eps_env|/(1 - rho)^2
    times that bound. *)
Theorem C105_residual :
  forall (laggauss : laggauss_t) (D : Defaults) (p : params) (e b b' : C) (x : R * R) (rho kappa F : R),
  let N := given_or (d_n_trapz D) (p_n_trapz p) in let z := given_or (d_z_tip D) (p_z_tip p) in
  let r := given_or (d_r_tip D) (p_r_tip p) in let L := given_or (d_L_tip D) (p_L_tip p) in let g := given_or (d_g_factor D) (p_g_factor p) in
  let d0 := given_or (131 / 100 * L / (L + 2 * r)) (p_d_Q0 p) in let d1 := given_or (d_d_Q1 D) (p_d_Q1 p) in
  p_method p = None \/ p_method p = Some "bulk"%string -> d_eps_env D <> RtoC 0 -> N <> O ->
  (forall k, (k < N)%nat -> let x := tip_height z (p_A_tip p) N k in
     fdm_regular x d0 r L /\ fdm_regular x d1 r L /\ Cmod (fdm_f x d0 r L g) <= 2 * F /\ rho * Cmod (fdm_f x d1 r L g) <= kappa) ->
  kappa < 1 -> rho < 1 ->
  refl_coef_qs_single (Some (d_eps_env D)) (Some e) = Some b -> Cmod b <= rho ->
  refl_coef_qs_single (Some (d_eps_env D)) (Some (fst x, Rabs (snd x))) = Some b' -> Cmod b' <= rho ->
  let c : C := (cosine z (p_A_tip p) (p_n p) N (fun x => Re (fdm_f x d0 r L g) / 2), cosine z (p_A_tip p) (p_n p) N (fun x => Im (fdm_f x d0 r L g) / 2)) in
  let margin := Cmod c - F * (/ (1 - kappa) ^ 2 - 1) in
  exists a : C, simulate laggauss D p e = Ok (Some a) /\
  forall alpha : C, exists delta, minimization_function laggauss D x (Some alpha) p = Ok (Some delta) /\
    margin * Cmod (b' - b)%C <= delta + Cmod (alpha - a)%C /\
    (0 < margin -> Cmod ((fst x, Rabs (snd x)) - e)%C <= 2 * Cmod (d_eps_env D) / (1 - rho) ^ 2 * ((delta + Cmod (alpha - a)%C) / margin)).
Proof. exact C105_residual_proof. Qed.
Print Assumptions C105_residual.
