(** * Properties (generated by tools/gen_prop.py from ProofsFit3.v; statements
    only, each proved there) *)
From Coq Require Import String Reals Lra Lia ZArith List Bool.
From Coquelicot Require Import Rcomplements Complex.
From Verif Require Import Num NumLemmas LimLemmas ModelBase ModelSample ModelTip StackLemmas Spec
  ProofsStackQS ProofsStackQS2 ProofsBulkFF ProofsSym ProofsPassive DemodLemmas ProofsDemod ProofsTip ProofsTip2 ProofsTip3
  ProofsTaylor PosDef ProofsContrast ProofsContrast2 SpecMajor Majorant ProofsMajor ProofsMajor2 ProofsDefault ProofsPerm ProofsOsc ModelFit ProofsFit ProofsFit2.
Import ListNotations.
Open Scope R_scope.
From Verif Require Import ProofsFit3.

(** C105. Also for a complex g factor, as long as its real part exceeds the reach
    of the stroke: there are rho > 0 and K such that for all samples with
    reflection coefficients of modulus at most rho the permittivity error of any
    point the optimiser may stop at is at most K (residual + noise). In
    particular the objective of a noiseless signal vanishes nowhere else among
    them. *)
Theorem C105_weak :
  forall (laggauss : laggauss_t) (D : Defaults) (p : params),
  let N := given_or (d_n_trapz D) (p_n_trapz p) in let z := given_or (d_z_tip D) (p_z_tip p) in
  let r := given_or (d_r_tip D) (p_r_tip p) in let L := given_or (d_L_tip D) (p_L_tip p) in let g := given_or (d_g_factor D) (p_g_factor p) in
  let d0 := given_or (131 / 100 * L / (L + 2 * r)) (p_d_Q0 p) in let d1 := given_or (d_d_Q1 D) (p_d_Q1 p) in
  p_method p = None \/ p_method p = Some "bulk"%string -> d_eps_env D <> RtoC 0 -> N <> O ->
  0 < p_A_tip p -> 0 < r < 4 * L -> 0 < r + 4 * z + 2 * r * d0 -> 0 < r + 4 * z + 2 * r * d1 ->
  r + 2 * (z + 2 * p_A_tip p) + r * d0 <= 2 * L * Re g -> r + 4 * (z + 2 * p_A_tip p) + 2 * r * d0 <= 4 * L ->
  exists rho K, 0 < rho < 1 /\ 0 < K /\
  forall (e b b' : C) (x : R * R),
  refl_coef_qs_single (Some (d_eps_env D)) (Some e) = Some b -> Cmod b <= rho ->
  refl_coef_qs_single (Some (d_eps_env D)) (Some (fst x, Rabs (snd x))) = Some b' -> Cmod b' <= rho ->
  exists a : C, simulate laggauss D p e = Ok (Some a) /\
  (forall alpha : C, exists delta, minimization_function laggauss D x (Some alpha) p = Ok (Some delta) /\
    Cmod ((fst x, Rabs (snd x)) - e)%C <= K * (delta + Cmod (alpha - a)%C)) /\
  (minimization_function laggauss D x (Some a) p = Ok (Some 0) -> e = (fst x, Rabs (snd x))).
Proof. exact C105_weak_proof. Qed.
Print Assumptions C105_weak.

(** C105. The tip of the script: the default tip and settings, any amplitude up to
    90 nm and any harmonic. *)
Theorem C105_script :
  forall (laggauss : laggauss_t) (A_tip : R) (n : Z), 0 < A_tip <= 90 / 10 ^ 9 ->
  exists rho K, 0 < rho < 1 /\ 0 < K /\
  forall (e b b' : C) (x : R * R),
  refl_coef_qs_single (Some (RtoC 1)) (Some e) = Some b -> Cmod b <= rho ->
  refl_coef_qs_single (Some (RtoC 1)) (Some (fst x, Rabs (snd x))) = Some b' -> Cmod b' <= rho ->
  exists a : C, simulate laggauss defaults0 (params_A_n A_tip n) e = Ok (Some a) /\
  (forall alpha : C, exists delta, minimization_function laggauss defaults0 x (Some alpha) (params_A_n A_tip n) = Ok (Some delta) /\
    Cmod ((fst x, Rabs (snd x)) - e)%C <= K * (delta + Cmod (alpha - a)%C)) /\
  (minimization_function laggauss defaults0 x (Some a) (params_A_n A_tip n) = Ok (Some 0) -> e = (fst x, Rabs (snd x))).
Proof. exact C105_script_proof. Qed.
Print Assumptions C105_script.

(** C105: a tip with r = 1, L = 4, g = i, no depth of the charges, swinging between
    the heights 1/4 and 7/4 and sampled at both ends: every point the optimiser
    may stop at with |b'| <= 1/10 has an error of at most 50 (residual + noise),
    for a material with |b| <= 1/10 such as eps = 11/9 (b = 1/10 exactly). *)
Example C105_example :
  forall (laggauss : laggauss_t),
  let p := mkParams (3 / 4) 1 (Some (1 / 4)) (Some 2%nat) (Some 1) (Some 4) (Some (0, 1)%R) (Some 0) (Some 0) None None None in
  (forall (e b b' : C) (x : R * R),
   refl_coef_qs_single (Some (RtoC 1)) (Some e) = Some b -> Cmod b <= 1 / 10 ->
   refl_coef_qs_single (Some (RtoC 1)) (Some (fst x, Rabs (snd x))) = Some b' -> Cmod b' <= 1 / 10 ->
   exists a : C, simulate laggauss defaults0 p e = Ok (Some a) /\
   forall alpha : C, exists delta, minimization_function laggauss defaults0 x (Some alpha) p = Ok (Some delta) /\
    Cmod ((fst x, Rabs (snd x)) - e)%C <= 50 * (delta + Cmod (alpha - a)%C)) /\
  refl_coef_qs_single (Some (RtoC 1)) (Some (RtoC (11 / 9))) = Some (RtoC (1 / 10)) /\
  refl_coef_qs_single (Some (RtoC 1)) (Some (1, Rabs 0)) = Some (RtoC 0).
Proof. exact C105_example_proof. Qed.

(** C105. The samples of the script: a sum of any number of oscillators (at least
    one) with positive strengths and dampings and any background is absorbing at
    every positive frequency, and over a real environment the mask |beta| >= 1
    marks exactly the frequencies where the real part is not positive. *)
Theorem C105_mask :
  forall (nu background env : R) (l : list (R * R * R)),
  0 < nu -> 0 < env -> l <> [] -> (forall nu_j gamma_j A_j, In (nu_j, gamma_j, A_j) l -> 0 < gamma_j /\ 0 < A_j) ->
  exists e : C, oscillators nu l background = Ok (Some e) /\ 0 < Im e /\
    e = (RtoC background + Csum (map (fun o => RtoC (snd o) / (RtoC (fst (fst o) ^ 2 - nu ^ 2) - (0, 1)%R * RtoC (snd (fst o) * nu))) l))%C /\
    exists m, invalid_beta (RtoC env) e = Some m /\ (m = true <-> Re e <= 0).
Proof. exact C105_mask_proof. Qed.
Print Assumptions C105_mask.
