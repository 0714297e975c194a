(** * Properties (generated by tools/gen_prop.py from ProofsUniaxial4.v; statements
    only, each proved there) *)
From Coq Require Import String Reals Lra Lia ZArith List Bool.
From Coquelicot Require Import Coquelicot.
From Coq Require Import List.
From Verif Require Import Num NumLemmas ModelBase ModelSample ModelTip StackLemmas Spec SpecWave WaveLemmas ProofsStackQS SpecUniaxial ProofsUniaxial ProofsUniaxial2 ProofsUniaxial3.
Import ListNotations.
Open Scope R_scope.
From Verif Require Import ProofsUniaxial4.

(** C96. A superlattice of arbitrary materials, metals and absorbing ones included,
    looks like a uniaxial film.  If electrostatic fields of the homogeneous film with
    the averaged permittivity along the layers and the averaged inverse permittivity
    across them reflect an evanescent wave with the coefficient [beta] and transmit
    it with [t], the code's coefficient of [N] periods differs from [beta] by at most
    [err (1 + |beta|)], where [err = k^2 e^k (1 + |en/e0|) |t| / N] and [k] is the
    optical strength of the layers. *)
Theorem C96_response :
  forall (c : list (C * R)) (e0 en beta t : C) (q : R) nu (N : nat) V D,
  let k := strength q e0 c in
  let err := k ^ 2 * exp k * (1 + Cmod en / Cmod e0) * Cmod t / INR N in
  (0 < N)%nat -> 0 < q -> e0 <> RtoC 0 -> en <> RtoC 0 -> 0 < thickness c ->
  Forall (fun l => fst l <> RtoC 0 /\ 0 <= snd l /\ q * snd l <= INR N * MAX_EXP_ARG) c ->
  film_fields q (thickness c) (eps_along c) (inv_eps_across c) e0 en 1 beta t V D ->
  err <= 1 ->
  exists r, refl_coef_qs (stack (e0 :: map fst (superlattice N c) ++ [en]) (map snd (superlattice N c)) nu) (rr q) = Ok (Some r) /\
    Cmod (r - beta)%C <= err * (1 + Cmod beta).
Proof. exact C96_response_proof. Qed.
Print Assumptions C96_response.

(** C96. More and thinner periods converge to the film, whatever the materials. *)
Theorem C96_limit :
  forall (c : list (C * R)) (e0 en beta t : C) (q : R) nu V D,
  0 < q -> e0 <> RtoC 0 -> en <> RtoC 0 -> 0 < thickness c -> Forall (fun l => fst l <> RtoC 0 /\ 0 <= snd l) c ->
  film_fields q (thickness c) (eps_along c) (inv_eps_across c) e0 en 1 beta t V D ->
  forall eps, 0 < eps -> exists N0 : nat, forall N, (N0 <= N)%nat ->
  exists r, refl_coef_qs (stack (e0 :: map fst (superlattice N c) ++ [en]) (map snd (superlattice N c)) nu) (rr q) = Ok (Some r) /\
    Cmod (r - beta)%C <= eps.
Proof. exact C96_limit_proof. Qed.
Print Assumptions C96_limit.

(** C96. Where the film has a mode - fields on both sides of it without an incoming
    wave - the code either divides by zero or returns a coefficient growing in
    proportion to the number of periods. *)
Theorem C96_mode :
  forall (c : list (C * R)) (e0 en t : C) (q : R) nu (N : nat) V D,
  let k := strength q e0 c in
  let err := k ^ 2 * exp k * (1 + Cmod en / Cmod e0) * Cmod t / INR N in
  (0 < N)%nat -> 0 < q -> e0 <> RtoC 0 -> en <> RtoC 0 -> 0 < thickness c ->
  Forall (fun l => fst l <> RtoC 0 /\ 0 <= snd l /\ q * snd l <= INR N * MAX_EXP_ARG) c ->
  film_fields q (thickness c) (eps_along c) (inv_eps_across c) e0 en 0 1 t V D ->
  let call := refl_coef_qs (stack (e0 :: map fst (superlattice N c) ++ [en]) (map snd (superlattice N c)) nu) (rr q) in
  call = Ok None \/ exists r, call = Ok (Some r) /\ 2 <= err * (1 + Cmod r).
Proof. exact C96_mode_proof. Qed.
Print Assumptions C96_mode.

(** C96. The two theorems cover every superlattice: its film either responds to an
    incoming wave, with one coefficient only, or has a mode, and never both. *)
Theorem C96_every_film :
  forall (c : list (C * R)) (e0 en : C) (q : R), 0 < q -> e0 <> RtoC 0 -> en <> RtoC 0 -> 0 < thickness c ->
  let fields := film_fields q (thickness c) (eps_along c) (inv_eps_across c) e0 en in
  ((exists beta t V D, fields 1 beta t V D) \/ (exists t V D, fields 0 1 t V D)) /\
  (forall beta t V D beta' t' V' D', fields 1 beta t V D -> fields 1 beta' t' V' D' -> beta = beta' /\ t = t') /\
  ~ ((exists beta t V D, fields 1 beta t V D) /\ (exists t V D, fields 0 1 t V D)).
Proof. exact C96_every_film_proof. Qed.
Print Assumptions C96_every_film.

(** C96. The hypotheses can be met: layers of permittivity 4 and -1, neither of which
    absorbs, average to a film of 3/2 along and inverse -3/8 across the layers.  On a
    substrate of permittivity 2 the film reflects the momentum [PI/3] with the
    coefficient 3, to which the code's results converge. *)
Example C96_hyperbolic_example :
  (exists V D, film_fields (PI / 3) (thickness hyper) (eps_along hyper) (inv_eps_across hyper) 1 2 1 3 2 V D) /\
  forall nu eps, 0 < eps -> exists N0 : nat, forall N, (N0 <= N)%nat ->
  exists r, refl_coef_qs (stack (RtoC 1 :: map fst (superlattice N hyper) ++ [RtoC 2]) (map snd (superlattice N hyper)) nu) (rr (PI / 3)) = Ok (Some r) /\
    Cmod (r - 3)%C <= eps.
Proof. exact C96_hyperbolic_example_proof. Qed.

(** C96. On a substrate of permittivity 4 the same film has a mode at the same
    momentum, and the coefficients of the code exceed any bound (or are undefined). *)
Example C96_mode_example :
  (exists V D, film_fields (PI / 3) (thickness hyper) (eps_along hyper) (inv_eps_across hyper) 1 4 0 1 (RtoC (/ 2)) V D) /\
  forall nu bound, exists N0 : nat, forall N, (N0 <= N)%nat ->
  let call := refl_coef_qs (stack (RtoC 1 :: map fst (superlattice N hyper) ++ [RtoC 4]) (map snd (superlattice N hyper)) nu) (rr (PI / 3)) in
  call = Ok None \/ exists r, call = Ok (Some r) /\ bound <= Cmod r.
Proof. exact C96_mode_example_proof. Qed.
