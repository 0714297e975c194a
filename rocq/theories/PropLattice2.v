(** * Properties (generated by tools/gen_prop.py from ProofsLattice2.v; statements
    only, each proved there) *)
From Coq Require Import String Reals Lra Lia ZArith List Bool.
From Coquelicot Require Import Coquelicot.
From Coq Require Import List.
From Verif Require Import Num NumLemmas ModelBase ModelSample ModelTip StackLemmas Spec SpecQuad SpecThin SpecLattice
  ProofsStackQS ProofsStackQS2 ProofsSym ProofsPassive Laguerre Laguerre2 ProofsFilm ProofsTip ProofsTip3 ProofsAbsorb ProofsThin ProofsThin2 ProofsCompare ProofsLattice.
Import ListNotations.
Open Scope R_scope.
From Verif Require Import ProofsLattice2.

(** C94. A superlattice of [N] lossless periods looks like one film.  The
    quasistatic coefficient of the sample whose film consists of [N] periods of the
    layers [c] (any number of layers, any order, total thickness fixed) differs from
    that of the sample with a single isotropic layer of permittivity
    [sqrt (<eps> / <1/eps>)] and thickness [sqrt (<eps> <1/eps>)] times the total one
    by at most [3 (M/m)^4 (q T)^2 / N] for every momentum, permittivities between
    [m] and [M] below any environment; beyond the momentum where the code clips the
    exponent of the single film, [(M/m)^2 exp (-2 MAX_EXP_ARG)] is added. *)
Theorem C94_effective_film :
  forall (c : list (R * R)) (e0 es m M q : R) nu nu' (N : nat),
  let r_super := refl_coef_qs (stack (map RtoC (e0 :: map fst (periods N c) ++ [es])) (map snd (periods N c)) nu) (rr q) in
  let r_film := refl_coef_qs (stack [RtoC e0; RtoC (film_eps c); RtoC es] [film_thickness c] nu') (rr q) in
  let bound := 3 * (M / m) ^ 4 * ((q * total_thickness c) ^ 2 / INR N) in
  (0 < N)%nat -> 0 < e0 -> 0 < m -> m <= es <= M -> Forall (fun l => m <= fst l <= M /\ 0 <= snd l) c -> 0 < total_thickness c -> 0 <= q ->
  exists r r' : R, r_super = Ok (Some (RtoC r)) /\ r_film = Ok (Some (RtoC r')) /\
    Rabs (r - r') <= bound + (M / m) ^ 2 * exp (- 2 * MAX_EXP_ARG) /\
    (q * film_thickness c <= MAX_EXP_ARG -> Rabs (r - r') <= bound).
Proof. exact C94_effective_film_proof. Qed.
Print Assumptions C94_effective_film.
