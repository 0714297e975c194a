(** * Properties (generated by tools/gen_prop.py from ProofsPerm.v; statements
    only, each proved there) *)
From Coq Require Import String Reals Lra Lia ZArith List Bool.
From Coquelicot Require Import Rcomplements Complex.
From Verif Require Import Num NumLemmas LimLemmas ModelBase ModelSample StackLemmas Spec ProofsSym ProofsPassive.
Import ListNotations.
Open Scope R_scope.
From Verif Require Import ProofsPerm.

(** C46. lorentz_perm raises exactly when the oscillator strength is given
    twice or not at all, and otherwise returns a value. *)
Theorem C46_lorentz_raises :
  forall (nu nu_j gamma_j : R) (A_j nu_plasma f_j eps_inf : option R),
  (A_j = None <-> nu_plasma = None) <->
  (exists m, lorentz_perm nu nu_j gamma_j A_j nu_plasma f_j eps_inf = Raise (ValueError m)).
Proof. exact C46_lorentz_raises_proof. Qed.
Print Assumptions C46_lorentz_raises.

(** C46. The value: eps_inf + A / (nu_j^2 - nu^2 - i gamma nu), with A = A_j,
    or A = f_j nu_plasma^2; omitted f_j and eps_inf are 1. *)
Theorem C46_lorentz_value :
  forall (nu nu_j gamma_j : R) (A_j nu_plasma f_j eps_inf : option R) (A : R),
  (A_j = Some A /\ nu_plasma = None) \/
  (A_j = None /\ exists p, nu_plasma = Some p /\ A = given_or 1 f_j * p * p) ->
  (RtoC (nu_j * nu_j) - RtoC (nu * nu) - (0, 1)%R * RtoC gamma_j * RtoC nu <> 0)%C ->
  lorentz_perm nu nu_j gamma_j A_j nu_plasma f_j eps_inf
  = Ok (Some (RtoC (given_or 1 eps_inf) + RtoC A / (RtoC (nu_j * nu_j) - RtoC (nu * nu) - (0, 1)%R * RtoC gamma_j * RtoC nu))%C).
Proof. exact C46_lorentz_value_proof. Qed.
Print Assumptions C46_lorentz_value.

(** C46. drude_perm is eps_inf - nu_plasma^2 / (nu^2 + i gamma nu). *)
Theorem C46_drude_value :
  forall (nu nu_plasma gamma : R) (eps_inf : option R), nu <> 0 ->
  drude_perm nu nu_plasma gamma eps_inf
  = Ok (Some (RtoC (given_or 1 eps_inf) - RtoC (nu_plasma * nu_plasma) / (RtoC (nu * nu) + (0, 1)%R * RtoC gamma * RtoC nu))%C).
Proof. exact C46_drude_value_proof. Qed.
Print Assumptions C46_drude_value.

(** C46. ... and it is non-finite at nu = 0, whatever the damping. *)
Theorem C46_drude_static :
  forall (nu_plasma gamma : R) (eps_inf : option R),
  drude_perm 0 nu_plasma gamma eps_inf = Ok None.
Proof. exact C46_drude_static_proof. Qed.
Print Assumptions C46_drude_static.

(** C46. An oscillator with positive strength and damping absorbs: its
    permittivity has positive imaginary part at every positive frequency. *)
Theorem C46_passive :
  forall (nu nu_j gamma_j A : R) (eps_inf : option R), 0 < A -> 0 < gamma_j -> 0 < nu ->
  exists e : C, lorentz_perm nu nu_j gamma_j (Some A) None None eps_inf = Ok (Some e) /\ 0 < Im e.
Proof. exact C46_passive_proof. Qed.
Print Assumptions C46_passive.

Theorem C46_passive_drude :
  forall (nu nu_plasma gamma : R) (eps_inf : option R), nu_plasma <> 0 -> 0 < gamma -> 0 < nu ->
  exists e : C, drude_perm nu nu_plasma gamma eps_inf = Ok (Some e) /\ 0 < Im e.
Proof. exact C46_passive_drude_proof. Qed.
Print Assumptions C46_passive_drude.

(** C46. The response is real in time: eps(-nu) is the conjugate of eps(nu). *)
Theorem C46_reality :
  forall (nu nu_j gamma_j : R) (A_j nu_plasma f_j eps_inf : option R),
  lorentz_perm (- nu) nu_j gamma_j A_j nu_plasma f_j eps_inf
  = map_res conjV (lorentz_perm nu nu_j gamma_j A_j nu_plasma f_j eps_inf).
Proof. exact C46_reality_proof. Qed.
Print Assumptions C46_reality.

(** C46. At high frequency only eps_inf is left. *)
Theorem C46_high_frequency :
  forall (nu_j gamma_j A : R) (eps_inf : option R) (eps : R), 0 < eps ->
  exists N, forall nu, N < nu ->
  exists e : C, lorentz_perm nu nu_j gamma_j (Some A) None None eps_inf = Ok (Some e) /\
                Cmod (e - RtoC (given_or 1 eps_inf))%C < eps.
Proof. exact C46_high_frequency_proof. Qed.
Print Assumptions C46_high_frequency.

(** C46. A bulk sample of any absorbing material in a real positive
    environment e0 has Im beta = 2 e0 Im e / |e + e0|^2 > 0. *)
Theorem C46_absorbing_bulk :
  forall (e0 : R) (e : C) nu q, 0 < e0 -> 0 < Im e ->
  exists b : C, refl_coef_qs (stack [RtoC e0; e] [] nu) q = Ok (Some b) /\
    Im b = 2 * e0 * Im e / (Cmod (e + RtoC e0)%C) ^ 2 /\ 0 < Im b.
Proof. exact C46_absorbing_bulk_proof. Qed.
Print Assumptions C46_absorbing_bulk.

(** C46. Example: a phonon resonance at its centre frequency *)
Example C46_example :
  lorentz_perm 2 2 (1/4) (Some 1) None None (Some 3) = Ok (Some (3, 2)) /\
  drude_perm 1 2 1 None = Ok (Some (-1, 2)).
Proof. exact C46_example_proof. Qed.
