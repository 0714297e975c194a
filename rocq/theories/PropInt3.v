(** * Properties (generated by tools/gen_prop.py from ProofsInt3.v; statements
    only, each proved there) *)
From Coq Require Import String Reals Lra Lia ZArith List Bool.
From Coquelicot Require Import Rcomplements Complex.
From Verif Require Import Num ModelBase ModelSample ModelTip ModelInt SpecInt ProofsInt ProofsInt2.
Import ListNotations.
Open Scope R_scope.
From Verif Require Import ProofsInt3.

(** Unsigned integers: above the resonance the detuning nu_j^2 - nu^2 is negative and
    is stored as 2^bits - (nu^2 - nu_j^2).  The oscillator then looks as if it were
    far below resonance: its contribution has the wrong sign. *)
Theorem C88_unsigned_lorentz : forall w nu nu_j gamma_j A_j eps_inf, (0 < w)%nat ->
  (0 <= nu_j < nu)%Z -> (nu ^ 2 < 2 ^ Z.of_nat w)%Z -> 0 < real_of A_j ->
  exists e1 e2 : C,
    i_lorentz_perm (Word w false) (I nu) (I nu_j) gamma_j (Some A_j) None None (Some eps_inf) = Ok (Some e1) /\
    lorentz_perm (IZR nu) (IZR nu_j) (real_of gamma_j) (Some (real_of A_j)) None None (Some (real_of eps_inf)) = Ok (Some e2) /\
    e1 = (RtoC (real_of eps_inf)
          + RtoC (real_of A_j) / (RtoC (IZR (2 ^ Z.of_nat w) - (IZR nu ^ 2 - IZR nu_j ^ 2))
                                  - Ci * RtoC (real_of gamma_j) * RtoC (IZR nu)))%C /\
    Re e2 < real_of eps_inf < Re e1.
Proof. exact C88_unsigned_lorentz_proof. Qed.
Print Assumptions C88_unsigned_lorentz.

(** A metal described with unsigned wavenumbers looks like a dielectric: the Drude
    contribution, negative at every frequency, comes out positive. *)
Theorem C88_unsigned_drude : forall w nu nu_plasma gamma eps_inf, (0 < w)%nat ->
  (0 < nu)%Z -> (nu ^ 2 < 2 ^ Z.of_nat w)%Z ->
  power_fits (Word w false) 2 nu_plasma -> real_of nu_plasma <> 0 ->
  exists e1 e2 : C,
    i_drude_perm (Word w false) (I nu) nu_plasma gamma (Some eps_inf) = Ok (Some e1) /\
    drude_perm (IZR nu) (real_of nu_plasma) (real_of gamma) (Some (real_of eps_inf)) = Ok (Some e2) /\
    Re e2 < real_of eps_inf < Re e1.
Proof. exact C88_unsigned_drude_proof. Qed.
Print Assumptions C88_unsigned_drude.

(** Unsigned permittivities in [refl_coef_qs_single]: going from the denser to the
    thinner medium the coefficient should be negative (and at least -1); it comes
    out positive, and larger than one unless the permittivities take up half of the
    range. *)
Theorem C88_unsigned_interface : forall w eps_i eps_j, (0 < w)%nat ->
  (0 <= eps_j < eps_i)%Z -> (eps_i + eps_j < 2 ^ Z.of_nat w)%Z ->
  exists b : R,
    i_refl_coef_qs_single (Word w false) (I eps_i) (I eps_j) = rc b /\
    b = (IZR (2 ^ Z.of_nat w) - (IZR eps_i - IZR eps_j)) / (IZR eps_i + IZR eps_j) /\ 0 < b /\
    ((2 * eps_i < 2 ^ Z.of_nat w)%Z -> 1 < b) /\
    exists b', refl_coef_qs_single (rc (IZR eps_i)) (rc (IZR eps_j)) = rc b' /\ -1 <= b' < 0.
Proof. exact C88_unsigned_interface_proof. Qed.
Print Assumptions C88_unsigned_interface.

(** Point-dipole model with integer radius and height: where the cube of their sum
    is a multiple of 2^bits, the polarisability is not finite.  (Radius and height
    in nanometres and 32-bit integers: wherever they add up to a multiple of 2048.) *)
Theorem C88_point_dipole_lost : forall w sg D s r z eps_tip alpha_tip x, (0 < w)%nat ->
  same_bits w ((r + z) ^ 3) 0 ->
  i_pdm_eff_pol (Word w sg) D s (Some (I z)) (Some (I r)) eps_tip alpha_tip = Ok x -> x = None.
Proof. exact C88_point_dipole_lost_proof. Qed.
Print Assumptions C88_point_dipole_lost.
