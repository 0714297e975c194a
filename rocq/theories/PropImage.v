(** * Properties (generated by tools/gen_prop.py from ProofsImage.v; statements
    only, each proved there) *)
From Coq Require Import String Reals Lra Lia ZArith List Bool.
From Coquelicot Require Import Rcomplements Complex.
From Verif Require Import Num NumLemmas ModelBase ModelSample ModelTip StackLemmas Spec
  ProofsStackQS ProofsStackQS2 ProofsSym ProofsPassive.
Import ListNotations.
Open Scope R_scope.
From Verif Require Import ProofsImage.

(** C61. Whenever potential and field are not zero, the image charge returned by
    image_depth_and_charge produces at the height of the inducing charge -- that
    is at distance d_image + z_Q -- a potential and a field of the magnitudes
    returned by surf_pot_and_field.  The potential itself is reproduced exactly
    when phi / E is a positive real number, the field itself exactly when it is
    a real number. *)
Theorem C61_image_charge :
  forall (laggauss : laggauss_t) (D : Defaults) (s : sample) (z : R) (n_lag : option nat) (phi E : C),
  surf_pot_and_field laggauss D s (rr z) n_lag = Ok (Some phi, Some E) ->
  phi <> RtoC 0 -> E <> RtoC 0 ->
  exists (d : R) (c : C),
    image_depth_and_charge laggauss D s (rr z) n_lag = Ok (Some d, Some c) /\
    0 < d + z /\
    Cmod (charge_potential c (d + z)) = Cmod phi /\
    Cmod (charge_field c (d + z)) = Cmod E /\
    (charge_potential c (d + z) = phi <-> exists x : R, 0 < x /\ phi = (RtoC x * E)%C) /\
    (charge_field c (d + z) = E <-> exists x : R, phi = (RtoC x * E)%C).
Proof. exact C61_image_charge_proof. Qed.
Print Assumptions C61_image_charge.

(** C61. If the sample responds to every momentum with a real coefficient of one
    sign (lossless layers of increasing, or of decreasing, permittivity) the
    image charge reproduces both potential and field. *)
Theorem C61_one_sign :
  forall (laggauss : laggauss_t) (D : Defaults) (s : sample) (z : R) (n_lag : option nat) (b : R -> R) (sg : R),
  let n := given_or (d_n_lag D) n_lag in
  n <> O -> laguerre_rule (laggauss n) -> 0 < z -> sg = 1 \/ sg = -1 ->
  (forall q, 0 <= q -> refl_coef_qs s (rr q) = Ok (Some (RtoC (b q))) /\ 0 < sg * b q) ->
  exists (d : R) (c : C),
    image_depth_and_charge laggauss D s (rr z) n_lag = Ok (Some d, Some c) /\ 0 < d + z /\
    surf_pot_and_field laggauss D s (rr z) n_lag
    = Ok (Some (charge_potential c (d + z)), Some (charge_field c (d + z))).
Proof. exact C61_one_sign_proof. Qed.
Print Assumptions C61_one_sign.

(** C61. The docstring of surf_pot_and_field speaks of the potential "at the
    sample surface".  For a bulk sample, whose image charge is beta at depth z_Q,
    the value returned is the potential of that image at height h above the
    surface if and only if h = z_Q: at the inducing charge, not at the surface. *)
Theorem C61_not_at_surface_refuted :
  forall (laggauss : laggauss_t) (D : Defaults) (e0 e1 : C) nu (z : R) (n_lag : option nat),
  let n := given_or (d_n_lag D) n_lag in
  n <> O -> laguerre_rule (laggauss n) ->
  e1 <> RtoC 0 -> (e0 + e1 <> 0)%C -> e0 <> e1 -> 0 < z ->
  exists (c phi E : C),
    image_depth_and_charge laggauss D (stack [e0; e1] [] nu) (rr z) n_lag = Ok (Some z, Some c) /\
    surf_pot_and_field laggauss D (stack [e0; e1] [] nu) (rr z) n_lag = Ok (Some phi, Some E) /\
    forall h, 0 <= h -> (phi = charge_potential c (z + h) <-> h = z) /\ (E = charge_field c (z + h) <-> h = z).
Proof. exact C61_not_at_surface_refuted_proof. Qed.
Print Assumptions C61_not_at_surface_refuted.
