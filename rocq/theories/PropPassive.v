(** * Properties (generated by tools/gen_prop.py from ProofsPassive.v; statements
    only, each proved there) *)
From Coq Require Import String Reals Lra Lia ZArith List Bool.
From Coquelicot Require Import Rcomplements Complex.
From Verif Require Import Num NumLemmas ModelBase ModelSample ModelTip StackLemmas Spec
  ProofsStackQS ProofsStackQS2 ProofsSym.
Import ListNotations.
Open Scope R_scope.
From Verif Require Import ProofsPassive.

(** C14. A stack of passive layers (Im eps >= 0, eps <> 0) with a lossy
    substrate (Im eps > 0) under a real positive environment: the
    quasistatic reflection coefficient is finite with positive imaginary
    part, for any number of layers, any non-negative thicknesses and any
    momentum q >= 0 (also beyond the overflow clip). *)
Theorem C14_lossy_substrate_absorbs :
  forall (e0 : R) (mid : list C) (en : C) (ts : list R) nu (q : R),
  length mid = length ts -> 0 < e0 ->
  Forall (fun e => e <> RtoC 0 /\ 0 <= Im e) mid -> 0 < Im en ->
  Forall (fun t => 0 <= t) ts -> 0 <= q ->
  exists r : C, refl_coef_qs (stack (RtoC e0 :: mid ++ [en]) ts nu) (rr q) = Ok (Some r) /\ 0 < Im r.
Proof. exact C14_lossy_substrate_absorbs_proof. Qed.
Print Assumptions C14_lossy_substrate_absorbs.

(** C14. With a merely passive substrate (Im eps >= 0), wherever the
    coefficient is finite its imaginary part is non-negative. *)
Theorem C14_passive_stack :
  forall (e0 : R) (mid : list C) (en : C) (ts : list R) nu (q : R) (r : C),
  length mid = length ts -> 0 < e0 ->
  Forall (fun e => e <> RtoC 0 /\ 0 <= Im e) (mid ++ [en]) ->
  Forall (fun t => 0 <= t) ts -> 0 <= q ->
  refl_coef_qs (stack (RtoC e0 :: mid ++ [en]) ts nu) (rr q) = Ok (Some r) -> 0 <= Im r.
Proof. exact C14_passive_stack_proof. Qed.
Print Assumptions C14_passive_stack.

(** C14. Example: SiO2-like film (t = 30) on a lossy substrate, at any q. *)
Example C14_example : forall q, 0 <= q ->
  exists r : C, refl_coef_qs (stack [RtoC 1; (-2, 1/10)%R; (11, 1/100)%R] [30] None) (rr q) = Ok (Some r)
                /\ 0 < Im r.
Proof. exact C14_example_proof. Qed.

(** C23. On a bulk sample Gauss-Laguerre averaging is exact: with
    beta = (e1-e0)/(e1+e0), the effective coefficient is beta, the surface
    potential beta/(2 z), the field beta/(4 z^2) and (beta <> 0) the image
    charge beta at depth z, at every height and with every quadrature
    order. *)
Theorem C23_bulk_averages_exact :
  forall (laggauss : laggauss_t) (D : Defaults) (e0 e1 : C) nu (z : R) (n_lag : option nat),
  let n := match n_lag with Some n => n | None => d_n_lag D end in
  n <> O -> laguerre_rule (laggauss n) ->
  e1 <> RtoC 0 -> (e0 + e1 <> 0)%C -> 0 < z ->
  let s := stack [e0; e1] [] nu in
  let beta := ((e1 - e0) / (e1 + e0))%C in
  refl_coef_qs_above_surf laggauss D s (rr z) n_lag = Ok (Some beta) /\
  surf_pot_and_field laggauss D s (rr z) n_lag
  = Ok (Some (beta / RtoC (2 * z))%C, Some (beta / RtoC (4 * z ^ 2))%C) /\
  (beta <> RtoC 0 -> image_depth_and_charge laggauss D s (rr z) n_lag = Ok (Some z, Some beta)).
Proof. exact C23_bulk_averages_exact_proof. Qed.
Print Assumptions C23_bulk_averages_exact.

(** C23. Example: two-point rule, eps 1 | 3 *)
Example C23_example :
  refl_coef_qs_above_surf laggauss12 defaults0 (stack [RtoC 1; RtoC 3] [] None) (rr 10) (Some 2%nat)
  = Ok (Some (RtoC (1/2))).
Proof. exact C23_example_proof. Qed.

(** C24. The effective coefficient is a convex combination of the
    coefficients at the sampled momenta q = x/(2 z): any half plane or disc
    that contains all of them contains it. *)
Theorem C24_average_in_convex_hull :
  forall (laggauss : laggauss_t) (D : Defaults) (s : sample) (z : R) (n_lag : option nat) (r : C),
  let n := match n_lag with Some n => n | None => d_n_lag D end in
  laguerre_rule (laggauss n) -> 0 < z ->
  refl_coef_qs_above_surf laggauss D s (rr z) n_lag = Ok (Some r) ->
  let sampled := fun b => exists x w, In (x, w) (laggauss n) /\
                          refl_coef_qs s (rr (x / (2 * z))) = Ok (Some b) in
  (forall a b c : R, (forall v, sampled v -> a * Re v + b * Im v <= c) -> a * Re r + b * Im r <= c) /\
  (forall (centre : C) (B : R), (forall v, sampled v -> Cmod (v - centre)%C <= B) -> Cmod (r - centre)%C <= B).
Proof. exact C24_average_in_convex_hull_proof. Qed.
Print Assumptions C24_average_in_convex_hull.

(** C24. It always equals 4 z^2 times the surface field (also when either is
    non-finite or raises). *)
Theorem C24_average_is_scaled_field :
  forall (laggauss : laggauss_t) (D : Defaults) (s : sample) (z : R) (n_lag : option nat),
  z <> 0 ->
  refl_coef_qs_above_surf laggauss D s (rr z) n_lag
  = (let! pE := surf_pot_and_field laggauss D s (rr z) n_lag in
     Ok (rc (4 * z ^ 2) * snd pE)%cv).
Proof. exact C24_average_is_scaled_field_proof. Qed.
Print Assumptions C24_average_is_scaled_field.

(** C14. The effective (height-averaged) coefficient of a passive stack over
    a lossy substrate is finite with positive imaginary part, at every charge
    height and quadrature order. *)
Theorem C14_average_absorbs :
  forall (laggauss : laggauss_t) (D : Defaults) (e0 : R) (mid : list C) (en : C) (ts : list R) nu
    (z : R) (n_lag : option nat),
  let n := match n_lag with Some n => n | None => d_n_lag D end in
  n <> O -> laguerre_rule (laggauss n) ->
  length mid = length ts -> 0 < e0 ->
  Forall (fun e => e <> RtoC 0 /\ 0 <= Im e) mid -> 0 < Im en ->
  Forall (fun t => 0 <= t) ts -> 0 < z ->
  exists r : C,
    refl_coef_qs_above_surf laggauss D (stack (RtoC e0 :: mid ++ [en]) ts nu) (rr z) n_lag = Ok (Some r)
    /\ 0 < Im r.
Proof. exact C14_average_absorbs_proof. Qed.
Print Assumptions C14_average_absorbs.
