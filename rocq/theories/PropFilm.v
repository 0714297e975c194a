(** * Properties (generated by tools/gen_prop.py from ProofsFilm.v; statements
    only, each proved there) *)
From Coq Require Import String Reals Lra Lia ZArith List Bool Sorted.
From Coquelicot Require Import Coquelicot.
From Coq Require Import List.
From Verif Require Import Num NumLemmas ModelBase ModelSample ModelTip StackLemmas Spec
  ProofsStackQS ProofsStackQS2 ProofsSym ProofsPassive SpecQuad ProofsQuad QuadConv ProofsQuad2 ProofsNlag ProofsImage SpecWave WaveLemmas.
Import ListNotations.
Open Scope R_scope.
From Verif Require Import ProofsFilm.

(** C62. Lossless layers of monotone permittivity: the quasistatic coefficient is
    real, has the sign of the gradient, decreases in magnitude with the momentum,
    and lies between those of the first interface alone and of the substrate alone. *)
Theorem C62_graded_stack :
  forall (sg e0 e1 : R) (es ts : list R) nu,
  sg = 1 \/ sg = -1 -> length es = length ts -> Forall (fun e => 0 < e) (e0 :: e1 :: es) ->
  Sorted (fun a b => sg * a <= sg * b) (e0 :: e1 :: es) -> Forall (fun t => 0 <= t) ts ->
  exists b : R -> R,
    (forall q, 0 <= q -> refl_coef_qs (stack (map RtoC (e0 :: e1 :: es)) ts nu) (rr q) = Ok (Some (RtoC (b q)))) /\
    (forall q q', 0 <= q -> q <= q' -> sg * b q' <= sg * b q) /\
    (forall q, 0 <= q -> 0 <= sg * ((e1 - e0) / (e1 + e0)) /\
                         sg * ((e1 - e0) / (e1 + e0)) <= sg * b q <= sg * ((last es e1 - e0) / (last es e1 + e0)) /\
                         sg * b q < 1).
Proof. exact C62_graded_stack_proof. Qed.
Print Assumptions C62_graded_stack.

(** C62. Hence the effective coefficient of refl_coef_qs_above_surf, with any
    number of nodes: between the same bounds, and increasing in magnitude with
    the height of the charge. *)
Theorem C62_graded_average :
  forall (laggauss : laggauss_t) (D : Defaults) (n_lag : option nat) (sg e0 e1 : R) (es ts : list R) nu,
  let n := given_or (d_n_lag D) n_lag in
  n <> O -> laguerre_rule (laggauss n) ->
  sg = 1 \/ sg = -1 -> length es = length ts -> Forall (fun e => 0 < e) (e0 :: e1 :: es) ->
  Sorted (fun a b => sg * a <= sg * b) (e0 :: e1 :: es) -> Forall (fun t => 0 <= t) ts ->
  exists r : R -> R,
    (forall z, 0 < z -> refl_coef_qs_above_surf laggauss D (stack (map RtoC (e0 :: e1 :: es)) ts nu) (rr z) n_lag
                        = Ok (Some (RtoC (r z)))) /\
    (forall z z', 0 < z -> z <= z' -> sg * r z <= sg * r z') /\
    (forall z, 0 < z -> sg * ((e1 - e0) / (e1 + e0)) <= sg * r z <= sg * ((last es e1 - e0) / (last es e1 + e0))).
Proof. exact C62_graded_average_proof. Qed.
Print Assumptions C62_graded_average.

(** C62. Charge far above any stack (lossy or not): the averages and the image
    charge become those of the bare substrate, whatever lies between.  Stated
    along every sequence of heights that tends to infinity. *)
Theorem C62_high_charge :
  forall (laggauss : laggauss_t) (D : Defaults) (n_lag : option nat)
         (e0 en : C) (mid : list C) (ts : list R) nu (b : R -> C) (z : nat -> R),
  let n := given_or (d_n_lag D) n_lag in
  let s := stack (e0 :: mid ++ [en]) ts nu in
  n <> O -> laguerre_rule (laggauss n) ->
  length mid = length ts -> Forall (fun e => e <> RtoC 0) mid -> en <> RtoC 0 ->
  (forall q, 0 <= q -> refl_coef_qs s (rr q) = Ok (Some (b q))) ->
  (forall k, 0 < z k) -> is_lim_seq z p_infty ->
  let beta := ((en - e0) / (en + e0))%C in
  exists (r phi E : nat -> C),
    (forall k, refl_coef_qs_above_surf laggauss D s (rr (z k)) n_lag = Ok (Some (r k)) /\
               surf_pot_and_field laggauss D s (rr (z k)) n_lag = Ok (Some (phi k), Some (E k))) /\
    Cseq_lim r beta /\
    Cseq_lim (fun k => RtoC (2 * z k) * phi k)%C beta /\
    Cseq_lim (fun k => RtoC (4 * z k ^ 2) * E k)%C beta /\
    (e0 <> en -> exists (K : nat) (d : nat -> R) (c : nat -> C),
      (forall k, (K <= k)%nat -> image_depth_and_charge laggauss D s (rr (z k)) n_lag = Ok (Some (d k), Some (c k))) /\
      is_lim_seq (fun k => d k / z k) 1 /\ Cseq_lim c beta).
Proof. exact C62_high_charge_proof. Qed.
Print Assumptions C62_high_charge.

(** C62. Example: film of permittivity 2 on a substrate of 5, charge at height 10,
    two nodes: a real number between 1/3 (first interface) and 2/3 (substrate);
    from 10 to 20 it does not decrease. *)
Example C62_example_graded :
  exists r r' : R,
  refl_coef_qs_above_surf laggauss12 defaults0 (stack [RtoC 1; RtoC 2; RtoC 5] [3] None) (rr 10) (Some 2%nat) = Ok (Some (RtoC r)) /\
  refl_coef_qs_above_surf laggauss12 defaults0 (stack [RtoC 1; RtoC 2; RtoC 5] [3] None) (rr 20) (Some 2%nat) = Ok (Some (RtoC r')) /\
  1 / 3 <= r <= r' /\ r' <= 2 / 3.
Proof. exact C62_example_graded_proof. Qed.

(** C62. Example: the same film, charge at heights 1, 2, 3, ...: the image charge
    tends to 2/3 and its depth to that of the charge. *)
Example C62_example_high :
  exists (K : nat) (d : nat -> R) (c : nat -> C),
  (forall k, (K <= k)%nat ->
     image_depth_and_charge laggauss12 defaults0 (stack [RtoC 1; RtoC 2; RtoC 5] [3] None) (rr (INR (S k))) (Some 2%nat)
     = Ok (Some (d k), Some (c k))) /\
  is_lim_seq (fun k => d k / INR (S k)) 1 /\ Cseq_lim c (RtoC (2 / 3)).
Proof. exact C62_example_high_proof. Qed.

(** C61. Example: the film again (graded, so one sign): potential and field at
    height 10 are exactly those of the image charge. *)
Example C61_example_film :
  exists (d : R) (c : C),
    image_depth_and_charge laggauss12 defaults0 (stack [RtoC 1; RtoC 2; RtoC 5] [3] None) (rr 10) (Some 2%nat) = Ok (Some d, Some c) /\
    0 < d + 10 /\
    surf_pot_and_field laggauss12 defaults0 (stack [RtoC 1; RtoC 2; RtoC 5] [3] None) (rr 10) (Some 2%nat)
    = Ok (Some (charge_potential c (d + 10)), Some (charge_field c (d + 10))).
Proof. exact C61_example_film_proof. Qed.

(** C61. Example: substrate of permittivity 3, charge at height 10: image charge
    1/2 at depth 10.  The returned potential, 1/40, is that of the image at
    distance 20, where the charge is; at the surface the image makes 1/20. *)
Example C61_example_bulk :
  image_depth_and_charge laggauss12 defaults0 (stack [RtoC 1; RtoC 3] [] None) (rr 10) (Some 2%nat) = Ok (Some 10, Some (RtoC (1 / 2))) /\
  (exists E, surf_pot_and_field laggauss12 defaults0 (stack [RtoC 1; RtoC 3] [] None) (rr 10) (Some 2%nat) = Ok (Some (RtoC (1 / 40)), Some E)) /\
  charge_potential (RtoC (1 / 2)) (10 + 10) = RtoC (1 / 40) /\ charge_potential (RtoC (1 / 2)) 10 = RtoC (1 / 20).
Proof. exact C61_example_bulk_proof. Qed.
