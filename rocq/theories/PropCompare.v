(** * Properties (generated by tools/gen_prop.py from ProofsCompare.v; statements
    only, each proved there) *)
From Coq Require Import String Reals Lra Lia ZArith List Bool Sorted.
From Coquelicot Require Import Coquelicot.
From Coq Require Import List.
From Verif Require Import Num NumLemmas ModelBase ModelSample ModelTip StackLemmas Spec
  ProofsStackQS ProofsStackQS2 ProofsSym ProofsPassive SpecQuad ProofsQuad QuadConv ProofsQuad2 ProofsNlag ProofsImage SpecWave WaveLemmas ProofsFilm.
Import ListNotations.
Open Scope R_scope.
From Verif Require Import ProofsCompare.

(** C85. Lossless stacks of the same thicknesses: the coefficient is real and
    less than 1 in magnitude at every momentum, and it does not decrease if any
    of the permittivities below the environment is raised or that of the
    environment is lowered. *)
Theorem C85_order :
  forall (e0 e0' e1 e1' : R) (es es' ts : list R) nu nu' (q : R),
  length es = length ts -> Forall (fun t => 0 <= t) ts -> 0 <= q ->
  0 < e0' -> e0' <= e0 -> Forall (fun e => 0 < e) (e1 :: es) -> Forall2 Rle (e1 :: es) (e1' :: es') ->
  exists r r' : R,
    refl_coef_qs (stack (map RtoC (e0 :: e1 :: es)) ts nu) (rr q) = Ok (Some (RtoC r)) /\
    refl_coef_qs (stack (map RtoC (e0' :: e1' :: es')) ts nu') (rr q) = Ok (Some (RtoC r')) /\
    -1 < r <= r' /\ r' < 1.
Proof. exact C85_order_proof. Qed.
Print Assumptions C85_order.

(** C85. At positive momentum and with no layer of zero thickness every layer
    counts: raising any of the permittivities raises the coefficient strictly. *)
Theorem C85_strict :
  forall (e0 e0' e1 e1' : R) (es es' ts : list R) nu nu' (q : R),
  length es = length ts -> Forall (fun t => 0 < t) ts -> 0 < q ->
  0 < e0' -> e0' <= e0 -> Forall (fun e => 0 < e) (e1 :: es) -> Forall2 Rle (e1 :: es) (e1' :: es') ->
  e0 :: e1 :: es <> e0' :: e1' :: es' ->
  exists r r' : R,
    refl_coef_qs (stack (map RtoC (e0 :: e1 :: es)) ts nu) (rr q) = Ok (Some (RtoC r)) /\
    refl_coef_qs (stack (map RtoC (e0' :: e1' :: es')) ts nu') (rr q) = Ok (Some (RtoC r')) /\
    r < r'.
Proof. exact C85_strict_proof. Qed.
Print Assumptions C85_strict.

(** C85. If every permittivity below the environment lies between [m] and [M],
    the stack responds at every momentum like a half space of some permittivity
    between [m] and [M]; in particular its coefficient lies between those of the
    two half spaces. *)
Theorem C85_between :
  forall (e0 e1 m M : R) (es ts : list R) nu (q : R),
  length es = length ts -> Forall (fun t => 0 <= t) ts -> 0 <= q -> 0 < e0 -> 0 < m ->
  Forall (fun e => m <= e <= M) (e1 :: es) ->
  exists x : R, m <= x <= M /\
    refl_coef_qs (stack (map RtoC (e0 :: e1 :: es)) ts nu) (rr q) = Ok (Some (RtoC ((x - e0) / (x + e0)))) /\
    (m - e0) / (m + e0) <= (x - e0) / (x + e0) <= (M - e0) / (M + e0).
Proof. exact C85_between_proof. Qed.
Print Assumptions C85_between.

(** C85. Thickness: with everything else fixed the coefficient is a monotone
    function of the thickness of any one layer: increasing if no permittivity
    further down exceeds that of the layer, decreasing if none is below it. *)
Theorem C85_thickness :
  forall (e0 e : R) (above below ts_above ts_below : list R) nu (q : R),
  length above = length ts_above -> length below = S (length ts_below) ->
  Forall (fun x => 0 < x) (e0 :: above ++ e :: below) -> Forall (fun t => 0 <= t) (ts_above ++ ts_below) -> 0 <= q ->
  exists r : R -> R,
    (forall t, 0 <= t -> refl_coef_qs (stack (map RtoC (e0 :: above ++ e :: below)) (ts_above ++ t :: ts_below) nu) (rr q) = Ok (Some (RtoC (r t)))) /\
    ((forall t t', 0 <= t -> t <= t' -> r t <= r t') \/ (forall t t', 0 <= t -> t <= t' -> r t' <= r t)) /\
    (Forall (fun x => x <= e) below -> forall t t', 0 <= t -> t <= t' -> r t <= r t') /\
    (Forall (fun x => e <= x) below -> forall t t', 0 <= t -> t <= t' -> r t' <= r t).
Proof. exact C85_thickness_proof. Qed.
Print Assumptions C85_thickness.

(** C85. The same for the averages of refl_coef_qs_above_surf, with any number of nodes. *)
Theorem C85_average :
  forall (laggauss : laggauss_t) (D : Defaults) (n_lag : option nat) (e0 e0' e1 e1' : R) (es es' ts : list R) nu nu' (z : R),
  let n := given_or (d_n_lag D) n_lag in
  n <> O -> laguerre_rule (laggauss n) ->
  length es = length ts -> Forall (fun t => 0 <= t) ts -> 0 < z ->
  0 < e0' -> e0' <= e0 -> Forall (fun e => 0 < e) (e1 :: es) -> Forall2 Rle (e1 :: es) (e1' :: es') ->
  exists r r' : R,
    refl_coef_qs_above_surf laggauss D (stack (map RtoC (e0 :: e1 :: es)) ts nu) (rr z) n_lag = Ok (Some (RtoC r)) /\
    refl_coef_qs_above_surf laggauss D (stack (map RtoC (e0' :: e1' :: es')) ts nu') (rr z) n_lag = Ok (Some (RtoC r')) /\
    r <= r' /\
    (forall m M, 0 < m -> Forall (fun e => m <= e <= M) (e1 :: es) -> (m - e0) / (m + e0) <= r <= (M - e0) / (M + e0)).
Proof. exact C85_average_proof. Qed.
Print Assumptions C85_average.

(** C85. Example: a layer of 9 (buried between 4 and a substrate of 2) replaced by
    one of 10. *)
Example C85_example :
  exists r r' : R,
    refl_coef_qs (stack [RtoC 1; RtoC 4; RtoC 9; RtoC 2] [1; 3] None) (rr (1 / 2)) = Ok (Some (RtoC r)) /\
    refl_coef_qs (stack [RtoC 1; RtoC 4; RtoC 10; RtoC 2] [1; 3] None) (rr (1 / 2)) = Ok (Some (RtoC r')) /\
    1 / 3 <= r < r' /\ r' <= 9 / 11.
Proof. exact C85_example_proof. Qed.
