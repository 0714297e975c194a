(** * Properties (generated by tools/gen_prop.py from ProofsRange4.v; statements
    only, each proved there) *)
From Coq Require Import String Reals Lra Lia ZArith List Bool.
From Coquelicot Require Import Rcomplements Complex.
From Verif Require Import Num NumLemmas ModelBase ModelSample ModelTip StackLemmas Spec ModelRange SpecRange
  RangeLemmas ProofsRange ProofsRange2 ProofsRange3.
Import ListNotations.
Open Scope R_scope.
From Verif Require Import ProofsRange4.

(** C53. If at the momentum x / (2 z_Q) of one single quadrature node the
    topmost inner layers are too thick for the range of a double, then the
    averaged reflection coefficient is not finite, neither are the potential
    and the field, and the image depth and charge computed from them
    (phi / E and phi^2 / E) are nan, whatever the weight of that node is. *)
Theorem C53_one_node_spoils_average :
  forall (es ts1 ts2 : list R) (z : R) (nodes : list (R * R)) (x w : R),
  wf es (ts1 ++ ts2) -> Forall (fun e => 0 < e /\ tame (RtoC e)) es ->
  In (x, w) nodes -> 0 < z -> 2 * z <= MAXF -> Rabs (x / (2 * z)) <= MAXF ->
  Forall (fun t => 1 <= x / (2 * z) * t) ts1 ->
  MAXF * 3 ^ length ts1 < exp (total_exponent (x / (2 * z)) ts1) ->
  let eps := map zof (map RtoC es) in let ts := map Fin (ts1 ++ ts2) in
  (exists b, zabove_surf eps ts (Fin z) nodes = Some b /\ forall r i, fst b <> Fin r /\ snd b <> Fin i) /\
  (exists phi E, zsurf_pot_and_field eps ts (Fin z) nodes = Some (phi, E) /\
     (forall r i, fst phi <> Fin r /\ snd phi <> Fin i) /\
     (forall r i, fst E <> Fin r /\ snd E <> Fin i) /\
     zdiv phi E = (NaN, NaN) /\ zdiv (zmul phi phi) E = (NaN, NaN)).
Proof. exact C53_one_node_spoils_average_proof. Qed.
Print Assumptions C53_one_node_spoils_average.

(** example: layers of 100 above a substrate, probed from a height of 10; the
    largest node of the default 32-point quadrature is about 112, and its
    weight is of the order of 1e-48 *)
Example C53_example :
  exists b, zabove_surf (map zof (map RtoC [1; 2; 3; 4])) (map Fin ([100; 100] ++ [])) (Fin 10)
              [(1, 1); (112, / 10 ^ 48)] = Some b /\ forall r i, fst b <> Fin r /\ snd b <> Fin i.
Proof. exact C53_example_proof. Qed.
