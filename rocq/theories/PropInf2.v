(** * Properties (generated by tools/gen_prop.py from ProofsInf2.v; statements
    only, each proved there) *)
From Coq Require Import String Reals Lra Lia ZArith List Bool.
From Coquelicot Require Import Rcomplements Complex.
From Verif Require Import Num NumLemmas ModelBase ModelSample ModelTip StackLemmas Spec ModelRange SpecRange
  RangeLemmas SpecInf ModelInf ProofsStackQS ProofsPassive ProofsRange ProofsRange3 ProofsInf.
Import ListNotations.
Open Scope R_scope.
From Verif Require Import ProofsInf2.

(** C103. A layer of infinite permittivity that is not the substrate: nan, for every other layer, thickness and momentum.  The limit exists: see C103_buried_limit. *)
Theorem C103_buried_conductor_refuted :
  forall (l1 l2 : list cflt) (w x : cflt) (ts : list flt) (q : flt),
  infinite_eps w -> (length ts + 2 = length (l1 ++ w :: x :: l2))%nat ->
  zrefl_qs (l1 ++ w :: x :: l2) ts q = Some (NaN, NaN).
Proof. exact C103_buried_conductor_refuted_proof. Qed.
Print Assumptions C103_buried_conductor_refuted.

(** C103. A bulk sample of infinite permittivity: beta = 1, the limit, from the transfer matrix (the single-interface formula gives nan). *)
Theorem C103_metal_sample :
  forall (e0 : C) (w : cflt) (q : flt) nu k, infinite_eps w -> Cmod e0 <= MAXF ->
  zrefl_qs [zof e0; w] [] q = Some (zof (RtoC 1)) /\
  as_conductor (fun E => refl_coef_qs (stack [e0; E] [] nu) (rr k)) (RtoC 1).
Proof. exact C103_metal_sample_proof. Qed.
Print Assumptions C103_metal_sample.

(** C103. What the code returns nan for: as the permittivity of a film of positive thickness grows, its reflection coefficient tends to 1. *)
Theorem C103_buried_limit :
  forall (e0 e2 : C) (t q : R) nu, e2 <> RtoC 0 -> 0 < q * t ->
  as_conductor (fun E => refl_coef_qs (stack [e0; E; e2] [t] nu) (rr q)) (RtoC 1).
Proof. exact C103_buried_limit_proof. Qed.
Print Assumptions C103_buried_limit.

(** C103. An infinite thickness is read as any thickness beyond the clip, at every positive momentum, wherever it stands; at zero momentum it is nan. *)
Theorem C103_infinite_thickness :
  forall (eps : list cflt) (ts1 ts2 : list flt) (q : R),
  (forall t, 0 < q -> MAX_EXP_ARG <= q * t ->
     zrefl_qs eps (ts1 ++ PInf :: ts2) (Fin q) = zrefl_qs eps (ts1 ++ Fin t :: ts2) (Fin q)) /\
  ((length (ts1 ++ PInf :: ts2) + 2 = length eps)%nat -> zrefl_qs eps (ts1 ++ PInf :: ts2) (Fin 0) = Some (NaN, NaN)).
Proof. exact C103_infinite_thickness_proof. Qed.
Print Assumptions C103_infinite_thickness.
