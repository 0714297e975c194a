(** * Specification: superlattices of arbitrary materials and uniaxial films (C96) *)
From Coq Require Import Reals List.
From Coquelicot Require Import Coquelicot.
From Coq Require Import List.
From Verif Require Import Num SpecWave.
Import ListNotations.
Open Scope R_scope.

(** A period of a superlattice: complex permittivity and thickness of each layer,
    from the top to the bottom. *)
Definition thickness (c : list (C * R)) : R := fold_right Rplus 0 (map snd c).
(** permittivity for fields along the layers: the average over the thickness *)
Definition eps_along (c : list (C * R)) : C :=
  (fold_right Cplus 0 (map (fun l => fst l * RtoC (snd l)) c) / RtoC (thickness c))%C.
(** inverse permittivity for fields across the layers: the average of the inverses *)
Definition inv_eps_across (c : list (C * R)) : C :=
  (fold_right Cplus 0 (map (fun l => RtoC (snd l) / fst l) c) / RtoC (thickness c))%C.
(** [N] periods with the same total thickness as [c] *)
Definition superlattice (N : nat) (c : list (C * R)) : list (C * R) :=
  concat (repeat (map (fun l => (fst l, snd l / INR N)) c) N).
(** optical strength of the layers for fields of in-plane momentum [q], seen from a
    medium of permittivity [e0] *)
Definition strength (q : R) (e0 : C) (c : list (C * R)) : R :=
  q * fold_right Rplus 0 (map (fun l => snd l * Rmax (Cmod (fst l) / Cmod e0) (Cmod e0 / Cmod (fst l))) c).

(** Electrostatic fields of a homogeneous uniaxial film between the depths 0 and [T],
    of permittivity [et] along the surface and inverse permittivity [iez] across it,
    below a medium [e0] and above a substrate [en].  [V] is the potential and [D]
    minus the normal displacement.  From above comes a wave of amplitude [a], minus
    [b] is the amplitude of the wave going back, [t] that of the wave in the
    substrate. *)
Definition film_fields (q T : R) (et iez e0 en a b t : C) (V D : R -> C) : Prop :=
  field_continuous V /\ field_continuous D /\
  (forall z, z < 0 -> electrostatic q e0 V D z) /\
  (forall z, 0 < z < T -> field_derive V z (iez * D z)%C /\ field_derive D z (et * RtoC (q ^ 2) * V z)%C) /\
  (forall z, T < z -> electrostatic q en V D z) /\
  (forall z, z <= 0 -> V z = (a * RtoC (exp (- q * z)) - b * RtoC (exp (q * z)))%C) /\
  (forall z, T <= z -> V z = (t * RtoC (exp (- q * (z - T))))%C).
