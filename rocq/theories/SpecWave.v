(** * Independent specification: fields in a layered medium

    The medium is described by its permittivity at every depth [z] (z < 0 is the
    environment, the first interface is at z = 0), the fields by functions of
    the depth.  Nothing here mentions reflection recursions or matrices. *)
From Coq Require Import Reals List.
From Coquelicot Require Import Coquelicot.
From Verif Require Import Num.
Import ListNotations.
Open Scope R_scope.

(** derivative and continuity of a complex field, by components *)
Definition field_derive (f : R -> C) (z : R) (d : C) : Prop :=
  is_derive (fun x => Re (f x)) z (Re d) /\ is_derive (fun x => Im (f x)) z (Im d).
Definition field_continuous (f : R -> C) : Prop :=
  forall z, continuity_pt (fun x => Re (f x)) z /\ continuity_pt (fun x => Im (f x)) z.

(** [below es ts top z e]: below the depth [top] lie layers of permittivities [es]
    and thicknesses [ts] (none for the last one, which is unbounded), and the
    depth [z] is strictly inside one of permittivity [e]. *)
Fixpoint below (es : list C) (ts : list R) (top z : R) (e : C) : Prop :=
  match es, ts with
  | [en], [] => top < z /\ e = en
  | e1 :: es', t :: ts' => (top < z < top + t /\ e = e1) \/ below es' ts' (top + t) z e
  | _, _ => False
  end.
(** the material at depth [z] of the stack [es] (environment first) with inner
    thicknesses [ts] *)
Definition material (es : list C) (ts : list R) (z : R) (e : C) : Prop :=
  match es with
  | e0 :: es' => (z < 0 /\ e = e0) \/ below es' ts 0 z e
  | [] => False
  end.
(** depth of the last interface *)
Definition total_depth (ts : list R) : R := fold_right Rplus 0 ts.

(** Maxwell's equations for fields varying as e^{i q x} in the plane, with vacuum
    wavenumber [nu], inside a material of permittivity [e] (primes are
    d/dz; constant factors are absorbed in the second field).
    s polarization: [F] is the tangential electric field E_y, [G] is the tangential
    magnetic field, E_y' = G, G' = (q^2 - e nu^2) E_y. *)
Definition maxwell_s (nu q : R) (e : C) (F G : R -> C) (z : R) : Prop :=
  field_derive F z (G z) /\
  field_derive G z ((RtoC (q ^ 2) - e * RtoC (nu ^ 2)) * F z)%C.
(** p polarization: [F] is the tangential magnetic field H_y, [G] the tangential
    electric field, H_y' = e G, G' = (q^2 / e - nu^2) H_y. *)
Definition maxwell_p (nu q : R) (e : C) (F G : R -> C) (z : R) : Prop :=
  field_derive F z (e * G z)%C /\
  field_derive G z ((RtoC (q ^ 2) / e - RtoC (nu ^ 2)) * F z)%C.
(** Electrostatics: [F] is the potential, [G] is minus the normal displacement:
    F' = G / e, and div (e grad) = 0. *)
Definition electrostatic (q : R) (e : C) (F G : R -> C) (z : R) : Prop :=
  field_derive F z (G z / e)%C /\
  field_derive G z (e * RtoC (q ^ 2) * F z)%C.

(** A field in the stack: [F] and [G] are continuous everywhere, also across the
    interfaces, and obey the law of the material at every depth inside one. *)
Definition field_in (law : C -> (R -> C) -> (R -> C) -> R -> Prop)
    (es : list C) (ts : list R) (F G : R -> C) : Prop :=
  field_continuous F /\ field_continuous G /\
  forall z e, material es ts z e -> law e F G z.

(** The scattering problem.  A wave e^{i k0 z} of amplitude 1 comes from the
    environment; [r] is the amplitude of the wave going back, [t] that of the
    only wave in the substrate, measured at the last interface. *)
Definition scattering (law : C -> (R -> C) -> (R -> C) -> R -> Prop)
    (es : list C) (ts : list R) (k0 kn r t : C) (F G : R -> C) : Prop :=
  field_in law es ts F G /\
  (forall z, z <= 0 -> F z = (Cexp ((0, 1)%R * k0 * RtoC z) + r * Cexp ((0, -1)%R * k0 * RtoC z))%C) /\
  (forall z, total_depth ts <= z -> F z = (t * Cexp ((0, 1)%R * kn * RtoC (z - total_depth ts)))%C).
