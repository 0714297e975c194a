(** * Specification: superlattices and the film they look like (C94) *)
From Coq Require Import Reals List.
Import ListNotations.
Open Scope R_scope.

(** A period of a superlattice: permittivity and thickness of each layer, from the
    top to the bottom. *)
Definition total_thickness (c : list (R * R)) : R := fold_right Rplus 0 (map snd c).
(** permittivity averaged over the thickness (layers in parallel: fields along the layers) *)
Definition mean_eps (c : list (R * R)) : R := fold_right Rplus 0 (map (fun l => fst l * snd l) c) / total_thickness c.
(** inverse permittivity averaged over the thickness (layers in series: fields across the layers) *)
Definition mean_inv_eps (c : list (R * R)) : R := fold_right Rplus 0 (map (fun l => snd l / fst l) c) / total_thickness c.
(** A uniaxial film of the two averages responds to electrostatic fields like an
    isotropic film of the geometric mean permittivity, stretched by the anisotropy. *)
Definition film_eps (c : list (R * R)) : R := sqrt (mean_eps c / mean_inv_eps c).
Definition film_thickness (c : list (R * R)) : R := total_thickness c * sqrt (mean_eps c * mean_inv_eps c).
(** [N] periods with the same total thickness as [c] *)
Definition periods (N : nat) (c : list (R * R)) : list (R * R) :=
  concat (repeat (map (fun l => (fst l, snd l / INR N)) c) N).
