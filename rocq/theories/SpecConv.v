(** * Spec: conventions of the root-finding inverses *)
From Coq Require Import Reals List.
From Coquelicot Require Import Complex.
From Verif Require Import Num NArr SpecArr.
Import ListNotations.
Open Scope R_scope.

(** an array of lengths (of volumes) in a unit k times smaller *)
Definition lengths_in (k : R) (a : arr R) : arr R := mkArr (shp a) (fun i => k * at_ a i).
Definition volumes_in (k : R) (a : arr C) : arr C := mkArr (shp a) (fun i => RtoC (k ^ 3) * at_ a i)%C.
(** an argument, or the number in the table of defaults if it was left out *)
Definition filled {A} (d : A) (o : option (arr A)) : arr A :=
  match o with Some a => a | None => mkArr [] (fun _ => d) end.
(** the documented default position of the charge, from the radius and length
    of the tip in use: 1.31 L / (L + 2 r), an array of shape [s] *)
Definition charge_position (s : list nat) (L r : arr R) : arr R :=
  mkArr s (fun i => 131 / 100 * entry L i / (entry L i + 2 * entry r i)).
(** polarizability of spheres of radius r and permittivity e *)
Definition sphere_polarizability (s : list nat) (r : arr R) (e : arr C) : arr C :=
  mkArr s (fun i => RtoC (4 * PI * entry r i ^ 3) * ((entry e i - 1) / (entry e i + 2)))%C.
Definition conductor_polarizability (r : arr R) : arr C :=
  mkArr (shp r) (fun i => RtoC (4 * PI * at_ r i ^ 3)).
