(** * Specification: thin and thick films (C91) *)
From Coq Require Import Reals.
From Coquelicot Require Import Complex.
Open Scope R_scope.

(** electrostatic image factor of an interface, permittivity [a] above and [b] below *)
Definition image_factor (a b : C) : C := ((b - a) / (b + a))%C.
(** how strongly a film with image factors [b] (top) and [c] (bottom) passes on what
    happens at its lower side: twice through the top, once off the bottom *)
Definition film_contrast (b c : C) : C := (c * (1 - b * b))%C.
