(** * Specification: complementary media

    The complement of a sequence of layers is its mirror image with every
    permittivity negated (J. B. Pendry and S. A. Ramakrishna, J. Phys.: Condens.
    Matter 15, 6345, 2003).  A layer is (permittivity, thickness). *)
From Coq Require Import Reals List.
From Coquelicot Require Import Complex.
Import ListNotations.
Open Scope R_scope.

Definition complement (layers : list (C * R)) : list (C * R) :=
  map (fun p => (Copp (fst p), snd p)) (rev layers).
