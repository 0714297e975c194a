(** * What signs of zeros stand for *)
From Coq Require Import Reals List.
From Coquelicot Require Import Complex.
From Verif Require Import Num Spec ModelBase ModelSample ModelSigned.
Import ListNotations.
Open Scope R_scope.

(** the sign bit of a nonzero number is its sign *)
Definition proper (a : sreal) : Prop := (val a < 0 -> minus a = true) /\ (0 < val a -> minus a = false).
Definition proper_c (z : scomplex) : Prop := proper (sre z) /\ proper (sim z).
(** a negative real number (or -0) on the lower side of the branch cut: its
    imaginary part is -0 *)
Definition below_cut (z : scomplex) : Prop :=
  minus (sre z) = true /\ val (sim z) = 0 /\ minus (sim z) = true.
(** a real number whose imaginary part is a zero of sign [s] *)
Definition real_with (s : bool) (x : R) : scomplex := mkZ (plus x) (mkS 0 s).
(** its value, if it is a number *)
Definition valueV (x : option scomplex) : CV := olift1 value x.
(** the branch of the wavevector of a half space: the principal one, except for a
    permittivity below the cut *)
Definition branch (e : scomplex) (k : C) : Prop :=
  (~ below_cut e /\ principal k) \/ (below_cut e /\ principal (- k)%C).
(** a real reflection coefficient as a complex number: its zero imaginary part may
    have either sign *)
Definition given (b : bool * R) : scomplex := real_with (fst b) (snd b).
