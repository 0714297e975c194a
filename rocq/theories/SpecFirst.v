(** * Specification: which solution the root-finding inverses put first *)
From Coq Require Import Reals List.
From Coquelicot Require Import Complex.
From Verif Require Import Num ModelBase NArr SpecInv.
Import ListNotations.
Open Scope R_scope.

(** A result for a single number: nothing is masked, the first value is the real
    number [b], and every other value is strictly larger in magnitude. *)
Definition smallest_first (result : arr CV * arr bool) (b : R) : Prop :=
  elements result = [] /\ unmasked result [] = entries result [] /\
  exists rest, entries result [] = Some (RtoC b) :: rest /\
    forall v, In v rest -> exists x, v = Some x /\ b < Cmod x.
