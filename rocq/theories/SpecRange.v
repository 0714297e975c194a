(** * Statements about the range of a double: the notions they use *)
From Coq Require Import Reals Lra List.
From Coquelicot Require Import Complex.
From Verif Require Import ModelSample ModelRange.
Import ListNotations.
Open Scope R_scope.

(** A permittivity whose magnitude is between 2^-500 and 2^500. *)
Definition TAME : R := 2 ^ 500.
Definition tame (e : C) : Prop := / TAME <= Cmod e <= TAME.

(** How much the interfaces of a stack can enlarge a pair of waves. *)
Definition amplification (es : list C) : R :=
  fold_right (fun p acc => (Cmod (1 + fst p / snd p)%C + Cmod (1 - fst p / snd p)%C) / 2 * acc)
    1 (combine es (tl es)).

(** The sum of the exponents q t of the inner layers, each clipped. *)
Definition total_exponent (q : R) (ts : list R) : R :=
  fold_right Rplus 0 (map (fun t => Rmin (q * t) MAX_EXP_ARG) ts).
