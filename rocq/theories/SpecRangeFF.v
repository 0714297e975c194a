(** * Statements about the far field in the range of a double: the notions they use *)
From Coq Require Import Reals Lra List.
From Coquelicot Require Import Complex.
Import ListNotations.
Open Scope R_scope.

(** A number whose magnitude is between 2^-200 and 2^200. *)
Definition MILD : R := 2 ^ 200.
Definition mild (x : C) : Prop := / MILD <= Cmod x <= MILD.

(** A layer is a pair (permittivity, normal wavevector).  The ratio of the
    fields on both sides of an interface. *)
Definition iface_ratio (p : bool) (a b : C * C) : C :=
  if p then (fst a * snd b / (fst b * snd a))%C else (snd b / snd a)%C.
(** How much the interfaces of a stack can enlarge a pair of waves. *)
Definition amplification_ff (p : bool) (ls : list (C * C)) : R :=
  fold_right (fun ab acc => (Cmod (1 + iface_ratio p (fst ab) (snd ab))%C
                             + Cmod (1 - iface_ratio p (fst ab) (snd ab))%C) / 2 * acc)
    1 (combine ls (tl ls)).
(** The total attenuation exponent of the inner layers (thicknesses [ts]). *)
Definition attenuation (inner : list (C * C)) (ts : list R) : R :=
  fold_right Rplus 0 (map (fun lt => Im (snd (fst lt)) * snd lt) (combine inner ts)).
