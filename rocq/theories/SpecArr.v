(** * Specification of NumPy broadcasting, written from NumPy's documentation

    Shapes are stored last axis first; axis [k] is the k-th from the end. *)
From Coq Require Import Reals List Arith Lia.
From Coquelicot Require Import Complex.
From Verif Require Import Num NArr.
Import ListNotations.
Open Scope nat_scope.

(** length along axis [k]; a missing axis counts as length one *)
Definition dim (s : list nat) (k : nat) : nat := nth k s 1.
(** every axis of [s] has length one or the length it has in [S] *)
Definition fits (s S : list nat) : Prop :=
  length s <= length S /\ forall k, dim s k = 1 \/ dim s k = dim S k.
(** [S] is the joint shape of the shapes [ss]: all of them fit into it, and no
    axis is longer, nor are there more axes, than one of them requires *)
Definition joint (ss : list (list nat)) (S : list nat) : Prop :=
  (forall s, In s ss -> fits s S) /\
  (forall k, dim S k = 1 \/ exists s, In s ss /\ dim s k = dim S k) /\
  (S = [] \/ exists s, In s ss /\ length s = length S).
(** the shapes [ss] can be broadcast together *)
Definition compatible (ss : list (list nat)) : Prop :=
  forall s t, In s ss -> In t ss -> forall k, dim s k <> 1 -> dim t k <> 1 -> dim s k = dim t k.
(** [i] is an index of an array of shape [S] *)
Definition index_of (S i : list nat) : Prop :=
  length i = length S /\ forall k, k < length S -> nth k i 0 < nth k S 1.
(** the entry of an operand that meets index [i] of the result: axes of length
    one are read at 0, axes the operand does not have are dropped *)
Definition entry {A} (a : arr A) (i : list nat) : A :=
  at_ a (map (fun k => if Nat.eqb (dim (shp a) k) 1 then 0 else nth k i 0) (seq 0 (length (shp a)))).

(** [r] is the vectorised form of the scalar computation [f]: it succeeds
    exactly when the shapes [ss] of the operands broadcast (otherwise it raises
    a ValueError), has their joint shape, and at every index the value the
    scalar computation returns there. *)
Definition vectorised {A} (ss : list (list nat)) (f : list nat -> res A) (r : res (arr A)) : Prop :=
  ((exists a, r = Ok a) <-> compatible ss) /\
  (forall e, r = Raise e -> exists m, e = ValueError m) /\
  (forall a, r = Ok a -> joint ss (shp a) /\ forall i, index_of (shp a) i -> f i = Ok (at_ a i)).
(** components of a result that is a pair *)
Definition first {A B} (r : res (A * B)) : res A := match r with Ok p => Ok (fst p) | Raise e => Raise e end.
Definition second {A B} (r : res (A * B)) : res B := match r with Ok p => Ok (snd p) | Raise e => Raise e end.
(** [f] acts on its array argument element by element: besides the argument,
    operands of the shapes [ss] enter, and [g i] is the function applied at
    index [i].  An index of a larger shape reads the result by broadcasting. *)
Definition acts_elementwise {A B} (ss : list (list nat)) (g : list nat -> A -> B) (f : arr A -> res (arr B)) : Prop :=
  forall x,
  ((exists a, f x = Ok a) <-> compatible (shp x :: ss)) /\
  (forall e, f x = Raise e -> exists m, e = ValueError m) /\
  (forall a, f x = Ok a -> joint (shp x :: ss) (shp a) /\ forall i, entry a i = g i (entry x i)).
