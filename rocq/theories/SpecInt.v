(** * Integer arguments: ranges and the numbers they stand for *)
From Coq Require Import String Reals ZArith List Bool.
From Coquelicot Require Import Complex.
From Verif Require Import Num ModelSample ModelInt.
Import ListNotations.
Open Scope R_scope.

(** [z] can be stored *)
Definition fits (t : itype) (z : Z) : Prop :=
  match t with
  | Unbounded => True
  | Word w false => (0 <= z < 2 ^ Z.of_nat w)%Z
  | Word w true => (- 2 ^ Z.of_nat w <= 2 * z < 2 ^ Z.of_nat w)%Z
  end.
Definition same_bits (w : nat) (x y : Z) : Prop := exists k, (x - y = k * 2 ^ Z.of_nat w)%Z.

Definition real_of (n : num) : R := match n with I z => IZR z | F x => x end.
(** the k-th power of an integer can be stored *)
Definition power_fits (t : itype) (k : nat) (n : num) : Prop :=
  match n with I z => fits t (z ^ Z.of_nat k) | F _ => True end.
Definition product_fits (t : itype) (a b : num) : Prop :=
  match a, b with I x, I y => fits t (x * y) | _, _ => True end.
Definition sum_fits (t : itype) (a b : num) : Prop :=
  match a, b with I x, I y => fits t (x + y) | _, _ => True end.
Definition opt_ok (P : num -> Prop) (o : option num) : Prop :=
  match o with Some n => P n | None => True end.
(** the sample with floats for integers *)
Definition in_floats (s : isample) : sample :=
  {| eps_stack := i_eps_stack s; t_stack := map real_of (i_t_stack s);
     nu_vac := option_map real_of (i_nu_vac s) |}.
