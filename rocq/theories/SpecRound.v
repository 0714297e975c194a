(** * Specification: arithmetic that rounds

    An [arith] is what a machine offers: a result for every operation on two
    numbers, for every library function and for every literal.  [rounds u A]
    says that every result has relative error at most [u] (the "standard model"
    of floating-point arithmetic, u = 2^-53 for doubles; it leaves open how ties
    are rounded and how the library functions are computed, and excludes
    overflow and underflow). *)
From Coq Require Import Reals List Permutation.
From Coquelicot Require Import Complex.
Import ListNotations.
Open Scope R_scope.

Record arith := Ar {
  a_add : R -> R -> R; a_sub : R -> R -> R; a_mul : R -> R -> R; a_div : R -> R -> R;
  a_pow : R -> nat -> R;
  a_sin : R -> R; a_cos : R -> R; a_exp : R -> R; a_log : R -> R;
  a_hypot : R -> R -> R; a_sqrt : R -> R;
  a_lit : R -> R }.

(** [y] has relative error at most [e] with respect to [x] *)
Definition near (e x y : R) : Prop := Rabs (y - x) <= e * Rabs x.
Definition cnear (e : R) (x y : C) : Prop := Cmod (y - x)%C <= e * Cmod x.

Record rounds (u : R) (A : arith) : Prop := {
  r_add : forall x y, near u (x + y) (a_add A x y);
  r_sub : forall x y, near u (x - y) (a_sub A x y);
  r_mul : forall x y, near u (x * y) (a_mul A x y);
  r_div : forall x y, y <> 0 -> near u (x / y) (a_div A x y);
  r_pow : forall x n, near u (x ^ n) (a_pow A x n);
  r_sin : forall x, near u (sin x) (a_sin A x);
  r_cos : forall x, near u (cos x) (a_cos A x);
  r_exp : forall x, near u (exp x) (a_exp A x);
  r_log : forall x, 0 < x -> near u (ln x) (a_log A x);
  r_hypot : forall x y, near u (Cmod (x, y)) (a_hypot A x y);
  r_sqrt : forall x, 0 <= x -> near u (sqrt x) (a_sqrt A x);
  r_lit : forall x, near u x (a_lit A x) }.

(** The order in which a sum is evaluated: a binary tree whose leaves are the
    positions of the terms.  [np.sum] adds in blocks and pairs that depend on
    shape and memory layout; the theorems hold for every order. *)
Inductive order := Leaf (k : nat) | Node (l r : order).
Fixpoint leaves (t : order) : list nat :=
  match t with Leaf k => [k] | Node l r => leaves l ++ leaves r end.
Fixpoint order_height (t : order) : nat :=
  match t with Leaf _ => O | Node l r => S (Nat.max (order_height l) (order_height r)) end.
Definition adds_up (t : order) (N : nat) : Prop := Permutation (leaves t) (seq 0 N).

(** A machine: its arithmetic and the order in which it adds N terms *)
Record machine := Mach { m_arith :> arith; m_order : nat -> order }.
Definition rounding (u : R) (m : machine) : Prop :=
  rounds u m /\ forall N, N <> O -> adds_up (m_order m N) N.

(** ** A rounding: keep [p] binary digits after the first (round towards minus infinity) *)
Definition chop (p : nat) (x : R) : R :=
  if Req_EM_T x 0 then 0
  else let s := exp (IZR (Int_part (ln (Rabs x) / ln 2)) * ln 2) / 2 ^ p in IZR (Int_part (x / s)) * s.
Definition chop_arith (p : nat) : arith :=
  Ar (fun x y => chop p (x + y)) (fun x y => chop p (x - y)) (fun x y => chop p (x * y)) (fun x y => chop p (x / y))
     (fun x n => chop p (x ^ n)) (fun x => chop p (sin x)) (fun x => chop p (cos x)) (fun x => chop p (exp x))
     (fun x => chop p (ln x)) (fun x y => chop p (Cmod (x, y))) (fun x => chop p (sqrt x)) (chop p).
(** the sum from left to right *)
Fixpoint left_order (n : nat) : order := match n with O => Leaf 0 | S m => Node (left_order m) (Leaf (S m)) end.
(** p binary digits, sums from left to right *)
Definition digits (p : nat) : machine := Mach (chop_arith p) (fun N => left_order (Nat.pred N)).
