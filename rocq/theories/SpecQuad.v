(** Specification of Gauss-Laguerre quadrature and of integrals over [0, oo),
    as the docstrings of sample.py:497-590 and 616-705 describe them. *)
From Coq Require Import Reals List.
From Coquelicot Require Import Coquelicot.
From Coq Require Import List.
Import ListNotations.
Open Scope R_scope.

(** the Laguerre polynomial L_J (sample.py:539-544) *)
Definition laguerre (J : nat) (x : R) : R :=
  sum_f_R0 (fun j => Binomial.C J j * ((-1) ^ j / INR (fact j)) * x ^ j) J.

(** the rule of sample.py:529-551: as many nodes as the order, all different, all
    roots of L_J, with the weights x_j / ((J + 1) L_(J+1)(x_j))^2 *)
Definition documented_rule (J : nat) (rule : list (R * R)) : Prop :=
  length rule = J /\ NoDup (map fst rule) /\
  Forall (fun xw => laguerre J (fst xw) = 0 /\
                    snd xw = fst xw / (INR (J + 1) * laguerre (J + 1) (fst xw)) ^ 2) rule.

(** the integral of f over [0, oo) exists and is l *)
Definition integral_to_infinity (f : R -> R) (l : R) : Prop :=
  (forall b, 0 <= b -> ex_RInt f 0 b) /\ is_lim (fun b => RInt f 0 b) p_infty l.
Definition Cintegral_to_infinity (f : R -> C) (l : C) : Prop :=
  integral_to_infinity (fun x => Re (f x)) (Re l) /\ integral_to_infinity (fun x => Im (f x)) (Im l).

(** a sequence of complex numbers converges *)
Definition Cseq_lim (u : nat -> C) (l : C) : Prop :=
  is_lim_seq (fun n => Re (u n)) (Re l) /\ is_lim_seq (fun n => Im (u n)) (Im l).

(** geometry function of an image charge at depth d (fdm.py:328-389, documented) *)
Definition fdm_f_image (z d r L : R) (g : C) : C :=
  ((g - RtoC ((r + z + d) / (2 * L))) * RtoC (ln (4 * L / (r + 2 * z + 2 * d)) / ln (4 * L / r)))%C.
