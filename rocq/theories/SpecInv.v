(** * Specification of the root-finding inverses *)
From Coq Require Import Reals ZArith List Arith Permutation Sorted.
From Coquelicot Require Import Complex.
From Verif Require Import Num ModelSample NArr SpecArr ModelObj SpecObj SpecPoly.
Import ListNotations.
Open Scope nat_scope.

(** ** Contracts of the library functions *)
(** a root finder for polynomials of degree two and more *)
Definition finds_roots (eig_roots : list C -> list C) : Prop :=
  forall c, 3 <= length c -> last c (RtoC 0) <> RtoC 0 -> all_roots_of c (eig_roots c).
(** [argsort]: some permutation of the positions that puts the values in order.
    Nothing is said about the order of equal values. *)
Definition sorts {A} (le : A -> A -> Prop) (d : A) (sorter : list A -> list nat) : Prop :=
  forall l, Permutation (sorter l) (seq 0 (length l)) /\
            StronglySorted le (map (fun k => nth k l d) (sorter l)).
Definition false_first (a b : bool) : Prop := a = true -> b = true.
Definition nan_last (a b : RV) : Prop :=
  match a, b with Some x, Some y => (x <= y)%R | _, None => True | None, Some _ => False end.
Record library (eig_roots : list C -> list C) (argsort_bool : list bool -> list nat)
    (argsort_real : list RV -> list nat) : Prop := {
  lib_roots : finds_roots eig_roots;
  lib_bool : sorts false_first false argsort_bool;
  lib_real : sorts nan_last None argsort_real }.

(** ** Reading a result: values and mask, both with the solutions along the first axis *)
Definition n_rows (r : arr CV * arr bool) : nat := last (shp (fst r)) 0.
Definition elements (r : arr CV * arr bool) : list nat := removelast (shp (fst r)).
(** all entries, and the unmasked entries, for the element [i] *)
Definition entries (r : arr CV * arr bool) (i : list nat) : list CV :=
  map (fun k => at_ (fst r) (i ++ [k])) (seq 0 (n_rows r)).
Definition unmasked (r : arr CV * arr bool) (i : list nat) : list CV :=
  flat_map (fun k => if at_ (snd r) (i ++ [k]) then [] else [at_ (fst r) (i ++ [k])])
           (seq 0 (n_rows r)).
(** how often a number occurs *)
Definition CV_eq_dec : forall a b : CV, {a = b} + {a <> b}.
Proof. decide equality. apply Ceq_dec. Defined.
Definition occurrences (l : list CV) (b : C) : nat := count_occ CV_eq_dec l (Some b).

(** ** What a solution is *)
(** the requested restrictions on a reflection coefficient [b], in an
    environment of permittivity [env] *)
Definition admissible (beta_threshold : R) (negative_imag subvacuum_abs : bool) (env b : C) : Prop :=
  (Cmod b <= beta_threshold)%R /\
  (negative_imag = true -> exists e, permitivitty (Some b) (Some env) = Some e /\ (0 <= Im e)%R) /\
  (subvacuum_abs = true -> exists e, permitivitty (Some b) (Some env) = Some e /\ (1 <= Cmod e)%R).
(** the numbers [c] are the first Taylor coefficients, as the code computes them *)
Definition coefficients (coef : nat -> res CV) (c : list C) : Prop :=
  forall j, j < length c -> coef j = Ok (Some (nth j c (RtoC 0))).
(** the polynomial has degree [d] *)
Definition degree (c : list C) (d : nat) : Prop :=
  nth d c (RtoC 0) <> RtoC 0 /\ forall k, d < k -> nth k c (RtoC 0) = RtoC 0.

(** the shapes of the arguments of a call *)
Definition fdm_inverse_operands (alpha_eff_n : arr CV) (A_tip : arr R) (n : arr Z) (z_tip r_tip L_tip : option (arr R))
    (g_factor : option (arr C)) (d_Q0 d_Q1 : option (arr R)) : list (list nat) :=
  [shp alpha_eff_n; shp A_tip; shp n] ++ shape_of z_tip ++ shape_of r_tip ++ shape_of L_tip ++ shape_of g_factor
  ++ shape_of d_Q0 ++ shape_of d_Q1.
Definition pdm_inverse_operands (alpha_eff_n : arr CV) (A_tip : arr R) (n : arr Z) (z_tip r_tip : option (arr R))
    (eps_tip alpha_tip : option (arr C)) : list (list nat) :=
  [shp alpha_eff_n; shp A_tip; shp n] ++ shape_of z_tip ++ shape_of r_tip ++ shape_of eps_tip ++ shape_of alpha_tip.
(** the environment, if given as an array, does not broadcast the other arguments *)
Definition env_fits (eps_env : option (arr C)) (ss : list (list nat)) : Prop :=
  forall S s, joint ss S -> In s (shape_of eps_env) -> fits s S.
