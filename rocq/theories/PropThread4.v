(** * Properties (generated by tools/gen_prop.py from ProofsThread4.v; statements
    only, each proved there) *)
From Coq Require Import String Reals Lra Lia ZArith List Bool.
From Coquelicot Require Import Complex.
From Verif Require Import Num NumLemmas ModelBase ModelSample ModelTip NArr ModelObj ModelArr ModelArrTip ModelInv ModelCache ModelThread SpecThread ModelThreadInv SpecThreadInv ProofsThread.
Import ListNotations.
Open Scope R_scope.
From Verif Require Import ProofsThread4.

(** C93. The root-finding inverses, for array arguments and whatever the solver and
    the sorts do: under any schedule the result is that of a state of the defaults
    every attribute of which was current at some instant of the call. *)
Theorem C93_roots_assembled :
  forall eig_roots argsort_bool argsort_real (sched : nat -> Defaults) (c : rcall) (i : nat),
  let j := snd (roots_threaded eig_roots argsort_bool argsort_real sched c i) in
  exists D, assembled sched i j D /\
    fst (roots_threaded eig_roots argsort_bool argsort_real sched c i) = roots_alone eig_roots argsort_bool argsort_real D c.
Proof. exact C93_roots_assembled_proof. Qed.
Print Assumptions C93_roots_assembled.

(** C93. Undisturbed calls, and one assignment to one attribute: the result is that
    from before it or that from after it. *)
Theorem C93_roots_one_assignment :
  forall eig_roots argsort_bool argsort_real (sched : nat -> Defaults) (c : rcall) (i : nat) (D1 D2 : Defaults),
  one_attribute D1 D2 ->
  (forall k, (i <= k <= snd (roots_threaded eig_roots argsort_bool argsort_real sched c i))%nat -> sched k = D1 \/ sched k = D2) ->
  fst (roots_threaded eig_roots argsort_bool argsort_real sched c i) = roots_alone eig_roots argsort_bool argsort_real D1 c \/
  fst (roots_threaded eig_roots argsort_bool argsort_real sched c i) = roots_alone eig_roots argsort_bool argsort_real D2 c.
Proof. exact C93_roots_one_assignment_proof. Qed.
Print Assumptions C93_roots_one_assignment.

(** C93. Calls with all arguments given do not depend on the defaults at all. *)
Theorem C93_roots_explicit :
  forall eig_roots argsort_bool argsort_real (sched : nat -> Defaults) (c : rcall) (i : nat) (D : Defaults),
  roots_given c = true ->
  fst (roots_threaded eig_roots argsort_bool argsort_real sched c i) = roots_alone eig_roots argsort_bool argsort_real D c.
Proof. exact C93_roots_explicit_proof. Qed.
Print Assumptions C93_roots_explicit.

(** C93, example: the threshold is read before the environment. If both are changed
    between the two reads the call uses the old threshold with the new environment,
    a state that never existed. *)
Example C93_roots_example :
  forall eig_roots argsort_bool argsort_real (D : Defaults) (alpha_eff_n : arr CV) (A_tip : arr R) (n : arr Z) (z r : R),
  let with_ b e := mkDefaults e (d_z_tip D) (d_r_tip D) (d_L_tip D) (d_g_factor D) (d_d_Q1 D) (d_d_Qa D) (d_n_trapz D) (d_n_lag D) (d_n_tayl D) b in
  let sched k := match k with O => with_ 2 (RtoC 1) | S _ => with_ 1 (RtoC 3) end in
  let c := RPdm alpha_eff_n A_tip n (Some (scalar z)) (Some (scalar r)) None None (Some 32%nat) (Some 16%nat) None true true None in
  A_tip = scalar 1 ->
  fst (roots_threaded eig_roots argsort_bool argsort_real sched c 0%nat) = roots_alone eig_roots argsort_bool argsort_real (with_ 2 (RtoC 3)) c /\
  snd (roots_threaded eig_roots argsort_bool argsort_real sched c 0%nat) = 2%nat.
Proof. exact C93_roots_example_proof. Qed.
