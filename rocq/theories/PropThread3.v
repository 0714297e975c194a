(** * Properties (generated by tools/gen_prop.py from ProofsThread3.v; statements
    only, each proved there) *)
From Coq Require Import String Reals Lra Lia ZArith List Bool.
From Coquelicot Require Import Rcomplements Complex.
From Verif Require Import Num NumLemmas ModelBase ModelSample ModelTip ModelCache ModelThread Spec SpecThread.
From Verif Require Import SpecThin SpecTip SpecQuad StackLemmas ProofsPassive ProofsQuad2 ProofsTip5 ProofsFilm ProofsNlag ProofsThin ProofsThin4 ProofsThread ProofsThread2.
Import ListNotations.
Open Scope R_scope.
From Verif Require Import ProofsThread3.

(** C93. Whatever other threads do to the defaults meanwhile, a call returns, or raises, what it would with some fixed
    defaults, each attribute of which was in force at some instant of the call; calls of the "multi" method that
    take the default [n_lag] need that attribute to stay. *)
Theorem C93_assembled :
  forall (rule : laggauss_t) (sched : nat -> Defaults) (c : tcall) (i : nat),
  let j := snd (threaded rule sched c i) in
  (reads_n_lag_twice c = true ->
   forall k k', (i <= k <= j)%nat -> (i <= k' <= j)%nat -> d_n_lag (sched k) = d_n_lag (sched k')) ->
  exists D, assembled sched i j D /\ fst (threaded rule sched c i) = alone rule D c.
Proof. exact C93_assembled_proof. Qed.
Print Assumptions C93_assembled.

(** C93. A call during which nothing is assigned is the call of the sequential model, for every method. *)
Theorem C93_undisturbed :
  forall (rule : laggauss_t) (sched : nat -> Defaults) (c : tcall) (i : nat) (D : Defaults),
  (forall k, (i <= k <= snd (threaded rule sched c i))%nat -> sched k = D) ->
  fst (threaded rule sched c i) = alone rule D c.
Proof. exact C93_undisturbed_proof. Qed.
Print Assumptions C93_undisturbed.

(** C93. One assignment to one attribute is atomic: the call gives the result from before it or the result from after it. *)
Theorem C93_one_assignment :
  forall (rule : laggauss_t) (sched : nat -> Defaults) (c : tcall) (i : nat) (D1 D2 : Defaults),
  one_attribute D1 D2 ->
  (reads_n_lag_twice c = true -> d_n_lag D1 = d_n_lag D2) ->
  (forall k, (i <= k <= snd (threaded rule sched c i))%nat -> sched k = D1 \/ sched k = D2) ->
  fst (threaded rule sched c i) = alone rule D1 c \/ fst (threaded rule sched c i) = alone rule D2 c.
Proof. exact C93_one_assignment_proof. Qed.
Print Assumptions C93_one_assignment.

(** C93. A call with every argument given cannot be disturbed at all. *)
Theorem C93_explicit_arguments :
  forall (rule : laggauss_t) (sched : nat -> Defaults) (c : tcall) (i : nat) (D : Defaults),
  all_given c = true -> fst (threaded rule sched c i) = alone rule D c.
Proof. exact C93_explicit_arguments_proof. Qed.
Print Assumptions C93_explicit_arguments.

(** C93. Two assignments are not atomic: while another thread lifts the tip and then makes it smaller, a call
    can use the old height with the new radius, and return what no state of the defaults gives, before, between or
    after the two assignments. *)
Theorem C93_torn_update_refuted :
  forall (rule : laggauss_t) (D : Defaults),
  let at_ z r := mkDefaults (d_eps_env D) z r (d_L_tip D) (d_g_factor D) (d_d_Q1 D) (d_d_Qa D) (d_n_trapz D) (d_n_lag D) (d_n_tayl D) (d_beta_threshold D) in
  let sched k := match k with O => at_ 0 2 | S _ => at_ 1 1 end in
  let c := TPdm (stack [RtoC 1; RtoC 3] [] None) None None None None in
  exists a : R,
  fst (threaded rule sched c 0%nat) = Ok (VC (Some (RtoC a))) /\
  forall z r, (z = 0 /\ r = 2) \/ (z = 1 /\ r = 2) \/ (z = 1 /\ r = 1) ->
  exists a', alone rule (at_ z r) c = Ok (VC (Some (RtoC a'))) /\ a' <> a.
Proof. exact C93_torn_update_refuted_proof. Qed.
Print Assumptions C93_torn_update_refuted.

(** C93. If the default [n_lag] is changed between the two reads of one call of the "multi" method, the two
    charges of the tip are treated with different rules, and the result is that of no [n_lag], neither the old nor the new. *)
Theorem C93_n_lag_torn_refuted :
  exists g : R, forall (rule : laggauss_t) (D : Defaults),
  rule 1%nat = [(1, 1)] -> rule 2%nat = [(2 - sqrt 2, (2 + sqrt 2) / 4); (2 + sqrt 2, (2 - sqrt 2) / 4)] ->
  let with_ n := mkDefaults (d_eps_env D) (d_z_tip D) (d_r_tip D) (d_L_tip D) (d_g_factor D) (d_d_Q1 D) (d_d_Qa D) (d_n_trapz D) n (d_n_tayl D) (d_beta_threshold D) in
  let sched k := match k with O => with_ 1%nat | S _ => with_ 2%nat end in
  let c := TFdm (stack [RtoC 1; RtoC 3; RtoC 5] [1] None) (Some 0) (Some 1) (Some 2) (Some (RtoC g)) (Some 1) (Some 1) (Some 1) None None in
  exists a : R,
  fst (threaded rule sched c 0%nat) = Ok (VC (Some (RtoC a))) /\
  forall n, n = 1%nat \/ n = 2%nat -> exists a', alone rule (with_ n) c = Ok (VC (Some (RtoC a'))) /\ a' <> a.
Proof. exact C93_n_lag_torn_refuted_proof. Qed.
Print Assumptions C93_n_lag_torn_refuted.

(** C93. A concrete call that meets the hypotheses: the radius is made smaller once while a call runs that has read the
    height but not yet the radius; it returns the result from after the assignment, which differs from the one before. *)
Example C93_one_assignment_example :
  forall (rule : laggauss_t) (D : Defaults),
  let at_ r := mkDefaults (d_eps_env D) 0 r (d_L_tip D) (d_g_factor D) (d_d_Q1 D) (d_d_Qa D) (d_n_trapz D) (d_n_lag D) (d_n_tayl D) (d_beta_threshold D) in
  let sched k := match k with O => at_ 2 | S _ => at_ 1 end in
  let c := TPdm (stack [RtoC 1; RtoC 3] [] None) None None None None in
  one_attribute (at_ 2) (at_ 1) /\ reads_n_lag_twice c = false /\
  (forall k, sched k = at_ 2 \/ sched k = at_ 1) /\
  fst (threaded rule sched c 0%nat) = alone rule (at_ 1) c /\
  alone rule (at_ 1) c = Ok (VC (Some (RtoC (32 / 7 * PI)))) /\
  alone rule (at_ 2) c = Ok (VC (Some (RtoC (256 / 7 * PI)))).
Proof. exact C93_one_assignment_example_proof. Qed.
