(** * Properties (generated by tools/gen_prop.py from ProofsObj.v; statements
    only, each proved there) *)
From Coq Require Import String Reals Lra Lia ZArith List Bool.
From Coquelicot Require Import Rcomplements Complex.
From Verif Require Import Num NumLemmas ModelBase ModelSample NArr SpecArr NArrLemmas ModelObj ModelArr
  SpecObj ArrSample ProofsArr ProofsArr2.
Import ListNotations.
Open Scope R_scope.
From Verif Require Import ProofsObj.

(** C01: which calls of the constructor return. *)
Theorem C01_accepted_calls : forall D eps beta t env nu,
  (exists o, init D eps beta t env nu = Ok o) <->
  compatible (map shp (given t)) /\
  ((exists es, eps = Some es /\ beta = None /\
      compatible (map shp es) /\ length es = (length (given t) + 2)%nat) \/
   (exists bs S, eps = None /\ beta = Some bs /\
      joint (map shp bs) S /\ length bs = (length (given t) + 1)%nat /\
      fits (match env with Some a => shp a | None => [] end) (S ++ [length bs + 1])%nat)).
Proof. exact C01_accepted_calls_proof. Qed.
Print Assumptions C01_accepted_calls.

(** C01: every other call raises a ValueError; in particular with both or
    neither of the two stacks. *)
Theorem C01_rejected_calls : forall D eps beta t env nu,
  (forall e, init D eps beta t env nu = Raise e -> exists m, e = ValueError m) /\
  ((eps = None <-> beta = None) -> init D eps beta t env nu = Raise (ValueError msg_stack_args)).
Proof. exact C01_rejected_calls_proof. Qed.
Print Assumptions C01_rejected_calls.

(** C01: what a constructed object looks like. *)
Theorem C01_constructed : forall D eps beta t env nu o, init D eps beta t env nu = Ok o ->
  consistent o /\
  get_n_layers o = Ok (length (given t) + 2)%nat /\
  (get_multilayer o = Ok true <-> given t <> []) /\ (get_multilayer o = Ok false <-> given t = []) /\
  o_nu o = nu /\
  (forall i, t_stack (sample_at o i) = map (fun a => entry a i) (given t)) /\
  exists e0 rest, o_eps o = Some (mkLayers (eps_shape o) (e0 :: rest)) /\
                  get_eps_env o = Ok (mkArr (eps_shape o) e0).
Proof. exact C01_constructed_proof. Qed.
Print Assumptions C01_constructed.

(** C01, concrete case: a film on a substrate is accepted, a missing thickness
    rejected. *)
Example C01_example :
  (exists o, init defaults0 (Some [scalar (rc 1); scalar (rc 2); scalar (rc 3)]) None
               (Some [scalar 1]) None None = Ok o) /\
  ~ (exists o, init defaults0 (Some [scalar (rc 1); scalar (rc 2); scalar (rc 3)]) None None None None = Ok o).
Proof. exact C01_example_proof. Qed.

(** C02: objects stay consistent, with the number of layers they were built
    with, as long as no assignment raises. *)
Theorem C02_history_consistent : forall D eps beta t env nu o o',
  init D eps beta t env nu = Ok o -> normal_history o o' ->
  consistent o' /\ get_n_layers o' = get_n_layers o /\
  forall i, length (eps_stack (sample_at o' i)) = (length (t_stack (sample_at o' i)) + 2)%nat.
Proof. exact C02_history_consistent_proof. Qed.
Print Assumptions C02_history_consistent.

(** C02: whatever failed before, an assignment to one of the stacks that
    returns normally leaves a consistent object. *)
Theorem C02_normal_return_consistent : forall D eps beta t env nu o o1 a o2,
  init D eps beta t env nu = Ok o -> any_history o o1 ->
  run a o1 = (o2, Ok tt) -> (forall v, a <> SetNu v) -> consistent o2.
Proof. exact C02_normal_return_consistent_proof. Qed.
Print Assumptions C02_normal_return_consistent.

(** C02, concrete case: a film's permittivities, thickness and wavenumber are
    changed, one after the other. *)
Example C02_example :
  exists o o', init defaults0 (Some [scalar (rc 1); scalar (rc 2); scalar (rc 3)]) None
               (Some [scalar 1]) None None = Ok o /\
    normal_history o o' /\ t_stack (sample_at o' []) = [5] /\
    eps_stack (sample_at o' []) = [rc 1; rc 7; rc 3] /\ nu_vac (sample_at o' []) = Some 10.
Proof. exact C02_example_proof. Qed.
