(** * Properties (generated by tools/gen_prop.py from ProofsObj2.v; statements
    only, each proved there) *)
From Coq Require Import String Reals Lra Lia ZArith List Bool.
From Coquelicot Require Import Rcomplements Complex.
From Verif Require Import Num NumLemmas ModelBase ModelSample NArr SpecArr NArrLemmas ModelObj ModelArr
  SpecObj ArrSample ProofsArr ProofsArr2 ProofsObj.
Import ListNotations.
Open Scope R_scope.
From Verif Require Import ProofsObj2.

(** C03: after any history, an assignment to [t_stack] or [eps_stack] that
    raises either could not broadcast its value and left the object as it was,
    or has stored the value and left an inconsistent object; an assignment to
    [beta_stack] that raises left the object as it was or stored permittivities
    that make it inconsistent. *)
Theorem C03_failed_assignment : forall D eps beta t env nu o o1 a o2 e,
  init D eps beta t env nu = Ok o -> any_history o o1 -> run a o1 = (o2, Raise e) ->
  match a with
  | SetT v =>
      (~ compatible (map shp (given v)) /\ e = ValueError msg_broadcast /\ o2 = o1) \/
      (compatible (map shp (given v)) /\ e = ValueError msg_layers /\ ~ consistent o2 /\
       o_eps o2 = o_eps o1 /\ o_nu o2 = o_nu o1 /\
       forall i, t_stack (sample_at o2 i) = map (fun x => entry x i) (given v))
  | SetEps v =>
      (~ compatible (map shp v) /\ e = ValueError msg_broadcast /\ o2 = o1) \/
      (compatible (map shp v) /\ e = ValueError msg_layers /\ ~ consistent o2 /\
       o_t o2 = o_t o1 /\ o_nu o2 = o_nu o1 /\
       forall i, eps_stack (sample_at o2 i) = map (fun x => entry x i) v)
  | SetBeta v =>
      o2 = o1 \/
      (compatible (map shp v) /\ e = ValueError msg_layers /\ ~ consistent o2 /\
       o_t o2 = o_t o1 /\ o_nu o2 = o_nu o1 /\
       forall i, length (eps_stack (sample_at o2 i)) = (length v + 1)%nat)
  | SetNu _ => False
  end.
Proof. exact C03_failed_assignment_proof. Qed.
Print Assumptions C03_failed_assignment.

(** C03: consistency comes back with the next assignment to one of the stacks
    whose length matches the other one. *)
Theorem C03_restored : forall D eps beta t env nu o o1,
  init D eps beta t env nu = Ok o -> any_history o o1 ->
  (forall v, compatible (map shp v) -> (forall i, length v = length (t_stack (sample_at o1 i)) + 2)%nat ->
     exists o2, run (SetEps v) o1 = (o2, Ok tt) /\ consistent o2) /\
  (forall v, compatible (map shp (given v)) ->
     (forall i, length (given v) + 2 = length (eps_stack (sample_at o1 i)))%nat ->
     exists o2, run (SetT v) o1 = (o2, Ok tt) /\ consistent o2).
Proof. exact C03_restored_proof. Qed.
Print Assumptions C03_restored.

(** C03: on an inconsistent object the quasistatic coefficients are those of
    the stack cut off after as many inner layers as both stacks have. *)
Theorem C03_truncated_stack : forall o e t q, o_eps o = Some e -> o_t o = Some t ->
  (2 <= length (lay e))%nat -> ((2 < length (lay e))%nat -> lay t <> []) ->
  let k := Nat.min (length (lay e) - 2) (length (lay t)) in
  let o' := mkObj (Some (first_layers k t)) (Some (first_layers (k + 2) e)) (o_env o) (o_nu o) in
  consistent o' /\
  refl_coef_qs_a o q = refl_coef_qs_a o' q /\ trans_coef_qs_a o q = trans_coef_qs_a o' q.
Proof. exact C03_truncated_stack_proof. Qed.
Print Assumptions C03_truncated_stack.

(** C03: with three or more permittivities and no thickness the momentum does
    not enter at all, not even its shape. *)
Theorem C03_momentum_ignored : forall o e t q q', o_eps o = Some e -> o_t o = Some t ->
  (2 < length (lay e))%nat -> lay t = [] ->
  refl_coef_qs_a o q = refl_coef_qs_a o q' /\ exists r, refl_coef_qs_a o q = Ok r /\ shp r = lsh e.
Proof. exact C03_momentum_ignored_proof. Qed.
Print Assumptions C03_momentum_ignored.

(** C03, concrete case: giving a film two thicknesses raises, and stores them;
    taking its thickness away raises, and leaves a film that behaves as if the
    film filled the lower half space. *)
Example C03_example :
  exists o o1 o2, init defaults0 (Some [scalar (rc 1); scalar (rc 2); scalar (rc 3)]) None
               (Some [scalar 1]) None None = Ok o /\
    run (SetT (Some [scalar 4; scalar 5])) o = (o1, Raise (ValueError msg_layers)) /\
    t_stack (sample_at o1 []) = [4; 5] /\
    run (SetT None) o = (o2, Raise (ValueError msg_layers)) /\
    (forall q, exists r, refl_coef_qs_a o2 q = Ok r /\ entry r [] = rc (1 / 3)).
Proof. exact C03_example_proof. Qed.
