(** * Properties (generated by tools/gen_prop.py from ProofsHeap.v; statements
    only, each proved there) *)
From Coq Require Import String Reals Lra Lia ZArith List Bool Arith.
From Coquelicot Require Import Rcomplements Complex.
From Verif Require Import Num NumLemmas ModelBase ModelSample NArr SpecArr ModelObj SpecObj ProofsObj ModelHeap SpecHeap.
Import ListNotations.
Open Scope nat_scope.
From Verif Require Import ProofsHeap.

(** C81.  A sample keeps its own data: whatever a program does with its arrays
    and with other samples, as long as it does not write to the arrays that are
    this sample's attributes, the sample is what the assignments to its own
    attributes make of it. *)
Theorem C81_value_semantics : forall D p st k o,
  reachable D st -> legal D p st -> never_writes_to D k p st -> value_of st k = Some o ->
  exists o', value_of (exec D p st) k = Some o' /\ same_sample o' (run_all (assignments D k p st) o).
Proof. exact C81_value_semantics_proof. Qed.
Print Assumptions C81_value_semantics.

(** C81.  An assignment in memory returns or raises exactly as the assignment of
    the values. *)
Theorem C81_results : forall D s st k o a,
  reachable D st -> legal D [s] st -> value_of st k = Some o -> assignment k s (mem st) = [a] ->
  snd (step D s st) = snd (run a o).
Proof. exact C81_results_proof. Qed.
Print Assumptions C81_results.

(** C81.  A constructor call makes the sample that the contents of its arguments
    describe, in arrays that did not exist before, or raises what the values make
    it raise and leaves no sample. *)
Theorem C81_constructed : forall D e b t env nu st,
  legal D [Make e b t env nu] st ->
  let read := read_c (mem st) in let read_real := read_r (mem st) in
  match init D (option_map (map read) e) (option_map (map read) b) (option_map (map read_real) t)
          (option_map read env) (option_map read_real nu) with
  | Ok a => snd (step D (Make e b t env nu) st) = Ok tt /\
            exists o, value_of (fst (step D (Make e b t env nu) st)) (length (objs st)) = Some o /\
                      same_sample o a /\ consistent o /\
                      forall c, In c (buffers (fst (step D (Make e b t env nu) st)) (length (objs st))) ->
                                length (mem st) <= c
  | Raise x => snd (step D (Make e b t env nu) st) = Raise x /\
               objs (fst (step D (Make e b t env nu) st)) = objs st
  end.
Proof. exact C81_constructed_proof. Qed.
Print Assumptions C81_constructed.

(** C81.  No statement but a write changes the contents of an existing array:
    constructors and assignments leave their arguments alone, whether they return
    or raise. *)
Theorem C81_arguments_kept : forall D s st,
  reachable D st -> legal D [s] st ->
  (forall b i x, s <> WriteC b i x) -> (forall b i x, s <> WriteR b i x) ->
  forall b, b < length (mem st) -> nth_error (mem (fst (step D s st))) b = nth_error (mem st) b.
Proof. exact C81_arguments_kept_proof. Qed.
Print Assumptions C81_arguments_kept.

(** C81.  In programs that assign no array to [nu_vac] after construction: an
    array that is no attribute of any sample never becomes one, and two samples
    never share an array. *)
Theorem C81_separate : forall D p st,
  reachable D st -> legal D p st -> Forall plain p ->
  (forall b, b < length (mem st) -> (forall k, ~ In b (buffers st k)) ->
     forall k, ~ In b (buffers (exec D p st) k)) /\
  ((forall b k k', In b (buffers st k) -> In b (buffers st k') -> k = k') ->
   forall b k k', In b (buffers (exec D p st) k) -> In b (buffers (exec D p st) k') -> k = k').
Proof. exact C81_separate_proof. Qed.
Print Assumptions C81_separate.

(** C81.  Writing to the array that [eps_stack] (or [t_stack]) returns changes
    the written entry of the sample and nothing else. *)
Theorem C81_written_through : forall D st k o ho b j i,
  reachable D st -> value_of st k = Some o -> nth_error (objs st) k = Some ho ->
  (forall x e, h_eps ho = Some b -> o_eps o = Some e -> j < length (lay e) ->
     exists e' v, let o' := mkObj (o_t o) (Some e') v (o_nu o) in
       value_of (fst (step D (WriteC b (i ++ [j]) x) st)) k = Some o' /\
       eps_shape o' = eps_shape o /\ length (lay e') = length (lay e) /\
       forall j' i', j' < length (lay e) ->
         nth j' (lay e') (fun _ => None) i' =
           if Nat.eqb j' j then (if list_eq_dec Nat.eq_dec i' i then x else nth j' (lay e) (fun _ => None) i')
           else nth j' (lay e) (fun _ => None) i') /\
  (forall x t, h_t ho = Some b -> o_t o = Some t -> j < length (lay t) -> ~ In b (match h_nu ho with Some r => ref_buffer r | None => [] end) ->
     exists t' v, let o' := mkObj (Some t') (o_eps o) v (o_nu o) in
       value_of (fst (step D (WriteR b (i ++ [j]) x) st)) k = Some o' /\
       t_shape o' = t_shape o /\ length (lay t') = length (lay t) /\
       forall j' i', j' < length (lay t) ->
         nth j' (lay t') (fun _ => 0%R) i' =
           if Nat.eqb j' j then (if list_eq_dec Nat.eq_dec i' i then x else nth j' (lay t) (fun _ => 0%R) i')
           else nth j' (lay t) (fun _ => 0%R) i').
Proof. exact C81_written_through_proof. Qed.
Print Assumptions C81_written_through.

(** C81.  No program makes a sample inconsistent or changes its number of layers
    without seeing an exception, even one that writes to all arrays it can reach. *)
Theorem C81_consistent : forall D p st k o,
  reachable D st -> legal D p st -> assigns_normally D k p st -> value_of st k = Some o -> consistent o ->
  exists o', value_of (exec D p st) k = Some o' /\ consistent o' /\ get_n_layers o' = get_n_layers o.
Proof. exact C81_consistent_proof. Qed.
Print Assumptions C81_consistent.

(** C81.  Reading [beta_stack] makes an array that belongs to no sample: writing
    to it changes no sample. *)
Theorem C81_beta_written : forall D st k i x,
  reachable D st -> snd (step D (ReadBeta k) st) = Ok tt -> k < length (objs st) ->
  let st' := fst (step D (ReadBeta k) st) in
  length (mem st') = S (length (mem st)) /\
  forall k' o, value_of st k' = Some o ->
    exists o', value_of (fst (step D (WriteC (length (mem st)) i x) st')) k' = Some o' /\ same_sample o' o.
Proof. exact C81_beta_written_proof. Qed.
Print Assumptions C81_beta_written.

(** C81, refuted without the restriction to writes to other arrays: [nu_vac] is
    copied by the constructor but not by assignment.  After [s.nu_vac = a], a
    write to the program's own array [a] changes the sample, without assignment to
    it. *)
Theorem C81_nu_vac_shared_refuted :
  ~ (forall D p k o b i x, legal D p nothing -> value_of (exec D p nothing) k = Some o ->
       (exists a p1 p2, p = p1 ++ NewR a :: p2 /\ b = length (mem (exec D p1 nothing))) ->
       exists o', value_of (exec D (p ++ [WriteR b i x]) nothing) k = Some o' /\ same_sample o' o).
Proof. exact C81_nu_vac_shared_refuted_proof. Qed.
Print Assumptions C81_nu_vac_shared_refuted.

(** C81, concrete case: a sample made from an array, the array overwritten
    afterwards; a second sample made from the first one's [eps_stack], whose
    permittivity is then changed in place. *)
Example C81_example :
  let p := [NewC (scalar (rc 2)); Make (Some [NumC (rc 1); BufC 0]) None None None (Some (NumR 1000%R));
            WriteC 0 [] (rc 7);
            Make (Some [RowC 2 0; RowC 2 1]) None None None None;
            WriteC 2 [1] (rc 5)] in
  legal defaults0 p nothing /\ Forall plain p /\
  (exists o, value_of (exec defaults0 p nothing) 0 = Some o /\ eps_stack (sample_at o []) = [rc 1; rc 5] /\
             nu_vac (sample_at o []) = Some 1000%R) /\
  (exists o, value_of (exec defaults0 p nothing) 1 = Some o /\ eps_stack (sample_at o []) = [rc 1; rc 2]).
Proof. exact C81_example_proof. Qed.
