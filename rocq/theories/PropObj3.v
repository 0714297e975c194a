(** * Properties (generated by tools/gen_prop.py from ProofsObj3.v; statements
    only, each proved there) *)
From Coq Require Import String Reals Lra Lia ZArith List Bool.
From Coquelicot Require Import Rcomplements Complex.
From Verif Require Import Num NumLemmas ModelBase ModelSample NArr SpecArr NArrLemmas ModelObj ModelArr
  SpecObj ArrSample ProofsArr ProofsArr2 ProofsObj ProofsObj2.
Import ListNotations.
Open Scope R_scope.
From Verif Require Import ProofsObj3.

(** C49: the permittivities the constructor computes from [beta_stack]: layer
    [k] is the product of the factors above it with the entry of the
    environment at the layer's own number on the first axis of the stack. *)
Theorem C49_environment_axis : forall D bs t env nu o S, 
  init D None (Some bs) t (Some env) nu = Ok o -> joint (map shp bs) S ->
  forall i k, index_of S i -> (k <= length bs)%nat ->
  nth k (eps_stack (sample_at o i)) None =
  (nth k (rc 1 :: cumprod_from (rc 1) (map (fun b => permitivitty (entry b i) (rc 1)) bs)) None
   * entry env (i ++ [k]))%cv.
Proof. exact C49_environment_axis_proof. Qed.
Print Assumptions C49_environment_axis.

(** C49: with an environment that has no more axes than the layers, the sample
    at index [i] is the one constructed from the entries at [i]. *)
Theorem C49_aligned : forall D bs t env nu o S,
  init D None (Some bs) t (Some env) nu = Ok o -> joint (map shp bs) S ->
  (length (shp env) <= length S)%nat ->
  forall i, exists oi,
    init D None (Some (map (fun b => scalar (entry b i)) bs)) (Some (map (fun x => scalar (entry x i)) (given t)))
      (Some (scalar (entry env i))) (match nu with Some v => Some (scalar (entry v i)) | None => None end) = Ok oi /\
    sample_at oi [] = sample_at o i.
Proof. exact C49_aligned_proof. Qed.
Print Assumptions C49_aligned.

(** C49, refuting case: [bulk_sample(beta=b, eps_env=[e0, e1])] is one sample,
    with environment e0 and substrate e1 (1+b)/(1-b), not two. *)
Theorem C49_two_environments_refuted : forall D (b e0 e1 : C), b <> RtoC 1 ->
  exists o, bulk_sample D None (Some (scalar (Some b))) (Some (pair_array (Some e0) (Some e1))) None None = Ok o /\
    eps_shape o = [] /\
    eps_stack (sample_at o []) = [Some e0; Some (e1 * ((1 + b) / (1 - b)))%C].
Proof. exact C49_two_environments_refuted_proof. Qed.
Print Assumptions C49_two_environments_refuted.

(** C49, concrete case: an array-valued environment that is aligned. *)
Example C49_example :
  exists o, init defaults0 None (Some [pair_array (rc (1 / 3)) (rc (1 / 2))]) None
              (Some (pair_array (rc 1) (rc 2))) None = Ok o.
Proof. exact C49_example_proof. Qed.

(** C05: assigning reflection coefficients other than 1 and -1 over a non-zero
    environment computes the permittivities interface by interface, and reading
    [beta_stack] gives the coefficients back; at every index of the arrays. *)
Theorem C05_round_trip : forall D bs t env nu o S i (cs : list C) (e : C),
  init D None (Some bs) t env nu = Ok o -> joint (map shp bs) S ->
  match env with Some a => (length (shp a) <= length S)%nat /\ entry a i = Some e | None => e = d_eps_env D end ->
  map (fun b => entry b i) bs = map Some cs ->
  e <> RtoC 0 -> Forall (fun c => c <> RtoC 1 /\ c <> RtoC (-1)) cs ->
  (exists es, eps_stack (sample_at o i) = map Some es /\ length es = (length cs + 1)%nat /\ nth 0 es 0 = e /\
     forall k, (k < length cs)%nat -> nth (k + 1) es 0 = (nth k es 0 * (1 + nth k cs 0) / (1 - nth k cs 0))%C) /\
  (exists bl, get_beta o = Ok bl /\ lsh bl = S /\ map (fun a => entry a i) (slices bl) = map Some cs).
Proof. exact C05_round_trip_proof. Qed.
Print Assumptions C05_round_trip.

(** C05: the same for an assignment [sample.beta_stack = bs] to an object whose
    current environment has the shape of the new layers. *)
Theorem C05_assignment_round_trip : forall o bs o' i (cs : list C) (e : C),
  consistent o -> run (SetBeta bs) o = (o', Ok tt) -> joint (map shp bs) (eps_shape o) ->
  hd None (eps_stack (sample_at o i)) = Some e ->
  map (fun b => entry b i) bs = map Some cs ->
  e <> RtoC 0 -> Forall (fun c => c <> RtoC 1 /\ c <> RtoC (-1)) cs ->
  t_stack (sample_at o' i) = t_stack (sample_at o i) /\
  (exists es, eps_stack (sample_at o' i) = map Some es /\ length es = (length cs + 1)%nat /\ nth 0 es 0 = e /\
     forall k, (k < length cs)%nat -> nth (k + 1) es 0 = (nth k es 0 * (1 + nth k cs 0) / (1 - nth k cs 0))%C) /\
  (exists bl, get_beta o' = Ok bl /\ map (fun a => entry a i) (slices bl) = map Some cs).
Proof. exact C05_assignment_round_trip_proof. Qed.
Print Assumptions C05_assignment_round_trip.

(** C05, concrete case: two interfaces. *)
Example C05_example :
  exists o, init defaults0 None (Some [scalar (rc (1 / 3)); scalar (rc (1 / 5))]) (Some [scalar 1]) None None = Ok o /\
    Forall (fun c => c <> RtoC 1 /\ c <> RtoC (-1)) [RtoC (1 / 3); RtoC (1 / 5)].
Proof. exact C05_example_proof. Qed.
