(** * Properties (generated by tools/gen_prop.py from ProofsObj4.v; statements
    only, each proved there) *)
From Coq Require Import String Reals Lra Lia ZArith List Bool.
From Coquelicot Require Import Rcomplements Complex.
From Verif Require Import Num NumLemmas ModelBase ModelSample NArr SpecArr NArrLemmas ModelObj ModelArr
  SpecObj ArrSample ProofsArr ProofsArr2 ProofsObj ProofsObj2 ProofsObj3 Spec StackLemmas ProofsStackQS.
Import ListNotations.
Open Scope R_scope.
From Verif Require Import ProofsObj4.

(** C06: rebuilding any consistent sample from its own [beta_stack] with an
    environment [e] is accepted; the permittivities are multiplied by
    e / eps_stack[0], the thicknesses stay, and the quasistatic reflection
    coefficient is the same at every momentum.  (At every index at which the
    permittivities are finite, non-zero and no two adjacent ones cancel.) *)
Theorem C06_rebuilt : forall D o e t nu, consistent o -> o_t o = Some t -> e <> RtoC 0 ->
  exists bl o', get_beta o = Ok bl /\
  init D None (Some (slices bl)) (Some (slices t)) (Some (scalar (Some e))) nu = Ok o' /\
  forall i (a : C) es, eps_stack (sample_at o i) = map Some (a :: es) ->
    Forall (fun x => x <> RtoC 0) (a :: es) ->
    (forall k, (k + 1 < length (a :: es))%nat -> (nth k (a :: es) (RtoC 0) + nth (k + 1) (a :: es) (RtoC 0))%C <> RtoC 0) ->
    eps_stack (sample_at o' i) = map (fun x => Some (x * e / a)%C) (a :: es) /\
    t_stack (sample_at o' i) = t_stack (sample_at o i) /\
    forall q, refl_coef_qs (sample_at o' i) q = refl_coef_qs (sample_at o i) q.
Proof. exact C06_rebuilt_proof. Qed.
Print Assumptions C06_rebuilt.

(** C06, concrete case: a film on a substrate. *)
Example C06_example :
  exists o, init defaults0 (Some [scalar (rc 1); scalar (rc 2); scalar (rc 3)]) None (Some [scalar 1]) None None = Ok o /\
    consistent o /\ eps_stack (sample_at o []) = map Some [RtoC 1; RtoC 2; RtoC 3].
Proof. exact C06_example_proof. Qed.

(** C51: a bulk sample given by its permittivity: environment over substrate,
    at every index, without thickness. *)
Theorem C51_permittivity : forall D sub env nu, compatible [shp env; shp sub] ->
  exists o, bulk_sample D (Some sub) None (Some env) None nu = Ok o /\
    get_multilayer o = Ok false /\ o_nu o = nu /\ joint [shp env; shp sub] (eps_shape o) /\
    forall i, eps_stack (sample_at o i) = [entry env i; entry sub i] /\ t_stack (sample_at o i) = [].
Proof. exact C51_permittivity_proof. Qed.
Print Assumptions C51_permittivity.

(** C51: a bulk sample given by its reflection coefficient (finite entries, not
    1), over an environment that is a number or has the axes of the
    coefficient; the reflection coefficient comes back if it is not -1 and the
    environment is not zero. *)
Theorem C51_coefficient : forall D beta env nu,
  match env with Some a => fits (shp a) (shp beta) | None => True end ->
  exists o, bulk_sample D None (Some beta) env None nu = Ok o /\
    get_multilayer o = Ok false /\ o_nu o = nu /\ eps_shape o = shp beta /\
    forall i (b e : C), entry beta i = Some b -> b <> RtoC 1 ->
      match env with Some a => entry a i = Some e | None => e = d_eps_env D end ->
      eps_stack (sample_at o i) = [Some e; Some (e * (1 + b) / (1 - b))%C] /\
      t_stack (sample_at o i) = [] /\
      (b <> RtoC (-1) -> e <> RtoC 0 -> forall q, refl_coef_qs (sample_at o i) q = Ok (Some b)).
Proof. exact C51_coefficient_proof. Qed.
Print Assumptions C51_coefficient.

(** C51: giving both or neither is a ValueError, and so are thicknesses. *)
Theorem C51_rejected : forall D sub beta env t nu,
  (sub = None <-> beta = None) \/ given t <> [] ->
  exists m, bulk_sample D sub beta env t nu = Raise (ValueError m).
Proof. exact C51_rejected_proof. Qed.
Print Assumptions C51_rejected.

(** C51, concrete case: a substrate of reflection coefficient 1/2 has
    permittivity 3. *)
Example C51_example :
  exists o, bulk_sample defaults0 None (Some (scalar (rc (1 / 2)))) None None None = Ok o /\
    eps_stack (sample_at o []) = [rc 1; rc 3].
Proof. exact C51_example_proof. Qed.
