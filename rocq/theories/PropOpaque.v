(** * Properties (generated by tools/gen_prop.py from ProofsOpaque.v; statements
    only, each proved there) *)
From Coq Require Import String Reals Lra Lia ZArith List Bool.
From Coquelicot Require Import Rcomplements Complex.
From Verif Require Import Num NumLemmas ModelBase ModelSample ModelTip StackLemmas Spec
  ProofsStackQS ProofsStackQS2 ProofsStackFF ProofsStackFF2.
Import ListNotations.
Open Scope R_scope.
From Verif Require Import ProofsOpaque.

(** C67. A layer whose normal wavevector has a positive imaginary part
    (absorption, or total internal reflection) hides everything below it: as
    its thickness grows, the reflection coefficient tends to that of the stack
    cut off at this layer, and transmission tends to zero, both
    exponentially. *)
Theorem C67_opaque_layer_hides :
  forall (p : bool) (a : C * C) (top : list (C * C)) (l : C * C) (below : list (C * C))
         (ts1 ts2 : list R) nu0 (nu q : R) (r_cut r_below : C),
  Forall (fun x => is_kz nu q (fst x) (snd x) /\ principal (snd x)) (a :: top ++ l :: below) ->
  0 < Im (snd l) ->
  parratt (if p then fresnel_p else fresnel_s) ff_round (a :: top ++ [l]) ts1 r_cut ->
  parratt (if p then fresnel_p else fresnel_s) ff_round (l :: below) ts2 r_below ->
  exists K T, forall t, T <= t -> exists r tr,
    let s := stack (map fst (a :: top ++ l :: below)) (ts1 ++ t :: ts2) nu0 in
    refl_coef s (Some q) None (Some nu) (pol p) = Ok (Some r) /\
    Cmod (r - r_cut)%C <= K * exp (- (2 * Im (snd l)) * t) /\
    trans_coef s (Some q) None (Some nu) (pol p) = Ok (Some tr) /\
    Cmod tr <= K * exp (- Im (snd l) * t).
Proof. exact C67_opaque_layer_hides_proof. Qed.
Print Assumptions C67_opaque_layer_hides.

(** C67. A transparent layer never hides what is below it, however thick: the
    reflection coefficient is periodic in its thickness with period half a
    wavelength, pi / k, and the transmission coefficient changes sign. *)
Theorem C67_transparent_layer_periodic :
  forall (p : bool) (a : C * C) (top : list (C * C)) (l : C * C) (below : list (C * C))
         (ts1 ts2 : list R) nu0 (nu q t k : R),
  wf (a :: top ++ [l]) ts1 -> wf (l :: below) ts2 ->
  Forall (fun x => is_kz nu q (fst x) (snd x) /\ principal (snd x)) (a :: top ++ l :: below) ->
  Forall (fun x => snd x <> RtoC 0 /\ (p = true -> fst x <> RtoC 0)) (a :: top ++ l :: below) ->
  snd l = RtoC k ->
  let s u := stack (map fst (a :: top ++ l :: below)) (ts1 ++ u :: ts2) nu0 in
  refl_coef (s (t + PI / k)) (Some q) None (Some nu) (pol p)
  = refl_coef (s t) (Some q) None (Some nu) (pol p) /\
  trans_coef (s (t + PI / k)) (Some q) None (Some nu) (pol p)
  = map_res (fun x => match x with Some z => Some (- z)%C | None => None end)
            (trans_coef (s t) (Some q) None (Some nu) (pol p)).
Proof. exact C67_transparent_layer_periodic_proof. Qed.
Print Assumptions C67_transparent_layer_periodic.

(** example: light at normal incidence on an absorbing film (permittivity
    3 + 4i, wavevector 2 + i) on a substrate of permittivity 4; the cut-off
    stack is the interface vacuum / film *)
Example C67_example :
  exists K T, forall t, T <= t -> exists r tr,
    let s := stack [RtoC 1; (3, 4)%R; RtoC 4] [t] None in
    refl_coef s (Some 0) None (Some 1) "s" = Ok (Some r) /\
    Cmod (r - (-1, -1)%R / (3, 1)%R)%C <= K * exp (- (2 * 1) * t) /\
    trans_coef s (Some 0) None (Some 1) "s" = Ok (Some tr) /\
    Cmod tr <= K * exp (- 1 * t).
Proof. exact C67_example_proof. Qed.

(** example: a film of wavevector 2 between wavevectors 1 and 3 *)
Example C67_periodic_example : forall t,
  refl_coef (stack [RtoC 1; RtoC 4; RtoC 9] [t + PI / 2] None) (Some 0) None (Some 1) "p"
  = refl_coef (stack [RtoC 1; RtoC 4; RtoC 9] [t] None) (Some 0) None (Some 1) "p".
Proof. exact C67_periodic_example_proof. Qed.
