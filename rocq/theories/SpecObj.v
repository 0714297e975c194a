(** * What array-valued [Sample] objects stand for *)
From Coq Require Import String Reals List Arith Lia.
From Coquelicot Require Import Complex.
From Verif Require Import Num ModelBase ModelSample NArr SpecArr ModelObj.
Import ListNotations.
Open Scope nat_scope.

(** One thickness per inner layer.  (With no inner layer there is no thickness
    array to have a shape.) *)
Definition consistent (o : obj) : Prop :=
  exists e t, o_eps o = Some e /\ o_t o = Some t /\
    length (lay e) = length (lay t) + 2 /\ (lay t = [] -> lsh t = []).

(** The single sample an array-valued object has at index [i] of the joint
    shape of its layers and the arguments of a call. *)
Definition sample_at (o : obj) (i : list nat) : sample :=
  mkSample (match o_eps o with Some e => map (fun a => entry a i) (slices e) | None => [] end)
           (match o_t o with Some t => map (fun a => entry a i) (slices t) | None => [] end)
           (match o_nu o with Some a => Some (entry a i) | None => None end).

(** the shapes of the layers *)
Definition eps_shape (o : obj) : list nat := match o_eps o with Some e => lsh e | None => [] end.
Definition t_shape (o : obj) : list nat := match o_t o with Some t => lsh t | None => [] end.

(** optional array arguments *)
Definition at_index {A} (o : option (arr A)) (i : list nat) : option A :=
  match o with Some a => Some (entry a i) | None => None end.
Definition shape_of {A} (o : option (arr A)) : list (list nat) :=
  match o with Some a => [shp a] | None => [] end.
(** the shapes that enter a far-field call: the wavenumber stored in the object
    only counts if none is passed *)
Definition far_shapes (o : obj) (q theta_in nu : option (arr R)) : list (list nat) :=
  [eps_shape o; t_shape o] ++ shape_of q ++ shape_of theta_in
  ++ match nu with Some v => [shp v] | None => shape_of (o_nu o) end.
(** the calls that are documented to be meaningful *)
Definition far_call (o : obj) (q theta_in nu : option (arr R)) (pol : string) : Prop :=
  (q = None \/ theta_in = None) /\
  (nu <> None \/ o_nu o <> None \/ exists t, o_t o = Some t /\ lay t = []) /\
  (pol = "p"%string \/ pol = "s"%string).

(** ** Life cycle *)
(** the thicknesses an optional argument stands for *)
Definition given {A} (o : option (list A)) : list A := match o with Some l => l | None => [] end.
(** [o'] is reached from [o] by assignments that all return normally *)
Inductive normal_history (o : obj) : obj -> Prop :=
| nh_start : normal_history o o
| nh_step a o1 o2 : normal_history o o1 -> run a o1 = (o2, Ok tt) -> normal_history o o2.
(** ... by any assignments, whose exceptions are caught *)
Inductive any_history (o : obj) : obj -> Prop :=
| ah_start : any_history o o
| ah_step a o1 : any_history o o1 -> any_history o (fst (run a o1)).
(** the first [n] layers of an array *)
Definition first_layers {A} (n : nat) (l : layers A) : layers A :=
  mkLayers (match n with O => [] | _ => lsh l end) (firstn n (lay l)).

(** ** Tip models *)
Definition many_layers (o : obj) : bool :=
  match o_eps o with Some e => Nat.ltb 2 (length (lay e)) | None => false end.
(** the method that a call without one selects: ["bulk"] for two layers *)
Definition method_of (o : obj) (for_many : string) (method : option string) : string :=
  match method with
  | Some m => m
  | None => if many_layers o then for_many else "bulk"%string
  end.
(** the calls of the finite dipole model that are documented to be meaningful:
    a known method, ["bulk"] for two layers only, and a quadrature rule of at
    least one node for the others *)
Definition fdm_call (o : obj) (methods : list string) (m : string) (n_lag : nat) : Prop :=
  (m = "bulk"%string /\ many_layers o = false) \/
  (m <> "bulk"%string /\ In m methods /\ n_lag <> O).
(** the shapes that enter: the height of the representative charge only with
    method ["Q_ave"] *)
Definition fdm_shapes (o : obj) (m : string) (z r L : option (arr R)) (g : option (arr C))
    (d_Q0 d_Q1 d_Qa : option (arr R)) : list (list nat) :=
  [eps_shape o; t_shape o] ++ shape_of z ++ shape_of r ++ shape_of L ++ shape_of g
  ++ shape_of d_Q0 ++ shape_of d_Q1 ++ (if String.eqb m "Q_ave" then shape_of d_Qa else []).
