(** * What it means that caching the quadrature rule cannot be noticed *)
From Coq Require Import String Reals Lra Lia ZArith List Bool.
From Coquelicot Require Import Complex.
From Verif Require Import Num ModelBase ModelSample ModelTip ModelCache.
Import ListNotations.
Open Scope R_scope.

(** the [n_lag] argument of a call *)
Definition n_lag_argument (x : stmt) : option (option pyarg) :=
  match x with
  | SetDefaults _ | SetNLag _ => None
  | AboveSurf _ _ o | SurfPot _ _ o | ImageDepth _ _ o => Some o
  | EffPol _ _ _ _ _ _ _ _ o _ => Some o
  | EffPolN _ _ _ _ _ _ _ _ _ _ _ o _ => Some o
  | EffPolNTaylor _ _ _ _ _ _ _ _ _ _ o _ _ _ => Some o
  end.
(** the order a call asks for: its argument, or the default of the moment *)
Definition order_of (x : stmt) (st : session) : option pyarg :=
  match n_lag_argument x with
  | None => None
  | Some (Some v) => Some v
  | Some None => Some (s_n_lag st)
  end.
(** the same call in the model without cache (ModelSample.v, ModelTip.v), with [order] nodes *)
Definition uncached (rule : laggauss_t) (D : Defaults) (x : stmt) (order : nat) : res value :=
  match x with
  | SetDefaults _ | SetNLag _ => Ok VNone
  | AboveSurf s z _ => let! b := refl_coef_qs_above_surf rule D s (rr z) (Some order) in Ok (VC b)
  | SurfPot s z _ => let! p := surf_pot_and_field rule D s (rr z) (Some order) in Ok (VCC (fst p) (snd p))
  | ImageDepth s z _ => let! p := image_depth_and_charge rule D s (rr z) (Some order) in Ok (VRC (fst p) (snd p))
  | EffPol s z r L g d0 d1 da _ m => let! a := fdm_eff_pol rule D s z r L g d0 d1 da (Some order) m in Ok (VC a)
  | EffPolN s A n z N r L g d0 d1 da _ m =>
      let! a := fdm_eff_pol_n rule D s A n z N r L g d0 d1 da (Some order) m in Ok (VC a)
  | EffPolNTaylor s A n z r L g d0 d1 da _ m N J =>
      let! a := fdm_eff_pol_n_taylor rule D s A n z r L g d0 d1 da (Some order) m N J in Ok (VC a)
  end.
(** a session just after [import snompy], up to the values of the defaults *)
Definition fresh (D : Defaults) (n_lag : pyarg) : session := mkSession D n_lag empty_cache.
(** the orders asked for by a program, in turn *)
Fixpoint orders (rule : laggauss_t) (p : list stmt) (st : session) : list pyarg :=
  match p with
  | [] => []
  | x :: p' => match order_of x st with Some v => [v] | None => [] end ++ orders rule p' (fst (step rule x st))
  end.
(** the number of a float or complex argument *)
Definition number (v : pyarg) : option C :=
  match v with PyFloat x => Some (RtoC x) | PyComplex c => Some c | _ => None end.
