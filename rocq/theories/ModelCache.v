(** * The cached quadrature rule (sample.py:41) in a running Python session

    [laggauss = functools.cache(np.polynomial.laguerre.laggauss)] is state shared by
    all samples of a process.  This file writes the functions that use it
    once more, passing that state along, with [n_lag] any Python value.

    The cached arrays themselves are never written to: sample.py:580-582 and
    715-717 take views of them ([reshape]) and everything after that
    (sample.py:584-588, 719-724) makes new arrays, so they are values here. *)
From Coq Require Import String Reals Lra Lia ZArith List Bool.
From Coquelicot Require Import Complex.
From Verif Require Import Num ModelBase ModelSample ModelTip.
Import ListNotations.
Open Scope R_scope.

(** What a program can pass as [n_lag], or store in [defaults.n_lag].
    [PyIndex]: a NumPy integer or a bool ([True] is 1).  [PyOther]: hashable
    and equal to no number, such as a string (or nan). [PyUnhashable]: an
    array (even with no axes) or a list. *)
Inductive pyarg :=
| PyInt (n : Z)
| PyIndex (n : Z)
| PyFloat (x : R)
| PyComplex (c : C)
| PyOther
| PyUnhashable.

(** [operator.index] *)
Definition py_index (v : pyarg) : option Z :=
  match v with PyInt n | PyIndex n => Some n | _ => None end.
(** numpy.polynomial.laguerre.laggauss: the order must be an integer (by [operator.index]) and positive;
    [rule] is the table of nodes and weights *)
Definition np_laggauss (rule : laggauss_t) (v : pyarg) : res (list (R * R)) :=
  match py_index v with
  | None => Raise TypeError
  | Some n => if (n <=? 0)%Z then Raise (ValueError msg_laggauss) else Ok (rule (Z.to_nat n))
  end.

(** functools.lru_cache, [_make_key] with one positional argument: an exact
    [int] is its own key, anything else is wrapped in a tuple.  Tuples compare by
    the values of their items, so [(np.int64(5),) == (5.0,)], but [5 != (5.0,)]. *)
Inductive key := KInt (n : Z) | KTuple (c : C).
Definition make_key (v : pyarg) : option key :=
  match v with
  | PyInt n => Some (KInt n)
  | PyIndex n => Some (KTuple (RtoC (IZR n)))
  | PyFloat x => Some (KTuple (RtoC x))
  | PyComplex c => Some (KTuple c)
  | PyOther | PyUnhashable => None
  end.
Definition key_eq (a b : key) : bool :=
  match a, b with
  | KInt n, KInt m => Z.eqb n m
  | KTuple c, KTuple d => if Ceq_dec c d then true else false
  | _, _ => false
  end.

(** The dictionary behind the cache, and the orders for which NumPy's
    function has been run to the end so far, latest first *)
Record cache := mkCache { entries : list (key * list (R * R)); computed : list Z }.
Definition empty_cache : cache := mkCache [] [].

(** sample.py:41 [laggauss(n_lag)]: exceptions are not stored.  A hashable value equal to no
    number is never found, an unhashable one is rejected: both end in TypeError. *)
Definition cached_laggauss (rule : laggauss_t) (v : pyarg) (c : cache) : res (list (R * R)) * cache :=
  match make_key v with
  | None => (Raise TypeError, c)
  | Some k =>
      match find (fun e => key_eq k (fst e)) (entries c) with
      | Some e => (Ok (snd e), c)
      | None =>
          match np_laggauss rule v with
          | Ok r => (Ok r, mkCache ((k, r) :: entries c)
                             (match py_index v with Some n => n :: computed c | None => computed c end))
          | Raise e => (Raise e, c)
          end
      end
  end.

(** Computations that read and extend the cache *)
Definition act (A : Type) := cache -> res A * cache.
Definition abind {A B} (m : act A) (f : A -> act B) : act B :=
  fun c => match m c with (Ok a, c') => f a c' | (Raise e, c') => (Raise e, c') end.
Definition pure {A} (r : res A) : act A := fun c => (r, c).
Notation "'let?' x ':=' m 'in' k" := (abind m (fun x => k))
  (at level 200, x pattern, m at level 100, k at level 200).
Fixpoint mapA {A B} (f : A -> act B) (l : list A) : act (list B) :=
  match l with
  | [] => pure (Ok [])
  | a :: l' => let? b := f a in let? bs := mapA f l' in pure (Ok (b :: bs))
  end.

Section WithRule.
Variable rule : laggauss_t.

(** sample.py:579-586 and 714-721 (see [sampled_beta]); the list comprehension evaluates
    [laggauss(n_lag)] before anything else *)
Definition c_sampled_beta (s : sample) (z_Q : RV) (n_lag : pyarg) : act (list (R * R * CV)) :=
  let? nodes := cached_laggauss rule n_lag in
  pure (let! _ := refl_coef_qs s z_Q in
        mapM (fun xw => let! b := refl_coef_qs s (rr (fst xw) / (rr 2 * z_Q))%rv in
                        Ok (fst xw, snd xw, b)) nodes).

(** sample.py:472-590; [d] is the value of [defaults.n_lag] *)
Definition c_refl_coef_qs_above_surf (d : pyarg) (s : sample) (z_Q : RV) (n_lag : option pyarg) : act CV :=
  let? bs := c_sampled_beta s z_Q (dflt d n_lag) in
  pure (Ok (csum (map (fun p => match p with (x, w, b) => ofR (rr w * rr x)%rv * b end)%cv bs))).

(** sample.py:592-726 *)
Definition c_surf_pot_and_field (d : pyarg) (s : sample) (z_Q : RV) (n_lag : option pyarg) : act (CV * CV) :=
  let? bs := c_sampled_beta s z_Q (dflt d n_lag) in
  pure (let phi := (csum (map (fun p => match p with (x, w, b) => rc w * b end) bs)
                    / ofR (rr 2 * z_Q)%rv)%cv in
        let E := (csum (map (fun p => match p with (x, w, b) => ofR (rr w * rr x)%rv * b end) bs)
                  / ofR (rr 4 * z_Q ^ 2)%rv)%cv in
        Ok (phi, E)).

(** sample.py:728-798 *)
Definition c_image_depth_and_charge (d : pyarg) (s : sample) (z_Q : RV) (n_lag : option pyarg) : act (RV * CV) :=
  let? pE := c_surf_pot_and_field d s z_Q n_lag in
  pure (let phi := fst pE in let E := snd pE in
        Ok ((cabs (phi / E)%cv - z_Q)%rv, (phi ^ 2 / E)%cv)).

(** fdm.py:115-263 *)
Definition c_fdm_eff_pol (D : Defaults) (d : pyarg) (s : sample) (z_tip r_tip L_tip : option R)
    (g_factor : option C) (d_Q0 d_Q1 d_Qa : option R) (n_lag : option pyarg)
    (method : option string) : act CV :=
  let z_tip := rr (dflt (d_z_tip D) z_tip) in
  match fdm_defaults D r_tip L_tip g_factor d_Q0 d_Q1 d_Qa with
  | (r_tip, L_tip, g_factor, d_Q0, d_Q1, d_Qa) =>
    let r_tip := rr r_tip in let L_tip := rr L_tip in
    let g_factor := Some g_factor in
    let d_Q1 := rr d_Q1 in let d_Qa := rr d_Qa in
    let method := match method with
                  | None => if multilayer s then "multi"%string else "bulk"%string
                  | Some m => m
                  end in
    let? bf :=
      (if String.eqb method "bulk" then
         pure (if multilayer s then Raise (ValueError msg_bulk_multi) else
               let! beta := refl_coef_qs s (rr 0) in
               let f_0 := fdm_geom_func z_tip d_Q0 r_tip L_tip g_factor in
               let f_1 := fdm_geom_func z_tip d_Q1 r_tip L_tip g_factor in
               Ok (beta, beta, f_0, f_1))
       else if String.eqb method "multi" then
         let z_Q0 := (z_tip + r_tip * d_Q0)%rv in
         let z_Q1 := (z_tip + r_tip * d_Q1)%rv in
         let? i0 := c_image_depth_and_charge d s z_Q0 n_lag in
         let? i1 := c_image_depth_and_charge d s z_Q1 n_lag in
         pure (let f_0 := fdm_geom_func_multi z_tip (fst i0) r_tip L_tip g_factor in
               let f_1 := fdm_geom_func_multi z_tip (fst i1) r_tip L_tip g_factor in
               Ok (snd i0, snd i1, f_0, f_1))
       else if String.eqb method "Q_ave" then
         let z_Qa := (z_tip + r_tip * d_Qa)%rv in
         let? beta := c_refl_coef_qs_above_surf d s z_Qa n_lag in
         pure (let f_0 := fdm_geom_func z_tip d_Q0 r_tip L_tip g_factor in
               let f_1 := fdm_geom_func z_tip d_Q1 r_tip L_tip g_factor in
               Ok (beta, beta, f_0, f_1))
       else pure (Raise (ValueError msg_method))) in
    match bf with
    | (beta_0, beta_1, f_0, f_1) =>
        pure (Ok (rc 1 + (beta_0 * f_0) / (rc 2 * (rc 1 - beta_1 * f_1)))%cv)
    end
  end.

(** demodulate.py:29-112 [demod] of a function that uses the cache.  (The code calls it
    twice, the second time with all heights in one array; here once per height.) *)
Definition c_demod (D : Defaults) (f : R -> act CV) (x_0 x_amplitude : R) (n : Z)
    (n_trapz : option nat) : act CV :=
  let N := dflt (d_n_trapz D) n_trapz in
  let? _ := f (x_0 + 0 * x_amplitude)%R in
  let? fs := mapA (fun theta => f (x_0 + cos theta * x_amplitude)%R) (thetas N) in
  let integrand := map (fun p => demod_integrand n (fst p) (snd p)) (combine fs (thetas N)) in
  pure (Ok (trapezoid integrand / rc (INR N))%cv).

(** fdm.py:62-112 *)
Definition c_fdm_eff_pol_n (D : Defaults) (d : pyarg) (s : sample) (A_tip : R) (n : Z)
    (z_tip : option R) (n_trapz : option nat)
    (r_tip L_tip : option R) (g_factor : option C) (d_Q0 d_Q1 d_Qa : option R)
    (n_lag : option pyarg) (method : option string) : act CV :=
  let z_tip := dflt (d_z_tip D) z_tip in
  let z_0 := (z_tip + A_tip)%R in
  c_demod D (fun x => c_fdm_eff_pol D d s (Some x) r_tip L_tip g_factor d_Q0 d_Q1 d_Qa n_lag method)
          z_0 A_tip n n_trapz.

(** fdm.py:535-659 *)
Definition c_fdm_eff_pol_n_taylor (D : Defaults) (d : pyarg) (s : sample) (A_tip : R) (n : Z)
    (z_tip r_tip L_tip : option R) (g_factor : option C) (d_Q0 d_Q1 d_Qa : option R)
    (n_lag : option pyarg) (method : option string) (n_trapz n_tayl : option nat) : act CV :=
  let z_tip := dflt (d_z_tip D) z_tip in
  match fdm_defaults D r_tip L_tip g_factor d_Q0 d_Q1 d_Qa with
  | (r_tip, L_tip, g_factor, d_Q0, d_Q1, d_Qa) =>
    let n_tayl := dflt (d_n_tayl D) n_tayl in
    let method := match method with
                  | None => if multilayer s then "Q_ave"%string else "bulk"%string
                  | Some m => m
                  end in
    let? beta :=
      (if String.eqb method "bulk" then
         pure (if multilayer s then Raise (ValueError msg_bulk_multi)
               else refl_coef_qs s (rr 0))
       else if String.eqb method "Q_ave" then
         c_refl_coef_qs_above_surf d s (rr z_tip + rr r_tip * rr d_Qa)%rv n_lag
       else pure (Raise (ValueError msg_method_taylor))) in
    pure (let! terms :=
            mapM (fun j => let! a := fdm_taylor_coef D z_tip j A_tip n (rr r_tip) (rr L_tip)
                                        (Some g_factor) d_Q0 (rr d_Q1) n_trapz in
                           Ok (a * cpown beta j)%cv)
                 (seq 0 n_tayl) in
          Ok (csum terms))
  end.

(** ** A session: statements of a program, one after the other *)
(** [defaults.n_lag] is kept apart from the other defaults since it may be set to anything *)
Record session := mkSession { s_defaults : Defaults; s_n_lag : pyarg; s_cache : cache }.
(** what a call returns *)
Inductive value := VC (x : CV) | VCC (x y : CV) | VRC (x : RV) (y : CV) | VNone.
Inductive stmt :=
| SetDefaults (D : Defaults)
| SetNLag (v : pyarg)
| AboveSurf (s : sample) (z_Q : R) (n_lag : option pyarg)
| SurfPot (s : sample) (z_Q : R) (n_lag : option pyarg)
| ImageDepth (s : sample) (z_Q : R) (n_lag : option pyarg)
| EffPol (s : sample) (z_tip r_tip L_tip : option R) (g_factor : option C) (d_Q0 d_Q1 d_Qa : option R)
         (n_lag : option pyarg) (method : option string)
| EffPolN (s : sample) (A_tip : R) (n : Z) (z_tip : option R) (n_trapz : option nat)
          (r_tip L_tip : option R) (g_factor : option C) (d_Q0 d_Q1 d_Qa : option R)
          (n_lag : option pyarg) (method : option string)
| EffPolNTaylor (s : sample) (A_tip : R) (n : Z) (z_tip r_tip L_tip : option R) (g_factor : option C)
          (d_Q0 d_Q1 d_Qa : option R) (n_lag : option pyarg) (method : option string) (n_trapz n_tayl : option nat).

Definition calling {A} (f : A -> value) (m : act A) (st : session) : session * res value :=
  match m (s_cache st) with
  | (r, c') => (mkSession (s_defaults st) (s_n_lag st) c', let! a := r in Ok (f a))
  end.
(** exceptions are caught by the program *)
Definition step (x : stmt) (st : session) : session * res value :=
  let D := s_defaults st in let d := s_n_lag st in
  match x with
  | SetDefaults D' => (mkSession D' d (s_cache st), Ok VNone)
  | SetNLag v => (mkSession D v (s_cache st), Ok VNone)
  | AboveSurf s z n_lag => calling VC (c_refl_coef_qs_above_surf d s (rr z) n_lag) st
  | SurfPot s z n_lag => calling (fun p => VCC (fst p) (snd p)) (c_surf_pot_and_field d s (rr z) n_lag) st
  | ImageDepth s z n_lag => calling (fun p => VRC (fst p) (snd p)) (c_image_depth_and_charge d s (rr z) n_lag) st
  | EffPol s z r L g d0 d1 da n_lag m => calling VC (c_fdm_eff_pol D d s z r L g d0 d1 da n_lag m) st
  | EffPolN s A n z N r L g d0 d1 da n_lag m =>
      calling VC (c_fdm_eff_pol_n D d s A n z N r L g d0 d1 da n_lag m) st
  | EffPolNTaylor s A n z r L g d0 d1 da n_lag m N J =>
      calling VC (c_fdm_eff_pol_n_taylor D d s A n z r L g d0 d1 da n_lag m N J) st
  end.
Fixpoint exec (p : list stmt) (st : session) : session :=
  match p with [] => st | x :: p' => exec p' (fst (step x st)) end.
End WithRule.
