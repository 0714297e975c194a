(** * Scalar model of [snompy/sample.py] *)
From Coq Require Import String Reals Lra Lia ZArith List Bool.
From Coquelicot Require Import Complex.
From Verif Require Import Num ModelBase.
Import ListNotations.
Open Scope R_scope.

(** sample.py:43-44 [_MAX_EXP_ARG = np.log(np.finfo(float).max)];
    the largest double is (2 - 2^-52) * 2^1023 *)
Definition MAX_EXP_ARG : R := ln ((2 - / 2 ^ 52) * 2 ^ 1023).

(** The attributes a constructed [Sample] carries, one scalar per layer
    (array-valued layers and the life cycle of the object are in
    SampleObj.v). *)
Record sample := mkSample {
  eps_stack : list CV;
  t_stack : list R;
  nu_vac : option R
}.

(** sample.py:831-880 *)
Definition refl_coef_qs_single (eps_i eps_j : CV) : CV :=
  ((eps_j - eps_i) / (eps_j + eps_i))%cv.

(** sample.py:883-911 (the default of eps_i is 1+0j) *)
Definition permitivitty (beta eps_i : CV) : CV :=
  (eps_i * (rc 1 + beta) / (rc 1 - beta))%cv.

(** sample.py:172-174 *)
Definition n_layers (s : sample) : nat := length (eps_stack s).
(** sample.py:176-179 *)
Definition multilayer (s : sample) : bool := Nat.ltb 2 (n_layers s).

(** sample.py:154-157 [beta_stack] getter *)
Definition beta_stack (s : sample) : list CV :=
  map (fun p => refl_coef_qs_single (fst p) (snd p))
      (combine (removelast (eps_stack s)) (tl (eps_stack s))).

(** [np.cumprod(..., axis=0)] of scalars *)
Fixpoint cumprod_from (acc : CV) (l : list CV) : list CV :=
  match l with
  | [] => []
  | x :: l' => let a := (acc * x)%cv in a :: cumprod_from a l'
  end.

(** sample.py:159-166 [beta_stack] setter: the eps_stack it computes, for a
    scalar environment [env] *)
Definition eps_from_beta (env : CV) (beta : list CV) : list CV :=
  map (fun e => (e * env)%cv)
      (rc 1 :: cumprod_from (rc 1) (map (fun b => permitivitty b (rc 1)) beta)).

(** ** 2x2 matrices *)
Record mat := mkMat { m00 : CV; m01 : CV; m10 : CV; m11 : CV }.
Definition mmul (A B : mat) : mat :=
  {| m00 := m00 A * m00 B + m01 A * m10 B;
     m01 := m00 A * m01 B + m01 A * m11 B;
     m10 := m10 A * m00 B + m11 A * m10 B;
     m11 := m10 A * m01 B + m11 A * m11 B |}%cv.

(** sample.py:211-213 and 365-367: [(1 + [[1,-1],[-1,1]] * x) / 2] *)
Definition trans_matrix (x : CV) : mat :=
  {| m00 := (rc 1 + rc 1 * x) / rc 2; m01 := (rc 1 + rc (-1) * x) / rc 2;
     m10 := (rc 1 + rc (-1) * x) / rc 2; m11 := (rc 1 + rc 1 * x) / rc 2 |}%cv.

(** sample.py:223-225 and 377-379: [np.exp([a, b] * p) * np.eye(2)]; the row
    vector of exponentials multiplies both rows of the identity *)
Definition prop_matrix (ea eb : CV) : mat :=
  {| m00 := ea * rc 1; m01 := eb * rc 0; m10 := ea * rc 0; m11 := eb * rc 1 |}%cv.

(** sample.py:222 [np.clip(p, -_MAX_EXP_ARG, _MAX_EXP_ARG)] *)
Definition clip (x : RV) : RV :=
  olift1 (fun a => Rmin (Rmax a (- MAX_EXP_ARG)) MAX_EXP_ARG) x.

(** sample.py:227-228 / 381-382: [for T, P in zip(...): M = M @ P @ T] *)
Definition chain (M0 : mat) (TP : list (mat * mat)) : mat :=
  fold_left (fun M tp => mmul (mmul M (snd tp)) (fst tp)) TP M0.

(** sample.py:210-213 *)
Definition trans_matrices_qs (s : sample) : list mat :=
  map (fun p => trans_matrix (fst p / snd p)%cv)
      (combine (removelast (eps_stack s)) (tl (eps_stack s))).

(** sample.py:218-225 *)
Definition prop_matrices_qs (s : sample) (q : RV) : list mat :=
  map (fun t => let p := clip (q * rr t)%rv in
                prop_matrix (cexp (ofR (rr 1 * p)%rv)) (cexp (ofR (rr (-1) * p)%rv)))
      (t_stack s).

(** sample.py:181-232 [transfer_matrix_qs]; [trans_matrices[0]] raises
    IndexError when there is no interface *)
Definition transfer_matrix_qs (s : sample) (q : RV) : res mat :=
  match trans_matrices_qs s with
  | [] => Raise IndexError
  | T0 :: Ts =>
      if multilayer s
      then Ok (chain T0 (combine Ts (prop_matrices_qs s q)))
      else Ok {| m00 := m00 T0 * rc 1; m01 := m01 T0 * rc 1;
                 m10 := m10 T0 * rc 1; m11 := m11 T0 * rc 1 |}%cv
  end.

(** sample.py:234-252 *)
Definition refl_coef_qs (s : sample) (q : RV) : res CV :=
  let! M := transfer_matrix_qs s q in Ok (m10 M / m00 M)%cv.
(** sample.py:254-272 *)
Definition trans_coef_qs (s : sample) (q : RV) : res CV :=
  let! M := transfer_matrix_qs s q in Ok (rc 1 / m00 M)%cv.

(** ** Far field *)
Definition msg_nu_vac : string := "`nu_vac` must not be None for multilayer samples.".
Definition msg_theta_q : string := "Either `theta_in` or `q` must be None.".
Definition msg_pol : string := "`polarization` must be 's' or 'p'".
Definition msg_stack : string := "need at least one array to stack".

(** sample.py:317-329 *)
Definition resolve_nu (s : sample) (nu : option R) : res R :=
  match nu with
  | None =>
      match nu_vac s with
      | None => if multilayer s then Raise (ValueError msg_nu_vac) else Ok 1
      | Some v => Ok v
      end
  | Some v => Ok v
  end.

(** sample.py:331-341 *)
Definition resolve_q (nu : R) (q theta_in : option R) : res R :=
  match theta_in with
  | None => match q with None => Ok 0 | Some v => Ok v end
  | Some th =>
      match q with
      | None => Ok (nu * sin (Rabs th))
      | Some _ => Raise (ValueError msg_theta_q)
      end
  end.

(** sample.py:343-346: [np.sqrt(eps * nu_vac**2 - q**2)] for each layer *)
Definition nu_z_of (nu q : R) (eps : CV) : CV :=
  csqrt (eps * ofR (rr nu ^ 2)%rv - ofR (rr q ^ 2)%rv)%cv.

(** sample.py:348-363: one interface's transmission factor *)
Definition trans_factor (pol_p : bool) (eps nuz : list CV) (i : nat) : CV :=
  if pol_p
  then (nth i eps None * nth (i + 1) nuz None
        / (nth (i + 1) eps None * nth i nuz None))%cv
  else (nth (i + 1) nuz None / nth i nuz None)%cv.

(** sample.py:274-384 [transfer_matrix].  [np.stack] of no layer / no
    interface raises ValueError. *)
Definition transfer_matrix (s : sample) (q theta_in nu : option R) (pol : string)
  : res mat :=
  let! nu := resolve_nu s nu in
  let! q := resolve_q nu q theta_in in
  if Nat.eqb (n_layers s) 0 then Raise (ValueError msg_stack) else
  let nuz := map (nu_z_of nu q) (eps_stack s) in
  let! pol_p := (if String.eqb pol "p" then Ok true
                 else if String.eqb pol "s" then Ok false
                 else Raise (ValueError msg_pol)) in
  let factors := map (trans_factor pol_p (eps_stack s) nuz) (seq 0 (n_layers s - 1)) in
  match map trans_matrix factors with
  | [] => Raise (ValueError msg_stack)
  | T0 :: Ts =>
      if multilayer s then
        let props :=
          map (fun p => let phi := (fst p * rc (snd p))%cv in
                        prop_matrix (cexp (Some (0, -1)%R * phi)%cv)
                                    (cexp (Some (0, 1)%R * phi)%cv))
              (combine (removelast (tl nuz)) (t_stack s)) in
        Ok (chain T0 (combine Ts props))
      else Ok T0
  end.

(** sample.py:386-420 *)
Definition refl_coef (s : sample) (q theta_in nu : option R) (pol : string) : res CV :=
  let! M := transfer_matrix s q theta_in nu pol in Ok (m10 M / m00 M)%cv.
(** sample.py:422-456 *)
Definition trans_coef (s : sample) (q theta_in nu : option R) (pol : string) : res CV :=
  let! M := transfer_matrix s q theta_in nu pol in Ok (rc 1 / m00 M)%cv.

(** ** Momentum integrals *)

(** sample.py:41: [laggauss(n)] as a list of (node, weight) pairs.  An oracle:
    every function below takes it as an argument. *)
Definition laggauss_t := nat -> list (R * R).

(** numpy.polynomial.laguerre.laggauss rejects order 0 *)
Definition msg_laggauss : string := "deg must be a positive integer".

(** sample.py:579-586: the sampled reflection coefficients, as
    (node, weight, beta(q)) with q = x / (2 z_Q); sample.py:581 first
    evaluates [self.refl_coef_qs(z_Q)] for its shape *)
Definition sampled_beta (laggauss : laggauss_t) (s : sample) (z_Q : RV) (n_lag : nat)
  : res (list (R * R * CV)) :=
  if Nat.eqb n_lag 0 then Raise (ValueError msg_laggauss) else
  let! _ := refl_coef_qs s z_Q in
  mapM (fun xw => let! b := refl_coef_qs s (rr (fst xw) / (rr 2 * z_Q))%rv in
                  Ok (fst xw, snd xw, b))
       (laggauss n_lag).

(** sample.py:472-590 *)
Definition refl_coef_qs_above_surf (laggauss : laggauss_t) (D : Defaults)
    (s : sample) (z_Q : RV) (n_lag : option nat) : res CV :=
  let n_lag := dflt (d_n_lag D) n_lag in
  let! bs := sampled_beta laggauss s z_Q n_lag in
  Ok (csum (map (fun p => match p with (x, w, b) => ofR (rr w * rr x)%rv * b end)%cv bs)).

(** sample.py:592-726 *)
Definition surf_pot_and_field (laggauss : laggauss_t) (D : Defaults)
    (s : sample) (z_Q : RV) (n_lag : option nat) : res (CV * CV) :=
  let n_lag := dflt (d_n_lag D) n_lag in
  let! bs := sampled_beta laggauss s z_Q n_lag in
  let phi := (csum (map (fun p => match p with (x, w, b) => rc w * b end) bs)
              / ofR (rr 2 * z_Q)%rv)%cv in
  let E := (csum (map (fun p => match p with (x, w, b) => ofR (rr w * rr x)%rv * b end) bs)
            / ofR (rr 4 * z_Q ^ 2)%rv)%cv in
  Ok (phi, E).

(** sample.py:728-798 *)
Definition image_depth_and_charge (laggauss : laggauss_t) (D : Defaults)
    (s : sample) (z_Q : RV) (n_lag : option nat) : res (RV * CV) :=
  let! pE := surf_pot_and_field laggauss D s z_Q n_lag in
  let phi := fst pE in let E := snd pE in
  Ok ((cabs (phi / E)%cv - z_Q)%rv, (phi ^ 2 / E)%cv).

(** ** Permittivity models *)
Definition msg_lor_none : string := "`A_j` and `nu_plasma` cannot both be None".
Definition msg_lor_both : string := "Either `A_j` or `nu_plasma` must be None".

(** sample.py:914-958; [f_j] and [eps_inf] default to 1.0 *)
Definition lorentz_perm (nu nu_j gamma_j : R) (A_j nu_plasma f_j eps_inf : option R)
  : res CV :=
  let f_j := dflt 1 f_j in
  let eps_inf := dflt 1 eps_inf in
  let! A := match A_j with
            | None => match nu_plasma with
                      | None => Raise (ValueError msg_lor_none)
                      | Some p => Ok (f_j * p ^ 2)
                      end
            | Some a => match nu_plasma with
                        | Some _ => Raise (ValueError msg_lor_both)
                        | None => Ok a
                        end
            end in
  Ok (rc eps_inf + rc A / (ofR (rr nu_j ^ 2 - rr nu ^ 2)%rv
                           - Some (0, 1)%R * rc gamma_j * rc nu))%cv.

(** sample.py:961-988 *)
Definition drude_perm (nu nu_plasma gamma : R) (eps_inf : option R) : res CV :=
  lorentz_perm nu 0 gamma None (Some nu_plasma) None (Some (dflt 1 eps_inf)).
