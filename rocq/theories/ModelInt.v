(** * Integer arguments

    NumPy integers have a fixed number of bits and wrap around silently; Python
    integers do not.  This file repeats the functions in which integer arguments
    meet in integer arithmetic, with numbers that remember whether they are
    integers.

    Simplified: all integers of a call have the same type (the literals of the
    source adapt to it); sample and environment permittivities, polarisabilities
    and weights are floats or complex, the [eps_stack] setter converts them
    (sample.py:149); results of arithmetic with a float or complex operand are
    exact real or complex numbers, as everywhere.  The finite-dipole geometry
    functions, in which integers are only added and doubled, are not repeated. *)
From Coq Require Import String Reals Lra Lia ZArith List Bool.
From Coquelicot Require Import Complex.
From Verif Require Import Num ModelBase ModelSample ModelTip.
Import ListNotations.
Open Scope R_scope.

(** Python integers, or NumPy integers of [bits] bits *)
Inductive itype := Unbounded | Word (bits : nat) (is_signed : bool).
(** the value stored for the integer [z]: its low bits *)
Definition wrap (t : itype) (z : Z) : Z :=
  match t with
  | Unbounded => z
  | Word w false => (z mod 2 ^ Z.of_nat w)%Z
  | Word w true =>
      let h := (2 ^ Z.of_nat w / 2)%Z in
      ((z + h) mod 2 ^ Z.of_nat w - h)%Z
  end.

Inductive num := I (z : Z) | F (x : R).
(** the real number it stands for *)
Definition val (n : num) : R := match n with I z => IZR z | F x => x end.

Definition n_add (t : itype) (a b : num) : num :=
  match a, b with I x, I y => I (wrap t (x + y)) | _, _ => F (val a + val b) end.
Definition n_sub (t : itype) (a b : num) : num :=
  match a, b with I x, I y => I (wrap t (x - y)) | _, _ => F (val a - val b) end.
Definition n_mul (t : itype) (a b : num) : num :=
  match a, b with I x, I y => I (wrap t (x * y)) | _, _ => F (val a * val b) end.
(** [a ** k] for a literal [k] *)
Definition n_pow (t : itype) (a : num) (k : nat) : num :=
  match a with I x => I (wrap t (x ^ Z.of_nat k)) | F x => F (x ^ k) end.

(** ** [snompy/sample.py] *)
(** sample.py:831-880; the quotient of integers is a float *)
Definition i_refl_coef_qs_single (t : itype) (eps_i eps_j : num) : CV :=
  (rc (val (n_sub t eps_j eps_i)) / rc (val (n_add t eps_j eps_i)))%cv.

(** sample.py:914-958 *)
Definition i_lorentz_perm (t : itype) (nu nu_j gamma_j : num) (A_j nu_plasma f_j eps_inf : option num)
  : res CV :=
  let f_j := dflt (F 1) f_j in
  let eps_inf := dflt (F 1) eps_inf in
  let! A := match A_j with
            | None => match nu_plasma with
                      | None => Raise (ValueError msg_lor_none)
                      | Some p => Ok (n_mul t f_j (n_pow t p 2))
                      end
            | Some a => match nu_plasma with
                        | Some _ => Raise (ValueError msg_lor_both)
                        | None => Ok a
                        end
            end in
  Ok (rc (val eps_inf) + rc (val A) / (rc (val (n_sub t (n_pow t nu_j 2) (n_pow t nu 2)))
                           - Some (0, 1)%R * rc (val gamma_j) * rc (val nu)))%cv.
(** sample.py:961-988; [nu_j=0] *)
Definition i_drude_perm (t : itype) (nu nu_plasma gamma : num) (eps_inf : option num) : res CV :=
  i_lorentz_perm t nu (I 0) gamma None (Some nu_plasma) None (Some (dflt (F 1) eps_inf)).

(** a sample whose thicknesses and wavenumber may be integers *)
Record isample := mkIS { i_eps_stack : list CV; i_t_stack : list num; i_nu_vac : option num }.
(** the same sample in floats *)
Definition to_float (s : isample) : sample :=
  mkSample (i_eps_stack s) (map val (i_t_stack s)) (option_map val (i_nu_vac s)).

(** sample.py:181-232 for a number [q]; [q * t] may be a product of integers,
    [np.clip] with float bounds makes it a float *)
Definition i_transfer_matrix_qs (t : itype) (s : isample) (q : num) : res mat :=
  match trans_matrices_qs (to_float s) with
  | [] => Raise IndexError
  | T0 :: Ts =>
      if multilayer (to_float s)
      then Ok (chain T0 (combine Ts
             (map (fun d => let p := clip (rr (val (n_mul t q d))) in
                            prop_matrix (cexp (ofR (rr 1 * p)%rv)) (cexp (ofR (rr (-1) * p)%rv)))
                  (i_t_stack s))))
      else Ok {| m00 := m00 T0 * rc 1; m01 := m01 T0 * rc 1;
                 m10 := m10 T0 * rc 1; m11 := m11 T0 * rc 1 |}%cv
  end.
(** sample.py:234-272 *)
Definition i_refl_coef_qs (t : itype) (s : isample) (q : num) : res CV :=
  let! M := i_transfer_matrix_qs t s q in Ok (m10 M / m00 M)%cv.
Definition i_trans_coef_qs (t : itype) (s : isample) (q : num) : res CV :=
  let! M := i_transfer_matrix_qs t s q in Ok (rc 1 / m00 M)%cv.

(** sample.py:317-341 *)
Definition i_resolve_nu (s : isample) (nu : option num) : res num :=
  match nu with
  | None => match i_nu_vac s with
            | None => if multilayer (to_float s) then Raise (ValueError msg_nu_vac) else Ok (F 1)
            | Some v => Ok v
            end
  | Some v => Ok v
  end.
Definition i_resolve_q (nu : num) (q : option num) (theta_in : option R) : res num :=
  match theta_in with
  | None => match q with None => Ok (F 0) | Some v => Ok v end
  | Some th => match q with
               | None => Ok (F (val nu * sin (Rabs th)))
               | Some _ => Raise (ValueError msg_theta_q)
               end
  end.
(** sample.py:274-384 *)
Definition i_transfer_matrix (t : itype) (s : isample) (q : option num) (theta_in : option R)
    (nu : option num) (pol : string) : res mat :=
  let! nu := i_resolve_nu s nu in
  let! q := i_resolve_q nu q theta_in in
  let n := length (i_eps_stack s) in
  if Nat.eqb n 0 then Raise (ValueError msg_stack) else
  let nuz := map (fun e => csqrt (e * rc (val (n_pow t nu 2)) - rc (val (n_pow t q 2)))%cv)
                 (i_eps_stack s) in
  let! pol_p := (if String.eqb pol "p" then Ok true
                 else if String.eqb pol "s" then Ok false
                 else Raise (ValueError msg_pol)) in
  let factors := map (trans_factor pol_p (i_eps_stack s) nuz) (seq 0 (n - 1)) in
  match map trans_matrix factors with
  | [] => Raise (ValueError msg_stack)
  | T0 :: Ts =>
      if Nat.ltb 2 n then
        let props :=
          map (fun p => let phi := (fst p * rc (val (snd p)))%cv in
                        prop_matrix (cexp (Some (0, -1)%R * phi)%cv)
                                    (cexp (Some (0, 1)%R * phi)%cv))
              (combine (removelast (tl nuz)) (i_t_stack s)) in
        Ok (chain T0 (combine Ts props))
      else Ok T0
  end.
(** sample.py:386-456 *)
Definition i_refl_coef (t : itype) (s : isample) (q : option num) (theta_in : option R)
    (nu : option num) (pol : string) : res CV :=
  let! M := i_transfer_matrix t s q theta_in nu pol in Ok (m10 M / m00 M)%cv.
Definition i_trans_coef (t : itype) (s : isample) (q : option num) (theta_in : option R)
    (nu : option num) (pol : string) : res CV :=
  let! M := i_transfer_matrix t s q theta_in nu pol in Ok (rc 1 / m00 M)%cv.

(** sample.py:592-726; [2 * z_Q] and [z_Q**2] are formed from the integer *)
Definition i_surf_pot_and_field (t : itype) (laggauss : laggauss_t) (D : Defaults)
    (s : isample) (z_Q : num) (n_lag : option nat) : res (CV * CV) :=
  let n_lag := dflt (d_n_lag D) n_lag in
  if Nat.eqb n_lag 0 then Raise (ValueError msg_laggauss) else
  let! _ := i_refl_coef_qs t s z_Q in
  let two_z := val (n_mul t (I 2) z_Q) in
  let! bs := mapM (fun xw => let! b := refl_coef_qs (to_float s) (rr (fst xw) / rr two_z)%rv in
                             Ok (fst xw, snd xw, b))
                  (laggauss n_lag) in
  let phi := (csum (map (fun p => match p with (x, w, b) => rc w * b end) bs) / rc two_z)%cv in
  let E := (csum (map (fun p => match p with (x, w, b) => ofR (rr w * rr x)%rv * b end) bs)
            / rc (val (n_mul t (I 4) (n_pow t z_Q 2))))%cv in
  Ok (phi, E).

(** ** [snompy/_defaults.py], [snompy/pdm.py] *)
(** _defaults.py:124-138; the default radius is a float *)
Definition i_pdm_defaults (t : itype) (D : Defaults) (r_tip : option num) (eps_tip alpha_tip : option C)
  : res (num * CV) :=
  let r_tip := dflt (F (d_r_tip D)) r_tip in
  let r3 := rc (4 * PI * val (n_pow t r_tip 3)) in
  match eps_tip with
  | None => match alpha_tip with
            | None => Ok (r_tip, r3)
            | Some a => Ok (r_tip, Some a)
            end
  | Some eps => match alpha_tip with
                | None => Ok (r_tip, r3 * (Some eps - rc 1) / (Some eps + rc 2))%cv
                | Some _ => Raise (ValueError msg_alpha_eps_tip)
                end
  end.
(** pdm.py:215-254 *)
Definition i_pdm_geom_func (t : itype) (z_tip r_tip : num) (alpha_tip : CV) : CV :=
  (alpha_tip / rc (16 * PI * val (n_pow t (n_add t r_tip z_tip) 3)))%cv.
(** pdm.py:149-212; [sample.refl_coef_qs()] has [q=0.0] *)
Definition i_pdm_eff_pol (t : itype) (D : Defaults) (s : sample) (z_tip r_tip : option num)
    (eps_tip alpha_tip : option C) : res CV :=
  let z_tip := dflt (F (d_z_tip D)) z_tip in
  let! ra := i_pdm_defaults t D r_tip eps_tip alpha_tip in
  let! beta := refl_coef_qs s (rr 0) in
  let f_geom := i_pdm_geom_func t z_tip (fst ra) (snd ra) in
  Ok (snd ra / (rc 1 - f_geom * beta))%cv.
(** pdm.py:555-616 *)
Definition i_pdm_refl_coef_qs_from_eff_pol (t : itype) (D : Defaults) (alpha_eff : CV)
    (z_tip r_tip : option num) (eps_tip alpha_tip : option C) : res CV :=
  let z_tip := dflt (F (d_z_tip D)) z_tip in
  let! ra := i_pdm_defaults t D r_tip eps_tip alpha_tip in
  let f_geom := i_pdm_geom_func t z_tip (fst ra) (snd ra) in
  Ok ((alpha_eff - snd ra) / (f_geom * alpha_eff))%cv.
