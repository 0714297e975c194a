(** * Signed zeros (sample.py:129-166, 274-456, 831-911)

    The square root of the far-field code has its branch cut on the negative
    real axis, and which side a negative real number is on is decided by the sign
    of its zero imaginary part.  Here numbers are exact reals whose zeros carry a
    sign, and every operation is written out on real and imaginary parts as
    NumPy's loops do it.  No rounding, no overflow, no underflow. *)
From Coq Require Import String Reals Lra Lia ZArith List Bool.
From Coquelicot Require Import Complex.
From Verif Require Import Num ModelBase ModelSample.
Import ListNotations.
Open Scope R_scope.

(** ** Real numbers *)
(** a finite double: its value and its sign bit *)
Record sreal := mkS { val : R; minus : bool }.
(** a result of value [x]; [s] is the sign bit it has if it is a zero *)
Definition signed (x : R) (s : bool) : sreal :=
  mkS x (if Rlt_dec x 0 then true else if Rlt_dec 0 x then false else s).
Definition is_zero (a : sreal) : bool := if Req_EM_T (val a) 0 then true else false.
(** IEEE 754 (round to nearest): x - x is +0; a sum of two zeros is -0 only if
    both are *)
Definition s_add (a b : sreal) : sreal :=
  signed (val a + val b) (is_zero a && is_zero b && minus a && minus b).
Definition s_sub (a b : sreal) : sreal :=
  signed (val a - val b) (is_zero a && is_zero b && minus a && negb (minus b)).
(** the sign of a product or quotient is the product of the signs *)
Definition s_mul (a b : sreal) : sreal := signed (val a * val b) (xorb (minus a) (minus b)).
(** for a nonzero divisor *)
Definition s_div (a b : sreal) : sreal := signed (val a / val b) (xorb (minus a) (minus b)).
Definition plus (x : R) : sreal := signed x false.

(** ** Complex numbers *)
Record scomplex := mkZ { sre : sreal; sim : sreal }.
(** a real number in complex arithmetic *)
Definition of_real (x : R) : scomplex := mkZ (plus x) (plus 0).
Definition z_add (a b : scomplex) : scomplex := mkZ (s_add (sre a) (sre b)) (s_add (sim a) (sim b)).
Definition z_sub (a b : scomplex) : scomplex := mkZ (s_sub (sre a) (sre b)) (s_sub (sim a) (sim b)).
(** NumPy: [(ar*br - ai*bi) + 1j*(ar*bi + ai*br)] *)
Definition z_mul (a b : scomplex) : scomplex :=
  mkZ (s_sub (s_mul (sre a) (sre b)) (s_mul (sim a) (sim b)))
      (s_add (s_mul (sre a) (sim b)) (s_mul (sim a) (sre b))).
(** NumPy: Smith's algorithm.  A zero divisor gives a non-finite value. *)
Definition z_div (a b : scomplex) : option scomplex :=
  if Rle_dec (Rabs (val (sim b))) (Rabs (val (sre b))) then
    if Req_EM_T (val (sre b)) 0 then None else
    let rat := s_div (sim b) (sre b) in
    let scl := s_div (plus 1) (s_add (sre b) (s_mul (sim b) rat)) in
    Some (mkZ (s_mul (s_add (sre a) (s_mul (sim a) rat)) scl)
              (s_mul (s_sub (sim a) (s_mul (sre a) rat)) scl))
  else
    let rat := s_div (sre b) (sim b) in
    let scl := s_div (plus 1) (s_add (sim b) (s_mul (sre b) rat)) in
    Some (mkZ (s_mul (s_add (s_mul (sre a) rat) (sim a)) scl)
              (s_mul (s_sub (s_mul (sim a) rat) (sre a)) scl)).
(** the complex number it stands for *)
Definition value (z : scomplex) : C := (val (sre z), val (sim z)).
(** [np.sqrt] (C99 [csqrt]): the real part is not negative, the imaginary part has
    the sign bit of the argument's imaginary part *)
Definition z_sqrt (z : scomplex) : scomplex :=
  let m := Cmod (value z) in
  mkZ (plus (sqrt ((m + val (sre z)) / 2)))
      (let y := sqrt ((m - val (sre z)) / 2) in
       if minus (sim z) then signed (- y) true else signed y false).

(** ** Permittivities and reflection coefficients *)
(** sample.py:831-880 *)
Definition s_refl_coef_qs_single (eps_i eps_j : scomplex) : option scomplex :=
  z_div (z_sub eps_j eps_i) (z_add eps_j eps_i).
(** sample.py:883-911.  For a real [beta] NumPy forms 1 + beta and 1 - beta as reals
    and converts them; that is what the complex operations give too, whatever the
    sign of the zero imaginary part. *)
Definition s_permitivitty (beta eps_i : scomplex) : option scomplex :=
  z_div (z_mul eps_i (z_add (of_real 1) beta)) (z_sub (of_real 1) beta).
(** [np.cumprod]: the first entry is copied *)
Fixpoint s_cumprod_from (acc : option scomplex) (l : list (option scomplex)) : list (option scomplex) :=
  match l with
  | [] => []
  | x :: l' => let a := olift2 z_mul acc x in a :: s_cumprod_from a l'
  end.
Definition s_cumprod (l : list (option scomplex)) : list (option scomplex) :=
  match l with [] => [] | x :: l' => x :: s_cumprod_from x l' end.
(** sample.py:159-166 [beta_stack] setter: the [eps_stack] it stores, for numbers *)
Definition s_eps_from_beta (env : scomplex) (beta : list scomplex) : list (option scomplex) :=
  map (fun e => olift2 z_mul e (Some env))
      (Some (of_real 1) :: s_cumprod (map (fun b => s_permitivitty b (of_real 1)) beta)).
(** sample.py:154-157 [beta_stack] getter *)
Definition s_beta_stack (eps : list scomplex) : list (option scomplex) :=
  map (fun p => s_refl_coef_qs_single (fst p) (snd p)) (combine (removelast eps) (tl eps)).

(** ** Far field *)
(** sample.py:343-346.  The squares of [nu_vac] and [q] are reals without sign. *)
Definition s_nu_z (nu q : R) (eps : scomplex) : scomplex :=
  z_sqrt (z_sub (z_mul eps (of_real (nu ^ 2))) (of_real (q ^ 2))).
(** sample.py:348-384 for given wavevectors [nuz]: arithmetic and exponentials,
    for which signs of zeros do not matter (as in ModelSample.v) *)
Definition transfer_with (pol_p : bool) (eps nuz : list CV) (ts : list R) : res mat :=
  match map trans_matrix (map (trans_factor pol_p eps nuz) (seq 0 (length eps - 1))) with
  | [] => Raise (ValueError msg_stack)
  | T0 :: Ts =>
      if Nat.ltb 2 (length eps) then
        let props :=
          map (fun p => let phi := (fst p * rc (snd p))%cv in
                        prop_matrix (cexp (Some (0, -1)%R * phi)%cv)
                                    (cexp (Some (0, 1)%R * phi)%cv))
              (combine (removelast (tl nuz)) ts) in
        Ok (chain T0 (combine Ts props))
      else Ok T0
  end.
(** a sample of numbers *)
Record ssample := mkSS { s_eps_stack : list scomplex; s_t_stack : list R; s_nu_vac : option R }.
Definition plain_sample (s : ssample) : sample :=
  mkSample (map (fun e => Some (value e)) (s_eps_stack s)) (s_t_stack s) (s_nu_vac s).
(** sample.py:274-384 [transfer_matrix] *)
Definition s_transfer_matrix (s : ssample) (q theta_in nu : option R) (pol : string) : res mat :=
  let! nu := resolve_nu (plain_sample s) nu in
  let! q := resolve_q nu q theta_in in
  if Nat.eqb (length (s_eps_stack s)) 0 then Raise (ValueError msg_stack) else
  let nuz := map (fun e => Some (value (s_nu_z nu q e))) (s_eps_stack s) in
  let! pol_p := (if String.eqb pol "p" then Ok true
                 else if String.eqb pol "s" then Ok false
                 else Raise (ValueError msg_pol)) in
  transfer_with pol_p (map (fun e => Some (value e)) (s_eps_stack s)) nuz (s_t_stack s).
(** sample.py:386-420, 422-456 *)
Definition s_refl_coef (s : ssample) (q theta_in nu : option R) (pol : string) : res CV :=
  let! M := s_transfer_matrix s q theta_in nu pol in Ok (m10 M / m00 M)%cv.
Definition s_trans_coef (s : ssample) (q theta_in nu : option R) (pol : string) : res CV :=
  let! M := s_transfer_matrix s q theta_in nu pol in Ok (rc 1 / m00 M)%cv.
