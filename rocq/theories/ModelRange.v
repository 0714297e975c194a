(** * The quasistatic transfer matrix in arithmetic with the range of a double

    The rest of the development computes in the complex numbers, where nothing
    overflows.  This file models [sample.py]:181-252 once more in an arithmetic
    that is exact (no rounding, no underflow: a simplification) but whose
    finite values are limited to the range of a double, so that the effect of
    the clipping at sample.py:222 can be stated.  One scalar per layer. *)
From Coq Require Import Reals Lra List.
From Coquelicot Require Import Complex.
From Verif Require Import ModelSample.
Import ListNotations.
Open Scope R_scope.

(** [np.finfo(float).max], sample.py:43-44 *)
Definition MAXF : R := (2 - / 2 ^ 52) * 2 ^ 1023.

Inductive flt := Fin (x : R) | PInf | NInf | NaN.

(** The result of an operation whose exact value is [x]. *)
Definition inrange (x : R) : flt :=
  if Rle_dec (Rabs x) MAXF then Fin x else if Rlt_dec 0 x then PInf else NInf.

(** IEEE 754 arithmetic on these values.  The sign of a zero is not
    represented; a division by zero is therefore [NaN] here, where IEEE gives
    an infinity of either sign or a nan. *)
Definition fopp (a : flt) : flt :=
  match a with Fin x => Fin (- x) | PInf => NInf | NInf => PInf | NaN => NaN end.
Definition fadd (a b : flt) : flt :=
  match a, b with
  | Fin x, Fin y => inrange (x + y)
  | NaN, _ | _, NaN => NaN
  | PInf, NInf | NInf, PInf => NaN
  | PInf, _ | _, PInf => PInf
  | NInf, _ | _, NInf => NInf
  end.
Definition fsub (a b : flt) : flt := fadd a (fopp b).
(** an infinity times the finite number [x] *)
Definition scale_inf (pos : flt) (x : R) : flt :=
  if Rlt_dec 0 x then pos else if Rlt_dec x 0 then fopp pos else NaN.
Definition fmul (a b : flt) : flt :=
  match a, b with
  | Fin x, Fin y => inrange (x * y)
  | NaN, _ | _, NaN => NaN
  | PInf, PInf | NInf, NInf => PInf
  | PInf, NInf | NInf, PInf => NInf
  | PInf, Fin x | Fin x, PInf => scale_inf PInf x
  | NInf, Fin x | Fin x, NInf => scale_inf NInf x
  end.
Definition fdiv (a b : flt) : flt :=
  match a, b with
  | Fin x, Fin y => if Req_EM_T y 0 then NaN else inrange (x / y)
  | NaN, _ | _, NaN => NaN
  | Fin _, PInf | Fin _, NInf => Fin 0
  | PInf, Fin y => scale_inf PInf y
  | NInf, Fin y => scale_inf NInf y
  | _, _ => NaN
  end.
Definition fabs (a : flt) : flt :=
  match a with Fin x => Fin (Rabs x) | PInf => PInf | NInf => PInf | NaN => NaN end.
(** [a >= b]; false when either is nan *)
Definition fge (a b : flt) : bool :=
  match a, b with
  | NaN, _ | _, NaN => false
  | PInf, _ => true
  | _, NInf => true
  | Fin x, Fin y => if Rle_dec y x then true else false
  | _, _ => false
  end.
Definition fexp (a : flt) : flt :=
  match a with
  | Fin x => inrange (exp x) | PInf => PInf | NInf => Fin 0 | NaN => NaN
  end.
(** sample.py:222 [np.clip(p, -_MAX_EXP_ARG, _MAX_EXP_ARG)] *)
Definition fclip (a : flt) : flt :=
  match a with
  | Fin x => Fin (Rmin (Rmax x (- MAX_EXP_ARG)) MAX_EXP_ARG)
  | PInf => Fin MAX_EXP_ARG
  | NInf => Fin (- MAX_EXP_ARG)
  | NaN => NaN
  end.

(** ** Complex numbers: numpy's componentwise formulas *)
Definition cflt : Type := (flt * flt)%type.
(** a real operand of a complex operation is converted first *)
Definition re (x : flt) : cflt := (x, Fin 0).
Definition rf (x : R) : cflt := re (Fin x).
(** a complex number of the exact arithmetic, as a number of this one *)
Definition zof (c : C) : cflt := (Fin (Re c), Fin (Im c)).
Definition zadd (a b : cflt) : cflt := (fadd (fst a) (fst b), fadd (snd a) (snd b)).
Definition zmul (a b : cflt) : cflt :=
  (fsub (fmul (fst a) (fst b)) (fmul (snd a) (snd b)),
   fadd (fmul (fst a) (snd b)) (fmul (snd a) (fst b))).
(** numpy's complex division (Smith's algorithm; with a zero divisor it
    divides both components by zero, which [fdiv] makes [NaN] in either case) *)
Definition zdiv (a b : cflt) : cflt :=
  if fge (fabs (fst b)) (fabs (snd b)) then
    let rat := fdiv (snd b) (fst b) in
    let scl := fdiv (Fin 1) (fadd (fst b) (fmul (snd b) rat)) in
    (fmul (fadd (fst a) (fmul (snd a) rat)) scl,
     fmul (fsub (snd a) (fmul (fst a) rat)) scl)
  else
    let rat := fdiv (fst b) (snd b) in
    let scl := fdiv (Fin 1) (fadd (snd b) (fmul (fst b) rat)) in
    (fmul (fadd (fmul (fst a) rat) (snd a)) scl,
     fmul (fsub (fmul (snd a) rat) (fst a)) scl).

Record zmat := mkZ { z00 : cflt; z01 : cflt; z10 : cflt; z11 : cflt }.
(** [@] on 2x2 matrices *)
Definition zmm (A B : zmat) : zmat :=
  {| z00 := zadd (zmul (z00 A) (z00 B)) (zmul (z01 A) (z10 B));
     z01 := zadd (zmul (z00 A) (z01 B)) (zmul (z01 A) (z11 B));
     z10 := zadd (zmul (z10 A) (z00 B)) (zmul (z11 A) (z10 B));
     z11 := zadd (zmul (z10 A) (z01 B)) (zmul (z11 A) (z11 B)) |}.

(** sample.py:211-213 *)
Definition ztrans (f : cflt) : zmat :=
  let p := zdiv (zadd (rf 1) (zmul (rf 1) f)) (rf 2) in
  let m := zdiv (zadd (rf 1) (zmul (rf (-1)) f)) (rf 2) in
  {| z00 := p; z01 := m; z10 := m; z11 := p |}.
(** sample.py:210-213: one matrix per interface *)
Definition ztrans_matrices (eps : list cflt) : list zmat :=
  map (fun p => ztrans (zdiv (fst p) (snd p))) (combine (removelast eps) (tl eps)).
(** sample.py:218-225: [np.exp([1, -1] * p) * np.eye(2)], real *)
Definition zprop (q t : flt) : zmat :=
  let p := fclip (fmul q t) in
  let a := fexp (fmul (Fin 1) p) in
  let b := fexp (fmul (Fin (-1)) p) in
  {| z00 := re (fmul a (Fin 1)); z01 := re (fmul b (Fin 0));
     z10 := re (fmul a (Fin 0)); z11 := re (fmul b (Fin 1)) |}.
(** sample.py:227-228 *)
Definition zchain (M : zmat) (TP : list (zmat * zmat)) : zmat :=
  fold_left (fun M tp => zmm (zmm M (snd tp)) (fst tp)) TP M.

(** sample.py:209-232 ([None] when there is no interface, where the code
    raises IndexError) *)
Definition ztransfer_qs (eps : list cflt) (ts : list flt) (q : flt) : option zmat :=
  match ztrans_matrices eps with
  | [] => None
  | T :: Ts =>
      if Nat.ltb 2 (length eps)
      then Some (zchain T (combine Ts (map (zprop q) ts)))
      else Some {| z00 := zmul (z00 T) (rf 1); z01 := zmul (z01 T) (rf 1);
                   z10 := zmul (z10 T) (rf 1); z11 := zmul (z11 T) (rf 1) |}
  end.
(** sample.py:234-252 *)
Definition zrefl_qs (eps : list cflt) (ts : list flt) (q : flt) : option cflt :=
  match ztransfer_qs eps ts q with
  | None => None
  | Some M => Some (zdiv (z10 M) (z00 M))
  end.

(** ** The Gauss-Laguerre averages, sample.py:472-726

    [nodes] are the pairs (x, w) of [laggauss(n_lag)].  [np.sum] is modelled as
    a sum from the left. *)
Definition zsum (l : list cflt) : cflt := fold_left zadd l (rf 0).
(** sample.py:584-586 / 719-721: beta at the momenta x / (2 z_Q) *)
Definition zbeta_nodes (eps : list cflt) (ts : list flt) (z : flt) (nodes : list (R * R))
  : list (R * R * cflt) :=
  map (fun n => (n, match zrefl_qs eps ts (fdiv (Fin (fst n)) (fmul (Fin 2) z)) with
                    | Some b => b | None => (NaN, NaN) end)) nodes.
(** sample.py:588 [np.sum(w_lag * x_lag * beta_q)]; [None] when refl_coef_qs
    raises, which does not depend on the momentum *)
Definition zabove_surf (eps : list cflt) (ts : list flt) (z : flt) (nodes : list (R * R)) : option cflt :=
  match ztrans_matrices eps with
  | [] => None
  | _ => Some (zsum (map (fun nb => zmul (re (fmul (Fin (snd (fst nb))) (Fin (fst (fst nb))))) (snd nb))
                         (zbeta_nodes eps ts z nodes)))
  end.
(** sample.py:723-726 [phi, E] *)
Definition zsurf_pot_and_field (eps : list cflt) (ts : list flt) (z : flt) (nodes : list (R * R))
  : option (cflt * cflt) :=
  match ztrans_matrices eps with
  | [] => None
  | _ => Some (zdiv (zsum (map (fun nb => zmul (rf (snd (fst nb))) (snd nb))
                               (zbeta_nodes eps ts z nodes)))
                    (re (fmul (Fin 2) z)),
               zdiv (zsum (map (fun nb => zmul (re (fmul (Fin (snd (fst nb))) (Fin (fst (fst nb))))) (snd nb))
                               (zbeta_nodes eps ts z nodes)))
                    (re (fmul (Fin 4) (fmul z z))))
  end.
