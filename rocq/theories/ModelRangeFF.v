(** * The far-field transfer matrix in arithmetic with the range of a double

    [sample.py]:343-456 in the arithmetic of ModelRange.v (exact values, but
    limited to the range of a double).  One scalar per layer; the arguments
    are already resolved (sample.py:317-341 is in ModelSample.v). *)
From Coq Require Import Reals Lra List.
From Coquelicot Require Import Complex.
From Verif Require Import Num ModelSample ModelRange.
Import ListNotations.
Open Scope R_scope.

Definition zsub (a b : cflt) : cflt := (fsub (fst a) (fst b), fsub (snd a) (snd b)).

(** [np.exp] of a complex number: C99 [cexp] (the sign of a zero is not
    represented) *)
Definition zexp (z : cflt) : cflt :=
  match z with
  | (Fin x, Fin y) => (inrange (exp x * cos y), inrange (exp x * sin y))
  | (PInf, Fin y) =>
      if Req_EM_T y 0 then (PInf, Fin 0) else (scale_inf PInf (cos y), scale_inf PInf (sin y))
  | (NInf, _) => (Fin 0, Fin 0)
  | (PInf, _) => (PInf, NaN)
  | (NaN, Fin y) => if Req_EM_T y 0 then (NaN, Fin 0) else (NaN, NaN)
  | (_, _) => (NaN, NaN)
  end.

(** [np.sqrt] of a complex number: C99 [csqrt] *)
Definition zsqrt (z : cflt) : cflt :=
  match z with
  | (Fin x, Fin y) => (inrange (Re (Csqrt (x, y))), inrange (Im (Csqrt (x, y))))
  | (_, PInf) => (PInf, PInf)
  | (_, NInf) => (PInf, NInf)
  | (PInf, Fin _) => (PInf, Fin 0)
  | (NInf, Fin y) => if Rlt_dec y 0 then (Fin 0, NInf) else (Fin 0, PInf)
  | (PInf, NaN) => (PInf, NaN)
  | (NInf, NaN) => (NaN, PInf)
  | (_, _) => (NaN, NaN)
  end.

(** sample.py:343-346 [np.sqrt(eps * nu_vac**2 - q**2)] *)
Definition znu_z (nu q : flt) (eps : cflt) : cflt :=
  zsqrt (zsub (zmul eps (re (fmul nu nu))) (re (fmul q q))).

(** sample.py:348-361: the factor of the interface between two layers (a
    layer is its permittivity and its wavevector) *)
Definition zfactor (pol_p : bool) (a b : cflt * cflt) : cflt :=
  if pol_p then zdiv (zmul (fst a) (snd b)) (zmul (fst b) (snd a))
  else zdiv (snd b) (snd a).
(** sample.py:348-367; [range(n_layers - 1)] and [i + 1] run over
    neighbouring layers *)
Definition ztrans_matrices_ff (pol_p : bool) (layers : list (cflt * cflt)) : list zmat :=
  map (fun p => ztrans (zfactor pol_p (fst p) (snd p))) (combine (removelast layers) (tl layers)).
(** sample.py:373-379: [np.exp([-1j, 1j] * (nu_z * t)) * np.eye(2)]; the real
    identity matrix is converted to complex first *)
Definition zprop_ff (nu_z : cflt) (t : flt) : zmat :=
  let phi := zmul nu_z (re t) in
  let a := zexp (zmul (Fin 0, Fin (-1)) phi) in
  let b := zexp (zmul (Fin 0, Fin 1) phi) in
  {| z00 := zmul a (rf 1); z01 := zmul b (rf 0); z10 := zmul a (rf 0); z11 := zmul b (rf 1) |}.
(** sample.py:343-384 ([None] when there is no interface, where the code
    raises ValueError) *)
Definition ztransfer_ff (pol_p : bool) (eps : list cflt) (ts : list flt) (nu q : flt) : option zmat :=
  let layers := map (fun e => (e, znu_z nu q e)) eps in
  match ztrans_matrices_ff pol_p layers with
  | [] => None
  | T :: Ts =>
      if Nat.ltb 2 (length eps)
      then Some (zchain T (combine Ts (map (fun p => zprop_ff (snd (fst p)) (snd p))
                                           (combine (removelast (tl layers)) ts))))
      else Some T
  end.
(** sample.py:386-420 *)
Definition zrefl_ff (pol_p : bool) (eps : list cflt) (ts : list flt) (nu q : flt) : option cflt :=
  match ztransfer_ff pol_p eps ts nu q with
  | None => None
  | Some M => Some (zdiv (z10 M) (z00 M))
  end.
(** sample.py:422-456 *)
Definition ztrans_ff (pol_p : bool) (eps : list cflt) (ts : list flt) (nu q : flt) : option cflt :=
  match ztransfer_ff pol_p eps ts nu q with
  | None => None
  | Some M => Some (zdiv (rf 1) (z00 M))
  end.
