(** * The tip models over a bulk sample in arithmetic with infinities

    [fdm.py]:225-262, 320-325 and [pdm.py]:202-209, 254 once more in the arithmetic of [ModelRange.v]
    (exact reals, limited to the range of a double, infinities and NaN), for the
    arguments already taken from the defaults.  Real operands of a complex operation are converted first, as
    NumPy does; all samples are complex (for a real permittivity NumPy stays real: the components that are computed
    here in addition are zeros). *)
From Coq Require Import Reals List.
From Coquelicot Require Import Complex.
From Verif Require Import ModelRange.
Import ListNotations.
Open Scope R_scope.

(** complex difference: componentwise *)
Definition zsub (a b : cflt) : cflt := (fsub (fst a) (fst b), fsub (snd a) (snd b)).
(** [np.log] of a real: -inf at 0 (with a warning), nan below *)
Definition flog (a : flt) : flt :=
  match a with
  | Fin x => if Rlt_dec 0 x then Fin (ln x) else if Req_EM_T x 0 then NInf else NaN
  | PInf => PInf | NInf => NaN | NaN => NaN
  end.
(** [x ** 3] on NumPy numbers (a Python float raises OverflowError where the cube of a finite number overflows) *)
Definition fcube (a : flt) : flt :=
  match a with Fin x => inrange (x ^ 3) | PInf => PInf | NInf => NInf | NaN => NaN end.

(** pdm.py:254: [alpha_tip / (16 * np.pi * (r_tip + z_tip) ** 3)]  ([16 * np.pi] is a finite constant) *)
Definition zpdm_geom (z r : flt) (alpha : cflt) : cflt :=
  zdiv alpha (re (fmul (Fin (16 * PI)) (fcube (fadd r z)))).
(** pdm.py:206-209 *)
Definition zpdm_eff_pol (eps : list cflt) (z r : flt) (alpha : cflt) : option cflt :=
  match zrefl_qs eps [] (Fin 0) with
  | None => None
  | Some beta => Some (zdiv alpha (zsub (rf 1) (zmul (zpdm_geom z r alpha) beta)))
  end.
(** fdm.py:320-325 *)
Definition zfdm_geom (z d r L : flt) (g : cflt) : cflt :=
  zdiv (zmul (zsub g (re (fdiv (fadd (fadd r (fmul (Fin 2) z)) (fmul d r)) (fmul (Fin 2) L))))
             (re (flog (fdiv (fmul (Fin 4) L) (fadd (fadd r (fmul (Fin 4) z)) (fmul (fmul (Fin 2) d) r))))))
       (re (flog (fdiv (fmul (Fin 4) L) r))).
(** fdm.py:236-242, 260: method 'bulk' *)
Definition zfdm_eff_pol (eps : list cflt) (z d0 d1 r L : flt) (g : cflt) : option cflt :=
  match zrefl_qs eps [] (Fin 0) with
  | None => None
  | Some beta =>
      Some (zadd (rf 1) (zdiv (zmul beta (zfdm_geom z d0 r L g))
                              (zmul (rf 2) (zsub (rf 1) (zmul beta (zfdm_geom z d1 r L g))))))
  end.
(** _defaults.py:118-119: [d_Q0 = 1.31 * L_tip / (L_tip + 2 * r_tip)] when not given *)
Definition zd_Q0 (r L : flt) : flt := fdiv (fmul (Fin (131 / 100)) L) (fadd L (fmul (Fin 2) r)).
(** _defaults.py:129-131 and 133-134: the polarizability of a conducting tip and of a dielectric one *)
Definition zalpha_metal (r : flt) : cflt := re (fmul (Fin (4 * PI)) (fcube r)).
Definition zalpha_eps (r : flt) (eps : cflt) : cflt :=
  zdiv (zmul (re (fmul (Fin (4 * PI)) (fcube r))) (zsub eps (rf 1))) (zadd eps (rf 2)).
