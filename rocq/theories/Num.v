(** * Numeric values, Python exceptions and elementary NumPy functions

    Exact real/complex arithmetic with a "non-finite" poison value.
    [None] stands for any non-finite NumPy value (nan or an infinity); every
    operation propagates it.  See DESIGN.md section 1. *)
From Coq Require Import String Reals Lra Lia ZArith List Bool.
From Coquelicot Require Import Complex.
Import ListNotations.
Open Scope R_scope.

(** ** Python exceptions as values *)
Inductive exn :=
| ValueError (msg : string)
| TypeError
| IndexError
| LinAlgError.

Inductive res (A : Type) :=
| Ok (a : A)
| Raise (e : exn).
Arguments Ok {A}. Arguments Raise {A}.

Definition rbind {A B} (m : res A) (f : A -> res B) : res B :=
  match m with Ok a => f a | Raise e => Raise e end.
Notation "'let!' x ':=' m 'in' k" := (rbind m (fun x => k))
  (at level 200, x pattern, m at level 100, k at level 200).

Fixpoint mapM {A B} (f : A -> res B) (l : list A) : res (list B) :=
  match l with
  | [] => Ok []
  | a :: l' => let! b := f a in let! bs := mapM f l' in Ok (b :: bs)
  end.

(** [x if x is not None else default] *)
Definition dflt {A} (d : A) (o : option A) : A :=
  match o with Some a => a | None => d end.

(** ** Poisoned reals and complexes *)
Definition RV := option R.
Definition CV := option C.

Definition olift1 {A B} (f : A -> B) (x : option A) : option B :=
  match x with Some a => Some (f a) | None => None end.
Definition olift2 {A B D} (f : A -> B -> D) (x : option A) (y : option B) : option D :=
  match x, y with Some a, Some b => Some (f a b) | _, _ => None end.

Definition rr (x : R) : RV := Some x.
Definition radd : RV -> RV -> RV := olift2 Rplus.
Definition rsub : RV -> RV -> RV := olift2 Rminus.
Definition rmul : RV -> RV -> RV := olift2 Rmult.
(** real division: a zero divisor gives nan or an infinity *)
Definition rdiv (x y : RV) : RV :=
  match x, y with
  | Some a, Some b => if Req_EM_T b 0 then None else Some (a / b)
  | _, _ => None
  end.
(** [np.log] of a real: finite exactly for positive arguments *)
Definition rln (x : RV) : RV :=
  match x with
  | Some a => if Rlt_dec 0 a then Some (ln a) else None
  | None => None
  end.
Definition rpow (x : RV) (n : nat) : RV := olift1 (fun a => a ^ n) x.

Definition rc (x : R) : CV := Some (RtoC x).
Definition ofR : RV -> CV := olift1 RtoC.
Definition cadd : CV -> CV -> CV := olift2 Cplus.
Definition csub : CV -> CV -> CV := olift2 Cminus.
Definition cmul : CV -> CV -> CV := olift2 Cmult.
Definition cdiv (x y : CV) : CV :=
  match x, y with
  | Some a, Some b => if Ceq_dec b (RtoC 0) then None else Some (Cdiv a b)
  | _, _ => None
  end.
Fixpoint Cpown (x : C) (n : nat) : C :=
  match n with O => RtoC 1 | S m => Cmult x (Cpown x m) end.
Definition cpown (x : CV) (n : nat) : CV := olift1 (fun a => Cpown a n) x.
(** integer power [x ** k]; a negative power of zero is non-finite *)
Definition cpowz (x : CV) (k : Z) : CV :=
  match k with
  | Z0 => cpown x 0
  | Zpos p => cpown x (Pos.to_nat p)
  | Zneg p => cdiv (rc 1) (cpown x (Pos.to_nat p))
  end.
(** [np.abs] *)
Definition cabs : CV -> RV := olift1 Cmod.

(** [np.exp] of a complex *)
Definition Cexp (z : C) : C := (exp (Re z) * cos (Im z), exp (Re z) * sin (Im z))%R.
(** [np.sqrt] of a complex: principal branch (no signed zero: a negative real
    is mapped to the positive imaginary axis) *)
Definition Csqrt (z : C) : C :=
  (sqrt ((Cmod z + Re z) / 2),
   (if Rle_dec 0 (Im z) then 1 else -1) * sqrt ((Cmod z - Re z) / 2))%R.
Arguments Cexp z%C_scope. Arguments Csqrt z%C_scope.
Definition cexp : CV -> CV := olift1 Cexp.
Definition csqrt : CV -> CV := olift1 Csqrt.

(** [np.sum] of a list; exact arithmetic, so the association is irrelevant *)
Definition csum (l : list CV) : CV := fold_right cadd (rc 0) l.

Declare Scope rv_scope. Delimit Scope rv_scope with rv.
Declare Scope cv_scope. Delimit Scope cv_scope with cv.
Infix "+" := radd : rv_scope. Infix "-" := rsub : rv_scope.
Infix "*" := rmul : rv_scope. Infix "/" := rdiv : rv_scope.
Infix "^" := rpow : rv_scope.
Infix "+" := cadd : cv_scope. Infix "-" := csub : cv_scope.
Infix "*" := cmul : cv_scope. Infix "/" := cdiv : cv_scope.
Infix "^" := cpown : cv_scope.

Definition Rleb (x y : R) : bool := if Rle_dec x y then true else false.
