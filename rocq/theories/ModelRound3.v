(** * The far-field code in arithmetic that rounds

    [transfer_matrix], [refl_coef] and [trans_coef] of sample.py with every
    operation replaced by the rounded one of a [machine] (SpecRound.v), in the
    order of the source.  Same simplifications as in ModelRound2.v. *)
From Coq Require Import String Reals List ZArith Bool.
From Coquelicot Require Import Complex.
From Verif Require Import Num ModelBase ModelSample SpecRound ModelRound ModelRound2.
Import ListNotations.
Open Scope R_scope.

(** NumPy's complex square root (npy_csqrt: Algorithm 312, CACM 10, 1967; the C
    library's is the same up to the place of the factors 1/2).  No signed zero. *)
Definition k_csqrt (m : machine) (z : C) : C :=
  let a := Re z in let b := Im z in
  if Ceq_dec z (RtoC 0) then RtoC 0
  else if Rle_dec 0 a then
    let t := a_sqrt m (a_mul m (a_add m a (a_hypot m a b)) (1 / 2)) in
    (t, a_div m b (a_mul m 2 t))
  else
    let t := a_sqrt m (a_mul m (a_add m (- a) (a_hypot m a b)) (1 / 2)) in
    (a_div m (Rabs b) (a_mul m 2 t), if Rle_dec 0 b then t else - t).
(** NumPy's complex exponential *)
Definition k_cexp (m : machine) (z : C) : C :=
  let e := a_exp m (Re z) in (a_mul m e (a_cos m (Im z)), a_mul m e (a_sin m (Im z))).

(** sample.py:331-341 *)
Definition k_resolve_q (m : machine) (nu : R) (q theta_in : option R) : res R :=
  match theta_in with
  | None => match q with None => Ok 0 | Some v => Ok v end
  | Some th =>
      match q with
      | None => Ok (a_mul m nu (a_sin m (Rabs th)))
      | Some _ => Raise (ValueError msg_theta_q)
      end
  end.
(** sample.py:343-346 *)
Definition k_nu_z (m : machine) (nu q : R) (eps : C) : C :=
  k_csqrt m (ksub m (kmul m eps (RtoC (a_pow m nu 2))) (RtoC (a_pow m q 2))).
(** sample.py:348-363 *)
Definition k_trans_factor (m : machine) (pol_p : bool) (eps nuz : list C) (i : nat) : C :=
  if pol_p
  then kdiv m (kmul m (nth i eps (RtoC 0)) (nth (i + 1) nuz (RtoC 0)))
              (kmul m (nth (i + 1) eps (RtoC 0)) (nth i nuz (RtoC 0)))
  else kdiv m (nth (i + 1) nuz (RtoC 0)) (nth i nuz (RtoC 0)).
(** sample.py:377-379: exponentials times [np.eye(2)] *)
Definition k_prop_matrix_ff (m : machine) (ea eb : C) : kmat :=
  {| k00 := kmul m ea (RtoC 1); k01 := kmul m eb (RtoC 0);
     k10 := kmul m ea (RtoC 0); k11 := kmul m eb (RtoC 1) |}.
(** sample.py:274-384 *)
Definition k_transfer_matrix (m : machine) (s : sample) (q theta_in nu : option R) (pol : string)
  : res kmat :=
  let! nu := resolve_nu s nu in
  let! q := k_resolve_q m nu q theta_in in
  if Nat.eqb (n_layers s) 0 then Raise (ValueError msg_stack) else
  let eps := map val0 (eps_stack s) in
  let nuz := map (k_nu_z m nu q) eps in
  let! pol_p := (if String.eqb pol "p" then Ok true
                 else if String.eqb pol "s" then Ok false
                 else Raise (ValueError msg_pol)) in
  let factors := map (k_trans_factor m pol_p eps nuz) (seq 0 (n_layers s - 1)) in
  match map (k_trans_matrix m) factors with
  | [] => Raise (ValueError msg_stack)
  | T0 :: Ts =>
      if multilayer s then
        let props :=
          map (fun p => let phi := kmul m (fst p) (RtoC (snd p)) in
                        k_prop_matrix_ff m (k_cexp m (kmul m (0, -1) phi))
                                           (k_cexp m (kmul m (0, 1) phi)))
              (combine (removelast (tl nuz)) (t_stack s)) in
        Ok (k_chain m T0 (combine Ts props))
      else Ok T0
  end.
(** sample.py:386-420 *)
Definition k_refl_coef (m : machine) (s : sample) (q theta_in nu : option R) (pol : string) : res C :=
  let! M := k_transfer_matrix m s q theta_in nu pol in Ok (kdiv m (k10 M) (k00 M)).
(** sample.py:422-456 *)
Definition k_trans_coef (m : machine) (s : sample) (q theta_in nu : option R) (pol : string) : res C :=
  let! M := k_transfer_matrix m s q theta_in nu pol in Ok (kdiv m (RtoC 1) (k00 M)).
