(** * Properties (generated by tools/gen_prop.py from ProofsArrTip5.v; statements
    only, each proved there) *)
From Coq Require Import String Reals Lra Lia ZArith List Bool.
From Coquelicot Require Import Rcomplements Complex.
From Verif Require Import Num NumLemmas ModelBase ModelSample ModelTip NArr SpecArr NArrLemmas ModelObj
  ModelArr SpecObj ArrSample ProofsArr ProofsArr2 ModelArrTip ProofsArrTip ProofsArrTip2 ProofsArrTip3 ProofsArrTip4.
Import ListNotations.
Open Scope R_scope.
From Verif Require Import ProofsArrTip5.

(** C48: if the function acts elementwise, [demod] has the joint shape of
    x_0, x_amplitude, n and the function's other operands, fails with a
    ValueError exactly if these do not broadcast, and each entry is the
    demodulation of the entries of the operands. *)
Theorem C48_demod_broadcast : forall D ss g f x_0 x_amplitude (n : arr Z) n_trapz,
  acts_elementwise ss g f ->
  vectorised ([shp x_0; shp x_amplitude; shp n] ++ ss)
    (fun i => demod D (fun x => Ok (g i x)) (entry x_0 i) (entry x_amplitude i) (entry n i) n_trapz)
    (demod_a D f x_0 x_amplitude n n_trapz).
Proof. exact C48_demod_broadcast_proof. Qed.
Print Assumptions C48_demod_broadcast.

(** C48: effective polarizability of the finite dipole model, for every call
    with a method that applies *)
Theorem C48_fdm_eff_pol_broadcast : forall lag D o z r L g d_Q0 d_Q1 d_Qa n_lag method, consistent o ->
  fdm_call o ["multi"%string; "Q_ave"%string] (method_of o "multi" method)
    (match n_lag with Some n => n | None => d_n_lag D end) ->
  vectorised (fdm_shapes o (method_of o "multi" method) z r L g d_Q0 d_Q1 d_Qa)
    (fun i => fdm_eff_pol lag D (sample_at o i) (at_index z i) (at_index r i) (at_index L i) (at_index g i)
                (at_index d_Q0 i) (at_index d_Q1 i) (at_index d_Qa i) n_lag method)
    (fdm_eff_pol_a lag D o z r L g d_Q0 d_Q1 d_Qa n_lag method).
Proof. exact C48_fdm_eff_pol_broadcast_proof. Qed.
Print Assumptions C48_fdm_eff_pol_broadcast.

(** C48: demodulated effective polarizability of the finite dipole model *)
Theorem C48_fdm_eff_pol_n_broadcast : forall lag D o A n z n_trapz r L g d_Q0 d_Q1 d_Qa n_lag method, consistent o ->
  fdm_call o ["multi"%string; "Q_ave"%string] (method_of o "multi" method)
    (match n_lag with Some n => n | None => d_n_lag D end) ->
  vectorised ([shp A; shp n] ++ fdm_shapes o (method_of o "multi" method) z r L g d_Q0 d_Q1 d_Qa)
    (fun i => fdm_eff_pol_n lag D (sample_at o i) (entry A i) (entry n i) (at_index z i) n_trapz
                (at_index r i) (at_index L i) (at_index g i)
                (at_index d_Q0 i) (at_index d_Q1 i) (at_index d_Qa i) n_lag method)
    (fdm_eff_pol_n_a lag D o A n z n_trapz r L g d_Q0 d_Q1 d_Qa n_lag method).
Proof. exact C48_fdm_eff_pol_n_broadcast_proof. Qed.
Print Assumptions C48_fdm_eff_pol_n_broadcast.

(** C48: Taylor series of the finite dipole model *)
Theorem C48_fdm_taylor_broadcast : forall lag D o A n z r L g d_Q0 d_Q1 d_Qa n_lag method n_trapz n_tayl, consistent o ->
  fdm_call o ["Q_ave"%string] (method_of o "Q_ave" method)
    (match n_lag with Some n => n | None => d_n_lag D end) ->
  vectorised ([shp A; shp n] ++ fdm_shapes o (method_of o "Q_ave" method) z r L g d_Q0 d_Q1 d_Qa)
    (fun i => fdm_eff_pol_n_taylor lag D (sample_at o i) (entry A i) (entry n i) (at_index z i)
                (at_index r i) (at_index L i) (at_index g i)
                (at_index d_Q0 i) (at_index d_Q1 i) (at_index d_Qa i) n_lag method n_trapz n_tayl)
    (fdm_eff_pol_n_taylor_a lag D o A n z r L g d_Q0 d_Q1 d_Qa n_lag method n_trapz n_tayl).
Proof. exact C48_fdm_taylor_broadcast_proof. Qed.
Print Assumptions C48_fdm_taylor_broadcast.
