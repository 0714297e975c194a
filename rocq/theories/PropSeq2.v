(** * Properties (generated by tools/gen_prop.py from ProofsSeq2.v; statements
    only, each proved there) *)
From Coq Require Import String Reals Lra Lia ZArith List Bool FunctionalExtensionality.
From Coquelicot Require Import Rcomplements Complex.
From Verif Require Import Num NumLemmas ModelBase ModelSample ModelTip NArr SpecArr NArrLemmas ModelObj
  ModelArr SpecObj ArrSample ProofsArr ProofsArr2 ModelArrTip ProofsArrTip ProofsArrTip2 ProofsArrTip3 ProofsArrTip4
  ProofsArrTip5 ProofsArrTip6 ModelInv ModelSeq SpecSeq ProofsSeq.
Import ListNotations.
Open Scope R_scope.
From Verif Require Import ProofsSeq2.

(** C87, the harmonics as a Python sequence: [fdm.eff_pol_n_taylor] broadcasts
    as with an array, but the constant term of the Taylor series is lost at
    harmonic 0 ([n == 0] is False for a list), so that the result there is one
    less; the other harmonics are right. *)
Theorem C87_taylor_harmonics : forall lag (D : Defaults) o Ap (ns : list Z) zp r L g d_Q0 d_Q1 d_Qa n_lag method n_trapz n_tayl, consistent o ->
  fdm_call o ["Q_ave"%string] (method_of o "Q_ave" method)
    (match n_lag with Some n => n | None => d_n_lag D end) ->
  (match n_tayl with Some n => n | None => d_n_tayl D end) <> O ->
  plain Ap -> plain_opt zp -> let A := as_array 0 Ap in let z := as_array_opt 0 zp in
  vectorised ([shp A; [length ns]] ++ fdm_shapes o (method_of o "Q_ave" method) z r L g d_Q0 d_Q1 d_Qa)
    (fun i => match fdm_eff_pol_n_taylor lag D (sample_at o i) (entry A i) (item 0%Z ns i) (at_index z i)
                (at_index r i) (at_index L i) (at_index g i)
                (at_index d_Q0 i) (at_index d_Q1 i) (at_index d_Qa i) n_lag method n_trapz n_tayl with
              | Ok a => Ok (if Z.eqb (item 0%Z ns i) 0 then a - rc 1 else a)%cv
              | Raise e => Raise e
              end)
    (fdm_eff_pol_n_taylor_p lag D o Ap (Seq ns) zp r L g d_Q0 d_Q1 d_Qa n_lag method n_trapz n_tayl).
Proof. exact C87_taylor_harmonics_proof. Qed.
Print Assumptions C87_taylor_harmonics.
