(** * Properties (generated by tools/gen_prop.py from ProofsSeq.v; statements
    only, each proved there) *)
From Coq Require Import String Reals Lra Lia ZArith List Bool FunctionalExtensionality.
From Coquelicot Require Import Rcomplements Complex.
From Verif Require Import Num NumLemmas ModelBase ModelSample ModelTip NArr SpecArr NArrLemmas ModelObj
  ModelArr SpecObj ArrSample ProofsArr ProofsArr2 ModelArrTip ProofsArrTip ProofsArrTip2 ProofsArrTip3 ProofsArrTip4
  ProofsArrTip5 ProofsArrTip6 ModelInv ModelSeq SpecSeq.
Import ListNotations.
Open Scope R_scope.
From Verif Require Import ProofsSeq.

(** C87, what the sequence layer adds to the array model: nothing, as long as
    one of the two heights is an array or neither is a sequence.  The harmonics
    may then be a sequence, except in [fdm.eff_pol_n_taylor]. *)
Theorem C87_converted : forall lag (D : Defaults) o A n z n_trapz n_tayl,
  (array_opt z \/ is_array A \/ (plain_opt z /\ plain A)) ->
  (forall r L g d_Q0 d_Q1 d_Qa n_lag method,
   fdm_eff_pol_n_p lag D o A n z n_trapz r L g d_Q0 d_Q1 d_Qa n_lag method
   = fdm_eff_pol_n_a lag D o (as_array 0 A) (as_array 0%Z n) (as_array_opt 0 z) n_trapz r L g d_Q0 d_Q1 d_Qa n_lag method) /\
  (forall r eps_tip alpha_tip,
   pdm_eff_pol_n_p D o A n z n_trapz r eps_tip alpha_tip
   = pdm_eff_pol_n_a D o (as_array 0 A) (as_array 0%Z n) (as_array_opt 0 z) n_trapz r eps_tip alpha_tip) /\
  (forall r eps_tip alpha_tip,
   pdm_eff_pol_n_taylor_p D o A n z r eps_tip alpha_tip n_trapz n_tayl
   = pdm_eff_pol_n_taylor_a D o (as_array 0 A) (as_array 0%Z n) (as_array_opt 0 z) r eps_tip alpha_tip n_trapz n_tayl) /\
  (plain n -> plain_opt z -> forall r L g d_Q0 d_Q1 d_Qa n_lag method,
   fdm_eff_pol_n_taylor_p lag D o A n z r L g d_Q0 d_Q1 d_Qa n_lag method n_trapz n_tayl
   = fdm_eff_pol_n_taylor_a lag D o (as_array 0 A) (as_array 0%Z n) (as_array_opt 0 z) r L g d_Q0 d_Q1 d_Qa
       n_lag method n_trapz n_tayl).
Proof. exact C87_converted_proof. Qed.
Print Assumptions C87_converted.
