(** * Properties (generated by tools/gen_prop.py from ProofsTip.v; statements
    only, each proved there) *)
From Coq Require Import String Reals Lra Lia ZArith List Bool.
From Coquelicot Require Import Rcomplements Complex.
From Verif Require Import Num NumLemmas ModelBase ModelSample ModelTip StackLemmas Spec
  ProofsStackQS ProofsStackQS2 ProofsSym ProofsPassive DemodLemmas ProofsDemod.
Import ListNotations.
Open Scope R_scope.
From Verif Require Import ProofsTip.

(** C25. On a bulk sample the methods 'bulk', 'Q_ave' and (if there is any
    contrast) 'multi' of fdm.eff_pol return the same value, and no method
    means 'bulk'; for every tip with positive size and charges inside it. *)
Theorem C25_methods_agree :
  forall (laggauss : laggauss_t) (D : Defaults) (e0 e1 : C) nu (z_tip r_tip L_tip : option R)
    (g_factor : option C) (d_Q0 d_Q1 d_Qa : option R) (n_lag : option nat),
  let s := stack [e0; e1] [] nu in
  let z := given_or (d_z_tip D) z_tip in let r := given_or (d_r_tip D) r_tip in
  let L := given_or (d_L_tip D) L_tip in let n := given_or (d_n_lag D) n_lag in
  let d0 := given_or (131 / 100 * L / (L + 2 * r)) d_Q0 in
  let d1 := given_or (d_d_Q1 D) d_Q1 in let da := given_or (d_d_Qa D) d_Qa in
  let alpha := fdm_eff_pol laggauss D s z_tip r_tip L_tip g_factor d_Q0 d_Q1 d_Qa n_lag in
  n <> O -> laguerre_rule (laggauss n) ->
  e1 <> RtoC 0 -> (e0 + e1 <> 0)%C ->
  0 <= z -> 0 < r -> 0 < L -> 0 < d0 -> 0 < d1 -> 0 < da ->
  alpha None = alpha (Some "bulk"%string) /\
  alpha (Some "Q_ave"%string) = alpha (Some "bulk"%string) /\
  (e0 <> e1 -> alpha (Some "multi"%string) = alpha (Some "bulk"%string)).
Proof. exact C25_methods_agree_proof. Qed.
Print Assumptions C25_methods_agree.

(** C25. Hence the same for fdm.eff_pol_n, at every harmonic and with any
    number of intervals. *)
Theorem C25_methods_agree_demodulated :
  forall (laggauss : laggauss_t) (D : Defaults) (e0 e1 : C) nu (A_tip : R) (n : Z) (n_trapz : option nat)
    (z_tip r_tip L_tip : option R)
    (g_factor : option C) (d_Q0 d_Q1 d_Qa : option R) (n_lag : option nat),
  let s := stack [e0; e1] [] nu in
  let z := given_or (d_z_tip D) z_tip in let r := given_or (d_r_tip D) r_tip in
  let L := given_or (d_L_tip D) L_tip in let nl := given_or (d_n_lag D) n_lag in
  let d0 := given_or (131 / 100 * L / (L + 2 * r)) d_Q0 in
  let d1 := given_or (d_d_Q1 D) d_Q1 in let da := given_or (d_d_Qa D) d_Qa in
  let alpha_n := fdm_eff_pol_n laggauss D s A_tip n z_tip n_trapz r_tip L_tip g_factor d_Q0 d_Q1 d_Qa n_lag in
  nl <> O -> laguerre_rule (laggauss nl) ->
  e1 <> RtoC 0 -> (e0 + e1 <> 0)%C ->
  0 <= z -> 0 <= A_tip -> 0 < r -> 0 < L -> 0 < d0 -> 0 < d1 -> 0 < da ->
  alpha_n None = alpha_n (Some "bulk"%string) /\
  alpha_n (Some "Q_ave"%string) = alpha_n (Some "bulk"%string) /\
  (e0 <> e1 -> alpha_n (Some "multi"%string) = alpha_n (Some "bulk"%string)).
Proof. exact C25_methods_agree_demodulated_proof. Qed.
Print Assumptions C25_methods_agree_demodulated.

(** C26. fdm.refl_coef_qs_from_eff_pol inverts fdm.eff_pol: from the effective
    polarizability a of a bulk sample it recovers the sample's reflection
    coefficient, whenever the tip responds at all (f_0 <> 0: the two
    conditions on g and on the height). *)
Theorem C26_inverse_after_eff_pol :
  forall (laggauss : laggauss_t) (D : Defaults) (e0 e1 : C) nu (z_tip r_tip L_tip : option R)
    (g_factor : option C) (d_Q0 d_Q1 d_Qa : option R) (n_lag : option nat) (a : C),
  let s := stack [e0; e1] [] nu in
  let z := given_or (d_z_tip D) z_tip in let r := given_or (d_r_tip D) r_tip in
  let L := given_or (d_L_tip D) L_tip in let g := given_or (d_g_factor D) g_factor in
  let d0 := given_or (131 / 100 * L / (L + 2 * r)) d_Q0 in
  let d1 := given_or (d_d_Q1 D) d_Q1 in
  e1 <> RtoC 0 -> (e0 + e1 <> 0)%C ->
  fdm_regular z d0 r L -> fdm_regular z d1 r L ->
  g <> RtoC ((r + 2 * z + r * d0) / (2 * L)) -> r + 4 * z + 2 * r * d0 <> 4 * L ->
  fdm_eff_pol laggauss D s z_tip r_tip L_tip g_factor d_Q0 d_Q1 d_Qa n_lag None = Ok (Some a) ->
  fdm_refl_coef_qs_from_eff_pol D (Some a) z_tip r_tip L_tip g_factor d_Q0 d_Q1
  = Some ((e1 - e0) / (e1 + e0))%C.
Proof. exact C26_inverse_after_eff_pol_proof. Qed.
Print Assumptions C26_inverse_after_eff_pol.

(** C26. Conversely: if the inverse returns a finite b (other than +-1) for a
    given a, the bulk sample built from b (in any environment e0 <> 0, as in
    bulk_sample(beta=b)) has effective polarizability a. *)
Theorem C26_eff_pol_after_inverse :
  forall (laggauss : laggauss_t) (D : Defaults) (e0 b : C) nu (z_tip r_tip L_tip : option R)
    (g_factor : option C) (d_Q0 d_Q1 d_Qa : option R) (n_lag : option nat) (a : C),
  let s := stack [e0; e0 * (1 + b) / (1 - b)]%C [] nu in
  let z := given_or (d_z_tip D) z_tip in let r := given_or (d_r_tip D) r_tip in
  let L := given_or (d_L_tip D) L_tip in let g := given_or (d_g_factor D) g_factor in
  let d0 := given_or (131 / 100 * L / (L + 2 * r)) d_Q0 in
  let d1 := given_or (d_d_Q1 D) d_Q1 in
  e0 <> RtoC 0 -> b <> RtoC 1 -> b <> RtoC (-1) ->
  fdm_regular z d0 r L -> fdm_regular z d1 r L ->
  g <> RtoC ((r + 2 * z + r * d0) / (2 * L)) -> r + 4 * z + 2 * r * d0 <> 4 * L ->
  fdm_refl_coef_qs_from_eff_pol D (Some a) z_tip r_tip L_tip g_factor d_Q0 d_Q1 = Some b ->
  fdm_eff_pol laggauss D s z_tip r_tip L_tip g_factor d_Q0 d_Q1 d_Qa n_lag None = Ok (Some a).
Proof. exact C26_eff_pol_after_inverse_proof. Qed.
Print Assumptions C26_eff_pol_after_inverse.

(** C26. Hence bulk samples with the same finite effective polarizability
    have the same reflection coefficient. *)
Theorem C26_injective :
  forall (laggauss : laggauss_t) (D : Defaults) (e0 e1 e0' e1' : C) nu nu' (z_tip r_tip L_tip : option R)
    (g_factor : option C) (d_Q0 d_Q1 d_Qa : option R) (n_lag : option nat) (a : C),
  let z := given_or (d_z_tip D) z_tip in let r := given_or (d_r_tip D) r_tip in
  let L := given_or (d_L_tip D) L_tip in let g := given_or (d_g_factor D) g_factor in
  let d0 := given_or (131 / 100 * L / (L + 2 * r)) d_Q0 in
  let d1 := given_or (d_d_Q1 D) d_Q1 in
  e1 <> RtoC 0 -> (e0 + e1 <> 0)%C -> e1' <> RtoC 0 -> (e0' + e1' <> 0)%C ->
  fdm_regular z d0 r L -> fdm_regular z d1 r L ->
  g <> RtoC ((r + 2 * z + r * d0) / (2 * L)) -> r + 4 * z + 2 * r * d0 <> 4 * L ->
  fdm_eff_pol laggauss D (stack [e0; e1] [] nu) z_tip r_tip L_tip g_factor d_Q0 d_Q1 d_Qa n_lag None = Ok (Some a) ->
  fdm_eff_pol laggauss D (stack [e0'; e1'] [] nu') z_tip r_tip L_tip g_factor d_Q0 d_Q1 d_Qa n_lag None = Ok (Some a) ->
  ((e1 - e0) / (e1 + e0) = (e1' - e0') / (e1' + e0'))%C.
Proof. exact C26_injective_proof. Qed.
Print Assumptions C26_injective.

(** C26. Example: with the default tip (r = 20 nm, L = 300 nm, complex g) at
    contact, the hypotheses hold and eff_pol of eps 1 | 3 is finite. *)
Example C26_example :
  let r := d_r_tip defaults0 in let L := d_L_tip defaults0 in let g := d_g_factor defaults0 in
  let d0 := 131 / 100 * L / (L + 2 * r) in
  fdm_regular 0 d0 r L /\ fdm_regular 0 (d_d_Q1 defaults0) r L /\
  g <> RtoC ((r + 2 * 0 + r * d0) / (2 * L)) /\ r + 4 * 0 + 2 * r * d0 <> 4 * L.
Proof. exact C26_example_proof. Qed.
