(** * Properties (generated by tools/gen_prop.py from ProofsCompare2.v; statements
    only, each proved there) *)
From Coq Require Import String Reals Lra Lia ZArith List Bool Permutation Sorted.
From Coquelicot Require Import Rcomplements Complex.
From Verif Require Import Num NumLemmas LimLemmas ModelBase ModelSample ModelTip NArr SpecArr NArrLemmas ModelObj SpecObj
  ModelArr ModelArrTip ModelInv StackLemmas Spec SpecPoly SpecInv SpecNear SpecFirst FTA ArrSample
  ProofsStackQS ProofsStackQS2 ProofsPassive DemodLemmas ProofsDemod ProofsTip ProofsTip2 ProofsTip3 ProofsTaylor
  ProofsArr ProofsArr2 ProofsArrTip ProofsArrTip2 ProofsArrTip3 ProofsArrTip4 InvLemmas ProofsInv ProofsInv2 ProofsInv3 ProofsInv4 ProofsNear ProofsConsist ProofsConsist2
  PosDef ProofsContrast ProofsContrast2 PosPoly ProofsFirst ProofsFirst2 ProofsCompare.
Import ListNotations.
Open Scope R_scope.
From Verif Require Import ProofsCompare2.

(** C85. Hence the harmonics of the Taylor series of the finite dipole model over
    lossless stacks with no layer below the permittivity of the environment: with
    the sign (-1)^n taken out, they do not decrease if any of the permittivities
    is raised. *)
Theorem C85_signal_order :
  forall (laggauss : laggauss_t) (D : Defaults) (e0 e1 e1' : R) (es es' ts : list R) nu nu' (A_tip : R) (n : Z) (n_trapz : option nat)
    (z_tip r_tip L_tip : option R) (g_factor : option C) (d_Q0 d_Q1 d_Qa : option R) (n_lag : option nat) (method : option string) (g : R) (J : nat),
  let N := given_or (d_n_trapz D) n_trapz in let z := given_or (d_z_tip D) z_tip in
  let r := given_or (d_r_tip D) r_tip in let L := given_or (d_L_tip D) L_tip in
  let d0 := given_or (131 / 100 * L / (L + 2 * r)) d_Q0 in let d1 := given_or (d_d_Q1 D) d_Q1 in let da := given_or (d_d_Qa D) d_Qa in
  let nl := given_or (d_n_lag D) n_lag in
  nl <> O -> laguerre_rule (laggauss nl) ->
  method = Some "Q_ave"%string \/ (method = None /\ ts <> []) -> given_or (d_g_factor D) g_factor = RtoC g ->
  N <> O -> 0 < A_tip -> 0 < r < 4 * L -> 0 < r + 4 * z + 2 * r * d0 -> 0 < r + 4 * z + 2 * r * d1 ->
  r + 2 * (z + 2 * A_tip) + r * d0 <= 2 * L * g -> r + 4 * (z + 2 * A_tip) + 2 * r * d0 <= 4 * L ->
  r + 2 * (z + 2 * A_tip) + r * d1 <= 2 * L * g -> r + 4 * (z + 2 * A_tip) + 2 * r * d1 <= 4 * L -> 0 < z + r * da ->
  length es = length ts -> Forall (fun t => 0 <= t) ts -> 0 < e0 ->
  Forall (fun e => e0 <= e) (e1 :: es) -> Forall2 Rle (e1 :: es) (e1' :: es') -> (1 <= J)%nat ->
  exists a a' : R,
    fdm_eff_pol_n_taylor laggauss D (stack (map RtoC (e0 :: e1 :: es)) ts nu) A_tip n z_tip r_tip L_tip g_factor d_Q0 d_Q1 d_Qa n_lag method n_trapz (Some J)
      = Ok (Some (RtoC a)) /\
    fdm_eff_pol_n_taylor laggauss D (stack (map RtoC (e0 :: e1' :: es')) ts nu') A_tip n z_tip r_tip L_tip g_factor d_Q0 d_Q1 d_Qa n_lag method n_trapz (Some J)
      = Ok (Some (RtoC a')) /\
    sgn_pow n * a <= sgn_pow n * a'.
Proof. exact C85_signal_order_proof. Qed.
Print Assumptions C85_signal_order.

(** C85. What the root-finding inverse makes of a layered sample: its first value
    is the coefficient of a half space with permittivity [x] (the one
    [permitivitty] gives), and [x] lies between the smallest and the largest
    permittivity below the environment. *)
Theorem C85_apparent :
  forall eig sb sr (laggauss : laggauss_t) (D : Defaults) (e0 e1 m M : R) (es ts : list R) nu (A_tip : R) (n : Z) (n_trapz : option nat)
    (z_tip r_tip L_tip : option R) (g_factor : option C) (d_Q0 d_Q1 d_Qa : option R) (n_lag : option nat) (method : option string)
    (thr : option R) (ri ra : bool) (g : R) (J : nat),
  let N := given_or (d_n_trapz D) n_trapz in let z := given_or (d_z_tip D) z_tip in
  let r := given_or (d_r_tip D) r_tip in let L := given_or (d_L_tip D) L_tip in
  let d0 := given_or (131 / 100 * L / (L + 2 * r)) d_Q0 in let d1 := given_or (d_d_Q1 D) d_Q1 in let da := given_or (d_d_Qa D) d_Qa in
  let nl := given_or (d_n_lag D) n_lag in
  library eig sb sr -> nl <> O -> laguerre_rule (laggauss nl) ->
  method = Some "Q_ave"%string \/ (method = None /\ ts <> []) -> given_or (d_g_factor D) g_factor = RtoC g ->
  N <> O -> 0 < A_tip -> 0 < r < 4 * L -> 0 < r + 4 * z + 2 * r * d0 -> 0 < r + 4 * z + 2 * r * d1 ->
  r + 2 * (z + 2 * A_tip) + r * d0 <= 2 * L * g -> r + 4 * (z + 2 * A_tip) + 2 * r * d0 <= 4 * L ->
  r + 2 * (z + 2 * A_tip) + r * d1 <= 2 * L * g -> r + 4 * (z + 2 * A_tip) + 2 * r * d1 <= 4 * L -> 0 < z + r * da ->
  length es = length ts -> Forall (fun t => 0 <= t) ts -> 0 < e0 <= m ->
  Forall (fun e => m <= e <= M) (e1 :: es) -> (2 <= J)%nat ->
  (M - e0) / (M + e0) <= given_or (d_beta_threshold D) thr -> (ra = true -> 1 <= m) ->
  exists (a b x : R) result,
    fdm_eff_pol_n_taylor laggauss D (stack (map RtoC (e0 :: e1 :: es)) ts nu) A_tip n z_tip r_tip L_tip g_factor d_Q0 d_Q1 d_Qa n_lag method n_trapz (Some J)
      = Ok (Some (RtoC a)) /\
    fdm_refl_coef_qs_from_eff_pol_n eig sb sr D (scalar (Some (RtoC a))) (scalar A_tip) (scalar n) (as_array z_tip) (as_array r_tip)
        (as_array L_tip) (as_array g_factor) (as_array d_Q0) (as_array d_Q1) n_trapz (Some J) thr ri ra (Some (scalar (RtoC e0))) = Ok result /\
    smallest_first result b /\ permitivitty (Some (RtoC b)) (Some (RtoC e0)) = Some (RtoC x) /\ m <= x <= M.
Proof. exact C85_apparent_proof. Qed.
Print Assumptions C85_apparent.

(** C85. Example: a film of permittivity 2 on a substrate of 5, third harmonic,
    five Taylor terms: the apparent permittivity lies between 2 and 5. *)
Example C85_example_apparent : forall eig sb sr (D : Defaults), library eig sb sr ->
  exists (a b x : R) result,
    fdm_eff_pol_n_taylor laggauss12 D (stack [RtoC 1; RtoC 2; RtoC 5] [3] None) (1 / 4) 3 (Some 0) (Some 1) (Some 3) (Some (RtoC 2)) (Some (1 / 2)) (Some (1 / 2))
      (Some 1) (Some 2%nat) None (Some 7%nat) (Some 5%nat) = Ok (Some (RtoC a)) /\
    fdm_refl_coef_qs_from_eff_pol_n eig sb sr D (scalar (Some (RtoC a))) (scalar (1 / 4)) (scalar 3%Z) (Some (scalar 0)) (Some (scalar 1))
      (Some (scalar 3)) (Some (scalar (RtoC 2))) (Some (scalar (1 / 2))) (Some (scalar (1 / 2))) (Some 7%nat) (Some 5%nat) (Some 1) true true
      (Some (scalar (RtoC 1))) = Ok result /\
    smallest_first result b /\ permitivitty (Some (RtoC b)) (Some (RtoC 1)) = Some (RtoC x) /\ 2 <= x <= 5.
Proof. exact C85_example_apparent_proof. Qed.
