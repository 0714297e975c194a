(** * Properties (generated by tools/gen_prop.py from ProofsSens3.v; statements
    only, each proved there) *)
From Coq Require Import String Reals Lra Lia ZArith List Bool Permutation Sorted.
From Coquelicot Require Import Rcomplements Complex.
From Verif Require Import Num NumLemmas LimLemmas ModelBase ModelSample ModelTip NArr SpecArr NArrLemmas ModelObj SpecObj
  ModelArr ModelArrTip ModelInv StackLemmas Spec SpecPoly SpecInv SpecNear SpecSens FTA ArrSample
  ProofsStackQS ProofsStackQS2 ProofsPassive DemodLemmas ProofsDemod ProofsTip ProofsTip2 ProofsTip3 ProofsTaylor
  ProofsArr ProofsArr2 ProofsArrTip InvLemmas ProofsInv ProofsInv2 ProofsInv3 ProofsInv4 ProofsNear ProofsConsist ProofsConsist2
  ProofsInv5 ProofsSens2.
Import ListNotations.
Open Scope R_scope.
From Verif Require Import ProofsSens3.

(** C89. For a sphere no more polarisable than a perfectly conducting one, which
    does not penetrate the surface, the mean of the signal over the oscillation
    (harmonic 0) determines the reflection coefficient: with beta_threshold at most
    1.01 (the default) and any number of Taylor terms the point dipole inverse returns at most one
    value, and the values returned for two signals a, a' differ by at most
    5 |a' - a| / f, where f = alpha / (16 pi (r + z + 2 A)^3) is the coupling at the
    highest point. *)
Theorem C89_mean_signal : forall eig sb sr (D : Defaults) (A_tip : R) (z_tip r_tip : option R) (eps_tip alpha_tip : option C)
    (n_trapz n_tayl : option nat) (thr : option R) (ri ra : bool) (env : option C) (alpha : R),
  let N := given_or (d_n_trapz D) n_trapz in let z := given_or (d_z_tip D) z_tip in let r := given_or (d_r_tip D) r_tip in
  let f := alpha / (16 * PI * (r + z + 2 * A_tip) ^ 3) in
  library eig sb sr -> tip_alpha r eps_tip alpha_tip (RtoC alpha) -> 0 < r -> 0 <= z -> 0 <= A_tip -> 0 < alpha <= 4 * PI * r ^ 3 ->
  N <> O -> (2 <= given_or (d_n_tayl D) n_tayl)%nat -> 0 <= given_or (d_beta_threshold D) thr <= 101 / 100 ->
  exists value : C -> option C,
    (forall a, exists result,
      pdm_refl_coef_qs_from_eff_pol_n eig sb sr D (scalar (Some a)) (scalar A_tip) (scalar 0%Z) (as_array z_tip) (as_array r_tip)
        (as_array eps_tip) (as_array alpha_tip) n_trapz n_tayl thr ri ra (as_array env) = Ok result /\
      elements result = [] /\ unmasked result [] = match value a with Some b => [Some b] | None => [] end) /\
    forall a a' b b', value a = Some b -> value a' = Some b' ->
      0 < f /\ f * Cmod (b' - b)%C <= 5 * Cmod (a' - a)%C.
Proof. exact C89_mean_signal_proof. Qed.
Print Assumptions C89_mean_signal.

(** C89. The default tip (a perfectly conducting sphere) meets the conditions, in
    contact and for every amplitude: its polarisability is 4 pi r^3. *)
Example C89_mean_signal_example :
  let r := d_r_tip defaults0 in
  (exists eig sb sr, library eig sb sr) /\ tip_alpha r None None (RtoC (4 * PI * r ^ 3)) /\ 0 < r /\ 0 <= d_z_tip defaults0 /\
  0 < 4 * PI * r ^ 3 /\ d_n_trapz defaults0 <> O /\ (2 <= d_n_tayl defaults0)%nat /\ 0 <= d_beta_threshold defaults0 <= 101 / 100.
Proof. exact C89_mean_signal_example_proof. Qed.
