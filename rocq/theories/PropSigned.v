(** * Properties (generated by tools/gen_prop.py from ProofsSigned.v; statements
    only, each proved there) *)
From Coq Require Import String Reals Lra Lia ZArith List Bool.
From Coquelicot Require Import Rcomplements Complex.
From Verif Require Import Num NumLemmas ModelBase ModelSample StackLemmas Spec ProofsStackQS ProofsStackFF ModelSigned SpecSigned.
Import ListNotations.
Open Scope R_scope.
From Verif Require Import ProofsSigned.

(** C82.  Signs of zeros change no value of the conversions between permittivities
    and reflection coefficients. *)
Theorem C82_values : forall (b e : scomplex) (env : scomplex) (bs es : list scomplex) ts nu,
  valueV (s_permitivitty b e) = permitivitty (Some (value b)) (Some (value e)) /\
  valueV (s_refl_coef_qs_single b e) = refl_coef_qs_single (Some (value b)) (Some (value e)) /\
  map valueV (s_eps_from_beta env bs) = eps_from_beta (Some (value env)) (map (fun b => Some (value b)) bs) /\
  map valueV (s_beta_stack es) = beta_stack (plain_sample (mkSS es ts nu)).
Proof. exact C82_values_proof. Qed.
Print Assumptions C82_values.

(** C82. Permittivities that are not below the branch cut of the square root
    are treated by the far-field functions as the real-number model does; inner
    layers may be on either side of the cut. *)
Theorem C82_far_field :
  forall (s : ssample) (q th nu : option R) (pol : string) (e0 en : scomplex) (mid : list scomplex),
  s_eps_stack s = e0 :: mid ++ [en] -> length mid = length (s_t_stack s) ->
  Forall proper_c (e0 :: mid ++ [en]) -> ~ below_cut e0 -> ~ below_cut en ->
  nu <> Some 0 -> s_nu_vac s <> Some 0 ->
  s_refl_coef s q th nu pol = refl_coef (plain_sample s) q th nu pol /\
  s_trans_coef s q th nu pol = trans_coef (plain_sample s) q th nu pol.
Proof. exact C82_far_field_proof. Qed.
Print Assumptions C82_far_field.

(** C82. In general the far-field reflection coefficient is that of the
    recursion over Fresnel coefficients in which a half space whose
    permittivity is below the cut has the opposite wavevector: the wave that grows
    (or comes back) instead of the one that decays (or leaves). *)
Theorem C82_recursion :
  forall (p : bool) (s : ssample) (e0 en : scomplex) (mid : list scomplex) (k0 kn : C) (ks : list C) (nu q : R) (r : C),
  s_eps_stack s = e0 :: mid ++ [en] -> nu <> 0 ->
  Forall proper_c (e0 :: mid ++ [en]) ->
  is_kz nu q (value e0) k0 -> is_kz nu q (value en) kn ->
  Forall2 (fun e k => is_kz nu q (value e) k) mid ks ->
  branch e0 k0 -> branch en kn ->
  parratt (if p then fresnel_p else fresnel_s) ff_round
    ((value e0, k0) :: combine (map value mid) ks ++ [(value en, kn)]) (s_t_stack s) r ->
  s_refl_coef s (Some q) None (Some nu) (Spec.pol p) = Ok (Some r).
Proof. exact C82_recursion_proof. Qed.
Print Assumptions C82_recursion.

(** C82. Samples made from real reflection coefficients.  With one interface of
    |beta| > 1 and |beta| < 1 at all others, all permittivities under that interface
    are negative; they are below the cut if its beta > 1 and above it if beta < -1.
    With |beta| < 1 everywhere none is below the cut. *)
Theorem C82_from_reflection_coefficients :
  forall (e0 : R) (bs : list (bool * R)), 0 < e0 -> Forall (fun b => Rabs (snd b) < 1) bs ->
  (exists l, s_eps_from_beta (real_with false e0) (map given bs) = map Some l /\
     length l = S (length bs) /\ Forall (fun e => ~ below_cut e) l) /\
  (forall (b : bool * R) (bs' : list (bool * R)), 1 < Rabs (snd b) -> Forall (fun b => Rabs (snd b) < 1) bs' ->
   exists l l', s_eps_from_beta (real_with false e0) (map given (bs ++ b :: bs')) = map Some (l ++ l') /\
     length l = S (length bs) /\ length l' = S (length bs') /\
     Forall (fun e => ~ below_cut e) l /\ Forall (fun e => Re (value e) < 0) l' /\
     (1 < snd b -> Forall below_cut l') /\ (snd b < -1 -> Forall (fun e => ~ below_cut e) l')).
Proof. exact C82_from_reflection_coefficients_proof. Qed.
Print Assumptions C82_from_reflection_coefficients.

(** C82. The reflection coefficients a sample reports do not give the sample back:
    a lossless substrate of permittivity below minus that of the environment comes
    back on the other side of the cut. *)
Theorem C82_round_trip :
  forall (e0 e1 : R) (s : bool), 0 < e0 -> e1 < - e0 ->
  exists b, s_beta_stack [real_with false e0; real_with s e1] = [Some b] /\
    s_eps_from_beta (real_with false e0) [b] = [Some (real_with false e0); Some (real_with true e1)].
Proof. exact C82_round_trip_proof. Qed.
Print Assumptions C82_round_trip.

(** C82. A half space of permittivity e1 < 0 under an environment e0 > 0: with -0
    as the imaginary part of e1 the reflection coefficient of a propagating wave is
    the complex conjugate of that with +0, which is another number; that of an evanescent
    wave is its reciprocal. *)
Theorem C82_lossless_metal :
  forall (p : bool) (e0 e1 : R) nu0 (nu q : R), 0 < e0 -> e1 < 0 ->
  let refl t := s_refl_coef (mkSS [real_with false e0; real_with t e1] [] nu0) (Some q) None (Some nu) (Spec.pol p) in
  (q ^ 2 < e0 * nu ^ 2 ->
     exists r : C, refl false = Ok (Some r) /\ refl true = Ok (Some (Cconj r)) /\ Cmod r = 1 /\ Im r <> 0) /\
  (e0 * nu ^ 2 < q ^ 2 ->
     forall r : C, refl false = Ok (Some r) -> p = true \/ nu <> 0 ->
     r <> RtoC 0 /\ refl true = Ok (Some (1 / r)%C)).
Proof. exact C82_lossless_metal_proof. Qed.
Print Assumptions C82_lossless_metal.

(** C82. At wavenumber 0 the p-polarised coefficient of a substrate made from a
    real beta > 1 is 1/beta; made from the permittivity it is beta, the quasistatic
    one. *)
Theorem C82_zero_wavenumber :
  forall (e0 b q : R) (s : bool) nu0, 0 < e0 -> 1 < b -> q <> 0 ->
  exists e1, s_eps_from_beta (real_with false e0) [given (s, b)] = [Some (real_with false e0); Some e1] /\
    s_refl_coef (mkSS [real_with false e0; e1] [] nu0) (Some q) None (Some 0) "p" = Ok (Some (RtoC (1 / b))) /\
    s_refl_coef (mkSS [real_with false e0; real_with false (Re (value e1))] [] nu0) (Some q) None (Some 0) "p"
      = Ok (Some (RtoC b)).
Proof. exact C82_zero_wavenumber_proof. Qed.
Print Assumptions C82_zero_wavenumber.

(** C82. Equal permittivities, different reflection coefficients. *)
Theorem C82_same_permittivities_refuted :
  ~ (forall (s s' : ssample) q th nu pol, Forall proper_c (s_eps_stack s) -> Forall proper_c (s_eps_stack s') ->
     plain_sample s = plain_sample s' -> s_refl_coef s q th nu pol = s_refl_coef s' q th nu pol).
Proof. exact C82_same_permittivities_refuted_proof. Qed.
Print Assumptions C82_same_permittivities_refuted.

(** C82. Example: beta = 3/2 in vacuum is a substrate of permittivity -5 below the
    cut. *)
Example C82_example :
  s_eps_from_beta (real_with false 1) [given (false, 3 / 2)] = [Some (real_with false 1); Some (real_with true (-5))] /\
  below_cut (real_with true (-5)) /\ ~ below_cut (real_with false (-5)) /\
  branch (real_with true (-5)) (0, - sqrt 5) /\ is_kz 1 0 (value (real_with true (-5))) (0, - sqrt 5).
Proof. exact C82_example_proof. Qed.
