(** * Properties (generated by tools/gen_prop.py from ProofsInf3.v; statements
    only, each proved there) *)
From Coq Require Import String Reals Lra Lia ZArith List Bool.
From Coquelicot Require Import Rcomplements Complex.
From Verif Require Import Num NumLemmas ModelBase ModelSample ModelTip StackLemmas Spec ModelRange SpecRange
  RangeLemmas SpecInf ModelInf ProofsStackQS ProofsPassive ProofsRange ProofsRange3 ProofsTip2 ProofsInf ProofsInf2.
Import ListNotations.
Open Scope R_scope.
From Verif Require Import ProofsInf3.

(** C103. The point dipole model at every height from contact to infinity ([z_tip = np.inf] included), with overflow of (r + z)^3 allowed: the result is the exact one, or
    the polarizability of the tip alone, which differs from it by less than 4 |alpha|^2 |beta| over the largest double. *)
Theorem C103_pdm_any_height :
  forall (eps : list cflt) (r : R) (alpha b : C),
  zrefl_qs eps [] (Fin 0) = Some (zof b) -> 0 < r -> / TAME <= 16 * PI * r ^ 3 -> Cmod alpha <= TAME -> Cmod b <= TAME ->
  Cmod alpha * Cmod b <= 8 * PI * r ^ 3 ->
  zpdm_eff_pol eps PInf (Fin r) (zof alpha) = Some (zof alpha) /\
  forall z, 0 <= z -> exists a, zpdm_eff_pol eps (Fin z) (Fin r) (zof alpha) = Some (zof a) /\
    let exact := (alpha / (1 - alpha / RtoC (16 * PI * (r + z) ^ 3) * b))%C in
    (a = exact \/ a = alpha /\ Cmod (a - exact)%C <= 4 * Cmod alpha ^ 2 * Cmod b / MAXF).
Proof. exact C103_pdm_any_height_proof. Qed.
Print Assumptions C103_pdm_any_height.

(** C103. The finite dipole model with an infinite height or an infinite tip length: nan over every sample; so is the default d_Q0 of an infinitely long tip.
    For the length the documented expression has a limit, the first statement of C103_long_tip. *)
Theorem C103_fdm_nan_refuted :
  forall (eps : list cflt) (b : cflt) (z d0 d1 r L : R) (g : C),
  zrefl_qs eps [] (Fin 0) = Some b -> 0 < r -> 0 < L -> 0 <= z -> 0 <= d0 -> 0 <= d1 -> Cmod g <= MAXF ->
  zfdm_eff_pol eps PInf (Fin d0) (Fin d1) (Fin r) (Fin L) (zof g) = Some (NaN, NaN) /\
  (r + 4 * z + 2 * d0 * r <= MAXF -> r + 4 * z + 2 * d1 * r <= MAXF ->
   zfdm_eff_pol eps (Fin z) (Fin d0) (Fin d1) (Fin r) PInf (zof g) = Some (NaN, NaN)) /\
  zd_Q0 (Fin r) PInf = NaN.
Proof. exact C103_fdm_nan_refuted_proof. Qed.
Print Assumptions C103_fdm_nan_refuted.

(** C103. The limits for a long tip: the geometry function tends to g at every height and charge position, and the default d_Q0 to 1.31. *)
Theorem C103_long_tip :
  forall (z d r : R) (g : C) ep, 0 < r -> 0 <= z -> 0 <= d -> 0 < ep -> exists L0, 0 < L0 /\ forall L, L0 <= L ->
  Cmod (fdm_f z d r L g - g)%C <= ep /\ Rabs (131 / 100 * L / (L + 2 * r) - 131 / 100) <= ep.
Proof. exact C103_long_tip_proof. Qed.
Print Assumptions C103_long_tip.

(** C103. A tip of infinite permittivity: nan, although the polarizability tends to that of the conducting tip, 4 pi r^3, which the default [eps_tip=None] gives. *)
Theorem C103_conducting_tip :
  forall (r : R) (w : cflt), 0 < r -> infinite_eps w ->
  zalpha_eps (Fin r) w = (NaN, NaN) /\
  (4 * PI * r ^ 3 <= MAXF -> zalpha_metal (Fin r) = zof (RtoC (4 * PI * r ^ 3))) /\
  forall D, as_conductor (fun E => let! ra := pdm_defaults D (Some r) (Some E) None in Ok (snd ra)) (RtoC (4 * PI * r ^ 3)).
Proof. exact C103_conducting_tip_proof. Qed.
Print Assumptions C103_conducting_tip.

(** A film of permittivity 3 (q t = 1) on a perfect conductor: all hypotheses of C103_perfect_conductor hold, and the value is (e + 2/e) / (2 e + 1/e). *)
Example C103_example_film :
  let r := RtoC ((exp 1 + 2 * exp (-1)) / (2 * exp 1 + exp (-1))) in
  as_conductor (fun E => refl_coef_qs (stack [RtoC 1; RtoC 3; E] [1] None) (rr 1)) r /\
  zrefl_qs [zof (RtoC 1); zof (RtoC 3); (PInf, Fin 0)] [Fin 1] (Fin 1) = Some (zof r).
Proof. exact C103_example_film_proof. Qed.

(** The point dipole over a perfect conductor: at infinite height the tip alone, at every finite height a finite number. *)
Example C103_example_tip :
  let sample := [zof (RtoC 1); (PInf, Fin 0)] in let alpha := RtoC (4 * PI * 1 ^ 3) in
  zrefl_qs sample [] (Fin 0) = Some (zof (RtoC 1)) /\
  zpdm_eff_pol sample PInf (Fin 1) (zof alpha) = Some (zof alpha) /\
  zfdm_eff_pol sample PInf (Fin 1) (Fin (1 / 2)) (Fin 1) (Fin 15) (zof (RtoC (7 / 10))) = Some (NaN, NaN).
Proof. exact C103_example_tip_proof. Qed.
