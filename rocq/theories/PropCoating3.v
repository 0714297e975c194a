(** * Properties (generated by tools/gen_prop.py from ProofsCoating3.v; statements
    only, each proved there) *)
From Coq Require Import String Reals Lra Lia ZArith List Bool.
From Coquelicot Require Import Rcomplements Complex.
From Verif Require Import Num NumLemmas ModelBase ModelSample ModelTip StackLemmas Spec SpecCoating
  ProofsStackQS ProofsStackQS2 ProofsStackFF ProofsStackFF2 ProofsBulkFF ProofsCoating ProofsCoating2.
Import ListNotations.
Open Scope R_scope.
From Verif Require Import ProofsCoating3.

(** C99. Quarter-wave coatings of any number of layers, both polarizations, any angle: if every coating layer has phase an odd multiple
    of pi/2, the code's reflection coefficient is (y0 - Y)/(y0 + Y), Y the substrate admittance inverted in turn about every layer. *)
Theorem C99_quarter_wave :
  forall (p : bool) (nu q e0 k0 es ks : R) (ls : list layer) nu0,
  transparent nu q e0 k0 -> Forall (fun l => transparent nu q (lay_eps l) (lay_k l)) ls -> transparent nu q es ks ->
  Forall (fun l => cos (lay_phase l) = 0) ls ->
  let y0 := adm p e0 k0 in let Y := fold_right (fun l y => lay_adm p l ^ 2 / y) (adm p es ks) ls in
  0 < Y /\
  refl_coef (stack (map RtoC (e0 :: map lay_eps ls ++ [es])) (map lay_t ls) nu0) (Some q) None (Some nu) (pol p) = Ok (Some (RtoC ((y0 - Y) / (y0 + Y)))).
Proof. exact C99_quarter_wave_proof. Qed.
Print Assumptions C99_quarter_wave.

(** C99. Antireflection: a single lossless film between two transparent media reflects nothing exactly when it is a quarter-wave
    film with the geometric-mean admittance, or a half-wave film between matched media, or optically not there at all. *)
Theorem C99_antireflection :
  forall (p : bool) (nu q e0 k0 e1 k1 t es ks : R) nu0,
  transparent nu q e0 k0 -> transparent nu q e1 k1 -> transparent nu q es ks ->
  let y0 := adm p e0 k0 in let y1 := adm p e1 k1 in let ys := adm p es ks in
  refl_coef (stack [RtoC e0; RtoC e1; RtoC es] [t] nu0) (Some q) None (Some nu) (pol p) = Ok (Some (RtoC 0)) <->
  (cos (k1 * t) = 0 /\ y1 ^ 2 = y0 * ys) \/ (sin (k1 * t) = 0 /\ y0 = ys) \/ (y0 = ys /\ y1 = y0).
Proof. exact C99_antireflection_proof. Qed.
Print Assumptions C99_antireflection.

(** C99. A film of optical thickness a quarter of the vacuum wavelength 1/nu with n1^2 = n0 ns is antireflecting in textbooks; in the code
    it is not, because the phase of a layer is n nu t and not 2 pi n nu t: a wavenumber is taken for an angular wavenumber (cf. C22). *)
Theorem C99_quarter_wavelength_refuted :
  ~ (forall (n1 ns nu t : R) nu0, 0 < n1 -> 0 < ns -> 0 < nu -> n1 ^ 2 = ns -> n1 * t = (1 / nu) / 4 ->
     refl_coef (stack [RtoC 1; RtoC (n1 ^ 2); RtoC (ns ^ 2)] [t] nu0) (Some 0) None (Some nu) (pol true) = Ok (Some (RtoC 0))).
Proof. exact C99_quarter_wavelength_refuted_proof. Qed.
Print Assumptions C99_quarter_wavelength_refuted.

(** C99. Every other antireflection reading: with the phase pi/2 the same film does reflect nothing. *)
Example C99_antireflection_example :
  refl_coef (stack [RtoC 1; RtoC 4; RtoC 16] [PI / 4] None) (Some 0) None (Some 1) (pol true) = Ok (Some (RtoC 0)).
Proof. exact C99_antireflection_example_proof. Qed.

(** C99. Bragg mirrors: N periods of two quarter-wave layers give (y0 - ys (ya/yb)^(2N)) / (y0 + ys (ya/yb)^(2N)), which tends
    geometrically to -1 when the first layer has the larger admittance and to 1 when it has the smaller. *)
Theorem C99_bragg_mirror :
  forall (p : bool) (nu q e0 k0 es ks : R) (a b : layer) (N : nat) nu0,
  transparent nu q e0 k0 -> transparent nu q (lay_eps a) (lay_k a) -> transparent nu q (lay_eps b) (lay_k b) -> transparent nu q es ks ->
  cos (lay_phase a) = 0 -> cos (lay_phase b) = 0 ->
  let y0 := adm p e0 k0 in let ys := adm p es ks in let x := (lay_adm p a / lay_adm p b) ^ 2 in
  let ls := concat (repeat [a; b] N) in let r := (y0 - ys * x ^ N) / (y0 + ys * x ^ N) in
  refl_coef (stack (map RtoC (e0 :: map lay_eps ls ++ [es])) (map lay_t ls) nu0) (Some q) None (Some nu) (pol p) = Ok (Some (RtoC r)) /\
  (1 < x -> 0 < 1 + r <= 2 * (y0 / ys) * (/ x) ^ N) /\
  (x < 1 -> 0 < 1 - r <= 2 * (ys / y0) * x ^ N).
Proof. exact C99_bragg_mirror_proof. Qed.
Print Assumptions C99_bragg_mirror.

(** C99. The etalon: a lossless film in a symmetric surrounding transmits 1 / (1 + F sin^2 phase) with the finesse coefficient
    F = ((y0/y1 - y1/y0)/2)^2 (Airy's formula). *)
Theorem C99_fabry_perot :
  forall (p : bool) (nu q e0 k0 e1 k1 t : R) nu0,
  transparent nu q e0 k0 -> transparent nu q e1 k1 ->
  let y0 := adm p e0 k0 in let y1 := adm p e1 k1 in
  exists tr : C, trans_coef (stack [RtoC e0; RtoC e1; RtoC e0] [t] nu0) (Some q) None (Some nu) (pol p) = Ok (Some tr) /\
    Cmod tr ^ 2 = 1 / (1 + ((y0 / y1 - y1 / y0) / 2) ^ 2 * sin (k1 * t) ^ 2).
Proof. exact C99_fabry_perot_proof. Qed.
Print Assumptions C99_fabry_perot.
