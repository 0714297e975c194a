(** * Properties (generated by tools/gen_prop.py from ProofsSeq3.v; statements
    only, each proved there) *)
From Coq Require Import String Reals Lra Lia ZArith List Bool FunctionalExtensionality.
From Coquelicot Require Import Rcomplements Complex.
From Verif Require Import Num NumLemmas ModelBase ModelSample ModelTip NArr SpecArr NArrLemmas ModelObj
  ModelArr SpecObj ArrSample ProofsArr ProofsArr2 ModelArrTip ProofsArrTip ProofsArrTip2 ProofsArrTip3 ProofsArrTip4
  ProofsArrTip5 ProofsArrTip6 ModelInv ModelSeq SpecSeq ProofsSeq ProofsSeq2.
Import ListNotations.
Open Scope R_scope.
From Verif Require Import ProofsSeq3.

(** C87, charge heights as a sequence: [refl_coef_qs_above_surf] computes
    [2 * z_Q], which repeats a list.  For multilayer samples with thicknesses
    that are numbers this is a TypeError; otherwise the call returns twice as
    many values as heights, each for HALF the height it stands for. *)
Theorem C87_heights_doubled : forall lag (D : Defaults) o (zs : list RV) n_lag, consistent o ->
  (match n_lag with Some n => n | None => d_n_lag D end) <> O ->
  (many_layers o = true -> t_shape o = [] ->
     refl_coef_qs_above_surf_p lag D o (Seq zs) n_lag = Raise TypeError) /\
  (many_layers o = false \/ t_shape o <> [] -> compatible [eps_shape o; t_shape o; [length zs]] ->
     vectorised [eps_shape o; t_shape o; [2 * length zs]%nat]
       (fun i => refl_coef_qs_above_surf lag D (sample_at o i) (item (A:=RV) None (zs ++ zs) i / rr 2)%rv n_lag)
       (refl_coef_qs_above_surf_p lag D o (Seq zs) n_lag)).
Proof. exact C87_heights_doubled_proof. Qed.
Print Assumptions C87_heights_doubled.

(** C87: potential, field and image charge of a sequence of heights always
    raise ([z_Q**2] of a list is not defined) *)
Theorem C87_potential_rejected : forall lag (D : Defaults) o (zs : list RV) n_lag,
  (exists e, surf_pot_and_field_p lag D o (Seq zs) n_lag = Raise e) /\
  (exists e, image_depth_and_charge_p lag D o (Seq zs) n_lag = Raise e).
Proof. exact C87_potential_rejected_proof. Qed.
Print Assumptions C87_potential_rejected.

(** C87: a sequence cannot be added to a number, so one of the two heights
    given as a sequence and the other as a number (or left to its default)
    raises, in every demodulated function *)
Theorem C87_centre_rejected : forall lag (D : Defaults) o A n z n_trapz n_tayl,
  (seq_opt z /\ (exists a, A = Num a)) \/ (is_seq A /\ (z = None \/ exists x, z = Some (Num x))) ->
  (forall r L g d_Q0 d_Q1 d_Qa n_lag method,
     fdm_eff_pol_n_p lag D o A n z n_trapz r L g d_Q0 d_Q1 d_Qa n_lag method = Raise TypeError) /\
  (forall r eps_tip alpha_tip, pdm_eff_pol_n_p D o A n z n_trapz r eps_tip alpha_tip = Raise TypeError) /\
  (forall r L g d_Q0 d_Q1 d_Qa n_lag method, exists e,
     fdm_eff_pol_n_taylor_p lag D o A n z r L g d_Q0 d_Q1 d_Qa n_lag method n_trapz n_tayl = Raise e) /\
  (forall r eps_tip alpha_tip, exists e,
     pdm_eff_pol_n_taylor_p D o A n z r eps_tip alpha_tip n_trapz n_tayl = Raise e) /\
  (forall eig sb sr alpha r L g d_Q0 d_Q1 th b1 b2 ee, exists e,
     fdm_refl_coef_qs_from_eff_pol_n_p eig sb sr D alpha A n z r L g d_Q0 d_Q1 n_trapz n_tayl th b1 b2 ee = Raise e).
Proof. exact C87_centre_rejected_proof. Qed.
Print Assumptions C87_centre_rejected.

(** C87: tip heights AND amplitudes given as sequences are concatenated, not
    added.  With two or more amplitudes that is a ValueError; with a single
    amplitude [a] the call returns one value more than there are heights: the
    k-th is the one for the height z_k - a, and the last one is for contact. *)
Theorem C87_centre_concatenated : forall lag (D : Defaults) o (zs : list R) n n_trapz, zs <> [] ->
  (forall amps, (2 <= length amps)%nat ->
   (forall r L g d_Q0 d_Q1 d_Qa n_lag method, exists m,
     fdm_eff_pol_n_p lag D o (Seq amps) n (Some (Seq zs)) n_trapz r L g d_Q0 d_Q1 d_Qa n_lag method = Raise (ValueError m)) /\
   (forall r eps_tip alpha_tip, exists m,
     pdm_eff_pol_n_p D o (Seq amps) n (Some (Seq zs)) n_trapz r eps_tip alpha_tip = Raise (ValueError m))) /\
  (forall a, let z := mkArr [S (length zs)] (fun i => nth (hd O i) (zs ++ [a]) 0 - a) in
   let A := mkArr [1%nat] (fun _ => a) in
   (forall r L g d_Q0 d_Q1 d_Qa n_lag method,
     fdm_eff_pol_n_p lag D o (Seq [a]) n (Some (Seq zs)) n_trapz r L g d_Q0 d_Q1 d_Qa n_lag method
     = fdm_eff_pol_n_a lag D o A (as_array 0%Z n) (Some z) n_trapz r L g d_Q0 d_Q1 d_Qa n_lag method) /\
   (forall r eps_tip alpha_tip,
     pdm_eff_pol_n_p D o (Seq [a]) n (Some (Seq zs)) n_trapz r eps_tip alpha_tip
     = pdm_eff_pol_n_a D o A (as_array 0%Z n) (Some z) n_trapz r eps_tip alpha_tip)).
Proof. exact C87_centre_concatenated_proof. Qed.
Print Assumptions C87_centre_concatenated.
