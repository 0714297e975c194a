(** * Example for the uniqueness of the finite dipole inverse (C89) *)
From Coq Require Import String Reals Lra Lia ZArith List Bool.
From Coquelicot Require Import Rcomplements Complex.
From Verif Require Import Num NumLemmas ModelBase ModelSample ModelTip NArr SpecArr ModelInv Spec SpecPoly SpecInv SpecSens
  DemodLemmas ProofsTip ProofsTaylor ProofsConsist2 ProofsConsist3 ProofsConsist4.
Import ListNotations.
Open Scope R_scope.

(** C89. A tip at rest in contact, of radius and length 1, g = 5/4 and both charges
    at depth 1/2 (f_0 = f_1 = 1/4), has the first three Taylor coefficients
    1, 1/8, 1/32: for the default threshold 1.01 the margin is 1/8 - 1.01/16 > 0, and
    the signal 1 + 1/20 is weak enough for exactly one solution. *)
Lemma C89_taylor_example_proof : forall D,
  let c := [RtoC 1; RtoC (1 / 8); RtoC (1 / 32)] in
  coefficients (fun j => fdm_taylor_coef D 0 j 0 0 (rr 1) (rr 1) (Some (RtoC (5 / 4))) (rr (1 / 2)) (rr (1 / 2)) (Some 1%nat)) c /\
  degree c 2 /\ margin (101 / 100) c = 1 / 8 - 101 / 1600 /\ 0 < margin (101 / 100) c /\
  INR 2 * Cmod (RtoC (21 / 20) - order0 c)%C <= 101 / 100 * Cmod (nth 1 c (RtoC 0)).
Proof.
  intros D c.
  assert (F : fdm_f 0 (1 / 2) 1 1 (RtoC (5 / 4)) = RtoC (1 / 4)).
  { rewrite f_at_0, <- RtoC_minus, <- RtoC_mult. f_equal. field. }
  assert (TH : forall k, (k < 1)%nat -> tip_height 0 0 1 k = 0) by (intros k _; unfold tip_height; ring).
  assert (RG : fdm_regular 0 (1 / 2) 1 1) by (unfold fdm_regular; lra).
  assert (MG : margin (101 / 100) c = 1 / 8 - 101 / 1600).
  { unfold c. cbn [margin slopes Nat.sub pow]. rewrite !Cmod_R, !Rabs_pos_eq by lra. change (INR 2) with (1 + 1). lra. }
  split; [|split; [|split; [exact MG|split; [rewrite MG; lra|]]]].
  - assert (H1 : 1%nat <> O) by discriminate.
    intros j Hj. cbn in Hj. destruct j as [|j]; [exact (taylor_coef_0 D 0 0 0 (Some 1%nat) (1 / 2) (1 / 2) 1 1 (RtoC (5 / 4)))|].
    rewrite (taylor_coef_S D 0 0 0 (Some 1%nat) (1 / 2) (1 / 2) 1 1 (RtoC (5 / 4)) H1).
    + cbn [given_or]. rewrite tmean_1, F. do 2 f_equal. destruct j as [|[|j]]; [| |lia]; cbn [c nth Cpown];
        rewrite <- ?RtoC_mult, <- RtoC_div by lra; f_equal; field.
    + intros k Hk. cbn [given_or] in Hk |- *. rewrite (TH k Hk). exact RG.
    + intros k Hk. cbn [given_or] in Hk |- *. rewrite (TH k Hk). exact RG.
  - split; [cbn [c nth]; apply RtoC_neq_0; lra|]. intros k Hk. apply nth_overflow. cbn. lia.
  - unfold order0. cbn [c nth]. rewrite <- RtoC_minus, !Cmod_R, !Rabs_pos_eq by lra. change (INR 2) with (1 + 1). lra.
Qed.
