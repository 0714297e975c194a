(** * Properties (generated by tools/gen_prop.py from ProofsThin4.v; statements
    only, each proved there) *)
From Coq Require Import String Reals Lra Lia ZArith List Bool.
From Coquelicot Require Import Coquelicot.
From Coq Require Import List.
From Verif Require Import Num NumLemmas ModelBase ModelSample ModelTip StackLemmas Spec SpecQuad SpecThin
  ProofsStackQS ProofsStackQS2 ProofsSym ProofsPassive Laguerre Laguerre2 QuadConv ProofsQuad ProofsQuad2 ProofsNlag ProofsFilm ProofsConsist3 ProofsThin ProofsThin2 ProofsThin3.
Import ListNotations.
Open Scope R_scope.
From Verif Require Import ProofsThin4.

(** C91. With any number of nodes up to 1000 (the default is 32) there are films through
    which the sum lets less than a hundredth of the substrate's documented
    contribution pass (here: 40000 times thicker than the height of the charge). *)
Theorem C91_subsurface_lost :
  forall (laggauss : laggauss_t) (D : Defaults) nu (n : nat) (r : nat -> C) (l : C),
  (forall J, (0 < J)%nat -> documented_rule J (laggauss J)) -> (1 <= n <= 1000)%nat ->
  let s := stack [RtoC 1; RtoC 3; RtoC 5] [40000] nu in
  (forall m, refl_coef_qs_above_surf laggauss D s (rr 1) (Some (S m)) = Ok (Some (r m))) -> Cseq_lim r l ->
  exists B, refl_coef_qs_above_surf laggauss D s (rr 1) (Some n) = Ok (Some B) /\ 0 < Cmod (l - RtoC (1 / 2))%C /\
    Cmod (B - RtoC (1 / 2))%C <= Cmod (l - RtoC (1 / 2))%C / 100.
Proof. exact C91_subsurface_lost_proof. Qed.
Print Assumptions C91_subsurface_lost.

(** C91. A concrete thin film: permittivity 3 on 5 in vacuum, a tenth as thick as the
    height of the charge, with the documented rule of 1000 nodes. *)
Example C91_film_example :
  exists (laggauss : laggauss_t) (B : C),
  (forall J, (0 < J)%nat -> documented_rule J (laggauss J)) /\
  refl_coef_qs_above_surf laggauss defaults0 (stack [RtoC 1; RtoC 3; RtoC 5] [1] None) (rr 10) (Some 1000%nat) = Ok (Some B) /\
  Cmod (B - RtoC (2 / 3))%C <= 1 / 20 /\
  Cmod (B - RtoC (86 / 135))%C <= 1 / 59.
Proof. exact C91_film_example_proof. Qed.

(** C91. A concrete tip over that film (radius and semi-axis 1, oscillator at rest on the surface). *)
Example C91_tip_example :
  exists (laggauss : laggauss_t) (a a' : C),
  let run s := fdm_eff_pol laggauss defaults0 s (Some 0) (Some 1) (Some 1) (Some (RtoC (7 / 4))) (Some (1 / 2)) (Some (1 / 2)) (Some 10) (Some 1000%nat) (Some "Q_ave"%string) in
  run (stack [RtoC 1; RtoC 3; RtoC 5] [1] None) = Ok (Some a) /\
  run (stack [RtoC 1; RtoC 5] [] None) = Ok (Some a') /\
  Cmod (a - a')%C <= 1 / 32.
Proof. exact C91_tip_example_proof. Qed.

(** C91. A concrete documented limit: the same film as thick as the height, from two images. *)
Example C91_images_example :
  exists (laggauss : laggauss_t) (r : nat -> C) (l : C),
  (forall J, (0 < J)%nat -> documented_rule J (laggauss J)) /\
  (forall n, refl_coef_qs_above_surf laggauss defaults0 (stack [RtoC 1; RtoC 3; RtoC 5] [1] None) (rr 1) (Some (S n)) = Ok (Some (r n))) /\
  Cseq_lim r l /\ Cmod (l - RtoC (1 / 2 + 3 / 16 * (1 / 4 - 1 / 8 * (1 / 9))))%C <= 1 / 1000.
Proof. exact C91_images_example_proof. Qed.
