(** * Properties (generated by tools/gen_prop.py from ProofsSeq4.v; statements
    only, each proved there) *)
From Coq Require Import String Reals Lra Lia ZArith List Bool FunctionalExtensionality.
From Coquelicot Require Import Rcomplements Complex.
From Verif Require Import Num NumLemmas ModelBase ModelSample ModelTip NArr SpecArr NArrLemmas ModelObj
  ModelArr SpecObj ArrSample ProofsArr ProofsArr2 ModelArrTip ProofsArrTip ProofsArrTip2 ProofsArrTip3 ProofsArrTip4
  ProofsArrTip5 ProofsArrTip6 ModelInv ModelSeq SpecSeq ProofsSeq ProofsSeq2 ProofsSeq3 Spec ProofsPassive.
Import ListNotations.
Open Scope R_scope.
From Verif Require Import ProofsSeq4.

(** C87, the root-finding inverse with the harmonics as a Python sequence: the
    equation solved lacks the constant 1 at harmonic 0, i.e. the result is that
    of a call with arrays for the signal alpha + 1 there, and for the signal
    itself at the other harmonics. *)
Theorem C87_inverse_harmonics : forall eig sb sr (D : Defaults) (alpha alpha' : arr CV) A (ns : list Z) z r L g d_Q0 d_Q1
    n_trapz n_tayl th b1 b2 eps_env,
  plain A -> plain_opt z ->
  compatible ([shp (as_array 0 A); [length ns]; shp alpha] ++ shape_of (as_array_opt 0 z) ++ shape_of r ++ shape_of L
              ++ shape_of g ++ shape_of d_Q0 ++ shape_of d_Q1) ->
  amap2 (fun x k => if Z.eqb k 0 then (x + rc 1)%cv else x) alpha (mkArr [length ns] (fun i => nth (hd O i) ns 0%Z)) = Ok alpha' ->
  fdm_refl_coef_qs_from_eff_pol_n_p eig sb sr D (Arr alpha) A (Seq ns) z r L g d_Q0 d_Q1 n_trapz n_tayl th b1 b2 eps_env
  = fdm_refl_coef_qs_from_eff_pol_n eig sb sr D alpha' (as_array 0 A) (mkArr [length ns] (fun i => nth (hd O i) ns 0%Z))
      (as_array_opt 0 z) r L g d_Q0 d_Q1 n_trapz n_tayl th b1 b2 eps_env.
Proof. exact C87_inverse_harmonics_proof. Qed.
Print Assumptions C87_inverse_harmonics.

(** C87: "a list of harmonics gives what the same array gives" is false of
    [fdm.eff_pol_n_taylor].  For the harmonics 0 and 1 and one Taylor term the
    array call returns 1 and 0, the list call 0 and 0. *)
Theorem C87_list_harmonics_refuted : forall lag (D : Defaults) A,
  exists a b,
  fdm_eff_pol_n_taylor_p lag D two (Num A) (Arr (mkArr [2%nat] (fun i => nth (hd O i) [0; 1]%Z 0%Z))) None
    None None None None None None None None None (Some 1%nat) = Ok a /\
  fdm_eff_pol_n_taylor_p lag D two (Num A) (Seq [0; 1]%Z) None
    None None None None None None None None None (Some 1%nat) = Ok b /\
  shp a = [2%nat] /\ shp b = [2%nat] /\
  at_ a [0%nat] = rc 1 /\ at_ b [0%nat] = rc 0 /\ at_ a [1%nat] = rc 0 /\ at_ b [1%nat] = rc 0.
Proof. exact C87_list_harmonics_refuted_proof. Qed.
Print Assumptions C87_list_harmonics_refuted.

(** C87, concrete case for the heights: one height over a bulk sample, as a
    list: two equal values, for half of the height *)
Example C87_heights_example : 
  consistent two /\ many_layers two = false /\ compatible [eps_shape two; t_shape two; [1%nat]] /\
  joint [eps_shape two; t_shape two; [2 * 1]%nat] [2%nat] /\
  item (A:=RV) None [rr 5; rr 5] [1%nat] = rr 5 /\
  (forall lag (D : Defaults), d_n_lag D <> O ->
    exists a, refl_coef_qs_above_surf_p lag D two (Seq [rr 5]) None = Ok a /\ shp a = [2%nat]).
Proof. exact C87_heights_example_proof. Qed.

(** C87, concrete cases for the inverse (a single signal, harmonics 0 and 1:
    the signals used are a + 1 and a) and for the concatenated heights (1 and 2
    with amplitude 3: the heights are -2, -1 and 0) *)
Example C87_example : forall a : C,
  compatible ([[]; [length [0; 1]%Z]; shp (scalar (Some a))] ++ []) /\
  (exists al', amap2 (fun x k => if Z.eqb k 0 then (x + rc 1)%cv else x) (scalar (Some a))
      (mkArr [length [0; 1]%Z] (fun i => nth (hd O i) [0; 1]%Z 0%Z)) = Ok al' /\
    shp al' = [2%nat] /\ at_ al' [0%nat] = Some (a + 1)%C /\ at_ al' [1%nat] = Some a) /\
  map (fun k => nth k ([1; 2] ++ [3]) 0 - 3) [0; 1; 2]%nat = [-2; -1; 0].
Proof. exact C87_example_proof. Qed.
