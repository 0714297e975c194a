(** * Properties (generated by tools/gen_prop.py from ProofsArrTip6.v; statements
    only, each proved there) *)
From Coq Require Import String Reals Lra Lia ZArith List Bool.
From Coquelicot Require Import Rcomplements Complex.
From Verif Require Import Num NumLemmas ModelBase ModelSample ModelTip NArr SpecArr NArrLemmas ModelObj
  ModelArr SpecObj ArrSample ProofsArr ProofsArr2 ModelArrTip ProofsArrTip ProofsArrTip2 ProofsArrTip3 ProofsArrTip4
  ProofsArrTip5.
Import ListNotations.
Open Scope R_scope.
From Verif Require Import ProofsArrTip6.

(** C48: a method that does not exist or does not apply, or a quadrature rule
    without nodes, is a ValueError, for arrays of any shapes as for single
    values *)
Theorem C48_fdm_rejected : forall lag D o A n z n_trapz r L g d_Q0 d_Q1 d_Qa n_lag method n_tayl, consistent o ->
  (~ fdm_call o ["multi"%string; "Q_ave"%string] (method_of o "multi" method)
      (match n_lag with Some n => n | None => d_n_lag D end) ->
   (exists m, fdm_eff_pol_a lag D o z r L g d_Q0 d_Q1 d_Qa n_lag method = Raise (ValueError m)) /\
   (exists m, fdm_eff_pol_n_a lag D o A n z n_trapz r L g d_Q0 d_Q1 d_Qa n_lag method = Raise (ValueError m)) /\
   forall i,
   (exists m, fdm_eff_pol lag D (sample_at o i) (at_index z i) (at_index r i) (at_index L i) (at_index g i)
                (at_index d_Q0 i) (at_index d_Q1 i) (at_index d_Qa i) n_lag method = Raise (ValueError m)) /\
   (exists m, fdm_eff_pol_n lag D (sample_at o i) (entry A i) (entry n i) (at_index z i) n_trapz
                (at_index r i) (at_index L i) (at_index g i)
                (at_index d_Q0 i) (at_index d_Q1 i) (at_index d_Qa i) n_lag method = Raise (ValueError m))) /\
  (~ fdm_call o ["Q_ave"%string] (method_of o "Q_ave" method)
      (match n_lag with Some n => n | None => d_n_lag D end) ->
   (exists m, fdm_eff_pol_n_taylor_a lag D o A n z r L g d_Q0 d_Q1 d_Qa n_lag method n_trapz n_tayl
              = Raise (ValueError m)) /\
   forall i,
   exists m, fdm_eff_pol_n_taylor lag D (sample_at o i) (entry A i) (entry n i) (at_index z i)
                (at_index r i) (at_index L i) (at_index g i)
                (at_index d_Q0 i) (at_index d_Q1 i) (at_index d_Qa i) n_lag method n_trapz n_tayl
             = Raise (ValueError m)).
Proof. exact C48_fdm_rejected_proof. Qed.
Print Assumptions C48_fdm_rejected.

(** C48: point dipole model *)
Theorem C48_pdm_broadcast : forall D o A n z n_trapz n_tayl r eps_tip alpha_tip, consistent o ->
  eps_tip = None \/ alpha_tip = None ->
  let ss := [eps_shape o; t_shape o] ++ shape_of z ++ shape_of r ++ shape_of eps_tip ++ shape_of alpha_tip in
  vectorised ss
    (fun i => pdm_eff_pol D (sample_at o i) (at_index z i) (at_index r i) (at_index eps_tip i) (at_index alpha_tip i))
    (pdm_eff_pol_a D o z r eps_tip alpha_tip) /\
  vectorised ([shp A; shp n] ++ ss)
    (fun i => pdm_eff_pol_n D (sample_at o i) (entry A i) (entry n i) (at_index z i) n_trapz
                (at_index r i) (at_index eps_tip i) (at_index alpha_tip i))
    (pdm_eff_pol_n_a D o A n z n_trapz r eps_tip alpha_tip) /\
  vectorised ([shp A; shp n] ++ ss)
    (fun i => pdm_eff_pol_n_taylor D (sample_at o i) (entry A i) (entry n i) (at_index z i)
                (at_index r i) (at_index eps_tip i) (at_index alpha_tip i) n_trapz n_tayl)
    (pdm_eff_pol_n_taylor_a D o A n z r eps_tip alpha_tip n_trapz n_tayl).
Proof. exact C48_pdm_broadcast_proof. Qed.
Print Assumptions C48_pdm_broadcast.

(** C48: both tip properties at once are rejected, for arrays as for single
    values *)
Theorem C48_pdm_rejected : forall D o A n z n_trapz n_tayl r eps_tip alpha_tip alpha_eff, 
  ((exists m, pdm_eff_pol_a D o z r (Some eps_tip) (Some alpha_tip) = Raise (ValueError m)) /\
   (exists m, pdm_eff_pol_n_a D o A n z n_trapz r (Some eps_tip) (Some alpha_tip) = Raise (ValueError m)) /\
   (exists m, pdm_eff_pol_n_taylor_a D o A n z r (Some eps_tip) (Some alpha_tip) n_trapz n_tayl = Raise (ValueError m)) /\
   (exists m, pdm_refl_coef_qs_from_eff_pol_a D alpha_eff z r (Some eps_tip) (Some alpha_tip) = Raise (ValueError m))) /\
  forall s A' n' z' r' e' a' alpha',
   (exists m, pdm_eff_pol D s z' r' (Some e') (Some a') = Raise (ValueError m)) /\
   (exists m, pdm_eff_pol_n D s A' n' z' n_trapz r' (Some e') (Some a') = Raise (ValueError m)) /\
   (exists m, pdm_eff_pol_n_taylor D s A' n' z' r' (Some e') (Some a') n_trapz n_tayl = Raise (ValueError m)) /\
   (exists m, pdm_refl_coef_qs_from_eff_pol D alpha' z' r' (Some e') (Some a') = Raise (ValueError m)).
Proof. exact C48_pdm_rejected_proof. Qed.
Print Assumptions C48_pdm_rejected.

(** C48: closed-form inverses *)
Theorem C48_inverse_broadcast : forall D (alpha_eff : arr CV) z r L g d_Q0 d_Q1 eps_tip alpha_tip,
  vectorised (shp alpha_eff :: shape_of z ++ shape_of r ++ shape_of L ++ shape_of g ++ shape_of d_Q0 ++ shape_of d_Q1)
    (fun i => Ok (fdm_refl_coef_qs_from_eff_pol D (entry alpha_eff i) (at_index z i) (at_index r i) (at_index L i)
                    (at_index g i) (at_index d_Q0 i) (at_index d_Q1 i)))
    (fdm_refl_coef_qs_from_eff_pol_a D alpha_eff z r L g d_Q0 d_Q1) /\
  (eps_tip = None \/ alpha_tip = None ->
   vectorised (shp alpha_eff :: shape_of z ++ shape_of r ++ shape_of eps_tip ++ shape_of alpha_tip)
    (fun i => pdm_refl_coef_qs_from_eff_pol D (entry alpha_eff i) (at_index z i) (at_index r i) (at_index eps_tip i)
                (at_index alpha_tip i))
    (pdm_refl_coef_qs_from_eff_pol_a D alpha_eff z r eps_tip alpha_tip)).
Proof. exact C48_inverse_broadcast_proof. Qed.
Print Assumptions C48_inverse_broadcast.

(** C48, concrete case: the call in the documentation of [demod]:
    f(x, y) = x * y with x_0 = 1, x_amplitude of shape (2, 1), n of shape
    (3, 1, 1) and y of shape (4, 1, 1, 1) acts elementwise, and the joint shape
    is the documented (4, 3, 2, 1); a consistent object with two permittivities
    whose finite dipole call is meaningful, and one whose call is not. *)
Example C48_example :
  let y := mkArr [1; 1; 1; 4]%nat (fun i => INR (nth 3 i O)) in
  let f := fun x : arr R => amap2 (fun a b => rc (a * b)) x y in
  let o := mkObj (Some (mkLayers [] []))
                 (Some (mkLayers [2]%nat [fun _ => rc 1; fun i => rc (INR (hd O i) + 2)]))
                 (scalar (rc 1)) None in
  acts_elementwise [shp y] (fun i x => rc (x * entry y i)) f /\
   joint [[]; [1; 2]; [1; 1; 3]; shp y]%nat [1; 2; 3; 4]%nat /\
   consistent o /\ fdm_call o ["multi"%string; "Q_ave"%string] (method_of o "multi" None) 32 /\
   ~ fdm_call o ["multi"%string; "Q_ave"%string] "analytic" 32 /\
   joint ([[1; 3]%nat; []] ++ fdm_shapes o "bulk" None None None None None None None) [2; 3]%nat.
Proof. exact C48_example_proof. Qed.
