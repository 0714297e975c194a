(** * Properties (generated by tools/gen_prop.py from ProofsArr2.v; statements
    only, each proved there) *)
From Coq Require Import String Reals Lra Lia ZArith List Bool.
From Coquelicot Require Import Rcomplements Complex.
From Verif Require Import Num NumLemmas ModelBase ModelSample NArr SpecArr NArrLemmas ModelObj ModelArr
  SpecObj ArrSample ProofsArr.
Import ListNotations.
Open Scope R_scope.
From Verif Require Import ProofsArr2.

(** C47, quasistatic reflection and transmission. *)
Theorem C47_qs_broadcast : forall o q, consistent o ->
  let ss := [eps_shape o; t_shape o; shp q] in
  vectorised ss (fun i => refl_coef_qs (sample_at o i) (entry q i)) (refl_coef_qs_a o q) /\
  vectorised ss (fun i => trans_coef_qs (sample_at o i) (entry q i)) (trans_coef_qs_a o q).
Proof. exact C47_qs_broadcast_proof. Qed.
Print Assumptions C47_qs_broadcast.

(** C47, far field: calls with at most one of q and theta_in, a wavenumber
    unless the sample is bulk, and polarization "p" or "s". *)
Theorem C47_far_broadcast : forall o q th nu pol, consistent o -> far_call o q th nu pol ->
  let ss := far_shapes o q th nu in
  vectorised ss (fun i => refl_coef (sample_at o i) (at_index q i) (at_index th i) (at_index nu i) pol)
    (refl_coef_a o q th nu pol) /\
  vectorised ss (fun i => trans_coef (sample_at o i) (at_index q i) (at_index th i) (at_index nu i) pol)
    (trans_coef_a o q th nu pol).
Proof. exact C47_far_broadcast_proof. Qed.
Print Assumptions C47_far_broadcast.

(** C47: every other far-field call is rejected with a ValueError whatever the
    shapes, and so is the scalar call at any index. *)
Theorem C47_far_rejected : forall o q th nu pol, consistent o -> ~ far_call o q th nu pol ->
  (exists m, refl_coef_a o q th nu pol = Raise (ValueError m)) /\
  (exists m, trans_coef_a o q th nu pol = Raise (ValueError m)) /\
  forall i,
   (exists m, refl_coef (sample_at o i) (at_index q i) (at_index th i) (at_index nu i) pol = Raise (ValueError m)) /\
   (exists m, trans_coef (sample_at o i) (at_index q i) (at_index th i) (at_index nu i) pol = Raise (ValueError m)).
Proof. exact C47_far_rejected_proof. Qed.
Print Assumptions C47_far_rejected.

(** C47, momentum integrals: elementwise in z_Q for any number of quadrature
    nodes (which [laggauss] requires to be positive). *)
Theorem C47_integrals_broadcast : forall lag D o z n_lag,
  consistent o -> (match n_lag with Some n => n | None => d_n_lag D end) <> O ->
  let ss := [eps_shape o; t_shape o; shp z] in
  vectorised ss (fun i => refl_coef_qs_above_surf lag D (sample_at o i) (entry z i) n_lag)
    (refl_coef_qs_above_surf_a lag D o z n_lag) /\
  vectorised ss (fun i => first (surf_pot_and_field lag D (sample_at o i) (entry z i) n_lag))
    (first (surf_pot_and_field_a lag D o z n_lag)) /\
  vectorised ss (fun i => second (surf_pot_and_field lag D (sample_at o i) (entry z i) n_lag))
    (second (surf_pot_and_field_a lag D o z n_lag)) /\
  vectorised ss (fun i => first (image_depth_and_charge lag D (sample_at o i) (entry z i) n_lag))
    (first (image_depth_and_charge_a lag D o z n_lag)) /\
  vectorised ss (fun i => second (image_depth_and_charge lag D (sample_at o i) (entry z i) n_lag))
    (second (image_depth_and_charge_a lag D o z n_lag)).
Proof. exact C47_integrals_broadcast_proof. Qed.
Print Assumptions C47_integrals_broadcast.

(** C47, concrete case: one film, permittivities of shape (2,), a scalar
    thickness and q of shape (3, 1): the joint shape is (3, 2) and the entry at
    index (2, 1) is that of q[2, 0] over the second sample. *)
Example C47_example :
  let o := mkObj (Some (mkLayers [] [fun _ => 1]))
                 (Some (mkLayers [2]%nat [fun _ => rc 1; fun i => rc (INR (hd O i) + 2); fun _ => rc 3]))
                 (scalar (rc 1)) None in
  let q := mkArr [1; 3]%nat (fun i => rr (INR (nth 1 i O))) in
  consistent o /\ compatible [eps_shape o; t_shape o; shp q] /\
  joint [eps_shape o; t_shape o; shp q] [2; 3]%nat /\ index_of [2; 3]%nat [1; 2]%nat /\
  sample_at o [1; 2]%nat = mkSample [rc 1; rc 3; rc 3] [1] None /\ entry q [1; 2]%nat = rr 2.
Proof. exact C47_example_proof. Qed.
