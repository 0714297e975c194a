(** * Array model of [snompy/sample.py:181-798]

    The methods of [Sample] on array-valued layers and arguments, operation by
    operation, with NumPy broadcasting at every step.  The operations on the
    matrix axes and along the layers are done layer by layer, which is what
    they amount to: the layer axis is the first one and is never broadcast. *)
From Coq Require Import String Reals Lra Lia ZArith List Bool.
From Coquelicot Require Import Complex.
From Verif Require Import Num ModelBase ModelSample NArr ModelObj.
Import ListNotations.
Open Scope R_scope.

(** sample.py:212 / 366: [np.array([[1, -1], [-1, 1]])] *)
Definition sign_matrix : arr CV :=
  mkArr [2; 2]%nat (fun i => match i with
    | c :: r :: _ => if Nat.eqb c r then rc 1 else rc (-1)
    | _ => None end).
(** [np.eye(2)] *)
Definition eye2 : arr CV :=
  mkArr [2; 2]%nat (fun i => match i with
    | c :: r :: _ => if Nat.eqb c r then rc 1 else rc 0
    | _ => None end).
(** [np.array([a, b])] *)
Definition pair_array {A} (a b : A) : arr A :=
  mkArr [2]%nat (fun i => if Nat.eqb (hd O i) 0 then a else b).

(** sample.py:211-213 / 365-367 *)
Definition trans_matrix_a (x : arr CV) : res (arr CV) :=
  let! m := amap2 cmul sign_matrix (newaxis2 x) in
  Ok (amap (fun y => ((rc 1 + y) / rc 2)%cv) m).

(** sample.py:222-225 *)
Definition prop_matrix_qs_a (p : arr RV) : res (arr CV) :=
  let! m := amap2 rmul (pair_array (rr 1) (rr (-1))) (newaxis2 p) in
  amap2 cmul (amap (fun x => cexp (ofR x)) m) eye2.
(** sample.py:377-379 *)
Definition prop_matrix_a (p : arr CV) : res (arr CV) :=
  let! m := amap2 cmul (pair_array (Some (0, -1)%R) (Some (0, 1)%R)) (newaxis2 p) in
  amap2 cmul (amap cexp m) eye2.

(** sample.py:227-228 / 381-382 *)
Fixpoint chain_a (M : arr CV) (TP : list (arr CV * arr CV)) : res (arr CV) :=
  match TP with
  | [] => Ok M
  | (T, P) :: TP' => let! MP := matmul M P in let! MPT := matmul MP T in chain_a MPT TP'
  end.

(** sample.py:181-232 *)
Definition transfer_matrix_qs_a (o : obj) (q : arr RV) : res (arr CV) :=
  match o_eps o, o_t o with
  | Some e, Some t =>
      let! Ts := mapM (fun p => let! f := amap2 cdiv (fst p) (snd p) in trans_matrix_a f)
                      (combine (removelast (slices e)) (tl (slices e))) in
      match Ts with
      | [] => Raise IndexError
      | T0 :: Ts' =>
          if Nat.ltb 2 (length (lay e)) then
            let! props := mapM (fun x => let! p := amap2 rmul q (amap rr x) in
                                         prop_matrix_qs_a (amap clip p)) (slices t) in
            chain_a T0 (combine Ts' props)
          else amap2 cmul T0 (newaxis2 (amap (fun _ => rc 1) q))
      end
  | _, _ => Raise TypeError
  end.

(** [M[..., 1, 0] / M[..., 0, 0]] and [1 / M[..., 0, 0]] *)
Definition mat_entry (r c : nat) (M : arr CV) : arr CV :=
  mkArr (tl (tl (shp M))) (fun i => at_ M (c :: r :: i)).
Definition refl_of_matrix (M : arr CV) : res (arr CV) :=
  amap2 cdiv (mat_entry 1 0 M) (mat_entry 0 0 M).
Definition trans_of_matrix (M : arr CV) : res (arr CV) :=
  Ok (amap (fun x => (rc 1 / x)%cv) (mat_entry 0 0 M)).

(** sample.py:234-252 *)
Definition refl_coef_qs_a (o : obj) (q : arr RV) : res (arr CV) :=
  let! M := transfer_matrix_qs_a o q in refl_of_matrix M.
(** sample.py:254-272 *)
Definition trans_coef_qs_a (o : obj) (q : arr RV) : res (arr CV) :=
  let! M := transfer_matrix_qs_a o q in trans_of_matrix M.

(** ** Far field *)
(** sample.py:317-329 *)
Definition resolve_nu_a (o : obj) (nu : option (arr R)) : res (arr R) :=
  match nu with
  | Some v => Ok v
  | None => match o_nu o with
            | Some v => Ok v
            | None => let! m := get_multilayer o in
                      if m then Raise (ValueError msg_nu_vac) else Ok (scalar 1)
            end
  end.
(** sample.py:331-341 *)
Definition resolve_q_a (nu : arr R) (q theta_in : option (arr R)) : res (arr R) :=
  match theta_in with
  | None => match q with None => Ok (scalar 0) | Some v => Ok v end
  | Some th => match q with
               | None => amap2 (fun v t => v * sin (Rabs t)) nu th
               | Some _ => Raise (ValueError msg_theta_q)
               end
  end.
(** sample.py:343-346: one layer *)
Definition nu_z_a (nu q : arr R) (eps : arr CV) : res (arr CV) :=
  let! a := amap2 (fun e v => (e * ofR (rr v ^ 2)%rv)%cv) eps nu in
  amap2 (fun x v => csqrt (x - ofR (rr v ^ 2)%rv)%cv) a q.
(** sample.py:348-363: one interface; [ez], [ez'] are the (permittivity, normal
    wavenumber) of the layers above and below it *)
Definition trans_factor_a (pol_p : bool) (ez ez' : arr CV * arr CV) : res (arr CV) :=
  if pol_p then
    let! a := amap2 cmul (fst ez) (snd ez') in
    let! b := amap2 cmul (fst ez') (snd ez) in
    amap2 cdiv a b
  else amap2 cdiv (snd ez') (snd ez).

(** sample.py:274-384 *)
Definition transfer_matrix_a (o : obj) (q theta_in nu : option (arr R)) (pol : string)
  : res (arr CV) :=
  let! nu := resolve_nu_a o nu in
  let! q := resolve_q_a nu q theta_in in
  match o_eps o, o_t o with
  | Some e, Some t =>
      let! nuz := mapM (nu_z_a nu q) (slices e) in
      match nuz with
      | [] => Raise (ValueError msg_stack)
      | _ =>
          let! pol_p := (if String.eqb pol "p" then Ok true
                         else if String.eqb pol "s" then Ok false
                         else Raise (ValueError msg_pol)) in
          let ez := combine (slices e) nuz in
          let! Ts := mapM (fun p => let! f := trans_factor_a pol_p (fst p) (snd p) in
                                    trans_matrix_a f)
                          (combine (removelast ez) (tl ez)) in
          match Ts with
          | [] => Raise (ValueError msg_stack)
          | T0 :: Ts' =>
              if Nat.ltb 2 (length (lay e)) then
                let! props := mapM (fun zt => let! p := amap2 (fun z x => (z * rc x)%cv) (fst zt) (snd zt) in
                                              prop_matrix_a p)
                                   (combine (removelast (tl nuz)) (slices t)) in
                chain_a T0 (combine Ts' props)
              else Ok T0
          end
      end
  | _, _ => Raise TypeError
  end.

(** sample.py:386-420 *)
Definition refl_coef_a (o : obj) (q theta_in nu : option (arr R)) (pol : string) : res (arr CV) :=
  let! M := transfer_matrix_a o q theta_in nu pol in refl_of_matrix M.
(** sample.py:422-456 *)
Definition trans_coef_a (o : obj) (q theta_in nu : option (arr R)) (pol : string) : res (arr CV) :=
  let! M := transfer_matrix_a o q theta_in nu pol in trans_of_matrix M.

(** ** Momentum integrals *)
(** sample.py:579-586 / 705-712: padded nodes, padded weights, sampled
    reflection coefficients *)
Definition sampled_beta_a (laggauss : laggauss_t) (o : obj) (z_Q : arr RV) (n_lag : nat)
  : res (arr RV * arr RV * arr CV) :=
  if Nat.eqb n_lag 0 then Raise (ValueError msg_laggauss) else
  let rule := laggauss n_lag in
  let! r := refl_coef_qs_a o z_Q in
  let x := pad_for_broadcasting None (map (fun xw => rr (fst xw)) rule) [shp r] in
  let w := pad_for_broadcasting None (map (fun xw => rr (snd xw)) rule) [shp r] in
  let! q := amap2 rdiv x (amap (fun z => (rr 2 * z)%rv) z_Q) in
  let! b := refl_coef_qs_a o q in
  Ok (x, w, b).

(** sample.py:472-590 *)
Definition refl_coef_qs_above_surf_a (laggauss : laggauss_t) (D : Defaults)
    (o : obj) (z_Q : arr RV) (n_lag : option nat) : res (arr CV) :=
  let n_lag := dflt (d_n_lag D) n_lag in
  let! xwb := sampled_beta_a laggauss o z_Q n_lag in
  let '(x, w, b) := xwb in
  let! wx := amap2 rmul w x in
  let! s := amap2 (fun a y => (ofR a * y)%cv) wx b in
  Ok (sum_axis0 s).

(** sample.py:592-726 *)
Definition surf_pot_and_field_a (laggauss : laggauss_t) (D : Defaults)
    (o : obj) (z_Q : arr RV) (n_lag : option nat) : res (arr CV * arr CV) :=
  let n_lag := dflt (d_n_lag D) n_lag in
  let! xwb := sampled_beta_a laggauss o z_Q n_lag in
  let '(x, w, b) := xwb in
  let! s1 := amap2 (fun a y => (ofR a * y)%cv) w b in
  let! phi := amap2 (fun s z => (s / ofR (rr 2 * z)%rv)%cv) (sum_axis0 s1) z_Q in
  let! wx := amap2 rmul w x in
  let! s2 := amap2 (fun a y => (ofR a * y)%cv) wx b in
  let! E := amap2 (fun s z => (s / ofR (rr 4 * z ^ 2)%rv)%cv) (sum_axis0 s2) z_Q in
  Ok (phi, E).

(** sample.py:728-798 *)
Definition image_depth_and_charge_a (laggauss : laggauss_t) (D : Defaults)
    (o : obj) (z_Q : arr RV) (n_lag : option nat) : res (arr RV * arr CV) :=
  let! pE := surf_pot_and_field_a laggauss D o z_Q n_lag in
  let! ratio := amap2 cdiv (fst pE) (snd pE) in
  let! d := amap2 (fun x z => (cabs x - z)%rv) ratio z_Q in
  let! b := amap2 (fun p E => (p ^ 2 / E)%cv) (fst pE) (snd pE) in
  Ok (d, b).
