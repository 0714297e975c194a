(** * Array model of the root-finding inverses: [fdm.refl_coef_qs_from_eff_pol_n]
    and [pdm.refl_coef_qs_from_eff_pol_n]

    Three library functions are parameters: the eigenvalue routine behind
    [Polynomial.roots] and the two unstable sorts.  Nothing is assumed about
    them here; the theorems state the contracts they use (SpecInv.v). *)
From Coq Require Import String Reals Lra Lia ZArith List Bool.
From Coquelicot Require Import Complex.
From Verif Require Import Num ModelBase ModelSample ModelTip NArr ModelObj ModelArr ModelArrTip.
Import ListNotations.
Open Scope R_scope.

(** ** NumPy functions along the first axis *)
(** the column of [a] at index [i] of the remaining axes: [a[(slice(None),) + i]] *)
Definition column {A} (a : arr A) (i : list nat) : list A :=
  map (fun k => at_ a (i ++ [k])) (seq 0 (last (shp a) O)).
(** [np.ndindex(shape)]: all indices, last axis fastest *)
Fixpoint ndindex (s : list nat) : list (list nat) :=
  match s with
  | [] => [[]]
  | d :: s' => flat_map (fun i => map (fun x => x :: i) (seq 0 d)) (ndindex s')
  end.
Definition msg_iteration_0 : string := "Cannot apply_along_axis when any iteration dimensions are 0".
(** [buff[ind] = r]: [r] must have as many entries as the first result, or one,
    which is repeated *)
Definition assign {A} (k : nat) (r : list A) : res (list A) :=
  if Nat.eqb (length r) k then Ok r
  else match r with
       | [x] => Ok (repeat x k)
       | _ => Raise (ValueError msg_broadcast)
       end.
(** [np.apply_along_axis(f, 0, a)] for [f] returning a one-dimensional array.
    The number of results is that of the first column. *)
Definition apply_along_axis0 {A B} (d : B) (f : list A -> res (list B)) (a : arr A) : res (arr B) :=
  let s := removelast (shp a) in
  match ndindex s with
  | [] => Raise (ValueError msg_iteration_0)
  | i0 :: rest =>
      let! r0 := f (column a i0) in
      let k := length r0 in
      let store i := let! r := f (column a i) in assign k r in
      let! _ := mapM store rest in
      Ok (mkArr (s ++ [k]) (fun i =>
            match store (removelast i) with Ok l => nth (last i O) l d | Raise _ => d end))
  end.
(** [a.argsort(axis=0)], where [sorter] sorts one column *)
Definition argsort_axis0 {A} (sorter : list A -> list nat) (a : arr A) : arr nat :=
  mkArr (shp a) (fun i => nth (last i O) (sorter (column a (removelast i))) O).
(** [np.take_along_axis(a, idx, axis=0)] for [idx] of the shape of [a] *)
Definition take_along_axis0 {A} (a : arr A) (idx : arr nat) : arr A :=
  mkArr (shp idx) (fun i => at_ a (removelast i ++ [at_ idx i])).
(** [a.any(axis=tuple(range(1, ndim)))]: one truth value per row *)
Definition any_other_axes (a : arr bool) : list bool :=
  map (fun k => existsb (fun i => at_ a (i ++ [k])) (ndindex (removelast (shp a))))
      (seq 0 (last (shp a) O)).
(** [a[mask]] for a one-dimensional boolean mask over the first axis *)
Definition select_rows {A} (mask : list bool) (a : arr A) : arr A :=
  let kept := filter (fun k => nth k mask false) (seq 0 (last (shp a) O)) in
  mkArr (removelast (shp a) ++ [length kept]) (fun i => at_ a (removelast i ++ [nth (last i O) kept O])).
(** [valid &= test]: the result must have the shape of [valid] *)
Definition msg_output : string := "non-broadcastable output operand".
Definition iand (valid test : arr bool) : res (arr bool) :=
  match bshape (shp valid) (shp test) with
  | None => Raise (ValueError msg_broadcast)
  | Some s =>
      if list_eq_dec Nat.eq_dec s (shp valid) then
        Ok (mkArr (shp valid) (fun i => at_ valid i && at_ test (bidx (shp test) i)))
      else Raise (ValueError msg_output)
  end.

(** ** [Polynomial(c).roots()] *)
Definition czero (x : CV) : bool :=
  match x with Some a => if Ceq_dec a (RtoC 0) then true else false | None => false end.
(** trailing exact zeros are dropped (nan is not zero), the first coefficient stays *)
Fixpoint drop_zeros (c : list CV) : list CV :=
  match c with
  | [] => []
  | a :: c' => match drop_zeros c' with
               | [] => if czero a then [] else [a]
               | t => a :: t
               end
  end.
Definition trimseq (c : list CV) : list CV :=
  match drop_zeros c with [] => firstn 1 c | t => t end.
Fixpoint all_finite (c : list CV) : option (list C) :=
  match c with
  | [] => Some []
  | Some a :: c' => match all_finite c' with Some l => Some (a :: l) | None => None end
  | None :: _ => None
  end.
Definition msg_empty : string := "Coefficient array is empty".

Section WithLibrary.
(** eigenvalues of the companion matrix of a polynomial of degree at least two *)
Variable eig_roots : list C -> list C.
(** [argsort] of a boolean and of a real array, along one column *)
Variable argsort_bool : list bool -> list nat.
Variable argsort_real : list RV -> list nat.

(** numpy.polynomial: the affine map from window to domain is the identity *)
Definition polyroots (c : list CV) : res (list CV) :=
  match c with
  | [] => Raise (ValueError msg_empty)
  | _ =>
      match trimseq c with
      | [] | [_] => Ok []
      | [a; b] => Ok [((rc 0 - a) / b)%cv]
      | t => match all_finite t with
             | Some l => Ok (map Some (eig_roots l))
             | None => Raise LinAlgError
             end
      end
  end.

(** comparisons with nan are false *)
Definition abs_le (x : CV) (t : R) : bool :=
  match cabs x with Some m => Rleb m t | None => false end.
Definition imag_nonneg (x : CV) : bool :=
  match x with Some a => Rleb 0 (Im a) | None => false end.
Definition abs_ge_1 (x : CV) : bool :=
  match cabs x with Some m => Rleb 1 m | None => false end.

(** fdm.py:784-811, identical to pdm.py:525-552: from the roots of every element
    to the masked array (values, mask) *)
Definition select_roots (beta_threshold : R) (reject_negative_eps_imag reject_subvacuum_eps_abs : bool)
    (eps_env : arr C) (all_roots : arr CV) : res (arr CV * arr bool) :=
  let valid := amap (fun x => abs_le x beta_threshold) all_roots in
  let! eps := amap2 (fun b e => permitivitty b (Some e)) all_roots eps_env in
  let! valid := if reject_negative_eps_imag then iand valid (amap imag_nonneg eps) else Ok valid in
  let! valid := if reject_subvacuum_eps_abs then iand valid (amap abs_ge_1 eps) else Ok valid in
  let all_roots := take_along_axis0 all_roots (argsort_axis0 argsort_bool valid) in
  let valid := take_along_axis0 valid (argsort_axis0 argsort_bool valid) in
  let slice_contains_valid := any_other_axes valid in
  let unmasked_roots := select_rows slice_contains_valid all_roots in
  let valid := select_rows slice_contains_valid valid in
  let valid := take_along_axis0 valid (argsort_axis0 argsort_real (amap cabs unmasked_roots)) in
  let unmasked_roots := take_along_axis0 unmasked_roots
                          (argsort_axis0 argsort_real (amap cabs unmasked_roots)) in
  Ok (unmasked_roots, amap negb valid).

(** fdm.py:781, pdm.py:522: [np.where(j_taylor == 0, coefs - alpha_eff_n, coefs)] *)
Definition offset_coefs (j_taylor : arr nat) (coefs alpha_eff_n : arr CV) : res (arr CV) :=
  let! diff := amap2 csub coefs alpha_eff_n in
  lift2 (fun j ab => if Nat.eqb j 0 then fst ab else snd ab) (Ok j_taylor) (amap2 pair diff coefs).

(** fdm.py:662-811.  [beta_threshold] is a number, as documented. *)
Definition fdm_refl_coef_qs_from_eff_pol_n (D : Defaults) (alpha_eff_n : arr CV) (A_tip : arr R)
    (n : arr Z) (z_tip r_tip L_tip : option (arr R)) (g_factor : option (arr C))
    (d_Q0 d_Q1 : option (arr R)) (n_trapz n_tayl : option nat) (beta_threshold : option R)
    (reject_negative_eps_imag reject_subvacuum_eps_abs : bool) (eps_env : option (arr C))
  : res (arr CV * arr bool) :=
  let z_tip := darr (d_z_tip D) z_tip in
  let! defs := fdm_defaults_a D r_tip L_tip g_factor d_Q0 d_Q1 None in
  match defs with
  | (r_tip, L_tip, g_factor, d_Q0, d_Q1, _) =>
    let n_tayl := dflt (d_n_tayl D) n_tayl in
    let beta_threshold := dflt (d_beta_threshold D) beta_threshold in
    let eps_env := darr (d_eps_env D) eps_env in
    let j_taylor := pad_for_broadcasting O (seq 0 n_tayl)
      [shp z_tip; shp A_tip; shp n; shp alpha_eff_n; shp r_tip; shp L_tip; shp g_factor; shp d_Q0; shp d_Q1] in
    let! coefs := fdm_taylor_coef_a D z_tip j_taylor A_tip n (amap rr r_tip) (amap rr L_tip)
                    (amap Some g_factor) d_Q0 (amap rr d_Q1) n_trapz in
    let! offset := offset_coefs j_taylor coefs alpha_eff_n in
    let! all_roots := apply_along_axis0 None polyroots offset in
    select_roots beta_threshold reject_negative_eps_imag reject_subvacuum_eps_abs eps_env all_roots
  end.

(** pdm.py:410-552 *)
Definition pdm_refl_coef_qs_from_eff_pol_n (D : Defaults) (alpha_eff_n : arr CV) (A_tip : arr R)
    (n : arr Z) (z_tip r_tip : option (arr R)) (eps_tip alpha_tip : option (arr C))
    (n_trapz n_tayl : option nat) (beta_threshold : option R)
    (reject_negative_eps_imag reject_subvacuum_eps_abs : bool) (eps_env : option (arr C))
  : res (arr CV * arr bool) :=
  let z_tip := darr (d_z_tip D) z_tip in
  let! ra := pdm_defaults_a D r_tip eps_tip alpha_tip in
  let n_tayl := dflt (d_n_tayl D) n_tayl in
  let beta_threshold := dflt (d_beta_threshold D) beta_threshold in
  let eps_env := darr (d_eps_env D) eps_env in
  let j_taylor := pad_for_broadcasting O (seq 0 n_tayl)
    [shp z_tip; shp A_tip; shp n; shp alpha_eff_n; shp (fst ra); shp (snd ra)] in
  let! coefs := pdm_taylor_coef_a D z_tip j_taylor A_tip n (amap rr (fst ra)) (snd ra) n_trapz in
  let! offset := offset_coefs j_taylor coefs alpha_eff_n in
  let! all_roots := apply_along_axis0 None polyroots offset in
  select_roots beta_threshold reject_negative_eps_imag reject_subvacuum_eps_abs eps_env all_roots.
End WithLibrary.
