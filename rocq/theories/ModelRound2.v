(** * The quasistatic code in arithmetic that rounds

    The functions of sample.py, fdm.py and pdm.py with every operation replaced
    by the rounded one of a [machine] (SpecRound.v), in the order of the source.
    Scalars.  Heights, lengths and thicknesses are real, everything computed from
    permittivities is complex (for a sample given by real permittivities NumPy
    would stay with real numbers: one rounding where there are several here).  No
    fused operations, no overflow, no underflow.  The quantities stored in a
    sample, the defaults, the quadrature nodes and the arguments are taken as
    they are; [val0] only gives a type to a permittivity that is nan. *)
From Coq Require Import String Reals List ZArith Bool.
From Coquelicot Require Import Complex.
From Verif Require Import Num ModelBase ModelSample ModelTip SpecRound ModelRound.
Import ListNotations.
Open Scope R_scope.

Definition val0 (v : CV) : C := match v with Some z => z | None => RtoC 0 end.

(** [np.sum(..., axis=0)] in the order of the machine *)
Definition k_sum (m : machine) (l : list C) : C :=
  match l with [] => RtoC 0 | _ => ksum m (m_order m (length l)) (fun k => nth k l (RtoC 0)) end.
(** NumPy's integer power of a complex number: repeated squaring (exponents below 100) *)
Fixpoint kpow_loop (m : machine) (acc p : C) (n : positive) : C :=
  match n with
  | xH => kmul m acc p
  | xO n' => kpow_loop m acc (kmul m p p) n'
  | xI n' => kpow_loop m (kmul m acc p) (kmul m p p) n'
  end.
Definition kpow (m : machine) (x : C) (n : Z) : C :=
  match n with
  | Z0 => RtoC 1
  | Zpos p => kpow_loop m (RtoC 1) x p
  | Zneg p => kdiv m (RtoC 1) (kpow_loop m (RtoC 1) x p)
  end.

(** ** sample.py *)
(** sample.py:831-880 *)
Definition k_refl_coef_qs_single (m : machine) (eps_i eps_j : C) : C :=
  kdiv m (ksub m eps_j eps_i) (kadd m eps_j eps_i).
(** sample.py:883-911 *)
Definition k_permitivitty (m : machine) (beta eps_i : C) : C :=
  kdiv m (kmul m eps_i (kadd m (RtoC 1) beta)) (ksub m (RtoC 1) beta).

Record kmat := mkKmat { k00 : C; k01 : C; k10 : C; k11 : C }.
Definition kmmul (m : machine) (A B : kmat) : kmat :=
  {| k00 := kadd m (kmul m (k00 A) (k00 B)) (kmul m (k01 A) (k10 B));
     k01 := kadd m (kmul m (k00 A) (k01 B)) (kmul m (k01 A) (k11 B));
     k10 := kadd m (kmul m (k10 A) (k00 B)) (kmul m (k11 A) (k10 B));
     k11 := kadd m (kmul m (k10 A) (k01 B)) (kmul m (k11 A) (k11 B)) |}.
(** sample.py:211-213 *)
Definition k_trans_matrix (m : machine) (x : C) : kmat :=
  let plus := kdiv m (kadd m (RtoC 1) (kmul m (RtoC 1) x)) (RtoC 2) in
  let minus := kdiv m (kadd m (RtoC 1) (kmul m (RtoC (-1)) x)) (RtoC 2) in
  {| k00 := plus; k01 := minus; k10 := minus; k11 := plus |}.
(** sample.py:223-225 *)
Definition k_prop_matrix (m : machine) (ea eb : R) : kmat :=
  {| k00 := RtoC (a_mul m ea 1); k01 := RtoC (a_mul m eb 0);
     k10 := RtoC (a_mul m ea 0); k11 := RtoC (a_mul m eb 1) |}.
(** sample.py:43-44, 222 *)
Definition k_clip (m : machine) (x : R) : R :=
  let b := a_log m ((2 - / 2 ^ 52) * 2 ^ 1023) in Rmin (Rmax x (- b)) b.
(** sample.py:227-228 *)
Definition k_chain (m : machine) (M0 : kmat) (TP : list (kmat * kmat)) : kmat :=
  fold_left (fun M tp => kmmul m (kmmul m M (snd tp)) (fst tp)) TP M0.
(** sample.py:210-213 *)
Definition k_trans_matrices_qs (m : machine) (s : sample) : list kmat :=
  map (fun p => k_trans_matrix m (kdiv m (val0 (fst p)) (val0 (snd p))))
      (combine (removelast (eps_stack s)) (tl (eps_stack s))).
(** sample.py:218-225 *)
Definition k_prop_matrices_qs (m : machine) (s : sample) (q : R) : list kmat :=
  map (fun t => let p := k_clip m (a_mul m q t) in
                k_prop_matrix m (a_exp m (a_mul m 1 p)) (a_exp m (a_mul m (-1) p)))
      (t_stack s).
(** sample.py:181-232 *)
Definition k_transfer_matrix_qs (m : machine) (s : sample) (q : R) : res kmat :=
  match k_trans_matrices_qs m s with
  | [] => Raise IndexError
  | T0 :: Ts =>
      if multilayer s
      then Ok (k_chain m T0 (combine Ts (k_prop_matrices_qs m s q)))
      else Ok {| k00 := kmul m (k00 T0) (RtoC 1); k01 := kmul m (k01 T0) (RtoC 1);
                 k10 := kmul m (k10 T0) (RtoC 1); k11 := kmul m (k11 T0) (RtoC 1) |}
  end.
(** sample.py:234-252 *)
Definition k_refl_coef_qs (m : machine) (s : sample) (q : R) : res C :=
  let! M := k_transfer_matrix_qs m s q in Ok (kdiv m (k10 M) (k00 M)).
(** sample.py:254-272 *)
Definition k_trans_coef_qs (m : machine) (s : sample) (q : R) : res C :=
  let! M := k_transfer_matrix_qs m s q in Ok (kdiv m (RtoC 1) (k00 M)).

(** sample.py:579-586 *)
Definition k_sampled_beta (m : machine) (laggauss : laggauss_t) (s : sample) (z_Q : R) (n_lag : nat)
  : res (list (R * R * C)) :=
  if Nat.eqb n_lag 0 then Raise (ValueError msg_laggauss) else
  let! _ := k_refl_coef_qs m s z_Q in
  mapM (fun xw => let! b := k_refl_coef_qs m s (a_div m (fst xw) (a_mul m 2 z_Q)) in
                  Ok (fst xw, snd xw, b))
       (laggauss n_lag).
(** sample.py:472-590 *)
Definition k_refl_coef_qs_above_surf (m : machine) (laggauss : laggauss_t) (D : Defaults)
    (s : sample) (z_Q : R) (n_lag : option nat) : res C :=
  let n_lag := dflt (d_n_lag D) n_lag in
  let! bs := k_sampled_beta m laggauss s z_Q n_lag in
  Ok (k_sum m (map (fun p => match p with (x, w, b) => kmul m (RtoC (a_mul m w x)) b end) bs)).
(** sample.py:592-726 *)
Definition k_surf_pot_and_field (m : machine) (laggauss : laggauss_t) (D : Defaults)
    (s : sample) (z_Q : R) (n_lag : option nat) : res (C * C) :=
  let n_lag := dflt (d_n_lag D) n_lag in
  let! bs := k_sampled_beta m laggauss s z_Q n_lag in
  let phi := kdiv m (k_sum m (map (fun p => match p with (x, w, b) => kmul m (RtoC w) b end) bs))
                    (RtoC (a_mul m 2 z_Q)) in
  let E := kdiv m (k_sum m (map (fun p => match p with (x, w, b) => kmul m (RtoC (a_mul m w x)) b end) bs))
                  (RtoC (a_mul m 4 (a_pow m z_Q 2))) in
  Ok (phi, E).
(** sample.py:728-798 *)
Definition k_image_depth_and_charge (m : machine) (laggauss : laggauss_t) (D : Defaults)
    (s : sample) (z_Q : R) (n_lag : option nat) : res (R * C) :=
  let! pE := k_surf_pot_and_field m laggauss D s z_Q n_lag in
  let phi := fst pE in let E := snd pE in
  let r := kdiv m phi E in
  Ok (a_sub m (a_hypot m (Re r) (Im r)) z_Q, kdiv m (kmul m phi phi) E).

(** sample.py:914-958: [1j * gamma_j * nu_vac] has exact zero products *)
Definition k_lorentz_perm (m : machine) (nu nu_j gamma_j : R) (A_j nu_plasma f_j eps_inf : option R)
  : res C :=
  let f_j := dflt 1 f_j in
  let eps_inf := dflt 1 eps_inf in
  let! A := match A_j with
            | None => match nu_plasma with
                      | None => Raise (ValueError msg_lor_none)
                      | Some p => Ok (a_mul m f_j (a_pow m p 2))
                      end
            | Some a => match nu_plasma with
                        | Some _ => Raise (ValueError msg_lor_both)
                        | None => Ok a
                        end
            end in
  Ok (kadd m (RtoC eps_inf)
        (kdiv m (RtoC A)
          (ksub m (RtoC (a_sub m (a_pow m nu_j 2) (a_pow m nu 2)))
                  (kmul m (kmul m (0, 1) (RtoC gamma_j)) (RtoC nu))))).
(** sample.py:961-988 *)
Definition k_drude_perm (m : machine) (nu nu_plasma gamma : R) (eps_inf : option R) : res C :=
  k_lorentz_perm m nu 0 gamma None (Some nu_plasma) None (Some (dflt 1 eps_inf)).

(** ** demodulate.py:29-112 for a function that may raise *)
Definition k_phase (m : machine) (n : Z) (theta : R) : C :=
  let y := a_mul m (- IZR n) theta in (a_cos m y, a_sin m y).
Definition k_trapezoid (m : machine) (ys : list C) : C :=
  k_sum m (map (fun p => kdiv m (kmul m (RtoC 1) (kadd m (fst p) (snd p))) (RtoC 2)) (combine (tl ys) ys)).
Definition k_demod_res (m : machine) (D : Defaults) (f : R -> res C) (x_0 x_amplitude : R) (n : Z)
    (n_trapz : option nat) : res C :=
  let N := dflt (d_n_trapz D) n_trapz in
  let! _ := f (a_add m x_0 (a_mul m 0 x_amplitude)) in
  let! fs := mapM (fun k => f (k_position m x_0 x_amplitude (k_theta m N k))) (seq 0 (N + 1)) in
  let integrand := map (fun p => kmul m (fst p) (k_phase m n (k_theta m N (snd p)))) (combine fs (seq 0 (N + 1))) in
  Ok (kdiv m (k_trapezoid m integrand) (RtoC (INR N))).

(** ** _defaults.py *)
(** _defaults.py:114-122 *)
Definition k_fdm_defaults (m : machine) (D : Defaults) (r_tip L_tip : option R)
    (g_factor : option C) (d_Q0 d_Q1 d_Qa : option R) : R * R * C * R * R * R :=
  let r_tip := dflt (d_r_tip D) r_tip in
  let L_tip := dflt (d_L_tip D) L_tip in
  let g_factor := dflt (d_g_factor D) g_factor in
  let d_Q0 := match d_Q0 with
              | None => a_div m (a_mul m (a_lit m (131 / 100)) L_tip) (a_add m L_tip (a_mul m 2 r_tip))
              | Some d => d
              end in
  let d_Q1 := dflt (d_d_Q1 D) d_Q1 in
  let d_Qa := dflt (d_d_Qa D) d_Qa in
  (r_tip, L_tip, g_factor, d_Q0, d_Q1, d_Qa).
(** _defaults.py:124-138 *)
Definition k_pdm_defaults (m : machine) (D : Defaults) (r_tip : option R)
    (eps_tip alpha_tip : option C) : res (R * C) :=
  let r_tip := dflt (d_r_tip D) r_tip in
  let a := a_mul m (a_mul m 4 (a_lit m PI)) (a_pow m r_tip 3) in
  match eps_tip with
  | None => match alpha_tip with None => Ok (r_tip, RtoC a) | Some a => Ok (r_tip, a) end
  | Some eps =>
      match alpha_tip with
      | None => Ok (r_tip, kdiv m (kmul m (RtoC a) (ksub m eps (RtoC 1))) (kadd m eps (RtoC 2)))
      | Some _ => Raise (ValueError msg_alpha_eps_tip)
      end
  end.

(** ** fdm.py *)
(** fdm.py:266-325 *)
Definition k_fdm_geom_func (m : machine) (z_tip d_Q r_tip L_tip : R) (g_factor : C) : C :=
  kdiv m
    (kmul m
      (ksub m g_factor (RtoC (a_div m (a_add m (a_add m r_tip (a_mul m 2 z_tip)) (a_mul m d_Q r_tip)) (a_mul m 2 L_tip))))
      (RtoC (a_log m (a_div m (a_mul m 4 L_tip)
                        (a_add m (a_add m r_tip (a_mul m 4 z_tip)) (a_mul m (a_mul m 2 d_Q) r_tip))))))
    (RtoC (a_log m (a_div m (a_mul m 4 L_tip) r_tip))).
(** fdm.py:328-389 *)
Definition k_fdm_geom_func_multi (m : machine) (z_tip d_image r_tip L_tip : R) (g_factor : C) : C :=
  kdiv m
    (kmul m
      (ksub m g_factor (RtoC (a_div m (a_add m (a_add m r_tip z_tip) d_image) (a_mul m 2 L_tip))))
      (RtoC (a_log m (a_div m (a_mul m 4 L_tip)
                        (a_add m (a_add m r_tip (a_mul m 2 z_tip)) (a_mul m 2 d_image))))))
    (RtoC (a_log m (a_div m (a_mul m 4 L_tip) r_tip))).
(** fdm.py:392-449 *)
Definition k_fdm_geom_func_taylor (m : machine) (z_tip : R) (j_taylor : nat) (r_tip L_tip : R)
    (g_factor : C) (d_Q0 d_Q1 : R) : C :=
  let f_0 := k_fdm_geom_func m z_tip d_Q0 r_tip L_tip g_factor in
  let f_1 := k_fdm_geom_func m z_tip d_Q1 r_tip L_tip g_factor in
  kmul m f_0 (kpow m f_1 (Z.of_nat j_taylor - 1)).
(** fdm.py:261 *)
Definition k_fdm_alpha (m : machine) (beta_0 beta_1 f_0 f_1 : C) : C :=
  kadd m (RtoC 1) (kdiv m (kmul m beta_0 f_0) (kmul m (RtoC 2) (ksub m (RtoC 1) (kmul m beta_1 f_1)))).
(** fdm.py:115-263 *)
Definition k_fdm_eff_pol (m : machine) (laggauss : laggauss_t) (D : Defaults) (s : sample) (z_tip : R)
    (r_tip L_tip : option R) (g_factor : option C) (d_Q0 d_Q1 d_Qa : option R) (n_lag : option nat)
    (method : option string) : res C :=
  match k_fdm_defaults m D r_tip L_tip g_factor d_Q0 d_Q1 d_Qa with
  | (r_tip, L_tip, g_factor, d_Q0, d_Q1, d_Qa) =>
    let method := match method with
                  | None => if multilayer s then "multi"%string else "bulk"%string
                  | Some m => m
                  end in
    if String.eqb method "bulk" then
      if multilayer s then Raise (ValueError msg_bulk_multi) else
      let! beta := k_refl_coef_qs m s 0 in
      Ok (k_fdm_alpha m beta beta (k_fdm_geom_func m z_tip d_Q0 r_tip L_tip g_factor)
                                  (k_fdm_geom_func m z_tip d_Q1 r_tip L_tip g_factor))
    else if String.eqb method "multi" then
      let! i0 := k_image_depth_and_charge m laggauss D s (a_add m z_tip (a_mul m r_tip d_Q0)) n_lag in
      let! i1 := k_image_depth_and_charge m laggauss D s (a_add m z_tip (a_mul m r_tip d_Q1)) n_lag in
      Ok (k_fdm_alpha m (snd i0) (snd i1) (k_fdm_geom_func_multi m z_tip (fst i0) r_tip L_tip g_factor)
                                          (k_fdm_geom_func_multi m z_tip (fst i1) r_tip L_tip g_factor))
    else if String.eqb method "Q_ave" then
      let! beta := k_refl_coef_qs_above_surf m laggauss D s (a_add m z_tip (a_mul m r_tip d_Qa)) n_lag in
      Ok (k_fdm_alpha m beta beta (k_fdm_geom_func m z_tip d_Q0 r_tip L_tip g_factor)
                                  (k_fdm_geom_func m z_tip d_Q1 r_tip L_tip g_factor))
    else Raise (ValueError msg_method)
  end.
(** fdm.py:62-112 *)
Definition k_fdm_eff_pol_n (m : machine) (laggauss : laggauss_t) (D : Defaults) (s : sample) (A_tip : R) (n : Z)
    (z_tip : option R) (n_trapz : option nat) (r_tip L_tip : option R) (g_factor : option C)
    (d_Q0 d_Q1 d_Qa : option R) (n_lag : option nat) (method : option string) : res C :=
  let z_0 := a_add m (dflt (d_z_tip D) z_tip) A_tip in
  k_demod_res m D (fun x => k_fdm_eff_pol m laggauss D s x r_tip L_tip g_factor d_Q0 d_Q1 d_Qa n_lag method)
    z_0 A_tip n n_trapz.
(** fdm.py:452-532 *)
Definition k_fdm_taylor_coef (m : machine) (D : Defaults) (z_tip : R) (j_taylor : nat) (A_tip : R) (n : Z)
    (r_tip L_tip : R) (g_factor : C) (d_Q0 d_Q1 : R) (n_trapz : option nat) : res C :=
  let z_0 := a_add m z_tip A_tip in
  let! d := k_demod_res m D (fun z => Ok (k_fdm_geom_func_taylor m z j_taylor r_tip L_tip g_factor d_Q0 d_Q1))
              z_0 A_tip n n_trapz in
  let non_zero_terms := kdiv m d (RtoC 2) in
  Ok (if Nat.eqb j_taylor 0 then (if Z.eqb n 0 then RtoC 1 else RtoC 0) else non_zero_terms).
(** fdm.py:535-659 *)
Definition k_fdm_eff_pol_n_taylor (m : machine) (laggauss : laggauss_t) (D : Defaults) (s : sample) (A_tip : R) (n : Z)
    (z_tip r_tip L_tip : option R) (g_factor : option C) (d_Q0 d_Q1 d_Qa : option R)
    (n_lag : option nat) (method : option string) (n_trapz n_tayl : option nat) : res C :=
  let z_tip := dflt (d_z_tip D) z_tip in
  match k_fdm_defaults m D r_tip L_tip g_factor d_Q0 d_Q1 d_Qa with
  | (r_tip, L_tip, g_factor, d_Q0, d_Q1, d_Qa) =>
    let n_tayl := dflt (d_n_tayl D) n_tayl in
    let method := match method with
                  | None => if multilayer s then "Q_ave"%string else "bulk"%string
                  | Some m => m
                  end in
    let! beta :=
      (if String.eqb method "bulk" then
         if multilayer s then Raise (ValueError msg_bulk_multi) else k_refl_coef_qs m s 0
       else if String.eqb method "Q_ave" then
         k_refl_coef_qs_above_surf m laggauss D s (a_add m z_tip (a_mul m r_tip d_Qa)) n_lag
       else Raise (ValueError msg_method_taylor)) in
    let! terms :=
      mapM (fun j => let! a := k_fdm_taylor_coef m D z_tip j A_tip n r_tip L_tip g_factor d_Q0 d_Q1 n_trapz in
                     Ok (kmul m a (kpow m beta (Z.of_nat j))))
           (seq 0 n_tayl) in
    Ok (k_sum m terms)
  end.
(** fdm.py:814-889 *)
Definition k_fdm_refl_coef_qs_from_eff_pol (m : machine) (D : Defaults) (alpha_eff : C)
    (z_tip r_tip L_tip : option R) (g_factor : option C) (d_Q0 d_Q1 : option R) : C :=
  let z_tip := dflt (d_z_tip D) z_tip in
  match k_fdm_defaults m D r_tip L_tip g_factor d_Q0 d_Q1 None with
  | (r_tip, L_tip, g_factor, d_Q0, d_Q1, _) =>
    let f_0 := k_fdm_geom_func m z_tip d_Q0 r_tip L_tip g_factor in
    let f_1 := k_fdm_geom_func m z_tip d_Q1 r_tip L_tip g_factor in
    kdiv m (kmul m (RtoC 2) (ksub m alpha_eff (RtoC 1)))
           (kadd m f_0 (kmul m (kmul m (RtoC 2) f_1) (ksub m alpha_eff (RtoC 1))))
  end.

(** ** pdm.py *)
(** pdm.py:215-254 *)
Definition k_pdm_geom_func (m : machine) (z_tip r_tip : R) (alpha_tip : C) : C :=
  kdiv m alpha_tip (RtoC (a_mul m (a_mul m 16 (a_lit m PI)) (a_pow m (a_add m r_tip z_tip) 3))).
(** pdm.py:149-212 *)
Definition k_pdm_eff_pol (m : machine) (D : Defaults) (s : sample) (z_tip : R) (r_tip : option R)
    (eps_tip alpha_tip : option C) : res C :=
  let! ra := k_pdm_defaults m D r_tip eps_tip alpha_tip in
  let! beta := k_refl_coef_qs m s 0 in
  Ok (kdiv m (snd ra) (ksub m (RtoC 1) (kmul m (k_pdm_geom_func m z_tip (fst ra) (snd ra)) beta))).
(** pdm.py:60-146 *)
Definition k_pdm_eff_pol_n (m : machine) (D : Defaults) (s : sample) (A_tip : R) (n : Z)
    (z_tip : option R) (n_trapz : option nat) (r_tip : option R) (eps_tip alpha_tip : option C) : res C :=
  let z_0 := a_add m (dflt (d_z_tip D) z_tip) A_tip in
  k_demod_res m D (fun x => k_pdm_eff_pol m D s x r_tip eps_tip alpha_tip) z_0 A_tip n n_trapz.
(** pdm.py:257-318 *)
Definition k_pdm_taylor_coef (m : machine) (D : Defaults) (z_tip : R) (j_taylor : nat) (A_tip : R) (n : Z)
    (r_tip : R) (alpha_tip : C) (n_trapz : option nat) : res C :=
  k_demod_res m D (fun z => Ok (kpow m (k_pdm_geom_func m z r_tip alpha_tip) (Z.of_nat j_taylor)))
    (a_add m z_tip A_tip) A_tip n n_trapz.
(** pdm.py:321-407 *)
Definition k_pdm_eff_pol_n_taylor (m : machine) (D : Defaults) (s : sample) (A_tip : R) (n : Z)
    (z_tip r_tip : option R) (eps_tip alpha_tip : option C) (n_trapz n_tayl : option nat) : res C :=
  let z_tip := dflt (d_z_tip D) z_tip in
  let! ra := k_pdm_defaults m D r_tip eps_tip alpha_tip in
  let n_tayl := dflt (d_n_tayl D) n_tayl in
  let! beta := k_refl_coef_qs m s 0 in
  let! terms :=
    mapM (fun j => let! a := k_pdm_taylor_coef m D z_tip j A_tip n (fst ra) (snd ra) n_trapz in
                   Ok (kmul m a (kpow m beta (Z.of_nat j))))
         (seq 0 n_tayl) in
  Ok (k_sum m terms).
(** pdm.py:555-616 *)
Definition k_pdm_refl_coef_qs_from_eff_pol (m : machine) (D : Defaults) (alpha_eff : C)
    (z_tip r_tip : option R) (eps_tip alpha_tip : option C) : res C :=
  let z_tip := dflt (d_z_tip D) z_tip in
  let! ra := k_pdm_defaults m D r_tip eps_tip alpha_tip in
  let f_geom := k_pdm_geom_func m z_tip (fst ra) (snd ra) in
  Ok (kdiv m (ksub m alpha_eff (snd ra)) (kmul m f_geom alpha_eff)).
