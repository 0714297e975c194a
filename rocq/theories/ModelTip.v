(** * Scalar model of [snompy/fdm.py] and [snompy/pdm.py] (forward functions
    and closed-form inverses; the root-finding inverses are in ModelInv.v) *)
From Coq Require Import String Reals Lra Lia ZArith List Bool.
From Coquelicot Require Import Complex.
From Verif Require Import Num ModelBase ModelSample.
Import ListNotations.
Open Scope R_scope.

(** ** Finite dipole model *)

(** fdm.py:266-325 *)
Definition fdm_geom_func (z_tip d_Q r_tip L_tip : RV) (g_factor : CV) : CV :=
  ((g_factor - ofR ((r_tip + rr 2 * z_tip + d_Q * r_tip) / (rr 2 * L_tip))%rv)
   * ofR (rln (rr 4 * L_tip / (r_tip + rr 4 * z_tip + rr 2 * d_Q * r_tip))%rv)
   / ofR (rln (rr 4 * L_tip / r_tip)%rv))%cv.

(** fdm.py:328-389 *)
Definition fdm_geom_func_multi (z_tip d_image r_tip L_tip : RV) (g_factor : CV) : CV :=
  ((g_factor - ofR ((r_tip + z_tip + d_image) / (rr 2 * L_tip))%rv)
   * ofR (rln (rr 4 * L_tip / (r_tip + rr 2 * z_tip + rr 2 * d_image))%rv)
   / ofR (rln (rr 4 * L_tip / r_tip)%rv))%cv.

(** fdm.py:392-449 *)
Definition fdm_geom_func_taylor (z_tip : RV) (j_taylor : nat) (r_tip L_tip : RV)
    (g_factor : CV) (d_Q0 d_Q1 : RV) : CV :=
  let f_0 := fdm_geom_func z_tip d_Q0 r_tip L_tip g_factor in
  let f_1 := fdm_geom_func z_tip d_Q1 r_tip L_tip g_factor in
  (f_0 * cpowz f_1 (Z.of_nat j_taylor - 1))%cv.

Definition msg_bulk_multi : string :=
  "`method`='bulk' cannot be used for multilayer samples.".
Definition msg_method : string :=
  "`method` must be one of `bulk`, `multi`, or `Q_ave`.".
Definition msg_method_taylor : string :=
  "`method` must be one of `bulk`, or `Q_ave`.".

Section WithLaggauss.
Variable laggauss : laggauss_t.

(** fdm.py:115-263 *)
Definition fdm_eff_pol (D : Defaults) (s : sample) (z_tip r_tip L_tip : option R)
    (g_factor : option C) (d_Q0 d_Q1 d_Qa : option R) (n_lag : option nat)
    (method : option string) : res CV :=
  let z_tip := rr (dflt (d_z_tip D) z_tip) in
  match fdm_defaults D r_tip L_tip g_factor d_Q0 d_Q1 d_Qa with
  | (r_tip, L_tip, g_factor, d_Q0, d_Q1, d_Qa) =>
    let r_tip := rr r_tip in let L_tip := rr L_tip in
    let g_factor := Some g_factor in
    let d_Q1 := rr d_Q1 in let d_Qa := rr d_Qa in
    let method := match method with
                  | None => if multilayer s then "multi"%string else "bulk"%string
                  | Some m => m
                  end in
    let! bf :=
      (if String.eqb method "bulk" then
         if multilayer s then Raise (ValueError msg_bulk_multi) else
         let! beta := refl_coef_qs s (rr 0) in
         let f_0 := fdm_geom_func z_tip d_Q0 r_tip L_tip g_factor in
         let f_1 := fdm_geom_func z_tip d_Q1 r_tip L_tip g_factor in
         Ok (beta, beta, f_0, f_1)
       else if String.eqb method "multi" then
         let z_Q0 := (z_tip + r_tip * d_Q0)%rv in
         let z_Q1 := (z_tip + r_tip * d_Q1)%rv in
         let! i0 := image_depth_and_charge laggauss D s z_Q0 n_lag in
         let! i1 := image_depth_and_charge laggauss D s z_Q1 n_lag in
         let f_0 := fdm_geom_func_multi z_tip (fst i0) r_tip L_tip g_factor in
         let f_1 := fdm_geom_func_multi z_tip (fst i1) r_tip L_tip g_factor in
         Ok (snd i0, snd i1, f_0, f_1)
       else if String.eqb method "Q_ave" then
         let z_Qa := (z_tip + r_tip * d_Qa)%rv in
         let! beta := refl_coef_qs_above_surf laggauss D s z_Qa n_lag in
         let f_0 := fdm_geom_func z_tip d_Q0 r_tip L_tip g_factor in
         let f_1 := fdm_geom_func z_tip d_Q1 r_tip L_tip g_factor in
         Ok (beta, beta, f_0, f_1)
       else Raise (ValueError msg_method)) in
    match bf with
    | (beta_0, beta_1, f_0, f_1) =>
        Ok (rc 1 + (beta_0 * f_0) / (rc 2 * (rc 1 - beta_1 * f_1)))%cv
    end
  end.

(** fdm.py:62-112.  [kwargs] are the remaining arguments of [eff_pol]
    (everything but sample and z_tip). *)
Definition fdm_eff_pol_n (D : Defaults) (s : sample) (A_tip : R) (n : Z)
    (z_tip : option R) (n_trapz : option nat)
    (r_tip L_tip : option R) (g_factor : option C) (d_Q0 d_Q1 d_Qa : option R)
    (n_lag : option nat) (method : option string) : res CV :=
  let z_tip := dflt (d_z_tip D) z_tip in
  let z_0 := (z_tip + A_tip)%R in
  demod D (fun x => fdm_eff_pol D s (Some x) r_tip L_tip g_factor d_Q0 d_Q1 d_Qa n_lag method)
        z_0 A_tip n n_trapz.

(** fdm.py:452-532 *)
Definition fdm_taylor_coef (D : Defaults) (z_tip : R) (j_taylor : nat) (A_tip : R) (n : Z)
    (r_tip L_tip : RV) (g_factor : CV) (d_Q0 d_Q1 : RV) (n_trapz : option nat) : res CV :=
  let z_0 := (z_tip + A_tip)%R in
  let! d := demod D (fun z => Ok (fdm_geom_func_taylor (rr z) j_taylor r_tip L_tip g_factor d_Q0 d_Q1))
                  z_0 A_tip n n_trapz in
  let non_zero_terms := (d / rc 2)%cv in
  Ok (if Nat.eqb j_taylor 0 then (if Z.eqb n 0 then rc 1 else rc 0) else non_zero_terms).

(** fdm.py:535-659 *)
Definition fdm_eff_pol_n_taylor (D : Defaults) (s : sample) (A_tip : R) (n : Z)
    (z_tip r_tip L_tip : option R) (g_factor : option C) (d_Q0 d_Q1 d_Qa : option R)
    (n_lag : option nat) (method : option string) (n_trapz n_tayl : option nat) : res CV :=
  let z_tip := dflt (d_z_tip D) z_tip in
  match fdm_defaults D r_tip L_tip g_factor d_Q0 d_Q1 d_Qa with
  | (r_tip, L_tip, g_factor, d_Q0, d_Q1, d_Qa) =>
    let n_tayl := dflt (d_n_tayl D) n_tayl in
    let method := match method with
                  | None => if multilayer s then "Q_ave"%string else "bulk"%string
                  | Some m => m
                  end in
    let! beta :=
      (if String.eqb method "bulk" then
         if multilayer s then Raise (ValueError msg_bulk_multi)
         else refl_coef_qs s (rr 0)
       else if String.eqb method "Q_ave" then
         refl_coef_qs_above_surf laggauss D s (rr z_tip + rr r_tip * rr d_Qa)%rv n_lag
       else Raise (ValueError msg_method_taylor)) in
    let! terms :=
      mapM (fun j => let! a := fdm_taylor_coef D z_tip j A_tip n (rr r_tip) (rr L_tip)
                                  (Some g_factor) d_Q0 (rr d_Q1) n_trapz in
                     Ok (a * cpown beta j)%cv)
           (seq 0 n_tayl) in
    Ok (csum terms)
  end.
End WithLaggauss.

(** fdm.py:814-889 *)
Definition fdm_refl_coef_qs_from_eff_pol (D : Defaults) (alpha_eff : CV)
    (z_tip r_tip L_tip : option R) (g_factor : option C) (d_Q0 d_Q1 : option R) : CV :=
  let z_tip := rr (dflt (d_z_tip D) z_tip) in
  match fdm_defaults D r_tip L_tip g_factor d_Q0 d_Q1 None with
  | (r_tip, L_tip, g_factor, d_Q0, d_Q1, _) =>
    let f_0 := fdm_geom_func z_tip d_Q0 (rr r_tip) (rr L_tip) (Some g_factor) in
    let f_1 := fdm_geom_func z_tip (rr d_Q1) (rr r_tip) (rr L_tip) (Some g_factor) in
    (rc 2 * (alpha_eff - rc 1) / (f_0 + rc 2 * f_1 * (alpha_eff - rc 1)))%cv
  end.

(** ** Point dipole model *)

(** pdm.py:215-254 *)
Definition pdm_geom_func (z_tip r_tip : RV) (alpha_tip : CV) : CV :=
  (alpha_tip / ofR (rr 16 * rr PI * (r_tip + z_tip) ^ 3)%rv)%cv.

(** pdm.py:149-212 *)
Definition pdm_eff_pol (D : Defaults) (s : sample) (z_tip r_tip : option R)
    (eps_tip alpha_tip : option C) : res CV :=
  let z_tip := rr (dflt (d_z_tip D) z_tip) in
  let! ra := pdm_defaults D r_tip eps_tip alpha_tip in
  let! beta := refl_coef_qs s (rr 0) in
  let f_geom := pdm_geom_func z_tip (rr (fst ra)) (snd ra) in
  Ok (snd ra / (rc 1 - f_geom * beta))%cv.

(** pdm.py:60-146 *)
Definition pdm_eff_pol_n (D : Defaults) (s : sample) (A_tip : R) (n : Z)
    (z_tip : option R) (n_trapz : option nat)
    (r_tip : option R) (eps_tip alpha_tip : option C) : res CV :=
  let z_tip := dflt (d_z_tip D) z_tip in
  let z_0 := (z_tip + A_tip)%R in
  demod D (fun x => pdm_eff_pol D s (Some x) r_tip eps_tip alpha_tip) z_0 A_tip n n_trapz.

(** pdm.py:257-318 *)
Definition pdm_taylor_coef (D : Defaults) (z_tip : R) (j_taylor : nat) (A_tip : R) (n : Z)
    (r_tip : RV) (alpha_tip : CV) (n_trapz : option nat) : res CV :=
  let z_0 := (z_tip + A_tip)%R in
  demod D (fun z => Ok (cpown (pdm_geom_func (rr z) r_tip alpha_tip) j_taylor))
        z_0 A_tip n n_trapz.

(** pdm.py:321-407 *)
Definition pdm_eff_pol_n_taylor (D : Defaults) (s : sample) (A_tip : R) (n : Z)
    (z_tip r_tip : option R) (eps_tip alpha_tip : option C)
    (n_trapz n_tayl : option nat) : res CV :=
  let z_tip := dflt (d_z_tip D) z_tip in
  let! ra := pdm_defaults D r_tip eps_tip alpha_tip in
  let n_tayl := dflt (d_n_tayl D) n_tayl in
  let! beta := refl_coef_qs s (rr 0) in
  let! terms :=
    mapM (fun j => let! a := pdm_taylor_coef D z_tip j A_tip n (rr (fst ra)) (snd ra) n_trapz in
                   Ok (a * cpown beta j)%cv)
         (seq 0 n_tayl) in
  Ok (csum terms).

(** pdm.py:555-616 *)
Definition pdm_refl_coef_qs_from_eff_pol (D : Defaults) (alpha_eff : CV)
    (z_tip r_tip : option R) (eps_tip alpha_tip : option C) : res CV :=
  let z_tip := rr (dflt (d_z_tip D) z_tip) in
  let! ra := pdm_defaults D r_tip eps_tip alpha_tip in
  let f_geom := pdm_geom_func z_tip (rr (fst ra)) (snd ra) in
  Ok ((alpha_eff - snd ra) / (f_geom * alpha_eff))%cv.
