(** * Array model of [snompy/demodulate.py], [snompy/fdm.py] and [snompy/pdm.py]

    Every numerical argument is an array (0-dimensional for a number), every
    arithmetic operation broadcasts.  The sample is an array-valued [obj]. *)
From Coq Require Import String Reals Lra Lia ZArith List Bool.
From Coquelicot Require Import Complex.
From Verif Require Import Num ModelBase ModelSample ModelTip NArr ModelObj ModelArr.
Import ListNotations.
Open Scope R_scope.

(** arithmetic on results of arithmetic *)
Definition lift1 {A B} (f : A -> B) (a : res (arr A)) : res (arr B) := let! a := a in Ok (amap f a).
Definition lift2 {A B E} (f : A -> B -> E) (a : res (arr A)) (b : res (arr B)) : res (arr E) :=
  let! a := a in let! b := b in amap2 f a b.
(** an optional argument and its default, which is a number *)
Definition darr {A} (d : A) (o : option (arr A)) : arr A :=
  match o with Some a => a | None => scalar d end.

(** ** [snompy/demodulate.py] *)
(** demodulate.py:112 [trapezoid(integrand, axis=0)] *)
Definition trapezoid_axis0 (a : arr CV) : arr CV :=
  mkArr (removelast (shp a))
        (fun i => trapezoid (map (fun k => at_ a (i ++ [k])) (seq 0 (last (shp a) O)))).

(** demodulate.py:29-112 [demod]; [f] is [f_x] with f_args and kwargs applied *)
Definition demod_a (D : Defaults) (f : arr R -> res (arr CV)) (x_0 x_amplitude : arr R) (n : arr Z)
    (n_trapz : option nat) : res (arr CV) :=
  let N := dflt (d_n_trapz D) n_trapz in
  let! centre := amap2 (fun x a => x + 0 * a) x_0 x_amplitude in
  let! f_centre := f centre in
  let theta := pad_for_broadcasting 0 (thetas N) [shp f_centre; shp n] in
  let! x := lift2 Rplus (Ok x_0) (amap2 (fun t a => cos t * a) theta x_amplitude) in
  let! fv := f x in
  let! integrand := lift2 cmul (Ok fv)
                      (amap2 (fun k t => cexp (Some (0, - (IZR k * t))%R)) n theta) in
  Ok (amap (fun y => (y / rc (INR N))%cv) (trapezoid_axis0 integrand)).

(** ** [snompy/_defaults.py] *)
(** _defaults.py:114-122 *)
Definition fdm_defaults_a (D : Defaults) (r_tip L_tip : option (arr R)) (g_factor : option (arr C))
    (d_Q0 d_Q1 d_Qa : option (arr R))
  : res (arr R * arr R * arr C * arr RV * arr R * arr R) :=
  let r_tip := darr (d_r_tip D) r_tip in
  let L_tip := darr (d_L_tip D) L_tip in
  let g_factor := darr (d_g_factor D) g_factor in
  let! d_Q0 := match d_Q0 with
               | None => lift2 rdiv (Ok (amap (fun L => (rr (131 / 100) * rr L)%rv) L_tip))
                           (amap2 (fun L r => (rr L + rr 2 * rr r)%rv) L_tip r_tip)
               | Some d => Ok (amap rr d)
               end in
  let d_Q1 := darr (d_d_Q1 D) d_Q1 in
  let d_Qa := darr (d_d_Qa D) d_Qa in
  Ok (r_tip, L_tip, g_factor, d_Q0, d_Q1, d_Qa).

(** _defaults.py:124-138 *)
Definition pdm_defaults_a (D : Defaults) (r_tip : option (arr R)) (eps_tip alpha_tip : option (arr C))
  : res (arr R * arr CV) :=
  let r_tip := darr (d_r_tip D) r_tip in
  let sphere := amap (fun r => ofR (rr 4 * rr PI * rr r ^ 3)%rv) r_tip in
  match eps_tip with
  | None =>
      match alpha_tip with
      | None => Ok (r_tip, sphere)
      | Some a => Ok (r_tip, amap Some a)
      end
  | Some eps =>
      match alpha_tip with
      | None =>
          let! a := lift2 cdiv (amap2 (fun s e => (s * (Some e - rc 1))%cv) sphere eps)
                      (Ok (amap (fun e => (Some e + rc 2)%cv) eps)) in
          Ok (r_tip, a)
      | Some _ => Raise (ValueError msg_alpha_eps_tip)
      end
  end.

(** ** [snompy/fdm.py] *)
(** fdm.py:266-325 *)
Definition fdm_geom_func_a (z_tip d_Q r_tip L_tip : arr RV) (g_factor : arr CV) : res (arr CV) :=
  let dr := amap2 rmul d_Q r_tip in
  let num := lift2 radd (amap2 (fun r z => (r + rr 2 * z)%rv) r_tip z_tip) dr in
  let frac := lift2 rdiv num (Ok (amap (fun L => (rr 2 * L)%rv) L_tip)) in
  let den := lift2 radd (amap2 (fun r z => (r + rr 4 * z)%rv) r_tip z_tip)
               (amap2 (fun d r => (rr 2 * d * r)%rv) d_Q r_tip) in
  let log1 := lift1 (fun x => ofR (rln x))
                (lift2 rdiv (Ok (amap (fun L => (rr 4 * L)%rv) L_tip)) den) in
  let log2 := lift1 (fun x => ofR (rln x)) (amap2 (fun L r => (rr 4 * L / r)%rv) L_tip r_tip) in
  lift2 cdiv (lift2 cmul (lift2 csub (Ok g_factor) (lift1 ofR frac)) log1) log2.

(** fdm.py:328-389 *)
Definition fdm_geom_func_multi_a (z_tip d_image r_tip L_tip : arr RV) (g_factor : arr CV) : res (arr CV) :=
  let num := lift2 radd (amap2 radd r_tip z_tip) (Ok d_image) in
  let frac := lift2 rdiv num (Ok (amap (fun L => (rr 2 * L)%rv) L_tip)) in
  let den := lift2 radd (amap2 (fun r z => (r + rr 2 * z)%rv) r_tip z_tip)
               (Ok (amap (fun d => (rr 2 * d)%rv) d_image)) in
  let log1 := lift1 (fun x => ofR (rln x))
                (lift2 rdiv (Ok (amap (fun L => (rr 4 * L)%rv) L_tip)) den) in
  let log2 := lift1 (fun x => ofR (rln x)) (amap2 (fun L r => (rr 4 * L / r)%rv) L_tip r_tip) in
  lift2 cdiv (lift2 cmul (lift2 csub (Ok g_factor) (lift1 ofR frac)) log1) log2.

(** fdm.py:392-449 *)
Definition fdm_geom_func_taylor_a (z_tip : arr RV) (j_taylor : arr nat) (r_tip L_tip : arr RV)
    (g_factor : arr CV) (d_Q0 d_Q1 : arr RV) : res (arr CV) :=
  let! f_0 := fdm_geom_func_a z_tip d_Q0 r_tip L_tip g_factor in
  let! f_1 := fdm_geom_func_a z_tip d_Q1 r_tip L_tip g_factor in
  lift2 cmul (Ok f_0) (amap2 (fun f j => cpowz f (Z.of_nat j - 1)) f_1 j_taylor).

(** fdm.py:261: [1 + (beta_0 * f_0) / (2 * (1 - beta_1 * f_1))] *)
Definition fdm_alpha_a (beta_0 beta_1 f_0 f_1 : arr CV) : res (arr CV) :=
  lift1 (fun x => (rc 1 + x)%cv)
    (lift2 cdiv (amap2 cmul beta_0 f_0)
       (lift1 (fun x => (rc 2 * (rc 1 - x))%cv) (amap2 cmul beta_1 f_1))).

Section WithLaggauss.
Variable laggauss : laggauss_t.

(** fdm.py:115-263 *)
Definition fdm_eff_pol_a (D : Defaults) (o : obj) (z_tip r_tip L_tip : option (arr R))
    (g_factor : option (arr C)) (d_Q0 d_Q1 d_Qa : option (arr R)) (n_lag : option nat)
    (method : option string) : res (arr CV) :=
  let z_tip := amap rr (darr (d_z_tip D) z_tip) in
  let! defs := fdm_defaults_a D r_tip L_tip g_factor d_Q0 d_Q1 d_Qa in
  match defs with
  | (r_tip, L_tip, g_factor, d_Q0, d_Q1, d_Qa) =>
    let r_tip := amap rr r_tip in let L_tip := amap rr L_tip in
    let g_factor := amap Some g_factor in
    let d_Q1 := amap rr d_Q1 in let d_Qa := amap rr d_Qa in
    let! multi := get_multilayer o in
    let method := match method with
                  | None => if multi then "multi"%string else "bulk"%string
                  | Some m => m
                  end in
    if String.eqb method "bulk" then
      if multi then Raise (ValueError msg_bulk_multi) else
      let! beta := refl_coef_qs_a o (scalar (rr 0)) in
      let! f_0 := fdm_geom_func_a z_tip d_Q0 r_tip L_tip g_factor in
      let! f_1 := fdm_geom_func_a z_tip d_Q1 r_tip L_tip g_factor in
      fdm_alpha_a beta beta f_0 f_1
    else if String.eqb method "multi" then
      let! z_Q0 := lift2 radd (Ok z_tip) (amap2 rmul r_tip d_Q0) in
      let! z_Q1 := lift2 radd (Ok z_tip) (amap2 rmul r_tip d_Q1) in
      let! i0 := image_depth_and_charge_a laggauss D o z_Q0 n_lag in
      let! i1 := image_depth_and_charge_a laggauss D o z_Q1 n_lag in
      let! f_0 := fdm_geom_func_multi_a z_tip (fst i0) r_tip L_tip g_factor in
      let! f_1 := fdm_geom_func_multi_a z_tip (fst i1) r_tip L_tip g_factor in
      fdm_alpha_a (snd i0) (snd i1) f_0 f_1
    else if String.eqb method "Q_ave" then
      let! z_Qa := lift2 radd (Ok z_tip) (amap2 rmul r_tip d_Qa) in
      let! beta := refl_coef_qs_above_surf_a laggauss D o z_Qa n_lag in
      let! f_0 := fdm_geom_func_a z_tip d_Q0 r_tip L_tip g_factor in
      let! f_1 := fdm_geom_func_a z_tip d_Q1 r_tip L_tip g_factor in
      fdm_alpha_a beta beta f_0 f_1
    else Raise (ValueError msg_method)
  end.

(** fdm.py:62-112 *)
Definition fdm_eff_pol_n_a (D : Defaults) (o : obj) (A_tip : arr R) (n : arr Z)
    (z_tip : option (arr R)) (n_trapz : option nat)
    (r_tip L_tip : option (arr R)) (g_factor : option (arr C)) (d_Q0 d_Q1 d_Qa : option (arr R))
    (n_lag : option nat) (method : option string) : res (arr CV) :=
  let! z_0 := amap2 Rplus (darr (d_z_tip D) z_tip) A_tip in
  demod_a D (fun x => fdm_eff_pol_a D o (Some x) r_tip L_tip g_factor d_Q0 d_Q1 d_Qa n_lag method)
          z_0 A_tip n n_trapz.

(** fdm.py:452-532 *)
Definition fdm_taylor_coef_a (D : Defaults) (z_tip : arr R) (j_taylor : arr nat) (A_tip : arr R)
    (n : arr Z) (r_tip L_tip : arr RV) (g_factor : arr CV) (d_Q0 d_Q1 : arr RV) (n_trapz : option nat)
  : res (arr CV) :=
  let! z_0 := amap2 Rplus z_tip A_tip in
  let! d := demod_a D (fun z => fdm_geom_func_taylor_a (amap rr z) j_taylor r_tip L_tip g_factor d_Q0 d_Q1)
                    z_0 A_tip n n_trapz in
  let non_zero_terms := amap (fun y => (y / rc 2)%cv) d in
  let zero_term := amap (fun k => if Z.eqb k 0 then rc 1 else rc 0) n in
  lift2 (fun j ab => if Nat.eqb j 0 then fst ab else snd ab) (Ok j_taylor)
        (amap2 pair zero_term non_zero_terms).

(** fdm.py:535-659 *)
Definition fdm_eff_pol_n_taylor_a (D : Defaults) (o : obj) (A_tip : arr R) (n : arr Z)
    (z_tip r_tip L_tip : option (arr R)) (g_factor : option (arr C)) (d_Q0 d_Q1 d_Qa : option (arr R))
    (n_lag : option nat) (method : option string) (n_trapz n_tayl : option nat) : res (arr CV) :=
  let z_tip := darr (d_z_tip D) z_tip in
  let! defs := fdm_defaults_a D r_tip L_tip g_factor d_Q0 d_Q1 d_Qa in
  match defs with
  | (r_tip, L_tip, g_factor, d_Q0, d_Q1, d_Qa) =>
    let n_tayl := dflt (d_n_tayl D) n_tayl in
    let! multi := get_multilayer o in
    let method := match method with
                  | None => if multi then "Q_ave"%string else "bulk"%string
                  | Some m => m
                  end in
    let! beta :=
      (if String.eqb method "bulk" then
         if multi then Raise (ValueError msg_bulk_multi)
         else refl_coef_qs_a o (scalar (rr 0))
       else if String.eqb method "Q_ave" then
         let! z_Qa := lift2 radd (Ok (amap rr z_tip)) (amap2 (fun r d => (rr r * rr d)%rv) r_tip d_Qa) in
         refl_coef_qs_above_surf_a laggauss D o z_Qa n_lag
       else Raise (ValueError msg_method_taylor)) in
    let j_taylor := pad_for_broadcasting O (seq 0 n_tayl)
      [shp z_tip; shp A_tip; shp n; shp beta; shp r_tip; shp L_tip; shp g_factor; shp d_Q0; shp d_Q1] in
    let! coefs := fdm_taylor_coef_a D z_tip j_taylor A_tip n (amap rr r_tip) (amap rr L_tip)
                    (amap Some g_factor) d_Q0 (amap rr d_Q1) n_trapz in
    let! terms := lift2 cmul (Ok coefs) (amap2 cpown beta j_taylor) in
    Ok (sum_axis0 terms)
  end.
End WithLaggauss.

(** fdm.py:814-889 *)
Definition fdm_refl_coef_qs_from_eff_pol_a (D : Defaults) (alpha_eff : arr CV)
    (z_tip r_tip L_tip : option (arr R)) (g_factor : option (arr C)) (d_Q0 d_Q1 : option (arr R))
  : res (arr CV) :=
  let z_tip := amap rr (darr (d_z_tip D) z_tip) in
  let! defs := fdm_defaults_a D r_tip L_tip g_factor d_Q0 d_Q1 None in
  match defs with
  | (r_tip, L_tip, g_factor, d_Q0, d_Q1, _) =>
    let! f_0 := fdm_geom_func_a z_tip d_Q0 (amap rr r_tip) (amap rr L_tip) (amap Some g_factor) in
    let! f_1 := fdm_geom_func_a z_tip (amap rr d_Q1) (amap rr r_tip) (amap rr L_tip) (amap Some g_factor) in
    lift2 cdiv (Ok (amap (fun a => (rc 2 * (a - rc 1))%cv) alpha_eff))
      (lift2 cadd (Ok f_0) (amap2 (fun f a => (rc 2 * f * (a - rc 1))%cv) f_1 alpha_eff))
  end.

(** ** [snompy/pdm.py] *)
(** pdm.py:215-254 *)
Definition pdm_geom_func_a (z_tip r_tip : arr RV) (alpha_tip : arr CV) : res (arr CV) :=
  lift2 cdiv (Ok alpha_tip)
    (lift1 (fun s => ofR (rr 16 * rr PI * s ^ 3)%rv) (amap2 radd r_tip z_tip)).

(** pdm.py:149-212 *)
Definition pdm_eff_pol_a (D : Defaults) (o : obj) (z_tip r_tip : option (arr R))
    (eps_tip alpha_tip : option (arr C)) : res (arr CV) :=
  let z_tip := amap rr (darr (d_z_tip D) z_tip) in
  let! ra := pdm_defaults_a D r_tip eps_tip alpha_tip in
  let! beta := refl_coef_qs_a o (scalar (rr 0)) in
  let! f_geom := pdm_geom_func_a z_tip (amap rr (fst ra)) (snd ra) in
  lift2 cdiv (Ok (snd ra)) (lift1 (fun x => (rc 1 - x)%cv) (amap2 cmul f_geom beta)).

(** pdm.py:60-146 *)
Definition pdm_eff_pol_n_a (D : Defaults) (o : obj) (A_tip : arr R) (n : arr Z)
    (z_tip : option (arr R)) (n_trapz : option nat)
    (r_tip : option (arr R)) (eps_tip alpha_tip : option (arr C)) : res (arr CV) :=
  let! z_0 := amap2 Rplus (darr (d_z_tip D) z_tip) A_tip in
  demod_a D (fun x => pdm_eff_pol_a D o (Some x) r_tip eps_tip alpha_tip) z_0 A_tip n n_trapz.

(** pdm.py:257-318 *)
Definition pdm_taylor_coef_a (D : Defaults) (z_tip : arr R) (j_taylor : arr nat) (A_tip : arr R)
    (n : arr Z) (r_tip : arr RV) (alpha_tip : arr CV) (n_trapz : option nat) : res (arr CV) :=
  let! z_0 := amap2 Rplus z_tip A_tip in
  demod_a D (fun z => let! f := pdm_geom_func_a (amap rr z) r_tip alpha_tip in amap2 cpown f j_taylor)
          z_0 A_tip n n_trapz.

(** pdm.py:321-407 *)
Definition pdm_eff_pol_n_taylor_a (D : Defaults) (o : obj) (A_tip : arr R) (n : arr Z)
    (z_tip r_tip : option (arr R)) (eps_tip alpha_tip : option (arr C))
    (n_trapz n_tayl : option nat) : res (arr CV) :=
  let z_tip := darr (d_z_tip D) z_tip in
  let! ra := pdm_defaults_a D r_tip eps_tip alpha_tip in
  let n_tayl := dflt (d_n_tayl D) n_tayl in
  let! beta := refl_coef_qs_a o (scalar (rr 0)) in
  let j_taylor := pad_for_broadcasting O (seq 0 n_tayl)
    [shp z_tip; shp A_tip; shp n; shp beta; shp (fst ra); shp (snd ra)] in
  let! coefs := pdm_taylor_coef_a D z_tip j_taylor A_tip n (amap rr (fst ra)) (snd ra) n_trapz in
  let! terms := lift2 cmul (Ok coefs) (amap2 cpown beta j_taylor) in
  Ok (sum_axis0 terms).

(** pdm.py:555-616 *)
Definition pdm_refl_coef_qs_from_eff_pol_a (D : Defaults) (alpha_eff : arr CV)
    (z_tip r_tip : option (arr R)) (eps_tip alpha_tip : option (arr C)) : res (arr CV) :=
  let z_tip := amap rr (darr (d_z_tip D) z_tip) in
  let! ra := pdm_defaults_a D r_tip eps_tip alpha_tip in
  let! f_geom := pdm_geom_func_a z_tip (amap rr (fst ra)) (snd ra) in
  lift2 cdiv (amap2 csub alpha_eff (snd ra)) (amap2 cmul f_geom alpha_eff).
