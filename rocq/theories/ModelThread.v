(** * Reading [snompy.defaults] while another thread assigns to it

    Python can switch threads between any two operations, so every read of an
    attribute of the global object [defaults] may see another state of it.  Here the
    functions that read defaults are written once more with the reads as
    events: [sched i] is the state of the defaults at the [i]-th read.  A read that is not
    made (the argument is given) takes no instant.  Nothing else is shared: samples
    are values.  Arrays of heights are lists, numbers are lists of length one. *)
From Coq Require Import String Reals Lra Lia ZArith List Bool.
From Coquelicot Require Import Complex.
From Verif Require Import Num ModelBase ModelSample ModelTip ModelCache.
Import ListNotations.
Open Scope R_scope.

Section WithSchedule.
Variable laggauss : laggauss_t.
Variable sched : nat -> Defaults.

(** a computation: from the index of the next read to the result and the index of the next read after it *)
Definition thr (A : Type) := nat -> res A * nat.
Definition tbind {A B} (m : thr A) (f : A -> thr B) : thr B :=
  fun i => match m i with (Ok a, j) => f a j | (Raise e, j) => (Raise e, j) end.
Definition tpure {A} (r : res A) : thr A := fun i => (r, i).
Notation "'let#' x ':=' m 'in' k" := (tbind m (fun x => k))
  (at level 200, x pattern, m at level 100, k at level 200).
(** [defaults.attr if x is None else x] *)
Definition or_default {A} (attr : Defaults -> A) (x : option A) : thr A :=
  match x with
  | Some a => tpure (Ok a)
  | None => fun i => (Ok (attr (sched i)), S i)
  end.

(** _defaults.py:114-122: one read after the other *)
Definition t_fdm_defaults (r_tip L_tip : option R) (g_factor : option C) (d_Q0 d_Q1 d_Qa : option R)
  : thr (R * R * C * RV * R * R) :=
  let# r_tip := or_default d_r_tip r_tip in
  let# L_tip := or_default d_L_tip L_tip in
  let# g_factor := or_default d_g_factor g_factor in
  let d_Q0 := match d_Q0 with
              | None => (rr (131 / 100) * rr L_tip / (rr L_tip + rr 2 * rr r_tip))%rv
              | Some d => rr d
              end in
  let# d_Q1 := or_default d_d_Q1 d_Q1 in
  let# d_Qa := or_default d_d_Qa d_Qa in
  tpure (Ok (r_tip, L_tip, g_factor, d_Q0, d_Q1, d_Qa)).

(** _defaults.py:124-138 *)
Definition t_pdm_defaults (r_tip : option R) (eps_tip alpha_tip : option C) : thr (R * CV) :=
  let# r_tip := or_default d_r_tip r_tip in
  tpure (match eps_tip with
         | None =>
             match alpha_tip with
             | None => Ok (r_tip, ofR (rr 4 * rr PI * rr r_tip ^ 3)%rv)
             | Some a => Ok (r_tip, Some a)
             end
         | Some eps =>
             match alpha_tip with
             | None => Ok (r_tip, (ofR (rr 4 * rr PI * rr r_tip ^ 3)%rv * (Some eps - rc 1) / (Some eps + rc 2))%cv)
             | Some _ => Raise (ValueError msg_alpha_eps_tip)
             end
         end).

(** sample.py:472-590, for all heights of an array; sample.py:577 reads the order *)
Definition t_above_surf (s : sample) (zs : list RV) (n_lag : option nat) : thr (list CV) :=
  let# n_lag := or_default d_n_lag n_lag in
  tpure (mapM (fun z_Q => let! bs := sampled_beta laggauss s z_Q n_lag in
                          Ok (csum (map (fun p => match p with (x, w, b) => ofR (rr w * rr x)%rv * b end)%cv bs))) zs).
(** sample.py:592-726; sample.py:712 reads the order *)
Definition t_surf_pot (s : sample) (zs : list RV) (n_lag : option nat) : thr (list (CV * CV)) :=
  let# n_lag := or_default d_n_lag n_lag in
  tpure (mapM (fun z_Q =>
      let! bs := sampled_beta laggauss s z_Q n_lag in
      let phi := (csum (map (fun p => match p with (x, w, b) => rc w * b end) bs) / ofR (rr 2 * z_Q)%rv)%cv in
      let E := (csum (map (fun p => match p with (x, w, b) => ofR (rr w * rr x)%rv * b end) bs) / ofR (rr 4 * z_Q ^ 2)%rv)%cv in
      Ok (phi, E)) zs).
(** sample.py:728-798 *)
Definition t_image (s : sample) (zs : list RV) (n_lag : option nat) : thr (list (RV * CV)) :=
  let# pEs := t_surf_pot s zs n_lag in
  tpure (Ok (map (fun zpE => match zpE with (z_Q, (phi, E)) => ((cabs (phi / E)%cv - z_Q)%rv, (phi ^ 2 / E)%cv) end)
                 (combine zs pEs))).

(** fdm.py:221-263, after [z_tip] is known: all heights of an array *)
Definition t_fdm_heights (s : sample) (zs : list R) (r_tip L_tip : option R)
    (g_factor : option C) (d_Q0 d_Q1 d_Qa : option R) (n_lag : option nat)
    (method : option string) : thr (list CV) :=
  let# p := t_fdm_defaults r_tip L_tip g_factor d_Q0 d_Q1 d_Qa in
  match p with
  | (r_tip, L_tip, g_factor, d_Q0, d_Q1, d_Qa) =>
    let r_tip := rr r_tip in let L_tip := rr L_tip in
    let g_factor := Some g_factor in
    let d_Q1 := rr d_Q1 in let d_Qa := rr d_Qa in
    let alpha := fun bf : CV * CV * CV * CV => match bf with (beta_0, beta_1, f_0, f_1) =>
                   (rc 1 + (beta_0 * f_0) / (rc 2 * (rc 1 - beta_1 * f_1)))%cv end in
    let method := match method with
                  | None => if multilayer s then "multi"%string else "bulk"%string
                  | Some m => m
                  end in
    if String.eqb method "bulk" then
      tpure (if multilayer s then Raise (ValueError msg_bulk_multi) else
             let! beta := refl_coef_qs s (rr 0) in
             Ok (map (fun z => alpha (beta, beta, fdm_geom_func (rr z) d_Q0 r_tip L_tip g_factor,
                                                  fdm_geom_func (rr z) d_Q1 r_tip L_tip g_factor)) zs))
    else if String.eqb method "multi" then
      let# i0 := t_image s (map (fun z => rr z + r_tip * d_Q0)%rv zs) n_lag in
      let# i1 := t_image s (map (fun z => rr z + r_tip * d_Q1)%rv zs) n_lag in
      tpure (Ok (map (fun zii => match zii with (z, (a, b)) =>
                   alpha (snd a, snd b, fdm_geom_func_multi (rr z) (fst a) r_tip L_tip g_factor,
                                        fdm_geom_func_multi (rr z) (fst b) r_tip L_tip g_factor) end)
                 (combine zs (combine i0 i1))))
    else if String.eqb method "Q_ave" then
      let# betas := t_above_surf s (map (fun z => rr z + r_tip * d_Qa)%rv zs) n_lag in
      tpure (Ok (map (fun zb => match zb with (z, beta) =>
                   alpha (beta, beta, fdm_geom_func (rr z) d_Q0 r_tip L_tip g_factor,
                                      fdm_geom_func (rr z) d_Q1 r_tip L_tip g_factor) end)
                 (combine zs betas)))
    else tpure (Raise (ValueError msg_method))
  end.
Definition only {A} (d : A) (l : list A) : A := hd d l.
(** fdm.py:115-263 *)
Definition t_fdm_eff_pol (s : sample) (z_tip r_tip L_tip : option R)
    (g_factor : option C) (d_Q0 d_Q1 d_Qa : option R) (n_lag : option nat)
    (method : option string) : thr CV :=
  let# z := or_default d_z_tip z_tip in
  let# l := t_fdm_heights s [z] r_tip L_tip g_factor d_Q0 d_Q1 d_Qa n_lag method in
  tpure (Ok (only None l)).

(** demodulate.py:29-112: the function is called twice, at the centre and with all
    heights in one array *)
Definition t_demod (f : list R -> thr (list CV)) (x_0 x_amplitude : R) (n : Z)
    (n_trapz : option nat) : thr CV :=
  let# N := or_default d_n_trapz n_trapz in
  let# _ := f [x_0 + 0 * x_amplitude] in
  let# fs := f (map (fun theta => x_0 + cos theta * x_amplitude) (thetas N)) in
  let integrand := map (fun p => demod_integrand n (fst p) (snd p)) (combine fs (thetas N)) in
  tpure (Ok (trapezoid integrand / rc (INR N))%cv).

(** fdm.py:62-112 *)
Definition t_fdm_eff_pol_n (s : sample) (A_tip : R) (n : Z)
    (z_tip : option R) (n_trapz : option nat)
    (r_tip L_tip : option R) (g_factor : option C) (d_Q0 d_Q1 d_Qa : option R)
    (n_lag : option nat) (method : option string) : thr CV :=
  let# z_tip := or_default d_z_tip z_tip in
  t_demod (fun zs => t_fdm_heights s zs r_tip L_tip g_factor d_Q0 d_Q1 d_Qa n_lag method)
          (z_tip + A_tip) A_tip n n_trapz.

(** fdm.py:535-659; [taylor_coef] (fdm.py:452-532) demodulates all powers in one call, which
    reads [n_trapz] once *)
Definition t_fdm_eff_pol_n_taylor (s : sample) (A_tip : R) (n : Z)
    (z_tip r_tip L_tip : option R) (g_factor : option C) (d_Q0 d_Q1 d_Qa : option R)
    (n_lag : option nat) (method : option string) (n_trapz n_tayl : option nat) : thr CV :=
  let# z_tip := or_default d_z_tip z_tip in
  let# p := t_fdm_defaults r_tip L_tip g_factor d_Q0 d_Q1 d_Qa in
  match p with
  | (r_tip, L_tip, g_factor, d_Q0, d_Q1, d_Qa) =>
    let# n_tayl := or_default d_n_tayl n_tayl in
    let method := match method with
                  | None => if multilayer s then "Q_ave"%string else "bulk"%string
                  | Some m => m
                  end in
    let# beta :=
      (if String.eqb method "bulk" then
         tpure (if multilayer s then Raise (ValueError msg_bulk_multi) else refl_coef_qs s (rr 0))
       else if String.eqb method "Q_ave" then
         let# l := t_above_surf s [(rr z_tip + rr r_tip * rr d_Qa)%rv] n_lag in tpure (Ok (only None l))
       else tpure (Raise (ValueError msg_method_taylor))) in
    let# N := or_default d_n_trapz n_trapz in
    tpure (let! terms :=
             mapM (fun j => let! a := fdm_taylor_coef defaults0 z_tip j A_tip n (rr r_tip) (rr L_tip)
                                         (Some g_factor) d_Q0 (rr d_Q1) (Some N) in
                            Ok (a * cpown beta j)%cv)
                  (seq 0 n_tayl) in
           Ok (csum terms))
  end.

(** fdm.py:814-889 *)
Definition t_fdm_refl_coef_qs_from_eff_pol (alpha_eff : CV)
    (z_tip r_tip L_tip : option R) (g_factor : option C) (d_Q0 d_Q1 : option R) : thr CV :=
  let# z_tip := or_default d_z_tip z_tip in
  let# p := t_fdm_defaults r_tip L_tip g_factor d_Q0 d_Q1 None in
  match p with
  | (r_tip, L_tip, g_factor, d_Q0, d_Q1, _) =>
    let f_0 := fdm_geom_func (rr z_tip) d_Q0 (rr r_tip) (rr L_tip) (Some g_factor) in
    let f_1 := fdm_geom_func (rr z_tip) (rr d_Q1) (rr r_tip) (rr L_tip) (Some g_factor) in
    tpure (Ok (rc 2 * (alpha_eff - rc 1) / (f_0 + rc 2 * f_1 * (alpha_eff - rc 1)))%cv)
  end.

(** pdm.py:203-212, after [z_tip] is known: all heights of an array *)
Definition t_pdm_heights (s : sample) (zs : list R) (r_tip : option R) (eps_tip alpha_tip : option C) : thr (list CV) :=
  let# ra := t_pdm_defaults r_tip eps_tip alpha_tip in
  tpure (let! beta := refl_coef_qs s (rr 0) in
         Ok (map (fun z => snd ra / (rc 1 - pdm_geom_func (rr z) (rr (fst ra)) (snd ra) * beta))%cv zs)).
(** pdm.py:149-212 *)
Definition t_pdm_eff_pol (s : sample) (z_tip r_tip : option R) (eps_tip alpha_tip : option C) : thr CV :=
  let# z := or_default d_z_tip z_tip in
  let# l := t_pdm_heights s [z] r_tip eps_tip alpha_tip in
  tpure (Ok (only None l)).
(** pdm.py:60-146 *)
Definition t_pdm_eff_pol_n (s : sample) (A_tip : R) (n : Z) (z_tip : option R) (n_trapz : option nat)
    (r_tip : option R) (eps_tip alpha_tip : option C) : thr CV :=
  let# z_tip := or_default d_z_tip z_tip in
  t_demod (fun zs => t_pdm_heights s zs r_tip eps_tip alpha_tip) (z_tip + A_tip) A_tip n n_trapz.
(** pdm.py:321-407; all powers are demodulated in one call *)
Definition t_pdm_eff_pol_n_taylor (s : sample) (A_tip : R) (n : Z)
    (z_tip r_tip : option R) (eps_tip alpha_tip : option C) (n_trapz n_tayl : option nat) : thr CV :=
  let# z_tip := or_default d_z_tip z_tip in
  let# ra := t_pdm_defaults r_tip eps_tip alpha_tip in
  let# n_tayl := or_default d_n_tayl n_tayl in
  let# beta := tpure (refl_coef_qs s (rr 0)) in
  let# N := or_default d_n_trapz n_trapz in
  tpure (let! terms :=
           mapM (fun j => let! a := pdm_taylor_coef defaults0 z_tip j A_tip n (rr (fst ra)) (snd ra) (Some N) in
                          Ok (a * cpown beta j)%cv)
                (seq 0 n_tayl) in
         Ok (csum terms)).
(** pdm.py:555-616 *)
Definition t_pdm_refl_coef_qs_from_eff_pol (alpha_eff : CV)
    (z_tip r_tip : option R) (eps_tip alpha_tip : option C) : thr CV :=
  let# z_tip := or_default d_z_tip z_tip in
  let# ra := t_pdm_defaults r_tip eps_tip alpha_tip in
  tpure (Ok ((alpha_eff - snd ra) / (pdm_geom_func (rr z_tip) (rr (fst ra)) (snd ra) * alpha_eff))%cv).

(** ** The calls *)
Inductive tcall :=
| TAbove (s : sample) (z_Q : R) (n_lag : option nat)
| TSurfPot (s : sample) (z_Q : R) (n_lag : option nat)
| TImage (s : sample) (z_Q : R) (n_lag : option nat)
| TFdm (s : sample) (z_tip r_tip L_tip : option R) (g_factor : option C) (d_Q0 d_Q1 d_Qa : option R)
       (n_lag : option nat) (method : option string)
| TFdmN (s : sample) (A_tip : R) (n : Z) (z_tip : option R) (n_trapz : option nat)
        (r_tip L_tip : option R) (g_factor : option C) (d_Q0 d_Q1 d_Qa : option R)
        (n_lag : option nat) (method : option string)
| TFdmTaylor (s : sample) (A_tip : R) (n : Z) (z_tip r_tip L_tip : option R) (g_factor : option C)
        (d_Q0 d_Q1 d_Qa : option R) (n_lag : option nat) (method : option string) (n_trapz n_tayl : option nat)
| TFdmInv (alpha_eff : CV) (z_tip r_tip L_tip : option R) (g_factor : option C) (d_Q0 d_Q1 : option R)
| TPdm (s : sample) (z_tip r_tip : option R) (eps_tip alpha_tip : option C)
| TPdmN (s : sample) (A_tip : R) (n : Z) (z_tip : option R) (n_trapz : option nat)
        (r_tip : option R) (eps_tip alpha_tip : option C)
| TPdmTaylor (s : sample) (A_tip : R) (n : Z) (z_tip r_tip : option R) (eps_tip alpha_tip : option C)
        (n_trapz n_tayl : option nat)
| TPdmInv (alpha_eff : CV) (z_tip r_tip : option R) (eps_tip alpha_tip : option C).

Definition tmap {A B} (f : A -> B) (m : thr A) : thr B := let# a := m in tpure (Ok (f a)).
(** a call whose first read is the [i]-th *)
Definition threaded (c : tcall) : thr value :=
  match c with
  | TAbove s z n_lag => tmap (fun l => VC (only None l)) (t_above_surf s [rr z] n_lag)
  | TSurfPot s z n_lag => tmap (fun l => VCC (fst (only (None, None) l)) (snd (only (None, None) l))) (t_surf_pot s [rr z] n_lag)
  | TImage s z n_lag => tmap (fun l => VRC (fst (only (None, None) l)) (snd (only (None, None) l))) (t_image s [rr z] n_lag)
  | TFdm s z r L g d0 d1 da n_lag m => tmap VC (t_fdm_eff_pol s z r L g d0 d1 da n_lag m)
  | TFdmN s A n z N r L g d0 d1 da n_lag m => tmap VC (t_fdm_eff_pol_n s A n z N r L g d0 d1 da n_lag m)
  | TFdmTaylor s A n z r L g d0 d1 da n_lag m N J =>
      tmap VC (t_fdm_eff_pol_n_taylor s A n z r L g d0 d1 da n_lag m N J)
  | TFdmInv a z r L g d0 d1 => tmap VC (t_fdm_refl_coef_qs_from_eff_pol a z r L g d0 d1)
  | TPdm s z r e a => tmap VC (t_pdm_eff_pol s z r e a)
  | TPdmN s A n z N r e a => tmap VC (t_pdm_eff_pol_n s A n z N r e a)
  | TPdmTaylor s A n z r e a N J => tmap VC (t_pdm_eff_pol_n_taylor s A n z r e a N J)
  | TPdmInv a z r e t => tmap VC (t_pdm_refl_coef_qs_from_eff_pol a z r e t)
  end.
End WithSchedule.
