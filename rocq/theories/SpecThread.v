(** * What a call may return while the defaults are being changed *)
From Coq Require Import String Reals Lra Lia ZArith List Bool.
From Coquelicot Require Import Complex.
From Verif Require Import Num ModelBase ModelSample ModelTip ModelCache ModelThread.
Import ListNotations.
Open Scope R_scope.

(** the same call with defaults that do not change (ModelSample.v, ModelTip.v) *)
Definition alone (laggauss : laggauss_t) (D : Defaults) (c : tcall) : res value :=
  match c with
  | TAbove s z n_lag => let! b := refl_coef_qs_above_surf laggauss D s (rr z) n_lag in Ok (VC b)
  | TSurfPot s z n_lag => let! p := surf_pot_and_field laggauss D s (rr z) n_lag in Ok (VCC (fst p) (snd p))
  | TImage s z n_lag => let! p := image_depth_and_charge laggauss D s (rr z) n_lag in Ok (VRC (fst p) (snd p))
  | TFdm s z r L g d0 d1 da n_lag m => let! a := fdm_eff_pol laggauss D s z r L g d0 d1 da n_lag m in Ok (VC a)
  | TFdmN s A n z N r L g d0 d1 da n_lag m =>
      let! a := fdm_eff_pol_n laggauss D s A n z N r L g d0 d1 da n_lag m in Ok (VC a)
  | TFdmTaylor s A n z r L g d0 d1 da n_lag m N J =>
      let! a := fdm_eff_pol_n_taylor laggauss D s A n z r L g d0 d1 da n_lag m N J in Ok (VC a)
  | TFdmInv a z r L g d0 d1 => Ok (VC (fdm_refl_coef_qs_from_eff_pol D a z r L g d0 d1))
  | TPdm s z r e a => let! x := pdm_eff_pol D s z r e a in Ok (VC x)
  | TPdmN s A n z N r e a => let! x := pdm_eff_pol_n D s A n z N r e a in Ok (VC x)
  | TPdmTaylor s A n z r e a N J => let! x := pdm_eff_pol_n_taylor D s A n z r e a N J in Ok (VC x)
  | TPdmInv a z r e t => let! x := pdm_refl_coef_qs_from_eff_pol D a z r e t in Ok (VC x)
  end.

(** every attribute of [D] is one that the defaults had at some instant from [i] to [j] *)
Definition attribute_held {A} (sched : nat -> Defaults) (i j : nat) (attr : Defaults -> A) (a : A) : Prop :=
  exists k, (i <= k <= j)%nat /\ a = attr (sched k).
Definition assembled (sched : nat -> Defaults) (i j : nat) (D : Defaults) : Prop :=
  attribute_held sched i j d_eps_env (d_eps_env D) /\ attribute_held sched i j d_z_tip (d_z_tip D) /\
  attribute_held sched i j d_r_tip (d_r_tip D) /\ attribute_held sched i j d_L_tip (d_L_tip D) /\
  attribute_held sched i j d_g_factor (d_g_factor D) /\ attribute_held sched i j d_d_Q1 (d_d_Q1 D) /\
  attribute_held sched i j d_d_Qa (d_d_Qa D) /\ attribute_held sched i j d_n_trapz (d_n_trapz D) /\
  attribute_held sched i j d_n_lag (d_n_lag D) /\ attribute_held sched i j d_n_tayl (d_n_tayl D) /\
  attribute_held sched i j d_beta_threshold (d_beta_threshold D).

(** calls of the "multi" method without [n_lag] read that default twice *)
Definition reads_n_lag_twice (c : tcall) : bool :=
  match c with
  | TFdm s _ _ _ _ _ _ _ None m | TFdmN s _ _ _ _ _ _ _ _ _ _ None m =>
      match m with None => multilayer s | Some m => String.eqb m "multi" end
  | _ => false
  end.
(** two states of the defaults that differ in one attribute at most *)
Inductive one_attribute : Defaults -> Defaults -> Prop :=
| One_eps_env e e' z r L g d1 da N l J b : one_attribute (mkDefaults e z r L g d1 da N l J b) (mkDefaults e' z r L g d1 da N l J b)
| One_z_tip z z' e r L g d1 da N l J b : one_attribute (mkDefaults e z r L g d1 da N l J b) (mkDefaults e z' r L g d1 da N l J b)
| One_r_tip r r' e z L g d1 da N l J b : one_attribute (mkDefaults e z r L g d1 da N l J b) (mkDefaults e z r' L g d1 da N l J b)
| One_L_tip L L' e z r g d1 da N l J b : one_attribute (mkDefaults e z r L g d1 da N l J b) (mkDefaults e z r L' g d1 da N l J b)
| One_g_factor g g' e z r L d1 da N l J b : one_attribute (mkDefaults e z r L g d1 da N l J b) (mkDefaults e z r L g' d1 da N l J b)
| One_d_Q1 d1 d1' e z r L g da N l J b : one_attribute (mkDefaults e z r L g d1 da N l J b) (mkDefaults e z r L g d1' da N l J b)
| One_d_Qa da da' e z r L g d1 N l J b : one_attribute (mkDefaults e z r L g d1 da N l J b) (mkDefaults e z r L g d1 da' N l J b)
| One_n_trapz N N' e z r L g d1 da l J b : one_attribute (mkDefaults e z r L g d1 da N l J b) (mkDefaults e z r L g d1 da N' l J b)
| One_n_lag l l' e z r L g d1 da N J b : one_attribute (mkDefaults e z r L g d1 da N l J b) (mkDefaults e z r L g d1 da N l' J b)
| One_n_tayl J J' e z r L g d1 da N l b : one_attribute (mkDefaults e z r L g d1 da N l J b) (mkDefaults e z r L g d1 da N l J' b)
| One_threshold b b' e z r L g d1 da N l J : one_attribute (mkDefaults e z r L g d1 da N l J b) (mkDefaults e z r L g d1 da N l J b').
(** calls with every argument given whose default could enter *)
Definition is_given {A} (o : option A) : bool := match o with Some _ => true | None => false end.
Definition all_given (c : tcall) : bool :=
  match c with
  | TAbove _ _ n | TSurfPot _ _ n | TImage _ _ n => is_given n
  | TFdm _ z r L g _ d1 da n _ => is_given z && is_given r && is_given L && is_given g && is_given d1 && is_given da && is_given n
  | TFdmN _ _ _ z N r L g _ d1 da n _ =>
      is_given z && is_given N && is_given r && is_given L && is_given g && is_given d1 && is_given da && is_given n
  | TFdmTaylor _ _ _ z r L g _ d1 da n _ N J =>
      is_given z && is_given r && is_given L && is_given g && is_given d1 && is_given da && is_given n && is_given N && is_given J
  | TFdmInv _ z r L g _ d1 => is_given z && is_given r && is_given L && is_given g && is_given d1
  | TPdm _ z r _ _ | TPdmInv _ z r _ _ => is_given z && is_given r
  | TPdmN _ _ _ z N r _ _ => is_given z && is_given N && is_given r
  | TPdmTaylor _ _ _ z r _ _ N J => is_given z && is_given r && is_given N && is_given J
  end.
