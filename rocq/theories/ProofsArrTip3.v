(** * Broadcasting of the finite dipole model (C48) *)
From Coq Require Import String Reals Lra Lia ZArith List Bool.
From Coquelicot Require Import Rcomplements Complex.
From Verif Require Import Num NumLemmas ModelBase ModelSample ModelTip NArr SpecArr NArrLemmas ModelObj
  ModelArr SpecObj ArrSample ProofsArr ProofsArr2 ModelArrTip ProofsArrTip ProofsArrTip2.
Import ListNotations.
Open Scope R_scope.

Ltac isolve2 := cbn [shape_of]; repeat (apply incl_app || (apply incl_cons; [in_leaf|]));
  first [incl_leaf | eapply incl_tran; [eassumption|isolve2]].
Lemma call_cases : forall o meths m n, incl meths ["multi"%string; "Q_ave"%string] -> fdm_call o meths m n ->
  (m = "bulk"%string /\ many_layers o = false) \/
  (m = "multi"%string /\ In m meths /\ n <> O) \/ (m = "Q_ave"%string /\ In m meths /\ n <> O).
Proof.
  intros o meths m n I [H|(H1 & H2 & H3)]; [left; exact H|right].
  destruct (I _ H2) as [<-|[<-|[]]]; auto.
Qed.

Lemma fdm_eff_pol_elem : forall lag D o r L g dQ0 dQ1 dQa n_lag method, consistent o ->
  fdm_call o ["multi"%string; "Q_ave"%string] (method_of o "multi" method) (dflt (d_n_lag D) n_lag) ->
  let ss := fdm_shapes o (method_of o "multi" method) None r L g dQ0 dQ1 dQa in
  let sc := fun i x => fdm_eff_pol lag D (sample_at o i) (Some x) (at_index r i) (at_index L i) (at_index g i)
                 (at_index dQ0 i) (at_index dQ1 i) (at_index dQa i) n_lag method in
  elementwise ss (fun i x => value (sc i x))
    (fun z => fdm_eff_pol_a lag D o (Some z) r L g dQ0 dQ1 dQa n_lag method) /\
  forall i x, sc i x = Ok (value (sc i x)).
Proof.
  intros lag D o r L g dQ0 dQ1 dQa n_lag method Hc Hm ss sc.
  apply call_cases in Hm; [|isolve].
  destruct (multilayer_at o Hc) as [HM Hm'].
  destruct (fdm_defaults_vec D r L g dQ0 dQ1 dQa)
    as (r' & L' & g' & d1' & da' & rd & Ed & Vr & VL & Vg & V1 & Va & s0 & gd & Vd & I1 & I2 & Es).
  set (m := method_of o "multi" method) in *.
  assert (Em : match method with None => if many_layers o then "multi"%string else "bulk"%string | Some m => m end = m)
    by reflexivity.
  (* values of the single calls *)
  assert (SC : forall i x, sc i x =
    let r' := rr (dflt (d_r_tip D) (at_index r i)) in let L' := rr (dflt (d_L_tip D) (at_index L i)) in
    let g' := Some (dflt (d_g_factor D) (at_index g i)) in let d1 := rr (dflt (d_d_Q1 D) (at_index dQ1 i)) in
    let da := rr (dflt (d_d_Qa D) (at_index dQa i)) in
    let! bf :=
      (if String.eqb m "bulk" then
         if many_layers o then Raise (ValueError msg_bulk_multi) else
         let! beta := refl_coef_qs (sample_at o i) (rr 0) in
         Ok (beta, beta, fdm_geom_func (rr x) (gd i) r' L' g', fdm_geom_func (rr x) d1 r' L' g')
       else if String.eqb m "multi" then
         let! i0 := image_depth_and_charge lag D (sample_at o i) (rr x + r' * gd i)%rv n_lag in
         let! i1 := image_depth_and_charge lag D (sample_at o i) (rr x + r' * d1)%rv n_lag in
         Ok (snd i0, snd i1, fdm_geom_func_multi (rr x) (fst i0) r' L' g', fdm_geom_func_multi (rr x) (fst i1) r' L' g')
       else if String.eqb m "Q_ave" then
         let! beta := refl_coef_qs_above_surf lag D (sample_at o i) (rr x + r' * da)%rv n_lag in
         Ok (beta, beta, fdm_geom_func (rr x) (gd i) r' L' g', fdm_geom_func (rr x) d1 r' L' g')
       else Raise (ValueError msg_method)) in
    let '(beta_0, beta_1, f_0, f_1) := bf in
        Ok (rc 1 + (beta_0 * f_0) / (rc 2 * (rc 1 - beta_1 * f_1)))%cv).
  { intros i x. unfold sc, fdm_eff_pol. rewrite Es, Hm'. fold m. rewrite Em. cbn [dflt]. reflexivity. }
  split.
  - intro z. unfold fdm_eff_pol_a. rewrite Ed. cbn [darr].
    assert (Hassoc : forall (A B E : Type) (r : res A) (k : A -> B) (f : B -> res E),
      (let! x := (let! a := r in Ok (k a)) in f x) = (let! a := r in f (k a))) by (intros ? ? ? [?|?] ? ?; reflexivity).
    rewrite Hassoc. clear Hassoc.
    destruct (beta0_vec o Hc) as (gb & Vb & Eb).
    pose proof (vec_arr _ z) as Vz.
    assert (HM' : forall k : bool -> res (arr CV), (let! b := get_multilayer o in k b) = k (many_layers o))
      by (intro k; rewrite HM; reflexivity).
    destruct Hm as [[Hm HB]|[(Hm & _ & Hn)|(Hm & _ & Hn)]].
    + unfold ss, fdm_shapes. rewrite Hm in *. cbn [String.eqb Ascii.eqb Bool.eqb] in SC |- *. cbn [shape_of].
      eapply vec_let; [exact Vd|isolve2|]. intros d0 Vd0.
      rewrite HM'. fold m. rewrite Em, HB in *. cbn [String.eqb Ascii.eqb Bool.eqb].
      eapply vec_let; [exact Vb|isolve2|]. intros b Vb'.
      eapply vec_let; [eapply geom_vec; vsolve|isolve2|]. intros f0 V0.
      eapply vec_let; [eapply geom_vec; vsolve|isolve2|]. intros f1 V1'.
      eapply vec_by; [apply alpha_vec; eassumption|isolve2|isolve2|].
      intro i. cbn beta. rewrite SC. cbn zeta. rewrite Eb. reflexivity.
    + unfold ss, fdm_shapes. rewrite Hm in *. cbn [String.eqb Ascii.eqb Bool.eqb] in SC |- *. cbn [shape_of].
      eapply vec_let; [exact Vd|isolve2|]. intros d0 Vd0.
      rewrite HM'. fold m. rewrite Em in *. cbn [String.eqb Ascii.eqb Bool.eqb].
      eapply vec_let; [vsolve|isolve2|]. intros z0 Vz0.
      eapply vec_let; [vsolve|isolve2|]. intros z1 Vz1.
      eapply image_let; [exact Hc|exact Hn|exact Vz0|isolve2|]. intros id0 b0 Vi0 Vb0.
      eapply image_let; [exact Hc|exact Hn|exact Vz1|isolve2|]. intros id1 b1 Vi1 Vb1.
      cbn [fst snd].
      eapply vec_let; [eapply geom_multi_vec; vsolve|isolve2|]. intros f0 V0.
      eapply vec_let; [eapply geom_multi_vec; vsolve|isolve2|]. intros f1 V1'.
      eapply vec_by; [apply alpha_vec; eassumption|isolve2|isolve2|].
      intro i. cbn beta. rewrite SC. cbn zeta.
      destruct (image_ok lag D o n_lag i (rr (entry z i) + rr (dflt (d_r_tip D) (at_index r i)) * gd i)%rv Hc Hn)
        as (d0' & b0' & E0).
      destruct (image_ok lag D o n_lag i
        (rr (entry z i) + rr (dflt (d_r_tip D) (at_index r i)) * rr (dflt (d_d_Q1 D) (at_index dQ1 i)))%rv Hc Hn)
        as (d1'' & b1' & E1).
      rewrite E0, E1. reflexivity.
    + unfold ss, fdm_shapes. rewrite Hm in *. cbn [String.eqb Ascii.eqb Bool.eqb] in SC |- *. cbn [shape_of].
      eapply vec_let; [exact Vd|isolve2|]. intros d0 Vd0.
      rewrite HM'. fold m. rewrite Em in *. cbn [String.eqb Ascii.eqb Bool.eqb].
      eapply vec_let; [vsolve|isolve2|]. intros za Vza.
      eapply vec_let; [exact (vec_apply _ _ _ _ _ _ _ _ (above_elem lag D o n_lag Hc Hn) Vza)|isolve2|]. intros b Vb'.
      eapply vec_let; [eapply geom_vec; vsolve|isolve2|]. intros f0 V0.
      eapply vec_let; [eapply geom_vec; vsolve|isolve2|]. intros f1 V1'.
      eapply vec_by; [apply alpha_vec; eassumption|isolve2|isolve2|].
      intro i. cbn beta. rewrite SC. cbn zeta.
      rewrite (above_ok lag D o n_lag i
        (rr (entry z i) + rr (dflt (d_r_tip D) (at_index r i)) * rr (dflt (d_d_Qa D) (at_index dQa i)))%rv Hc Hn).
      reflexivity.
  - intros i x. rewrite SC. cbn zeta.
    destruct Hm as [[Hm HB]|[(Hm & _ & Hn)|(Hm & _ & Hn)]]; rewrite Hm; cbn [String.eqb Ascii.eqb Bool.eqb].
    + rewrite HB. destruct (beta0_vec o Hc) as (gb & _ & Eb). rewrite Eb. reflexivity.
    + destruct (image_ok lag D o n_lag i (rr x + rr (dflt (d_r_tip D) (at_index r i)) * gd i)%rv Hc Hn)
        as (d0' & b0' & E0).
      destruct (image_ok lag D o n_lag i
        (rr x + rr (dflt (d_r_tip D) (at_index r i)) * rr (dflt (d_d_Q1 D) (at_index dQ1 i)))%rv Hc Hn)
        as (d1'' & b1' & E1).
      rewrite E0, E1. reflexivity.
    + rewrite (above_ok lag D o n_lag i
        (rr x + rr (dflt (d_r_tip D) (at_index r i)) * rr (dflt (d_d_Qa D) (at_index dQa i)))%rv Hc Hn).
      reflexivity.
Qed.
