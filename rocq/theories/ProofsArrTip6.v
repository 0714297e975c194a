(** * Broadcasting of the tip models: rejected calls, point dipole model,
    closed-form inverses (C48) *)
From Coq Require Import String Reals Lra Lia ZArith List Bool.
From Coquelicot Require Import Rcomplements Complex.
From Verif Require Import Num NumLemmas ModelBase ModelSample ModelTip NArr SpecArr NArrLemmas ModelObj
  ModelArr SpecObj ArrSample ProofsArr ProofsArr2 ModelArrTip ProofsArrTip ProofsArrTip2 ProofsArrTip3 ProofsArrTip4
  ProofsArrTip5.
Import ListNotations.
Open Scope R_scope.

(** C48: a method that does not exist or does not apply, or a quadrature rule
    without nodes, is a ValueError, for arrays of any shapes as for single
    values *)
Lemma C48_fdm_rejected_proof : forall lag D o A n z n_trapz r L g d_Q0 d_Q1 d_Qa n_lag method n_tayl, consistent o ->
  (~ fdm_call o ["multi"%string; "Q_ave"%string] (method_of o "multi" method)
      (match n_lag with Some n => n | None => d_n_lag D end) ->
   (exists m, fdm_eff_pol_a lag D o z r L g d_Q0 d_Q1 d_Qa n_lag method = Raise (ValueError m)) /\
   (exists m, fdm_eff_pol_n_a lag D o A n z n_trapz r L g d_Q0 d_Q1 d_Qa n_lag method = Raise (ValueError m)) /\
   forall i,
   (exists m, fdm_eff_pol lag D (sample_at o i) (at_index z i) (at_index r i) (at_index L i) (at_index g i)
                (at_index d_Q0 i) (at_index d_Q1 i) (at_index d_Qa i) n_lag method = Raise (ValueError m)) /\
   (exists m, fdm_eff_pol_n lag D (sample_at o i) (entry A i) (entry n i) (at_index z i) n_trapz
                (at_index r i) (at_index L i) (at_index g i)
                (at_index d_Q0 i) (at_index d_Q1 i) (at_index d_Qa i) n_lag method = Raise (ValueError m))) /\
  (~ fdm_call o ["Q_ave"%string] (method_of o "Q_ave" method)
      (match n_lag with Some n => n | None => d_n_lag D end) ->
   (exists m, fdm_eff_pol_n_taylor_a lag D o A n z r L g d_Q0 d_Q1 d_Qa n_lag method n_trapz n_tayl
              = Raise (ValueError m)) /\
   forall i,
   exists m, fdm_eff_pol_n_taylor lag D (sample_at o i) (entry A i) (entry n i) (at_index z i)
                (at_index r i) (at_index L i) (at_index g i)
                (at_index d_Q0 i) (at_index d_Q1 i) (at_index d_Qa i) n_lag method n_trapz n_tayl
             = Raise (ValueError m)).
Proof.
  intros lag D o A n z nt r L g dQ0 dQ1 dQa n_lag method ntay Hc. split.
  - intro Hm. destruct (fdm_eff_pol_rejected lag D o r L g dQ0 dQ1 dQa n_lag method Hc Hm) as [H1 H2].
    split; [apply H1|]. split.
    + unfold fdm_eff_pol_n_a.
      destruct (amap2 Rplus (darr (d_z_tip D) z) A) as [z0|e] eqn:E0; cbn [rbind].
      2: { destruct (amap2_value _ _ _ _ _ _ _ E0) as (m & ->). eauto. }
      unfold demod_a. destruct (amap2 _ z0 A) as [c|e] eqn:E1; cbn [rbind].
      2: { destruct (amap2_value _ _ _ _ _ _ _ E1) as (m & ->). eauto. }
      destruct (H1 (Some c)) as (m & ->). cbn. eauto.
    + intro i. split; [apply H2|]. unfold fdm_eff_pol_n, demod. cbn zeta.
      destruct (H2 i (Some (dflt (d_z_tip D) (at_index z i) + entry A i + 0 * entry A i)) (at_index r i) (at_index L i)
         (at_index g i) (at_index dQ0 i) (at_index dQ1 i) (at_index dQa i)) as (m & ->). cbn. eauto.
  - intro Hm. change (match n_lag with Some n => n | None => d_n_lag D end) with (dflt (d_n_lag D) n_lag) in Hm.
    apply not_call in Hm.
    destruct (multilayer_at o Hc) as [HM Hm'].
    assert (HM' : forall k : bool -> res (arr CV), (let! b := get_multilayer o in k b) = k (many_layers o))
      by (intro k; rewrite HM; reflexivity).
    set (m := method_of o "Q_ave" method) in *.
    assert (Em : match method with None => if many_layers o then "Q_ave"%string else "bulk"%string | Some m => m end = m)
      by reflexivity.
    split.
    + destruct (fdm_defaults_vec D r L g dQ0 dQ1 dQa)
        as (r' & L' & g' & d1' & da' & rd & Ed & Vr & VL & Vg & V1 & Va & s0 & gd & Vd & _).
      unfold fdm_eff_pol_n_taylor_a. rewrite Ed. destruct rd as [d0|e].
      2: { apply vec_raise in Vd. destruct Vd as (_ & mm & ->). exists mm. reflexivity. }
      cbn [rbind]. rewrite HM'. fold m. rewrite Em.
      destruct Hm as [[Hm HB]|[(Hb & Hi & Hn)|(Hb & Hi)]].
      * rewrite Hm, HB. cbn. eauto.
      * rewrite (eqb_no _ _ Hb). destruct Hi as [<-|[]]; cbn [String.eqb Ascii.eqb Bool.eqb].
        destruct (lift2 radd _ _) as [z0|e] eqn:E0; cbn [rbind].
        2: { destruct (lift2_value _ _ _ _ _ _ (amap2_value _ _ _ _ _ _) _ E0) as (mm & ->). eauto. }
        destruct (n_lag_0 lag D o z0 (sample_at o []) None n_lag Hn) as (-> & _). cbn. eauto.
      * rewrite (eqb_no _ _ Hb), !eqb_no by (intro E; apply Hi; rewrite E; cbn; auto). cbn. eauto.
    + intro i. unfold fdm_eff_pol_n_taylor. cbn zeta.
      destruct (fdm_defaults D _ _ _ _ _ _) as [[[[[r'' L''] g''] d0''] d1''] da''].
      rewrite Hm'. fold m. rewrite Em.
      destruct Hm as [[Hm HB]|[(Hb & Hi & Hn)|(Hb & Hi)]].
      * rewrite Hm, HB. cbn. eauto.
      * rewrite (eqb_no _ _ Hb). destruct Hi as [<-|[]]; cbn [String.eqb Ascii.eqb Bool.eqb].
        rewrite (proj1 (proj2 (proj2 (n_lag_0 lag D o (scalar None) _ _ n_lag Hn)))). cbn. eauto.
      * rewrite (eqb_no _ _ Hb), !eqb_no by (intro E; apply Hi; rewrite E; cbn; auto). cbn. eauto.
Qed.

(** ** Point dipole model *)
Lemma bind_assoc : forall (A B E : Type) (r : res A) (k : A -> B) (f : B -> res E),
  (let! x := (let! a := r in Ok (k a)) in f x) = (let! a := r in f (k a)).
Proof. intros ? ? ? [?|?] ? ?; reflexivity. Qed.

Lemma pdm_eff_pol_elem : forall D o r e a, consistent o -> e = None \/ a = None ->
  let sc := fun i x => pdm_eff_pol D (sample_at o i) (Some x) (at_index r i) (at_index e i) (at_index a i) in
  elementwise ([eps_shape o; t_shape o] ++ shape_of r ++ shape_of e ++ shape_of a) (fun i x => value (sc i x))
    (fun z => pdm_eff_pol_a D o (Some z) r e a) /\
  forall i x, sc i x = Ok (value (sc i x)).
Proof.
  intros D o r e a Hc H sc.
  destruct (pdm_defaults_vec D r e a H) as (r' & ra & Ed & Vr & s0 & ga & Va & I1 & I2 & Es).
  destruct (beta0_vec o Hc) as (gb & Vb & Eb).
  assert (SC : forall i x, sc i x = Ok (ga i / (rc 1 - pdm_geom_func (rr x) (rr (dflt (d_r_tip D) (at_index r i))) (ga i) * gb i))%cv).
  { intros i x. unfold sc, pdm_eff_pol. rewrite Es. cbn [rbind fst snd]. rewrite Eb. reflexivity. }
  split; [|intros i x; rewrite SC; reflexivity].
  intro z. unfold pdm_eff_pol_a. rewrite Ed, bind_assoc. cbn [fst snd darr].
  pose proof (vec_arr _ z) as Vz.
  eapply vec_let; [exact Va|isolve2|]. intros al Val.
  eapply vec_let; [exact Vb|isolve2|]. intros b Vb'.
  eapply vec_let; [eapply pdm_geom_vec; vsolve|isolve2|]. intros f Vf.
  assert (I2e : incl (shape_of e) s0) by (eapply incl_tran; [|exact I2]; isolve).
  assert (I2a : incl (shape_of a) s0) by (eapply incl_tran; [|exact I2]; isolve).
  eapply vec_by; [vsolve|clear I2 I2e I2a; isolve2|clear I1 I2; isolve2|].
  intro i. cbn beta. rewrite SC. reflexivity.
Qed.

(** C48: point dipole model *)
Lemma C48_pdm_broadcast_proof : forall D o A n z n_trapz n_tayl r eps_tip alpha_tip, consistent o ->
  eps_tip = None \/ alpha_tip = None ->
  let ss := [eps_shape o; t_shape o] ++ shape_of z ++ shape_of r ++ shape_of eps_tip ++ shape_of alpha_tip in
  vectorised ss
    (fun i => pdm_eff_pol D (sample_at o i) (at_index z i) (at_index r i) (at_index eps_tip i) (at_index alpha_tip i))
    (pdm_eff_pol_a D o z r eps_tip alpha_tip) /\
  vectorised ([shp A; shp n] ++ ss)
    (fun i => pdm_eff_pol_n D (sample_at o i) (entry A i) (entry n i) (at_index z i) n_trapz
                (at_index r i) (at_index eps_tip i) (at_index alpha_tip i))
    (pdm_eff_pol_n_a D o A n z n_trapz r eps_tip alpha_tip) /\
  vectorised ([shp A; shp n] ++ ss)
    (fun i => pdm_eff_pol_n_taylor D (sample_at o i) (entry A i) (entry n i) (at_index z i)
                (at_index r i) (at_index eps_tip i) (at_index alpha_tip i) n_trapz n_tayl)
    (pdm_eff_pol_n_taylor_a D o A n z r eps_tip alpha_tip n_trapz n_tayl).
Proof.
  intros D o A n z nt ntay r e a Hc H ss.
  destruct (pdm_eff_pol_elem D o r e a Hc H) as [EL SC]. cbn zeta in SC.
  pose proof (vec_darr _ (d_z_tip D) z) as Vz.
  split; [|split].
  - pose proof (vec_apply _ _ _ _ _ _ _ _ EL Vz) as V.
    apply (vectorised_shapes _ _ _ _ _ _ V); [unfold ss; isolve..|].
    intro i. rewrite <- SC. destruct z; reflexivity.
  - assert (V : vec ([shp A; shp n] ++ ss)
      (fun i => value (pdm_eff_pol_n D (sample_at o i) (entry A i) (entry n i) (at_index z i) nt
                (at_index r i) (at_index e i) (at_index a i)))
      (pdm_eff_pol_n_a D o A n z nt r e a)).
    { unfold pdm_eff_pol_n_a. eapply vec_let; [vsolve|unfold ss; isolve|].
      intros z0 Vz0. destruct (vec_ok _ _ _ _ Vz0) as [_ Ez0].
      pose proof (demod_elementwise D _ _ _ z0 A n nt EL) as VD.
      eapply vec_by; [exact (vec_subst _ _ _ _ _ _ _ _ Vz0 VD)|unfold ss; isolve..|].
      intro i. cbn beta. unfold pdm_eff_pol_n. cbn zeta. rewrite (demod_pure _ _ _ _ _ _ _ (SC i)), Ez0. reflexivity. }
    apply (vec_vectorised _ _ _ _ _ V). intro i. unfold pdm_eff_pol_n. cbn zeta.
    rewrite (demod_pure _ _ _ _ _ _ _ (SC i)). reflexivity.
  - destruct (pdm_defaults_vec D r e a H) as (r' & ra & Ed & Vr & s0 & ga & Va & I1 & I2 & Es).
    destruct (beta0_vec o Hc) as (gb & Vb & Eb).
    assert (SCt : forall i, pdm_eff_pol_n_taylor D (sample_at o i) (entry A i) (entry n i) (at_index z i)
                (at_index r i) (at_index e i) (at_index a i) nt ntay
       = Ok (csum (map (fun j => (value (pdm_taylor_coef D (dflt (d_z_tip D) (at_index z i)) j (entry A i) (entry n i)
             (rr (dflt (d_r_tip D) (at_index r i))) (ga i) nt)
             * cpown (gb i) j)%cv) (seq 0 (dflt (d_n_tayl D) ntay))))).
    { intro i. unfold pdm_eff_pol_n_taylor. cbn zeta. rewrite Es. cbn [rbind fst snd]. rewrite Eb. cbn [rbind].
      erewrite mapM_pure; [cbn [rbind]; reflexivity|].
      intro j. cbn beta. rewrite (proj1 (pdm_coef_ok _ _ _ _ _ _ _ _)). reflexivity. }
    apply (vec_vectorised _ _ _ _ _) with (2 := SCt).
    unfold pdm_eff_pol_n_taylor_a. rewrite Ed, bind_assoc. cbn [fst snd].
    eapply vec_let; [exact Va|unfold ss; isolve2|]. intros al Val.
    eapply vec_let; [exact Vb|unfold ss; isolve2|]. intros b Vb'.
    pose proof (pdm_taylor_core D (darr (d_z_tip D) z) A n b r' al nt (dflt (d_n_tayl D) ntay)) as V.
    cbn zeta in V.
    assert (V' : forall h (rs : res (arr CV)), vec [shp (darr (d_z_tip D) z); shp A; shp n; shp b; shp r'; shp al] h rs ->
       vec (shape_of r ++ s0 ++ [eps_shape o; t_shape o] ++ shape_of z ++ [shp A; shp n]) h rs).
    { intros h rs W. clear - W Vr Val Vb' Vz.
      apply (vec_subst _ _ _ _ _ _ _ _ Vr).
      eapply vec_incl with (ss := s0 ++ shp r' :: [eps_shape o; t_shape o] ++ shape_of z ++ [shp A; shp n]); [isolve|isolve|].
      apply (vec_subst _ _ _ _ _ _ _ _ Val).
      eapply vec_incl with (ss := [eps_shape o; t_shape o] ++ shp r' :: shp al :: shape_of z ++ [shp A; shp n]); [isolve|isolve|].
      apply (vec_subst _ _ _ _ _ _ _ _ Vb').
      eapply vec_incl with (ss := shape_of z ++ shp b :: shp r' :: shp al :: [shp A; shp n]); [isolve|isolve|].
      apply (vec_subst _ _ _ _ _ _ _ _ Vz).
      eapply vec_incl; [| |exact W]; isolve. }
    apply V' in V.
    assert (I2e : incl (shape_of e) s0) by (eapply incl_tran; [|exact I2]; isolve).
    assert (I2a : incl (shape_of a) s0) by (eapply incl_tran; [|exact I2]; isolve).
    unfold ss.
    eapply vec_by; [exact V|clear I2 I2e I2a; isolve2|clear I1 I2; isolve2|].
    intro i. cbn beta.
    rewrite (proj2 (vec_ok _ _ _ _ Vr)), (proj2 (vec_ok _ _ _ _ Val)), (proj2 (vec_ok _ _ _ _ Vb')), (proj2 (vec_ok _ _ _ _ Vz)).
    reflexivity.
Qed.

(** C48: both tip properties at once are rejected, for arrays as for single
    values *)
Lemma C48_pdm_rejected_proof : forall D o A n z n_trapz n_tayl r eps_tip alpha_tip alpha_eff, 
  ((exists m, pdm_eff_pol_a D o z r (Some eps_tip) (Some alpha_tip) = Raise (ValueError m)) /\
   (exists m, pdm_eff_pol_n_a D o A n z n_trapz r (Some eps_tip) (Some alpha_tip) = Raise (ValueError m)) /\
   (exists m, pdm_eff_pol_n_taylor_a D o A n z r (Some eps_tip) (Some alpha_tip) n_trapz n_tayl = Raise (ValueError m)) /\
   (exists m, pdm_refl_coef_qs_from_eff_pol_a D alpha_eff z r (Some eps_tip) (Some alpha_tip) = Raise (ValueError m))) /\
  forall s A' n' z' r' e' a' alpha',
   (exists m, pdm_eff_pol D s z' r' (Some e') (Some a') = Raise (ValueError m)) /\
   (exists m, pdm_eff_pol_n D s A' n' z' n_trapz r' (Some e') (Some a') = Raise (ValueError m)) /\
   (exists m, pdm_eff_pol_n_taylor D s A' n' z' r' (Some e') (Some a') n_trapz n_tayl = Raise (ValueError m)) /\
   (exists m, pdm_refl_coef_qs_from_eff_pol D alpha' z' r' (Some e') (Some a') = Raise (ValueError m)).
Proof.
  intros D o A n z nt ntay r e a ae. split.
  - split; [cbn; eauto|]. split; [|split; cbn; eauto].
    unfold pdm_eff_pol_n_a. destruct (amap2 Rplus (darr (d_z_tip D) z) A) as [z0|er] eqn:E0; cbn [rbind].
    2: { destruct (amap2_value _ _ _ _ _ _ _ E0) as (m & ->). eauto. }
    unfold demod_a. destruct (amap2 _ z0 A) as [c|er] eqn:E1; cbn [rbind].
    2: { destruct (amap2_value _ _ _ _ _ _ _ E1) as (m & ->). eauto. }
    cbn. eauto.
  - intros. cbn. eauto 8.
Qed.

(** C48: closed-form inverses *)
Lemma C48_inverse_broadcast_proof : forall D (alpha_eff : arr CV) z r L g d_Q0 d_Q1 eps_tip alpha_tip,
  vectorised (shp alpha_eff :: shape_of z ++ shape_of r ++ shape_of L ++ shape_of g ++ shape_of d_Q0 ++ shape_of d_Q1)
    (fun i => Ok (fdm_refl_coef_qs_from_eff_pol D (entry alpha_eff i) (at_index z i) (at_index r i) (at_index L i)
                    (at_index g i) (at_index d_Q0 i) (at_index d_Q1 i)))
    (fdm_refl_coef_qs_from_eff_pol_a D alpha_eff z r L g d_Q0 d_Q1) /\
  (eps_tip = None \/ alpha_tip = None ->
   vectorised (shp alpha_eff :: shape_of z ++ shape_of r ++ shape_of eps_tip ++ shape_of alpha_tip)
    (fun i => pdm_refl_coef_qs_from_eff_pol D (entry alpha_eff i) (at_index z i) (at_index r i) (at_index eps_tip i)
                (at_index alpha_tip i))
    (pdm_refl_coef_qs_from_eff_pol_a D alpha_eff z r eps_tip alpha_tip)).
Proof.
  intros D al z r L g dQ0 dQ1 e a. pose proof (vec_darr _ (d_z_tip D) z) as Vz. split.
  - destruct (fdm_defaults_vec D r L g dQ0 dQ1 None)
      as (r' & L' & g' & d1' & da' & rd & Ed & Vr & VL & Vg & V1 & Va & s0 & gd & Vd & I1 & I2 & Es).
    eapply vec_vectorised; [|intro i; reflexivity].
    unfold fdm_refl_coef_qs_from_eff_pol_a. rewrite Ed, bind_assoc.
    eapply vec_let; [exact Vd|isolve2|]. intros d0 Vd0.
    eapply vec_let; [eapply geom_vec; vsolve|isolve2|]. intros f0 V0.
    eapply vec_let; [eapply geom_vec; vsolve|isolve2|]. intros f1 V1'.
    eapply vec_by; [vsolve|clear I2; isolve2|clear I1; isolve2|].
    intro i. cbn beta. unfold fdm_refl_coef_qs_from_eff_pol. cbn zeta.
    specialize (Es i). cbn [at_index] in Es. rewrite Es. reflexivity.
  - intro H.
    destruct (pdm_defaults_vec D r e a H) as (r' & ra & Ed & Vr & s0 & ga & Va & I1 & I2 & Es).
    assert (SC : forall i, pdm_refl_coef_qs_from_eff_pol D (entry al i) (at_index z i) (at_index r i) (at_index e i)
                (at_index a i) = Ok ((entry al i - ga i) / (pdm_geom_func (rr (dflt (d_z_tip D) (at_index z i)))
                  (rr (dflt (d_r_tip D) (at_index r i))) (ga i) * entry al i))%cv).
    { intro i. unfold pdm_refl_coef_qs_from_eff_pol. rewrite Es. reflexivity. }
    apply (vec_vectorised _ _ _ _ _) with (2 := SC).
    unfold pdm_refl_coef_qs_from_eff_pol_a. rewrite Ed, bind_assoc. cbn [fst snd].
    eapply vec_let; [exact Va|isolve2|]. intros t Vt.
    eapply vec_let; [eapply pdm_geom_vec; vsolve|isolve2|]. intros f Vf.
    assert (I2e : incl (shape_of e) s0) by (eapply incl_tran; [|exact I2]; isolve).
    assert (I2a : incl (shape_of a) s0) by (eapply incl_tran; [|exact I2]; isolve).
    eapply vec_by; [vsolve|clear I2 I2e I2a; isolve2|clear I1 I2; isolve2|].
    reflexivity.
Qed.

(** C48, concrete case: the call in the documentation of [demod]:
    f(x, y) = x * y with x_0 = 1, x_amplitude of shape (2, 1), n of shape
    (3, 1, 1) and y of shape (4, 1, 1, 1) acts elementwise, and the joint shape
    is the documented (4, 3, 2, 1); a consistent object with two permittivities
    whose finite dipole call is meaningful, and one whose call is not. *)
Lemma C48_example_proof :
  let y := mkArr [1; 1; 1; 4]%nat (fun i => INR (nth 3 i O)) in
  let f := fun x : arr R => amap2 (fun a b => rc (a * b)) x y in
  let o := mkObj (Some (mkLayers [] []))
                 (Some (mkLayers [2]%nat [fun _ => rc 1; fun i => rc (INR (hd O i) + 2)]))
                 (scalar (rc 1)) None in
  acts_elementwise [shp y] (fun i x => rc (x * entry y i)) f /\
   joint [[]; [1; 2]; [1; 1; 3]; shp y]%nat [1; 2; 3; 4]%nat /\
   consistent o /\ fdm_call o ["multi"%string; "Q_ave"%string] (method_of o "multi" None) 32 /\
   ~ fdm_call o ["multi"%string; "Q_ave"%string] "analytic" 32 /\
   joint ([[1; 3]%nat; []] ++ fdm_shapes o "bulk" None None None None None None None) [2; 3]%nat.
Proof.
  intros y f o.
  split; [|split; [|split; [|split; [|split]]]].
  - apply acts_elem. intro x. unfold f.
    eapply vec_by; [apply (vec_map2 _ _ _ (fun a b => rc (a * b))); apply vec_arr|isolve|isolve|reflexivity].
  - apply bshapes_spec. reflexivity.
  - eexists _, _. split; [reflexivity|]. split; [reflexivity|]. split; [reflexivity|reflexivity].
  - left. split; reflexivity.
  - intros [[H _]|(_ & [H|[H|[]]] & _)]; discriminate H.
  - apply bshapes_spec. reflexivity.
Qed.
