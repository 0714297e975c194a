(** * Broadcasting of demodulation and of the tip models: statements (C48) *)
From Coq Require Import String Reals Lra Lia ZArith List Bool.
From Coquelicot Require Import Rcomplements Complex.
From Verif Require Import Num NumLemmas ModelBase ModelSample ModelTip NArr SpecArr NArrLemmas ModelObj
  ModelArr SpecObj ArrSample ProofsArr ProofsArr2 ModelArrTip ProofsArrTip ProofsArrTip2 ProofsArrTip3 ProofsArrTip4.
Import ListNotations.
Open Scope R_scope.

Lemma acts_elem : forall A B ss (g : list nat -> A -> B) f, acts_elementwise ss g f <-> elementwise ss g f.
Proof.
  intros A B ss g f. split.
  - intros H x. destruct (H x) as (H1 & H2 & H3). unfold vec.
    destruct (bshapes (shp x :: ss)) as [S|] eqn:E.
    + destruct H1 as [_ H1]. destruct H1 as (a & Ha).
      { eapply joint_compatible, bshapes_joint, E. }
      destruct (H3 a Ha) as [J K]. exists a. split; [exact Ha|]. split; [|exact K].
      eapply joint_unique; [exact J|]. apply bshapes_joint, E.
    + destruct (f x) as [a|e] eqn:Ef.
      * exfalso. apply (bshapes_none _ E). apply H1. eauto.
      * destruct (H2 e eq_refl) as (m & ->). eauto.
  - intros H x. specialize (H x). destruct (vec_use _ _ _ _ H) as (U1 & U2 & _).
    split; [exact U1|]. split; [exact U2|]. intros a Ha. rewrite Ha in H.
    destruct (vec_ok _ _ _ _ H) as [E K]. split; [apply bshapes_joint, E|exact K].
Qed.

(** C48: if the function acts elementwise, [demod] has the joint shape of
    x_0, x_amplitude, n and the function's other operands, fails with a
    ValueError exactly if these do not broadcast, and each entry is the
    demodulation of the entries of the operands. *)
Lemma C48_demod_broadcast_proof : forall D ss g f x_0 x_amplitude (n : arr Z) n_trapz,
  acts_elementwise ss g f ->
  vectorised ([shp x_0; shp x_amplitude; shp n] ++ ss)
    (fun i => demod D (fun x => Ok (g i x)) (entry x_0 i) (entry x_amplitude i) (entry n i) n_trapz)
    (demod_a D f x_0 x_amplitude n n_trapz).
Proof.
  intros D ss g f x0 xa n nt H. apply acts_elem in H.
  eapply vec_vectorised; [apply demod_elementwise, H|].
  intro i. apply demod_pure. reflexivity.
Qed.

Lemma vectorised_shapes : forall A ss ts (f : list nat -> res A) g r,
  vec ss g r -> incl ss ts -> incl ts ss -> (forall i, f i = Ok (g i)) -> vectorised ts f r.
Proof. intros A ss ts f g r V I J E. eapply vec_vectorised; [eapply vec_incl; eassumption|exact E]. Qed.

(** C48: effective polarizability of the finite dipole model, for every call
    with a method that applies *)
Lemma C48_fdm_eff_pol_broadcast_proof : forall lag D o z r L g d_Q0 d_Q1 d_Qa n_lag method, consistent o ->
  fdm_call o ["multi"%string; "Q_ave"%string] (method_of o "multi" method)
    (match n_lag with Some n => n | None => d_n_lag D end) ->
  vectorised (fdm_shapes o (method_of o "multi" method) z r L g d_Q0 d_Q1 d_Qa)
    (fun i => fdm_eff_pol lag D (sample_at o i) (at_index z i) (at_index r i) (at_index L i) (at_index g i)
                (at_index d_Q0 i) (at_index d_Q1 i) (at_index d_Qa i) n_lag method)
    (fdm_eff_pol_a lag D o z r L g d_Q0 d_Q1 d_Qa n_lag method).
Proof.
  intros lag D o z r L g dQ0 dQ1 dQa n_lag method Hc Hm.
  destruct (fdm_eff_pol_elem lag D o r L g dQ0 dQ1 dQa n_lag method Hc Hm) as [EL SC]. cbn zeta in SC.
  pose proof (vec_darr _ (d_z_tip D) z) as Vz.
  pose proof (vec_apply _ _ _ _ _ _ _ _ EL Vz) as V.
  apply (vectorised_shapes _ _ _ _ _ _ V); [unfold fdm_shapes; isolve..|].
  intro i. rewrite <- SC. destruct z; reflexivity.
Qed.

Lemma n_lag_0 : forall lag D o z s x n_lag, dflt (d_n_lag D) n_lag = O ->
  refl_coef_qs_above_surf_a lag D o z n_lag = Raise (ValueError msg_laggauss) /\
  image_depth_and_charge_a lag D o z n_lag = Raise (ValueError msg_laggauss) /\
  refl_coef_qs_above_surf lag D s x n_lag = Raise (ValueError msg_laggauss) /\
  image_depth_and_charge lag D s x n_lag = Raise (ValueError msg_laggauss).
Proof.
  intros lag D o z s x n_lag H.
  unfold refl_coef_qs_above_surf_a, image_depth_and_charge_a, surf_pot_and_field_a, refl_coef_qs_above_surf,
    image_depth_and_charge, surf_pot_and_field, sampled_beta_a, sampled_beta. rewrite H. auto.
Qed.
Lemma not_call : forall o meths m n, ~ fdm_call o meths m n ->
  (m = "bulk"%string /\ many_layers o = true) \/ (m <> "bulk"%string /\ In m meths /\ n = O) \/
  (m <> "bulk"%string /\ ~ In m meths).
Proof.
  intros o meths m n H. unfold fdm_call in H.
  destruct (string_dec m "bulk") as [E|E].
  - left. split; [exact E|]. destruct (many_layers o); [reflexivity|]. exfalso. apply H. left. auto.
  - right. destruct (in_dec string_dec m meths); [left|right; auto].
    split; [exact E|]. split; [assumption|]. destruct n; [reflexivity|]. exfalso. apply H. right. auto.
Qed.
Lemma lift2_value : forall A B E (f : A -> B -> E) a ra, (forall e, ra = Raise e -> exists m, e = ValueError m) ->
  forall e, lift2 f (Ok a) ra = Raise e -> exists m, e = ValueError m.
Proof.
  intros A B E f a [b|e0] H e; cbn; [|intros [= <-]; apply H; reflexivity].
  unfold amap2. destruct (bshape _ _); [discriminate|]. intros [= <-]. eauto.
Qed.
Lemma amap2_value : forall A B E (f : A -> B -> E) a b e, amap2 f a b = Raise e -> exists m, e = ValueError m.
Proof. intros A B E f a b e. unfold amap2. destruct (bshape _ _); [discriminate|]. intros [= <-]. eauto. Qed.

Lemma eqb_no : forall m s, m <> s -> String.eqb m s = false.
Proof. intros m s H. destruct (String.eqb_spec m s); [contradiction|reflexivity]. Qed.

Lemma fdm_eff_pol_rejected : forall lag D o r L g d_Q0 d_Q1 d_Qa n_lag method, consistent o ->
  ~ fdm_call o ["multi"%string; "Q_ave"%string] (method_of o "multi" method) (dflt (d_n_lag D) n_lag) ->
  (forall z, exists m, fdm_eff_pol_a lag D o z r L g d_Q0 d_Q1 d_Qa n_lag method = Raise (ValueError m)) /\
  forall i z r' L' g' d0 d1 da, exists m,
    fdm_eff_pol lag D (sample_at o i) z r' L' g' d0 d1 da n_lag method = Raise (ValueError m).
Proof.
  intros lag D o r L g dQ0 dQ1 dQa n_lag method Hc Hm. apply not_call in Hm.
  destruct (multilayer_at o Hc) as [HM Hm'].
  assert (HM' : forall k : bool -> res (arr CV), (let! b := get_multilayer o in k b) = k (many_layers o))
      by (intro k; rewrite HM; reflexivity).
  set (m := method_of o "multi" method) in *.
  assert (Em : match method with None => if many_layers o then "multi"%string else "bulk"%string | Some m => m end = m)
    by reflexivity.
  split.
  - intro z. destruct (fdm_defaults_vec D r L g dQ0 dQ1 dQa)
      as (r' & L' & g' & d1' & da' & rd & Ed & Vr & VL & Vg & V1 & Va & s0 & gd & Vd & _).
    unfold fdm_eff_pol_a. rewrite Ed. destruct rd as [d0|e].
    2: { apply vec_raise in Vd. destruct Vd as (_ & mm & ->). exists mm. reflexivity. }
    cbn [rbind]. rewrite HM'. fold m. rewrite Em.
    destruct Hm as [[Hm HB]|[(Hb & Hi & Hn)|(Hb & Hi)]].
    + rewrite Hm, HB. cbn. eauto.
    + rewrite (eqb_no _ _ Hb). destruct Hi as [<-|[<-|[]]]; cbn [String.eqb Ascii.eqb Bool.eqb].
      * destruct (lift2 radd _ _) as [z0|e] eqn:E0; cbn [rbind].
        2: { destruct (lift2_value _ _ _ _ _ _ (amap2_value _ _ _ _ _ _) _ E0) as (mm & ->). eauto. }
        destruct (lift2 radd (Ok (amap rr (darr (d_z_tip D) z))) (amap2 rmul (amap rr r') (amap rr d1'))) as [z1|e] eqn:E1; cbn [rbind].
        2: { destruct (lift2_value _ _ _ _ _ _ (amap2_value _ _ _ _ _ _) _ E1) as (mm & ->). eauto. }
        destruct (n_lag_0 lag D o z0 (sample_at o []) None n_lag Hn) as (_ & -> & _). cbn. eauto.
      * destruct (lift2 radd _ _) as [z0|e] eqn:E0; cbn [rbind].
        2: { destruct (lift2_value _ _ _ _ _ _ (amap2_value _ _ _ _ _ _) _ E0) as (mm & ->). eauto. }
        destruct (n_lag_0 lag D o z0 (sample_at o []) None n_lag Hn) as (-> & _). cbn. eauto.
    + rewrite (eqb_no _ _ Hb), !eqb_no by (intro E; apply Hi; rewrite E; cbn; auto). eauto.
  - intros i z r' L' g' d0 d1 da. unfold fdm_eff_pol.
    destruct (fdm_defaults D r' L' g' d0 d1 da) as [[[[[r'' L''] g''] d0''] d1''] da''].
    rewrite Hm'. fold m. rewrite Em.
    destruct Hm as [[Hm HB]|[(Hb & Hi & Hn)|(Hb & Hi)]].
    + rewrite Hm, HB. cbn. eauto.
    + rewrite (eqb_no _ _ Hb). destruct Hi as [<-|[<-|[]]]; cbn [String.eqb Ascii.eqb Bool.eqb].
      * rewrite (proj2 (proj2 (proj2 (n_lag_0 lag D o (scalar None) _ _ n_lag Hn)))). cbn. eauto.
      * rewrite (proj1 (proj2 (proj2 (n_lag_0 lag D o (scalar None) _ _ n_lag Hn)))). cbn. eauto.
    + rewrite (eqb_no _ _ Hb), !eqb_no by (intro E; apply Hi; rewrite E; cbn; auto). cbn. eauto.
Qed.

(** C48: demodulated effective polarizability of the finite dipole model *)
Lemma C48_fdm_eff_pol_n_broadcast_proof : forall lag D o A n z n_trapz r L g d_Q0 d_Q1 d_Qa n_lag method, consistent o ->
  fdm_call o ["multi"%string; "Q_ave"%string] (method_of o "multi" method)
    (match n_lag with Some n => n | None => d_n_lag D end) ->
  vectorised ([shp A; shp n] ++ fdm_shapes o (method_of o "multi" method) z r L g d_Q0 d_Q1 d_Qa)
    (fun i => fdm_eff_pol_n lag D (sample_at o i) (entry A i) (entry n i) (at_index z i) n_trapz
                (at_index r i) (at_index L i) (at_index g i)
                (at_index d_Q0 i) (at_index d_Q1 i) (at_index d_Qa i) n_lag method)
    (fdm_eff_pol_n_a lag D o A n z n_trapz r L g d_Q0 d_Q1 d_Qa n_lag method).
Proof.
  intros lag D o A n z nt r L g dQ0 dQ1 dQa n_lag method Hc Hm.
  destruct (fdm_eff_pol_elem lag D o r L g dQ0 dQ1 dQa n_lag method Hc Hm) as [EL SC]. cbn zeta in SC.
  pose proof (vec_darr _ (d_z_tip D) z) as Vz.
  assert (V : vec ([shp A; shp n] ++ fdm_shapes o (method_of o "multi" method) z r L g dQ0 dQ1 dQa)
    (fun i => value (fdm_eff_pol_n lag D (sample_at o i) (entry A i) (entry n i) (at_index z i) nt
                (at_index r i) (at_index L i) (at_index g i)
                (at_index dQ0 i) (at_index dQ1 i) (at_index dQa i) n_lag method))
    (fdm_eff_pol_n_a lag D o A n z nt r L g dQ0 dQ1 dQa n_lag method)).
  { unfold fdm_eff_pol_n_a. eapply vec_let; [vsolve|unfold fdm_shapes; isolve|].
    intros z0 Vz0. destruct (vec_ok _ _ _ _ Vz0) as [_ Ez0].
    pose proof (demod_elementwise D _ _ _ z0 A n nt EL) as VD.
    eapply vec_by; [exact (vec_subst _ _ _ _ _ _ _ _ Vz0 VD)|unfold fdm_shapes; isolve..|].
    intro i. cbn beta. unfold fdm_eff_pol_n. cbn zeta. rewrite (demod_pure _ _ _ _ _ _ _ (SC i)), Ez0. reflexivity. }
  apply (vec_vectorised _ _ _ _ _ V). intro i. unfold fdm_eff_pol_n. cbn zeta.
  rewrite (demod_pure _ _ _ _ _ _ _ (SC i)). reflexivity.
Qed.

(** C48: Taylor series of the finite dipole model *)
Lemma C48_fdm_taylor_broadcast_proof : forall lag D o A n z r L g d_Q0 d_Q1 d_Qa n_lag method n_trapz n_tayl, consistent o ->
  fdm_call o ["Q_ave"%string] (method_of o "Q_ave" method)
    (match n_lag with Some n => n | None => d_n_lag D end) ->
  vectorised ([shp A; shp n] ++ fdm_shapes o (method_of o "Q_ave" method) z r L g d_Q0 d_Q1 d_Qa)
    (fun i => fdm_eff_pol_n_taylor lag D (sample_at o i) (entry A i) (entry n i) (at_index z i)
                (at_index r i) (at_index L i) (at_index g i)
                (at_index d_Q0 i) (at_index d_Q1 i) (at_index d_Qa i) n_lag method n_trapz n_tayl)
    (fdm_eff_pol_n_taylor_a lag D o A n z r L g d_Q0 d_Q1 d_Qa n_lag method n_trapz n_tayl).
Proof.
  intros lag D o A n z r L g dQ0 dQ1 dQa n_lag method nt ntay Hc Hm. change (match n_lag with Some n => n | None => d_n_lag D end)
    with (dflt (d_n_lag D) n_lag) in Hm.
  apply call_cases in Hm; [|isolve].
  destruct (multilayer_at o Hc) as [HM Hm'].
  assert (HM' : forall k : bool -> res (arr CV), (let! b := get_multilayer o in k b) = k (many_layers o))
      by (intro k; rewrite HM; reflexivity).
  destruct (fdm_defaults_vec D r L g dQ0 dQ1 dQa)
    as (r' & L' & g' & d1' & da' & rd & Ed & Vr & VL & Vg & V1 & Va & s0 & gd & Vd & I1 & I2 & Es).
  set (m := method_of o "Q_ave" method) in *.
  assert (Em : match method with None => if many_layers o then "Q_ave"%string else "bulk"%string | Some m => m end = m)
    by reflexivity.
  pose proof (vec_darr _ (d_z_tip D) z) as Vz.
  set (rb := if String.eqb m "bulk" then
         if many_layers o then Raise (ValueError msg_bulk_multi)
         else refl_coef_qs_a o (scalar (rr 0))
       else if String.eqb m "Q_ave" then
         let! z_Qa := lift2 radd (Ok (amap rr (darr (d_z_tip D) z))) (amap2 (fun r d => (rr r * rr d)%rv) r' da') in
         refl_coef_qs_above_surf_a lag D o z_Qa n_lag
       else Raise (ValueError msg_method_taylor)).
  set (sb := fun i => if String.eqb m "bulk" then
         if many_layers o then Raise (ValueError msg_bulk_multi)
         else refl_coef_qs (sample_at o i) (rr 0)
       else if String.eqb m "Q_ave" then
         refl_coef_qs_above_surf lag D (sample_at o i)
           (rr (dflt (d_z_tip D) (at_index z i)) + rr (dflt (d_r_tip D) (at_index r i)) * rr (dflt (d_d_Qa D) (at_index dQa i)))%rv n_lag
       else Raise (ValueError msg_method_taylor)).
  set (bs := [eps_shape o; t_shape o] ++ (if String.eqb m "Q_ave" then shape_of z ++ shape_of r ++ shape_of dQa else [])).
  assert (Hb : vec bs (fun i => value (sb i)) rb /\ forall i, sb i = Ok (value (sb i))).
  { unfold rb, sb, bs. destruct Hm as [[Hm HB]|[(Hm & Hi & Hn)|(Hm & Hi & Hn)]].
    - rewrite Hm, HB. cbn [String.eqb Ascii.eqb Bool.eqb app].
      destruct (beta0_vec o Hc) as (gb & Vb & Eb). split.
      + eapply vec_ext; [|exact Vb]. intro i. cbn beta. rewrite Eb. reflexivity.
      + intro i. rewrite Eb. reflexivity.
    - exfalso. rewrite Hm in Hi. destruct Hi as [Hi|[]]. discriminate Hi.
    - rewrite Hm. cbn [String.eqb Ascii.eqb Bool.eqb]. split.
      + eapply vec_let; [vsolve|isolve|]. intros za Vza.
        eapply vec_by; [exact (vec_apply _ _ _ _ _ _ _ _ (above_elem lag D o n_lag Hc Hn) Vza)|isolve|isolve|].
        reflexivity.
      + intro i. apply (above_ok lag D o n_lag i _ Hc Hn). }
  destruct Hb as [Vb Eb].
  assert (SC : forall i, fdm_eff_pol_n_taylor lag D (sample_at o i) (entry A i) (entry n i) (at_index z i)
                (at_index r i) (at_index L i) (at_index g i)
                (at_index dQ0 i) (at_index dQ1 i) (at_index dQa i) n_lag method nt ntay
     = Ok (csum (map (fun j => (value (fdm_taylor_coef D (dflt (d_z_tip D) (at_index z i)) j (entry A i) (entry n i)
             (rr (dflt (d_r_tip D) (at_index r i))) (rr (dflt (d_L_tip D) (at_index L i)))
             (Some (dflt (d_g_factor D) (at_index g i))) (gd i) (rr (dflt (d_d_Q1 D) (at_index dQ1 i))) nt)
             * cpown (value (sb i)) j)%cv) (seq 0 (dflt (d_n_tayl D) ntay))))).
  { intro i. unfold fdm_eff_pol_n_taylor. cbn zeta. rewrite Es, Hm'. fold m. rewrite Em.
    transitivity (let! beta := sb i in
      let! terms := mapM (fun j => let! a := fdm_taylor_coef D (dflt (d_z_tip D) (at_index z i)) j (entry A i) (entry n i)
             (rr (dflt (d_r_tip D) (at_index r i))) (rr (dflt (d_L_tip D) (at_index L i)))
             (Some (dflt (d_g_factor D) (at_index g i))) (gd i) (rr (dflt (d_d_Q1 D) (at_index dQ1 i))) nt in
                     Ok (a * cpown beta j)%cv)
           (seq 0 (dflt (d_n_tayl D) ntay)) in Ok (csum terms)); [reflexivity|].
    rewrite Eb. cbn [rbind]. erewrite mapM_pure; [cbn [rbind]; reflexivity|].
    intro j. cbn beta. rewrite (proj1 (fdm_coef_ok _ _ _ _ _ _ _ _ _ _ _)). reflexivity. }
  apply (vec_vectorised _ _ _ _ _) with (2 := SC).
  unfold fdm_eff_pol_n_taylor_a. rewrite Ed.
  assert (Hassoc : forall (A B E : Type) (r : res A) (k : A -> B) (f : B -> res E),
      (let! x := (let! a := r in Ok (k a)) in f x) = (let! a := r in f (k a))) by (intros ? ? ? [?|?] ? ?; reflexivity).
  rewrite Hassoc. clear Hassoc.
  assert (Ib : incl bs (fdm_shapes o m z r L g dQ0 dQ1 dQa)).
  { unfold bs, fdm_shapes. destruct (String.eqb m "Q_ave"); isolve. }
  assert (It : incl (fdm_shapes o m z r L g dQ0 dQ1 dQa)
                 (bs ++ shape_of z ++ shape_of r ++ shape_of L ++ shape_of g ++ shape_of dQ0 ++ shape_of dQ1)).
  { unfold bs, fdm_shapes. destruct (String.eqb m "Q_ave"); isolve. }
  assert (Iz : incl (shape_of z ++ shape_of r ++ shape_of L ++ shape_of g ++ shape_of dQ0 ++ shape_of dQ1)
                 (fdm_shapes o m z r L g dQ0 dQ1 dQa)).
  { unfold fdm_shapes. isolve. }
  set (FS := fdm_shapes o m z r L g dQ0 dQ1 dQa) in *. clearbody FS.
  eapply vec_let; [exact Vd| |].
  { eapply incl_tran; [exact I1|]. eapply incl_tran; [|apply incl_appr, Iz]. isolve. }
  intros d0 Vd0. rewrite HM'. fold m. rewrite Em. fold rb.
  eapply vec_let; [exact Vb|apply incl_appr, Ib|]. intros b Vb'.
  pose proof (fdm_taylor_core D (darr (d_z_tip D) z) A n b r' L' g' d0 d1' nt (dflt (d_n_tayl D) ntay)) as V.
  cbn zeta in V.
  assert (V' : forall h (rs : res (arr CV)), vec [shp (darr (d_z_tip D) z); shp A; shp n; shp b; shp r'; shp L'; shp g'; shp d0; shp d1'] h rs ->
     vec (shape_of dQ1 ++ s0 ++ shape_of g ++ shape_of L ++ shape_of r ++ bs ++ shape_of z ++ [shp A; shp n]) h rs).
  { intros h r0 W.
    apply (vec_subst _ _ _ _ _ _ _ _ V1).
    eapply vec_incl with (ss := s0 ++ shp d1' :: shape_of g ++ shape_of L ++ shape_of r ++ bs ++ shape_of z ++ [shp A; shp n]); [isolve|isolve|].
    apply (vec_subst _ _ _ _ _ _ _ _ Vd0).
    eapply vec_incl with (ss := shape_of g ++ shp d0 :: shp d1' :: shape_of L ++ shape_of r ++ bs ++ shape_of z ++ [shp A; shp n]); [isolve|isolve|].
    apply (vec_subst _ _ _ _ _ _ _ _ Vg).
    eapply vec_incl with (ss := shape_of L ++ shp g' :: shp d0 :: shp d1' :: shape_of r ++ bs ++ shape_of z ++ [shp A; shp n]); [isolve|isolve|].
    apply (vec_subst _ _ _ _ _ _ _ _ VL).
    eapply vec_incl with (ss := shape_of r ++ shp L' :: shp g' :: shp d0 :: shp d1' :: bs ++ shape_of z ++ [shp A; shp n]); [isolve|isolve|].
    apply (vec_subst _ _ _ _ _ _ _ _ Vr).
    eapply vec_incl with (ss := bs ++ shp r' :: shp L' :: shp g' :: shp d0 :: shp d1' :: shape_of z ++ [shp A; shp n]); [isolve|isolve|].
    apply (vec_subst _ _ _ _ _ _ _ _ Vb').
    eapply vec_incl with (ss := shape_of z ++ shp b :: shp r' :: shp L' :: shp g' :: shp d0 :: shp d1' :: [shp A; shp n]); [isolve|isolve|].
    apply (vec_subst _ _ _ _ _ _ _ _ Vz).
    eapply vec_incl; [| |exact W]; isolve. }
  apply V' in V.
  eapply vec_by; [exact V| | |].
  - apply incl_app; [eapply incl_tran; [|apply incl_appr, Iz]; isolve|].
    apply incl_app; [eapply incl_tran; [exact I1|]; eapply incl_tran; [|apply incl_appr, Iz]; isolve|].
    apply incl_app; [eapply incl_tran; [|apply incl_appr, Iz]; isolve|].
    apply incl_app; [eapply incl_tran; [|apply incl_appr, Iz]; isolve|].
    apply incl_app; [eapply incl_tran; [|apply incl_appr, Iz]; isolve|].
    apply incl_app; [apply incl_appr, Ib|].
    apply incl_app; [eapply incl_tran; [|apply incl_appr, Iz]; isolve|isolve].
  - apply incl_app; [isolve|]. eapply incl_tran; [exact It|].
    repeat apply incl_app; try isolve. eapply incl_tran; [exact I2|isolve].
  - intro i. cbn beta.
    rewrite (proj2 (vec_ok _ _ _ _ V1)), (proj2 (vec_ok _ _ _ _ Vd0)), (proj2 (vec_ok _ _ _ _ Vg)), (proj2 (vec_ok _ _ _ _ VL)),
      (proj2 (vec_ok _ _ _ _ Vr)), (proj2 (vec_ok _ _ _ _ Vb')), (proj2 (vec_ok _ _ _ _ Vz)). reflexivity.
Qed.
