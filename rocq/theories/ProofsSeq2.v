(** * Sequences as arguments (C87): a sequence of harmonics *)
From Coq Require Import String Reals Lra Lia ZArith List Bool FunctionalExtensionality.
From Coquelicot Require Import Rcomplements Complex.
From Verif Require Import Num NumLemmas ModelBase ModelSample ModelTip NArr SpecArr NArrLemmas ModelObj
  ModelArr SpecObj ArrSample ProofsArr ProofsArr2 ModelArrTip ProofsArrTip ProofsArrTip2 ProofsArrTip3 ProofsArrTip4
  ProofsArrTip5 ProofsArrTip6 ModelInv ModelSeq SpecSeq ProofsSeq.
Import ListNotations.
Open Scope R_scope.

Lemma entry_arr1 : forall A (d : A) l i, entry (arr1 d l) i = item d l i.
Proof. intros A d l [|k i]; reflexivity. Qed.

(** the constant term is lost *)
Lemma fdm_coef_list_vec : forall D (zp : py R) (j : arr nat) (Ap : py R) (ns : list Z) (r L : arr RV) (g : arr CV) (d0 d1 : arr RV) nt,
  (is_array zp \/ is_array Ap \/ (plain zp /\ plain Ap)) ->
  let z := asanyarray 0 zp in let A := asanyarray 0 Ap in
  vec [shp z; shp j; shp A; [length ns]; shp r; shp L; shp g; shp d0; shp d1]
      (fun i => if Nat.eqb (entry j i) 0 then rc 0 else
                value (fdm_taylor_coef D (entry z i) (entry j i) (entry A i) (item 0%Z ns i) (entry r i) (entry L i)
                  (entry g i) (entry d0 i) (entry d1 i) nt))
      (fdm_taylor_coef_p D zp j Ap (Seq ns) r L g d0 d1 nt).
Proof.
  intros D zp j Ap ns r L g d0 d1 nt Hp. intros. unfold fdm_taylor_coef_p.
  set (n := arr1 0%Z ns). change [length ns] with (shp n).
  assert (Hb : forall k : arr R -> res (arr CV),
    (let! z_0 := padd 0 Rplus zp Ap in k (asanyarray 0 z_0)) = (let! z_0 := amap2 Rplus z A in k z_0)).
  { intro k. apply (padd_converts _ 0 Rplus) in Hp. fold z A in Hp.
    destruct (amap2 Rplus z A); [destruct Hp as (q & -> & <-); reflexivity|rewrite Hp; reflexivity]. }
  fold A. change (asanyarray 0%Z (Seq ns)) with n.
  match goal with |- vec _ _ ?x => set (X := x) end. pattern X. subst X.
  rewrite (Hb (fun z0 => let! d := demod_a D (fun z => fdm_geom_func_taylor_a (amap rr z) j r L g d0 d1) z0 A n nt in
     lift2 (fun j ab => if Nat.eqb j 0 then fst ab else snd ab) (Ok j)
        (amap2 pair (amap (fun b : bool => if b then rc 1 else rc 0) (peq0 (Seq ns))) (amap (fun y => (y / rc 2)%cv) d)))).
  clearbody z A.
  eapply vec_let; [vsolve|isolve|]. intros z0 Vz0. destruct (vec_ok _ _ _ _ Vz0) as [_ Ez0].
  assert (EL : elementwise [shp j; shp r; shp L; shp g; shp d0; shp d1]
    (fun i x => fdm_geom_func_taylor (rr x) (entry j i) (entry r i) (entry L i) (entry g i) (entry d0 i) (entry d1 i))
    (fun z => fdm_geom_func_taylor_a (amap rr z) j r L g d0 d1)).
  { intro x. eapply vec_by; [eapply geom_taylor_vec; vsolve|isolve|isolve|reflexivity]. }
  pose proof (demod_elementwise D _ _ _ z0 A n nt EL) as VD.
  cbn [app] in VD. eapply vec_let; [exact (vec_subst _ _ _ _ _ _ _ _ Vz0 VD)|isolve|].
  intros d Vd. cbn [peq0]. change (amap (fun b : bool => if b then rc 1 else rc 0) (scalar false)) with (scalar (rc 0)).
  eapply vec_by; [vsolve|isolve|isolve|]. intro i. cbn [fst snd].
  rewrite (proj2 (fdm_coef_ok _ _ _ _ _ _ _ _ _ _ _)), Ez0, <- (entry_arr1 _ 0%Z ns i). fold n.
  destruct (Nat.eqb (entry j i) 0); reflexivity.
Qed.

Lemma fdm_taylor_list_core : forall D (zp Ap : py R) (ns : list Z) (b : arr CV) (r L : arr R) (g : arr C) (d0 : arr RV) (d1 : arr R) nt ntay,
  (is_array zp \/ is_array Ap \/ (plain zp /\ plain Ap)) ->
  let z := asanyarray 0 zp in let A := asanyarray 0 Ap in
  let T := [shp z; shp A; [length ns]; shp b; shp r; shp L; shp g; shp d0; shp d1] in
  vec T (fun i => csum (map (fun j => ((if Nat.eqb j 0 then rc 0 else value (fdm_taylor_coef D (entry z i) j (entry A i) (item 0%Z ns i) (rr (entry r i))
             (rr (entry L i)) (Some (entry g i)) (entry d0 i) (rr (entry d1 i)) nt)) * cpown (entry b i) j)%cv) (seq 0 ntay)))
    (let j := pad_for_broadcasting O (seq 0 ntay) T in
     let! coefs := fdm_taylor_coef_p D zp j Ap (Seq ns) (amap rr r) (amap rr L) (amap Some g) d0 (amap rr d1) nt in
     let! terms := lift2 cmul (Ok coefs) (amap2 cpown b j) in
     Ok (sum_axis0 terms)).
Proof.
  intros D zp Ap ns b r L g d0 d1 nt ntay Hp z A T. cbn zeta. set (j := pad_for_broadcasting O (seq 0 ntay) T).
  assert (V : vec (T ++ [shp j]) (fun i => ((if Nat.eqb (entry j i) 0 then rc 0 else value (fdm_taylor_coef D (entry z i) (entry j i) (entry A i) (item 0%Z ns i) (rr (entry r i))
             (rr (entry L i)) (Some (entry g i)) (entry d0 i) (rr (entry d1 i)) nt)) * cpown (entry b i) (entry j i))%cv)
     (let! coefs := fdm_taylor_coef_p D zp j Ap (Seq ns) (amap rr r) (amap rr L) (amap Some g) d0 (amap rr d1) nt in
      lift2 cmul (Ok coefs) (amap2 cpown b j))).
  { unfold T. eapply vec_let; [apply fdm_coef_list_vec; exact Hp|cbn [amap shp]; isolve|]. intros c Vc.
    cbn [amap shp] in Vc. eapply vec_by; [vsolve|isolve|isolve|]. intro i. reflexivity. }
  assert (Hassoc : forall rc : res (arr CV),
     (let! coefs := rc in let! terms := lift2 cmul (Ok coefs) (amap2 cpown b j) in Ok (sum_axis0 terms))
     = (let! t := (let! coefs := rc in lift2 cmul (Ok coefs) (amap2 cpown b j)) in Ok (sum_axis0 t)))
    by (intros [?|?]; reflexivity).
  rewrite Hassoc. clear Hassoc.
  destruct (bshapes T) as [Sh|] eqn:E.
  - apply (sum_padded T Sh ntay (fun i j => ((if Nat.eqb j 0 then rc 0 else value (fdm_taylor_coef D (entry z i) j (entry A i) (item 0%Z ns i) (rr (entry r i))
             (rr (entry L i)) (Some (entry g i)) (entry d0 i) (rr (entry d1 i)) nt)) * cpown (entry b i) j)%cv) _ E V).
    intros i k j'. cbn beta. rewrite <- !(entry_arr1 _ 0%Z ns).
    rewrite !(entry_in_front _ _ Sh) by (apply (bshapes_fits _ _ _ E); unfold T; first [in_leaf|change (shp (arr1 0%Z ns)) with [length ns]; in_leaf]).
    reflexivity.
  - unfold vec in V. rewrite (bshapes_app_none_l _ _ E) in V. destruct V as (m & ->). apply vec_none, E.
Qed.

(** the sum without its constant term *)
Lemma csum_lost : forall (c : nat -> CV) (b : CV) d m, m <> O -> c O = rc d ->
  csum (map (fun j => ((if Nat.eqb j 0 then rc 0 else c j) * cpown b j)%cv) (seq 0 m))
  = (csum (map (fun j => (c j * cpown b j)%cv) (seq 0 m)) - rc d)%cv.
Proof.
  intros c b d m Hm Hc. destruct m as [|m]; [contradiction|]. cbn [seq map csum fold_right Nat.eqb]. rewrite Hc.
  fold (csum (map (fun j => ((if Nat.eqb j 0 then rc 0 else c j) * cpown b j)%cv) (seq 1 m))).
  fold (csum (map (fun j => (c j * cpown b j)%cv) (seq 1 m))).
  rewrite (map_ext_in (fun j => ((if Nat.eqb j 0 then rc 0 else c j) * cpown b j)%cv) (fun j => (c j * cpown b j)%cv)).
  2: { intros j Hj. apply in_seq in Hj. destruct j; [lia|]. reflexivity. }
  destruct (csum (map (fun j => (c j * cpown b j)%cv) (seq 1 m))) as [s|], b as [b|]; try reflexivity.
  unfold rc. cbn [cmul cadd csub cpown olift1 olift2 Cpown]. f_equal. ring.
Qed.

Lemma fdm_defaults_vec' : forall D r L g dQ0 dQ1 dQa,
  exists L' g' dQ1' rd, let r' := darr (d_r_tip D) r in let dQa' := darr (d_d_Qa D) dQa in
    fdm_defaults_a D r L g dQ0 dQ1 dQa = (let! d := rd in Ok (r', L', g', d, dQ1', dQa')) /\
    vec (shape_of r) (fun i => dflt (d_r_tip D) (at_index r i)) (Ok r') /\
    vec (shape_of L) (fun i => dflt (d_L_tip D) (at_index L i)) (Ok L') /\
    vec (shape_of g) (fun i => dflt (d_g_factor D) (at_index g i)) (Ok g') /\
    vec (shape_of dQ1) (fun i => dflt (d_d_Q1 D) (at_index dQ1 i)) (Ok dQ1') /\
    vec (shape_of dQa) (fun i => dflt (d_d_Qa D) (at_index dQa i)) (Ok dQa') /\
    exists s0 gd, vec s0 gd rd /\ incl s0 (shape_of r ++ shape_of L ++ shape_of dQ0) /\
      incl (shape_of dQ0) s0 /\
      forall i, fdm_defaults D (at_index r i) (at_index L i) (at_index g i) (at_index dQ0 i)
                  (at_index dQ1 i) (at_index dQa i)
        = (dflt (d_r_tip D) (at_index r i), dflt (d_L_tip D) (at_index L i), dflt (d_g_factor D) (at_index g i),
           gd i, dflt (d_d_Q1 D) (at_index dQ1 i), dflt (d_d_Qa D) (at_index dQa i)).
Proof.
  intros. unfold fdm_defaults_a.
  do 4 eexists. cbn zeta. split; [reflexivity|].
  do 5 (split; [apply vec_darr|]).
  destruct dQ0 as [d|].
  - exists [shp d], (fun i => rr (entry d i)). split; [vsolve|].
    split; [isolve|]. split; [isolve|]. intro i. reflexivity.
  - eexists _, _. split; [vsolve|]. split; [isolve|]. split; [isolve|]. intro i. reflexivity.
Qed.

(** C87, the harmonics as a Python sequence: [fdm.eff_pol_n_taylor] broadcasts
    as with an array, but the constant term of the Taylor series is lost at
    harmonic 0 ([n == 0] is False for a list), so that the result there is one
    less; the other harmonics are right. *)
Lemma C87_taylor_harmonics_proof : forall lag (D : Defaults) o Ap (ns : list Z) zp r L g d_Q0 d_Q1 d_Qa n_lag method n_trapz n_tayl, consistent o ->
  fdm_call o ["Q_ave"%string] (method_of o "Q_ave" method)
    (match n_lag with Some n => n | None => d_n_lag D end) ->
  (match n_tayl with Some n => n | None => d_n_tayl D end) <> O ->
  plain Ap -> plain_opt zp -> let A := as_array 0 Ap in let z := as_array_opt 0 zp in
  vectorised ([shp A; [length ns]] ++ fdm_shapes o (method_of o "Q_ave" method) z r L g d_Q0 d_Q1 d_Qa)
    (fun i => match fdm_eff_pol_n_taylor lag D (sample_at o i) (entry A i) (item 0%Z ns i) (at_index z i)
                (at_index r i) (at_index L i) (at_index g i)
                (at_index d_Q0 i) (at_index d_Q1 i) (at_index d_Qa i) n_lag method n_trapz n_tayl with
              | Ok a => Ok (if Z.eqb (item 0%Z ns i) 0 then a - rc 1 else a)%cv
              | Raise e => Raise e
              end)
    (fdm_eff_pol_n_taylor_p lag D o Ap (Seq ns) zp r L g d_Q0 d_Q1 d_Qa n_lag method n_trapz n_tayl).
Proof.
  intros lag D o Ap ns zp r L g dQ0 dQ1 dQa n_lag method nt ntay Hc Hm Hnt PA Pz0 A z.
  change (match ntay with Some n => n | None => d_n_tayl D end) with (dflt (d_n_tayl D) ntay) in Hnt.
  assert (Pz : plain (pdflt (d_z_tip D) zp)) by (destruct zp as [v|]; [exact Pz0|exact I]). change (match n_lag with Some n => n | None => d_n_lag D end)
    with (dflt (d_n_lag D) n_lag) in Hm.
  apply call_cases in Hm; [|isolve].
  destruct (multilayer_at o Hc) as [HM Hm'].
  assert (HM' : forall k : bool -> res (arr CV), (let! b := get_multilayer o in k b) = k (many_layers o))
      by (intro k; rewrite HM; reflexivity).
  destruct (fdm_defaults_vec' D r L g dQ0 dQ1 dQa)
    as (L' & g' & d1' & rd & Ed & Vr & VL & Vg & V1 & Va & s0 & gd & Vd & I1 & I2 & Es).
  set (m := method_of o "Q_ave" method) in *.
  assert (Em : match method with None => if many_layers o then "Q_ave"%string else "bulk"%string | Some m => m end = m)
    by reflexivity.
  pose proof (vec_darr _ (d_z_tip D) z) as Vz.
  set (rb := if String.eqb m "bulk" then
         if many_layers o then Raise (ValueError msg_bulk_multi)
         else refl_coef_qs_a o (scalar (rr 0))
       else if String.eqb m "Q_ave" then
         let! z_Qa := lift2 radd (Ok (amap rr (darr (d_z_tip D) z))) (amap2 (fun r d => (rr r * rr d)%rv) (darr (d_r_tip D) r) (darr (d_d_Qa D) dQa)) in
         refl_coef_qs_above_surf_a lag D o z_Qa n_lag
       else Raise (ValueError msg_method_taylor)).
  set (sb := fun i => if String.eqb m "bulk" then
         if many_layers o then Raise (ValueError msg_bulk_multi)
         else refl_coef_qs (sample_at o i) (rr 0)
       else if String.eqb m "Q_ave" then
         refl_coef_qs_above_surf lag D (sample_at o i)
           (rr (dflt (d_z_tip D) (at_index z i)) + rr (dflt (d_r_tip D) (at_index r i)) * rr (dflt (d_d_Qa D) (at_index dQa i)))%rv n_lag
       else Raise (ValueError msg_method_taylor)).
  set (bs := [eps_shape o; t_shape o] ++ (if String.eqb m "Q_ave" then shape_of z ++ shape_of r ++ shape_of dQa else [])).
  assert (Hb : vec bs (fun i => value (sb i)) rb /\ forall i, sb i = Ok (value (sb i))).
  { unfold rb, sb, bs. destruct Hm as [[Hm HB]|[(Hm & Hi & Hn)|(Hm & Hi & Hn)]].
    - rewrite Hm, HB. cbn [String.eqb Ascii.eqb Bool.eqb app].
      destruct (beta0_vec o Hc) as (gb & Vb & Eb). split.
      + eapply vec_ext; [|exact Vb]. intro i. cbn beta. rewrite Eb. reflexivity.
      + intro i. rewrite Eb. reflexivity.
    - exfalso. rewrite Hm in Hi. destruct Hi as [Hi|[]]. discriminate Hi.
    - rewrite Hm. cbn [String.eqb Ascii.eqb Bool.eqb]. split.
      + eapply vec_let; [vsolve|isolve|]. intros za Vza.
        eapply vec_by; [exact (vec_apply _ _ _ _ _ _ _ _ (above_elem lag D o n_lag Hc Hn) Vza)|isolve|isolve|].
        reflexivity.
      + intro i. apply (above_ok lag D o n_lag i _ Hc Hn). }
  destruct Hb as [Vb Eb].
  assert (SC : forall i, fdm_eff_pol_n_taylor lag D (sample_at o i) (entry A i) (item 0%Z ns i) (at_index z i)
                (at_index r i) (at_index L i) (at_index g i)
                (at_index dQ0 i) (at_index dQ1 i) (at_index dQa i) n_lag method nt ntay
     = Ok (csum (map (fun j => (value (fdm_taylor_coef D (dflt (d_z_tip D) (at_index z i)) j (entry A i) (item 0%Z ns i)
             (rr (dflt (d_r_tip D) (at_index r i))) (rr (dflt (d_L_tip D) (at_index L i)))
             (Some (dflt (d_g_factor D) (at_index g i))) (gd i) (rr (dflt (d_d_Q1 D) (at_index dQ1 i))) nt)
             * cpown (value (sb i)) j)%cv) (seq 0 (dflt (d_n_tayl D) ntay))))).
  { intro i. unfold fdm_eff_pol_n_taylor. cbn zeta. rewrite Es, Hm'. fold m. rewrite Em.
    transitivity (let! beta := sb i in
      let! terms := mapM (fun j => let! a := fdm_taylor_coef D (dflt (d_z_tip D) (at_index z i)) j (entry A i) (item 0%Z ns i)
             (rr (dflt (d_r_tip D) (at_index r i))) (rr (dflt (d_L_tip D) (at_index L i)))
             (Some (dflt (d_g_factor D) (at_index g i))) (gd i) (rr (dflt (d_d_Q1 D) (at_index dQ1 i))) nt in
                     Ok (a * cpown beta j)%cv)
           (seq 0 (dflt (d_n_tayl D) ntay)) in Ok (csum terms)); [reflexivity|].
    rewrite Eb. cbn [rbind]. erewrite mapM_pure; [cbn [rbind]; reflexivity|].
    intro j. cbn beta. rewrite (proj1 (fdm_coef_ok _ _ _ _ _ _ _ _ _ _ _)). reflexivity. }
  assert (SC' : forall i, match fdm_eff_pol_n_taylor lag D (sample_at o i) (entry A i) (item 0%Z ns i) (at_index z i)
                (at_index r i) (at_index L i) (at_index g i)
                (at_index dQ0 i) (at_index dQ1 i) (at_index dQa i) n_lag method nt ntay with
              | Ok a => Ok (if Z.eqb (item 0%Z ns i) 0 then a - rc 1 else a)%cv
              | Raise e => Raise e
              end
     = Ok (csum (map (fun j => ((if Nat.eqb j 0 then rc 0 else value (fdm_taylor_coef D (dflt (d_z_tip D) (at_index z i)) j (entry A i) (item 0%Z ns i)
             (rr (dflt (d_r_tip D) (at_index r i))) (rr (dflt (d_L_tip D) (at_index L i)))
             (Some (dflt (d_g_factor D) (at_index g i))) (gd i) (rr (dflt (d_d_Q1 D) (at_index dQ1 i))) nt))
             * cpown (value (sb i)) j)%cv) (seq 0 (dflt (d_n_tayl D) ntay))))).
  { intro i. rewrite SC. f_equal. symmetry.
    rewrite (csum_lost (fun j => value (fdm_taylor_coef D (dflt (d_z_tip D) (at_index z i)) j (entry A i) (item 0%Z ns i)
             (rr (dflt (d_r_tip D) (at_index r i))) (rr (dflt (d_L_tip D) (at_index L i)))
             (Some (dflt (d_g_factor D) (at_index g i))) (gd i) (rr (dflt (d_d_Q1 D) (at_index dQ1 i))) nt)) (value (sb i))
      (if Z.eqb (item 0%Z ns i) 0 then 1 else 0) _ Hnt).
    2: { rewrite (proj2 (fdm_coef_ok _ _ _ _ _ _ _ _ _ _ _)). cbn [Nat.eqb]. destruct (Z.eqb _ 0); reflexivity. }
    destruct (Z.eqb _ 0); [reflexivity|].
    destruct (csum _) as [s|]; [|reflexivity]. unfold rc. cbn [csub olift2]. f_equal. ring. }
  apply (vec_vectorised _ _ _ _ _) with (2 := SC').
  unfold fdm_eff_pol_n_taylor_p. rewrite Ed.
  assert (Hassoc : forall (A B E : Type) (r : res A) (k : A -> B) (f : B -> res E),
      (let! x := (let! a := r in Ok (k a)) in f x) = (let! a := r in f (k a))) by (intros ? ? ? [?|?] ? ?; reflexivity).
  rewrite Hassoc. clear Hassoc.
  assert (Ib : incl bs (fdm_shapes o m z r L g dQ0 dQ1 dQa)).
  { unfold bs, fdm_shapes. destruct (String.eqb m "Q_ave"); isolve. }
  assert (It : incl (fdm_shapes o m z r L g dQ0 dQ1 dQa)
                 (bs ++ shape_of z ++ shape_of r ++ shape_of L ++ shape_of g ++ shape_of dQ0 ++ shape_of dQ1)).
  { unfold bs, fdm_shapes. destruct (String.eqb m "Q_ave"); isolve. }
  assert (Iz : incl (shape_of z ++ shape_of r ++ shape_of L ++ shape_of g ++ shape_of dQ0 ++ shape_of dQ1)
                 (fdm_shapes o m z r L g dQ0 dQ1 dQa)).
  { unfold fdm_shapes. isolve. }
  set (FS := fdm_shapes o m z r L g dQ0 dQ1 dQa) in *. clearbody FS.
  eapply vec_let; [exact Vd| |].
  { eapply incl_tran; [exact I1|]. eapply incl_tran; [|apply incl_appr, Iz]. isolve. }
  intros d0 Vd0. rewrite HM'. fold m. rewrite Em.
  rewrite (q_ave_converts lag D o zp r dQa n_lag Pz).
  pose proof (asany_dflt _ (d_z_tip D) 0 zp) as Ez. fold z in Ez. rewrite Ez. fold rb.
  eapply vec_let; [exact Vb|apply incl_appr, Ib|]. intros b Vb'.
  pose proof (fdm_taylor_list_core D (pdflt (d_z_tip D) zp) Ap ns b (darr (d_r_tip D) r) L' g' d0 d1' nt (dflt (d_n_tayl D) ntay)
    (or_intror (or_intror (conj Pz PA)))) as V.
  cbn zeta in V. rewrite Ez in V. change (asanyarray 0 Ap) with A in *. change (asanyarray 0%Z (Seq ns)) with (arr1 0%Z ns) in *.
  change (shp (arr1 0%Z ns)) with [length ns] in *.
  assert (V' : forall h (rs : res (arr CV)), vec [shp (darr (d_z_tip D) z); shp A; [length ns]; shp b; shp (darr (d_r_tip D) r); shp L'; shp g'; shp d0; shp d1'] h rs ->
     vec (shape_of dQ1 ++ s0 ++ shape_of g ++ shape_of L ++ shape_of r ++ bs ++ shape_of z ++ [shp A; [length ns]]) h rs).
  { intros h r0 W.
    apply (vec_subst _ _ _ _ _ _ _ _ V1).
    eapply vec_incl with (ss := s0 ++ shp d1' :: shape_of g ++ shape_of L ++ shape_of r ++ bs ++ shape_of z ++ [shp A; [length ns]]); [isolve|isolve|].
    apply (vec_subst _ _ _ _ _ _ _ _ Vd0).
    eapply vec_incl with (ss := shape_of g ++ shp d0 :: shp d1' :: shape_of L ++ shape_of r ++ bs ++ shape_of z ++ [shp A; [length ns]]); [isolve|isolve|].
    apply (vec_subst _ _ _ _ _ _ _ _ Vg).
    eapply vec_incl with (ss := shape_of L ++ shp g' :: shp d0 :: shp d1' :: shape_of r ++ bs ++ shape_of z ++ [shp A; [length ns]]); [isolve|isolve|].
    apply (vec_subst _ _ _ _ _ _ _ _ VL).
    eapply vec_incl with (ss := shape_of r ++ shp L' :: shp g' :: shp d0 :: shp d1' :: bs ++ shape_of z ++ [shp A; [length ns]]); [isolve|isolve|].
    apply (vec_subst _ _ _ _ _ _ _ _ Vr).
    eapply vec_incl with (ss := bs ++ shp (darr (d_r_tip D) r) :: shp L' :: shp g' :: shp d0 :: shp d1' :: shape_of z ++ [shp A; [length ns]]); [isolve|isolve|].
    apply (vec_subst _ _ _ _ _ _ _ _ Vb').
    eapply vec_incl with (ss := shape_of z ++ shp b :: shp (darr (d_r_tip D) r) :: shp L' :: shp g' :: shp d0 :: shp d1' :: [shp A; [length ns]]); [isolve|isolve|].
    apply (vec_subst _ _ _ _ _ _ _ _ Vz).
    eapply vec_incl; [| |exact W]; isolve. }
  apply V' in V.
  eapply vec_by; [exact V| | |].
  - apply incl_app; [eapply incl_tran; [|apply incl_appr, Iz]; isolve|].
    apply incl_app; [eapply incl_tran; [exact I1|]; eapply incl_tran; [|apply incl_appr, Iz]; isolve|].
    apply incl_app; [eapply incl_tran; [|apply incl_appr, Iz]; isolve|].
    apply incl_app; [eapply incl_tran; [|apply incl_appr, Iz]; isolve|].
    apply incl_app; [eapply incl_tran; [|apply incl_appr, Iz]; isolve|].
    apply incl_app; [apply incl_appr, Ib|].
    apply incl_app; [eapply incl_tran; [|apply incl_appr, Iz]; isolve|isolve].
  - apply incl_app; [isolve|]. eapply incl_tran; [exact It|].
    repeat apply incl_app; try isolve. eapply incl_tran; [exact I2|isolve].
  - intro i. cbn beta.
    rewrite (proj2 (vec_ok _ _ _ _ V1)), (proj2 (vec_ok _ _ _ _ Vd0)), (proj2 (vec_ok _ _ _ _ Vg)), (proj2 (vec_ok _ _ _ _ VL)),
      (proj2 (vec_ok _ _ _ _ Vr)), (proj2 (vec_ok _ _ _ _ Vb')), (proj2 (vec_ok _ _ _ _ Vz)). reflexivity.
Qed.
