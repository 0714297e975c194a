(** * Sequences as arguments (C87): the forward functions *)
From Coq Require Import String Reals Lra Lia ZArith List Bool FunctionalExtensionality.
From Coquelicot Require Import Rcomplements Complex.
From Verif Require Import Num NumLemmas ModelBase ModelSample ModelTip NArr SpecArr NArrLemmas ModelObj
  ModelArr SpecObj ArrSample ProofsArr ProofsArr2 ModelArrTip ProofsArrTip ProofsArrTip2 ProofsArrTip3 ProofsArrTip4
  ProofsArrTip5 ProofsArrTip6 ModelInv ModelSeq SpecSeq.
Import ListNotations.
Open Scope R_scope.

Lemma as_array_eq : forall A (d : A) v, asanyarray d v = as_array d v.
Proof. intros A d [x|l|a]; reflexivity. Qed.
Lemma asany_dflt : forall A (d : A) (e : A) o, asanyarray e (pdflt d o) = darr d (as_array_opt e o).
Proof. intros A d e [[x|l|a]|]; reflexivity. Qed.

(** adding converts as soon as one side is an array or none is a sequence *)
Lemma padd_converts : forall A (d : A) f v w, (is_array v \/ is_array w \/ (plain v /\ plain w)) ->
  match amap2 f (asanyarray d v) (asanyarray d w) with
  | Ok a => exists r, padd d f v w = Ok r /\ asanyarray d r = a
  | Raise e => padd d f v w = Raise e
  end.
Proof.
  intros A d f v w H.
  destruct v as [x|l|a], w as [y|m|b];
    try (cbn in H; tauto);
    try (cbn [amap2 asanyarray scalar shp bshape]; eexists; split; reflexivity);
    cbn [padd]; destruct (amap2 f _ _); try reflexivity; eexists; split; reflexivity.
Qed.
Lemma dflt_cases : forall A (d : A) o (w : py A), array_opt o \/ is_array w \/ (plain_opt o /\ plain w) ->
  is_array (pdflt d o) \/ is_array w \/ (plain (pdflt d o) /\ plain w).
Proof. intros A d [v|] w H; cbn in *; tauto. Qed.

Ltac aa := repeat match goal with |- context [as_array ?d ?v] => change (as_array d v) with (asanyarray d v) end.
Ltac conv H :=
  apply (padd_converts _ 0 Rplus) in H;
  match type of H with match ?x with _ => _ end =>
    destruct x; [destruct H as (zz & -> & Hzz); cbn [rbind]; rewrite Hzz; reflexivity|rewrite H; reflexivity] end.
(** the representative charge of [method='Q_ave'] *)
Lemma q_ave_converts : forall lag D o z (r d_Qa : option (arr R)) n_lag, plain (pdflt (d_z_tip D) z) ->
  (let! rd := match r, d_Qa with
              | None, None => Ok (Num (A:=RV) (rr (d_r_tip D) * rr (d_d_Qa D))%rv)
              | _, _ => let! a := amap2 (fun r d => (rr r * rr d)%rv) (darr (d_r_tip D) r) (darr (d_d_Qa D) d_Qa) in Ok (Arr a)
              end in
   let! z_Qa := padd (A:=RV) None radd (pmap (B:=RV) rr (pdflt (d_z_tip D) z)) rd in
   refl_coef_qs_above_surf_p lag D o z_Qa n_lag)
  = (let! z_Qa := lift2 radd (Ok (amap rr (asanyarray 0 (pdflt (d_z_tip D) z))))
                    (amap2 (fun r d => (rr r * rr d)%rv) (darr (d_r_tip D) r) (darr (d_d_Qa D) d_Qa)) in
     refl_coef_qs_above_surf_a lag D o z_Qa n_lag).
Proof.
  intros lag D o z r d_Qa n_lag Pz.
      assert (AS : forall v : py RV, plain v ->
        refl_coef_qs_above_surf_p lag D o v n_lag = refl_coef_qs_above_surf_a lag D o (as_array None v) n_lag).
      { intros v Hv. unfold refl_coef_qs_above_surf_p, refl_coef_qs_above_surf_a, sampled_beta_p, sampled_beta_a.
        destruct v as [x|l|a]; [reflexivity|destruct Hv|reflexivity]. }
      assert (Gen : forall a : arr RV,
         (let! z_Qa := padd (A:=RV) None radd (pmap (B:=RV) rr (pdflt (d_z_tip D) z)) (Arr a) in refl_coef_qs_above_surf_p lag D o z_Qa n_lag)
         = (let! z_Qa := lift2 radd (Ok (amap rr (asanyarray 0 (pdflt (d_z_tip D) z)))) (Ok a) in
            refl_coef_qs_above_surf_a lag D o z_Qa n_lag)).
      { intro a. pose proof (padd_converts RV None radd (@pmap R RV rr (pdflt (d_z_tip D) z)) (Arr a) (or_intror (or_introl I))) as Hp.
        assert (E1 : @asanyarray RV None (@pmap R RV rr (pdflt (d_z_tip D) z)) = amap rr (asanyarray 0 (pdflt (d_z_tip D) z)))
          by (destruct (pdflt (d_z_tip D) z); [reflexivity|destruct Pz|reflexivity]).
        rewrite E1 in Hp. change (asanyarray None (Arr a)) with a in Hp. cbn [lift2 rbind].
        assert (Pr : forall r, padd (A:=RV) None radd (pmap (B:=RV) rr (pdflt (d_z_tip D) z)) (Arr a) = Ok r -> plain r).
        { intros rr0 Er. destruct (pdflt (d_z_tip D) z); [|destruct Pz|]; cbn [pmap padd] in Er;
            match type of Er with rbind ?x _ = _ => destruct x end; try discriminate Er; cbn [rbind] in Er; injection Er as <-; exact I. }
        destruct (amap2 radd _ a) as [q|e]; [|rewrite Hp; reflexivity].
        destruct Hp as (r0 & Er & <-). rewrite Er. cbn [rbind]. apply AS, Pr, Er. }
      destruct r as [r|], d_Qa as [dq|].
      - cbn [darr]. destruct (amap2 _ r dq) as [a|e]; [|reflexivity]. cbn [rbind]. apply Gen.
      - cbn [darr]. destruct (amap2 _ r _) as [a|e]; [|reflexivity]. cbn [rbind]. apply Gen.
      - cbn [darr]. destruct (amap2 _ _ dq) as [a|e]; [|reflexivity]. cbn [rbind]. apply Gen.
      - cbn [darr rbind].
        pose proof (padd_converts RV None radd (@pmap R RV rr (pdflt (d_z_tip D) z)) (Num (rr (d_r_tip D) * rr (d_d_Qa D))%rv)) as Hp.
        assert (Pp : plain (pmap rr (pdflt (d_z_tip D) z))) by (destruct (pdflt (d_z_tip D) z); [exact I|destruct Pz|exact I]).
        specialize (Hp (or_intror (or_intror (conj Pp I)))).
        assert (E1 : @asanyarray RV None (@pmap R RV rr (pdflt (d_z_tip D) z)) = amap rr (asanyarray 0 (pdflt (d_z_tip D) z)))
          by (destruct (pdflt (d_z_tip D) z); [reflexivity|destruct Pz|reflexivity]).
        rewrite E1 in Hp.
        assert (Pr : forall r, padd (A:=RV) None radd (pmap (B:=RV) rr (pdflt (d_z_tip D) z)) (Num (rr (d_r_tip D) * rr (d_d_Qa D))%rv) = Ok r -> plain r).
        { intros rr0 Er. destruct (pdflt (d_z_tip D) z); [|destruct Pz|]; cbn [pmap padd] in Er;
            [injection Er as <-; exact I|].
            match type of Er with rbind ?x _ = _ => destruct x end; try discriminate Er; cbn [rbind] in Er; injection Er as <-; exact I. }
        match goal with |- _ = rbind ?x _ =>
          change x with (amap2 radd (amap rr (asanyarray 0 (pdflt (d_z_tip D) z))) (asanyarray None (Num (rr (d_r_tip D) * rr (d_d_Qa D))%rv))) end.
        destruct (amap2 radd _ _) as [q|e]; [|rewrite Hp; reflexivity].
        destruct Hp as (r0 & Er & <-). rewrite Er. cbn [rbind]. apply AS, Pr, Er. 
Qed.

(** C87, what the sequence layer adds to the array model: nothing, as long as
    one of the two heights is an array or neither is a sequence.  The harmonics
    may then be a sequence, except in [fdm.eff_pol_n_taylor]. *)
Lemma C87_converted_proof : forall lag (D : Defaults) o A n z n_trapz n_tayl,
  (array_opt z \/ is_array A \/ (plain_opt z /\ plain A)) ->
  (forall r L g d_Q0 d_Q1 d_Qa n_lag method,
   fdm_eff_pol_n_p lag D o A n z n_trapz r L g d_Q0 d_Q1 d_Qa n_lag method
   = fdm_eff_pol_n_a lag D o (as_array 0 A) (as_array 0%Z n) (as_array_opt 0 z) n_trapz r L g d_Q0 d_Q1 d_Qa n_lag method) /\
  (forall r eps_tip alpha_tip,
   pdm_eff_pol_n_p D o A n z n_trapz r eps_tip alpha_tip
   = pdm_eff_pol_n_a D o (as_array 0 A) (as_array 0%Z n) (as_array_opt 0 z) n_trapz r eps_tip alpha_tip) /\
  (forall r eps_tip alpha_tip,
   pdm_eff_pol_n_taylor_p D o A n z r eps_tip alpha_tip n_trapz n_tayl
   = pdm_eff_pol_n_taylor_a D o (as_array 0 A) (as_array 0%Z n) (as_array_opt 0 z) r eps_tip alpha_tip n_trapz n_tayl) /\
  (plain n -> plain_opt z -> forall r L g d_Q0 d_Q1 d_Qa n_lag method,
   fdm_eff_pol_n_taylor_p lag D o A n z r L g d_Q0 d_Q1 d_Qa n_lag method n_trapz n_tayl
   = fdm_eff_pol_n_taylor_a lag D o (as_array 0 A) (as_array 0%Z n) (as_array_opt 0 z) r L g d_Q0 d_Q1 d_Qa
       n_lag method n_trapz n_tayl).
Proof.
  intros lag D o A n z nt ntay H. apply (dflt_cases _ (d_z_tip D)) in H.
  split; [|split; [|split]].
  - intros. unfold fdm_eff_pol_n_p, fdm_eff_pol_n_a. rewrite <- asany_dflt. aa. conv H.
  - intros. unfold pdm_eff_pol_n_p, pdm_eff_pol_n_a. rewrite <- asany_dflt. aa. conv H.
  - intros. unfold pdm_eff_pol_n_taylor_p, pdm_eff_pol_n_taylor_a.
    destruct (pdm_defaults_a D r eps_tip alpha_tip) as [ra|e]; [|reflexivity]. cbn [rbind].
    destruct (refl_coef_qs_a o (scalar (rr 0))) as [b|e]; [|reflexivity]. cbn [rbind].
    unfold pdm_taylor_coef_p, pdm_taylor_coef_a. rewrite <- asany_dflt. aa. conv H.
  - intros Hn Hz. intros. unfold fdm_eff_pol_n_taylor_p, fdm_eff_pol_n_taylor_a.
    destruct (fdm_defaults_a D r L g d_Q0 d_Q1 d_Qa) as [[[[[[r' L'] g'] d0'] d1'] da']|e] eqn:Ed; [|reflexivity].
    cbn [rbind]. destruct (get_multilayer o) as [multi|e]; [|reflexivity]. cbn [rbind].
    match goal with |- rbind ?x ?k = rbind ?y ?k' => assert (E : x = y) end.
    { destruct (String.eqb _ "bulk"); [reflexivity|]. destruct (String.eqb _ "Q_ave"); [|reflexivity].
      assert (DD : r' = darr (d_r_tip D) r /\ da' = darr (d_d_Qa D) d_Qa).
      { unfold fdm_defaults_a in Ed. cbn zeta in Ed.
        match type of Ed with rbind ?x _ = _ => destruct x end; [|discriminate Ed].
        cbn [rbind] in Ed. injection Ed as <- _ _ _ _ <-. split; reflexivity. }
      destruct DD as [-> ->]. rewrite <- asany_dflt.
      assert (Pz : plain (pdflt (d_z_tip D) z)) by (destruct z as [v|]; [exact Hz|exact I]).
      apply q_ave_converts, Pz. }
    match goal with |- rbind ?x ?k = rbind ?y ?k' => revert E; generalize x, y end. intros bb cc ->.
    destruct cc as [b|e]; [|reflexivity]. cbn [rbind].
    unfold fdm_taylor_coef_p, fdm_taylor_coef_a.
    rewrite <- asany_dflt. aa.
    assert (Hzero : amap (fun b : bool => if b then rc 1 else rc 0) (peq0 n)
              = amap (fun k => if Z.eqb k 0 then rc 1 else rc 0) (asanyarray 0%Z n))
      by (destruct n as [k|l|m]; [|destruct Hn|]; reflexivity).
    rewrite Hzero. conv H.
Qed.
