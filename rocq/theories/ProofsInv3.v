(** * The root-finding inverses of both models as instances of the generic inversion *)
From Coq Require Import String Reals Lra Lia ZArith List Bool Permutation Sorted.
From Coquelicot Require Import Rcomplements Complex.
From Verif Require Import Num NumLemmas ModelBase ModelSample ModelTip NArr SpecArr NArrLemmas ModelObj
  ModelArr SpecObj ModelArrTip ModelInv SpecPoly SpecInv FTA ArrSample ProofsArr ProofsArr2 ProofsArrTip
  ProofsArrTip2 ProofsArrTip3 ProofsArrTip4 InvLemmas ProofsInv ProofsInv2.
Import ListNotations.
Open Scope nat_scope.

Lemma bshapes_arg : forall A ss sa ga (a : arr A), vec sa ga (Ok a) -> bshapes (shp a :: ss) = bshapes (sa ++ ss).
Proof.
  intros A ss sa ga a Va. destruct (vec_ok _ _ _ _ Va) as [Ea _].
  rewrite (bshapes_incl (shp a :: ss) (ss ++ [shp a])).
  - rewrite (bshapes_subst _ _ _ Ea). apply bshapes_incl; isolve.
  - apply incl_cons; [in_leaf|isolve].
  - isolve.
Qed.
Lemma off_shapes : forall ss ts coef alpha coef' alpha' nt r, bshapes ss = bshapes ts ->
  (forall i j, coef i j = coef' i j) -> (forall i, alpha i = alpha' i) ->
  off_spec ss coef alpha nt r -> off_spec ts coef' alpha' nt r.
Proof.
  intros ss ts coef alpha coef' alpha' nt r E E1 E2 H. unfold off_spec in *. rewrite <- E.
  destruct (bshapes ss); [|exact H]. destruct H as (a & Er & Sa & Ca). exists a. split; [exact Er|]. split; [exact Sa|].
  intros i Hi. rewrite (Ca i Hi). unfold offset_col. apply map_ext. intro j. rewrite !E1, E2. reflexivity.
Qed.
Lemma off_padded : forall T nt (coef : list nat -> nat -> CV) (alpha : list nat -> CV) r,
  (let j := pad_for_broadcasting O (seq 0 nt) T in
   vec (T ++ [shp j]) (fun i => if Nat.eqb (entry j i) 0 then (coef i (entry j i) - alpha i)%cv else coef i (entry j i)) r) ->
  (forall S i k j, bshapes T = Some S -> coef (bidx S i ++ [k]) j = coef i j) ->
  (forall S i k, bshapes T = Some S -> alpha (bidx S i ++ [k]) = alpha i) ->
  off_spec T coef alpha nt r.
Proof.
  intros T nt coef alpha r V Hc Ha. cbn zeta in V. set (j := pad_for_broadcasting O (seq 0 nt) T) in *.
  unfold off_spec. destruct (bshapes T) as [Sh|] eqn:E.
  - pose proof V as V'. unfold vec in V'. unfold j in V' at 1. rewrite pad_shape_gen, <- (joint_length _ _ E), seq_length, (pad_joint _ _ nt E) in V'.
    destruct V' as (a & -> & Sa & Ga). exists a. split; [reflexivity|]. split; [exact Sa|].
    intros i Hi. rewrite (column_eq _ _ _ _ _ Sa). unfold offset_col. apply map_ext_in. intros k Hk. apply in_seq in Hk.
    assert (Hb : bidx Sh i = i) by (apply bidx_index; exact Hi).
    assert (Hat : at_ a (i ++ [k]) = entry a (i ++ [k])).
    { symmetry. rewrite entry_bidx, Sa, bidx_index; [reflexivity|]. apply index_app; [exact Hi|lia]. }
    rewrite Hat, Ga. replace (i ++ [k]) with (bidx Sh i ++ [k]) by (rewrite Hb; reflexivity). rewrite !(Hc Sh), (Ha Sh) by reflexivity.
    unfold j. rewrite (pad_entry_gen _ _ _ _ _ _ _ (joint_length _ _ E)) by (rewrite seq_length; lia).
    rewrite seq_nth by lia. reflexivity.
  - unfold vec in V. rewrite (bshapes_app_none_l _ _ E) in V. exact V.
Qed.

(** ** Finite dipole model *)
Definition fdm_coef D z A n r L g d0 d1 nt (j : nat) : CV := value (fdm_taylor_coef D z j A n r L g d0 d1 nt).
Lemma fdm_off_core : forall D (z A : arr R) (n : arr Z) (al : arr CV) (r L : arr R) (g : arr C) (d0 : arr RV) (d1 : arr R) nt ntay,
  let T := [shp z; shp A; shp n; shp al; shp r; shp L; shp g; shp d0; shp d1] in
  let j := pad_for_broadcasting O (seq 0 ntay) T in
  off_spec T (fun i => fdm_coef D (entry z i) (entry A i) (entry n i) (rr (entry r i)) (rr (entry L i)) (Some (entry g i))
                 (entry d0 i) (rr (entry d1 i)) nt) (entry al) ntay
    (let! coefs := fdm_taylor_coef_a D z j A n (amap rr r) (amap rr L) (amap Some g) d0 (amap rr d1) nt in
     offset_coefs j coefs al).
Proof.
  intros D z A n al r L g d0 d1 nt ntay T j. apply off_padded.
  - fold j. cbn zeta. unfold T. eapply vec_let; [apply fdm_coef_vec|cbn [amap shp]; isolve|]. intros c Vc.
    cbn [amap shp] in Vc. unfold offset_coefs.
    eapply vec_let; [vsolve|isolve|]. intros df Vdf.
    eapply vec_by; [vsolve|isolve|isolve|]. intro i. reflexivity.
  - intros Sh i k j' E. cbn beta. rewrite !(entry_in_front _ _ Sh) by (apply (bshapes_fits _ _ _ E); unfold T; in_leaf).
    reflexivity.
  - intros Sh i k E. rewrite !(entry_in_front _ _ Sh) by (apply (bshapes_fits _ _ _ E); unfold T; in_leaf). reflexivity.
Qed.

Definition fdm_inv_coef D A n z r L g d0 d1 nt (i : list nat) (j : nat) : CV :=
  match fdm_defaults D (at_index r i) (at_index L i) (at_index g i) (at_index d0 i) (at_index d1 i) None with
  | (r, L, g, d0, d1, _) => fdm_coef D (dflt (d_z_tip D) (at_index z i)) (entry A i) (entry n i) (rr r) (rr L) (Some g) d0 (rr d1) nt j
  end.
Lemma fdm_inversion : forall eig sb sr D alpha A n z r L g d0 d1 nt ntay thr ri ra env,
  exists OFF, fdm_refl_coef_qs_from_eff_pol_n eig sb sr D alpha A n z r L g d0 d1 nt ntay thr ri ra env
      = inversion eig sb sr OFF (dflt (d_beta_threshold D) thr) ri ra (darr (d_eps_env D) env) /\
    off_spec (fdm_inverse_operands alpha A n z r L g d0 d1) (fdm_inv_coef D A n z r L g d0 d1 nt) (entry alpha)
      (dflt (d_n_tayl D) ntay) OFF.
Proof.
  intros eig sb sr D alpha A n z r L g d0 d1 nt ntay thr ri ra env.
  destruct (fdm_defaults_vec D r L g d0 d1 None)
    as (r' & L' & g' & d1' & da' & rd & Ed & Vr & VL & Vg & V1 & Va & s0 & gd & Vd & I1 & I2 & Es).
  pose proof (vec_darr _ (d_z_tip D) z) as Vz.
  exists (let! d := rd in
          let j := pad_for_broadcasting O (seq 0 (dflt (d_n_tayl D) ntay))
            [shp (darr (d_z_tip D) z); shp A; shp n; shp alpha; shp r'; shp L'; shp g'; shp d; shp d1'] in
          let! coefs := fdm_taylor_coef_a D (darr (d_z_tip D) z) j A n (amap rr r') (amap rr L') (amap Some g') d (amap rr d1') nt in
          offset_coefs j coefs alpha). split.
  { unfold fdm_refl_coef_qs_from_eff_pol_n, inversion. rewrite Ed. destruct rd as [d|]; [|reflexivity]. cbn [rbind].
    match goal with |- context [rbind ?x _] => destruct x as [c|]; reflexivity end. }
  destruct rd as [d|e].
  - cbn [rbind]. cbn zeta.
    pose proof (fdm_off_core D (darr (d_z_tip D) z) A n alpha r' L' g' d d1' nt (dflt (d_n_tayl D) ntay)) as V. cbn zeta in V.
    eapply off_shapes; [| | |exact V].
    + unfold fdm_inverse_operands.
      rewrite (bshapes_arg _ _ _ _ _ Vz).
      rewrite (bshapes_incl _ (shp d1' :: shape_of z ++ [shp A; shp n; shp alpha; shp r'; shp L'; shp g'; shp d])) by isolve.
      rewrite (bshapes_arg _ _ _ _ _ V1).
      rewrite (bshapes_incl _ (shp d :: shape_of d1 ++ shape_of z ++ [shp A; shp n; shp alpha; shp r'; shp L'; shp g'])) by isolve.
      rewrite (bshapes_arg _ _ _ _ _ Vd).
      rewrite (bshapes_incl _ (shp g' :: s0 ++ shape_of d1 ++ shape_of z ++ [shp A; shp n; shp alpha; shp r'; shp L'])) by isolve.
      rewrite (bshapes_arg _ _ _ _ _ Vg).
      rewrite (bshapes_incl _ (shp L' :: shape_of g ++ s0 ++ shape_of d1 ++ shape_of z ++ [shp A; shp n; shp alpha; shp r'])) by isolve.
      rewrite (bshapes_arg _ _ _ _ _ VL).
      rewrite (bshapes_incl _ (shp r' :: shape_of L ++ shape_of g ++ s0 ++ shape_of d1 ++ shape_of z ++ [shp A; shp n; shp alpha])) by isolve.
      rewrite (bshapes_arg _ _ _ _ _ Vr).
      apply bshapes_incl.
      * apply incl_app; [isolve|]. apply incl_app; [isolve|]. apply incl_app; [isolve|].
        apply incl_app; [eapply incl_tran; [exact I1|]; isolve|isolve].
      * repeat apply incl_app; try isolve. eapply incl_tran; [exact I2|]. isolve.
    + intros i j. unfold fdm_inv_coef. rewrite Es.
      rewrite (proj2 (vec_ok _ _ _ _ V1)), (proj2 (vec_ok _ _ _ _ Vd)), (proj2 (vec_ok _ _ _ _ Vg)), (proj2 (vec_ok _ _ _ _ VL)),
        (proj2 (vec_ok _ _ _ _ Vr)), (proj2 (vec_ok _ _ _ _ Vz)). reflexivity.
    + reflexivity.
  - cbn [rbind]. apply vec_raise in Vd. destruct Vd as (N & m & ->). unfold off_spec.
    rewrite (bshapes_none_incl s0); [eauto| |exact N]. unfold fdm_inverse_operands. eapply incl_tran; [exact I1|]. isolve.
Qed.

(** ** Point dipole model *)
Definition pdm_coef D z A n r a nt (j : nat) : CV := value (pdm_taylor_coef D z j A n r a nt).
Lemma pdm_off_core : forall D (z A : arr R) (n : arr Z) (al : arr CV) (r : arr R) (a : arr CV) nt ntay,
  let T := [shp z; shp A; shp n; shp al; shp r; shp a] in
  let j := pad_for_broadcasting O (seq 0 ntay) T in
  off_spec T (fun i => pdm_coef D (entry z i) (entry A i) (entry n i) (rr (entry r i)) (entry a i) nt) (entry al) ntay
    (let! coefs := pdm_taylor_coef_a D z j A n (amap rr r) a nt in offset_coefs j coefs al).
Proof.
  intros D z A n al r a nt ntay T j. apply off_padded.
  - fold j. cbn zeta. unfold T. eapply vec_let; [apply pdm_coef_vec|cbn [amap shp]; isolve|]. intros c Vc.
    cbn [amap shp] in Vc. unfold offset_coefs.
    eapply vec_let; [vsolve|isolve|]. intros df Vdf.
    eapply vec_by; [vsolve|isolve|isolve|]. intro i. reflexivity.
  - intros Sh i k j' E. cbn beta. rewrite !(entry_in_front _ _ Sh) by (apply (bshapes_fits _ _ _ E); unfold T; in_leaf).
    reflexivity.
  - intros Sh i k E. rewrite !(entry_in_front _ _ Sh) by (apply (bshapes_fits _ _ _ E); unfold T; in_leaf). reflexivity.
Qed.
Definition pdm_inv_coef D A n z r e a nt (i : list nat) (j : nat) : CV :=
  match pdm_defaults D (at_index r i) (at_index e i) (at_index a i) with
  | Ok (r, a) => pdm_coef D (dflt (d_z_tip D) (at_index z i)) (entry A i) (entry n i) (rr r) a nt j
  | Raise _ => None
  end.
Lemma pdm_inversion : forall eig sb sr D alpha A n z r e a nt ntay thr ri ra env, e = None \/ a = None ->
  exists OFF, pdm_refl_coef_qs_from_eff_pol_n eig sb sr D alpha A n z r e a nt ntay thr ri ra env
      = inversion eig sb sr OFF (dflt (d_beta_threshold D) thr) ri ra (darr (d_eps_env D) env) /\
    off_spec (pdm_inverse_operands alpha A n z r e a) (pdm_inv_coef D A n z r e a nt) (entry alpha)
      (dflt (d_n_tayl D) ntay) OFF.
Proof.
  intros eig sb sr D alpha A n z r e a nt ntay thr ri ra env Hea.
  destruct (pdm_defaults_vec D r e a Hea) as (r' & rra & Ed & Vr & s0 & ga & Va & I1 & I2 & Es).
  pose proof (vec_darr _ (d_z_tip D) z) as Vz.
  exists (let! x := rra in
          let j := pad_for_broadcasting O (seq 0 (dflt (d_n_tayl D) ntay))
            [shp (darr (d_z_tip D) z); shp A; shp n; shp alpha; shp r'; shp x] in
          let! coefs := pdm_taylor_coef_a D (darr (d_z_tip D) z) j A n (amap rr r') x nt in
          offset_coefs j coefs alpha). split.
  { unfold pdm_refl_coef_qs_from_eff_pol_n, inversion. rewrite Ed. destruct rra as [d|]; [|reflexivity]. cbn [rbind fst snd].
    match goal with |- context [rbind ?x _] => destruct x as [c|]; reflexivity end. }
  destruct rra as [x|er].
  - cbn [rbind]. cbn zeta.
    pose proof (pdm_off_core D (darr (d_z_tip D) z) A n alpha r' x nt (dflt (d_n_tayl D) ntay)) as V. cbn zeta in V.
    eapply off_shapes; [| | |exact V].
    + unfold pdm_inverse_operands.
      rewrite (bshapes_arg _ _ _ _ _ Vz).
      rewrite (bshapes_incl _ (shp x :: shape_of z ++ [shp A; shp n; shp alpha; shp r'])) by isolve.
      rewrite (bshapes_arg _ _ _ _ _ Va).
      rewrite (bshapes_incl _ (shp r' :: s0 ++ shape_of z ++ [shp A; shp n; shp alpha])) by isolve.
      rewrite (bshapes_arg _ _ _ _ _ Vr).
      apply bshapes_incl.
      * apply incl_app; [isolve|].
        apply incl_app; [eapply incl_tran; [exact I1|]; isolve|isolve].
      * apply incl_app; [isolve|]. apply incl_app; [isolve|]. apply incl_app; [isolve|].
        eapply incl_tran; [exact I2|]. isolve.
    + intros i j. unfold pdm_inv_coef. rewrite Es.
      rewrite (proj2 (vec_ok _ _ _ _ Va)), (proj2 (vec_ok _ _ _ _ Vr)), (proj2 (vec_ok _ _ _ _ Vz)). reflexivity.
    + reflexivity.
  - cbn [rbind]. apply vec_raise in Va. destruct Va as (N & m & ->). unfold off_spec.
    rewrite (bshapes_none_incl s0); [eauto| |exact N]. unfold pdm_inverse_operands. eapply incl_tran; [exact I1|]. isolve.
Qed.
