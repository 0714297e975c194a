(** * Sequences as arguments (C87): the root-finding inverse and examples *)
From Coq Require Import String Reals Lra Lia ZArith List Bool FunctionalExtensionality.
From Coquelicot Require Import Rcomplements Complex.
From Verif Require Import Num NumLemmas ModelBase ModelSample ModelTip NArr SpecArr NArrLemmas ModelObj
  ModelArr SpecObj ArrSample ProofsArr ProofsArr2 ModelArrTip ProofsArrTip ProofsArrTip2 ProofsArrTip3 ProofsArrTip4
  ProofsArrTip5 ProofsArrTip6 ModelInv ModelSeq SpecSeq ProofsSeq ProofsSeq2 ProofsSeq3 Spec ProofsPassive.
Import ListNotations.
Open Scope R_scope.

Lemma amap2_normal : forall A B E (f : A -> B -> E) a b c, amap2 f a b = Ok c -> forall i, at_ c i = entry c i.
Proof.
  intros A B E f a b c H i. rewrite entry_bidx. unfold amap2 in H.
  destruct (bshape (shp a) (shp b)) as [s|] eqn:Es; [|discriminate]. injection H as <-. cbn [at_ shp].
  destruct (fits_bshape _ _ _ Es) as [F1 F2]. rewrite (bidx_fits _ _ _ F1), (bidx_fits _ _ _ F2). reflexivity.
Qed.
Lemma normal_eq : forall A (c d : arr A), (forall i, at_ c i = entry c i) -> (forall i, at_ d i = entry d i) ->
  shp c = shp d -> (forall i, entry c i = entry d i) -> c = d.
Proof.
  intros A [s f] [t g] Hc Hd Hs He. cbn [shp] in Hs. subst t. f_equal. extensionality i.
  change (at_ (mkArr s f) i = at_ (mkArr s g) i). rewrite Hc, Hd. apply He.
Qed.
Lemma vec_same : forall A ss (g : list nat -> A) r1 r2, bshapes ss <> None -> vec ss g r1 -> vec ss g r2 ->
  (forall a, r1 = Ok a -> forall i, at_ a i = entry a i) -> (forall a, r2 = Ok a -> forall i, at_ a i = entry a i) -> r1 = r2.
Proof.
  intros A ss g r1 r2 H V1 V2 N1 N2. unfold vec in V1, V2. destruct (bshapes ss) as [S|]; [|contradiction].
  destruct V1 as (a & -> & Sa & Ea), V2 as (b & -> & Sb & Eb). f_equal.
  apply normal_eq; [apply N1; reflexivity|apply N2; reflexivity|congruence|]. intro i. rewrite Ea, Eb. reflexivity.
Qed.
Lemma offset_normal : forall j c al a, offset_coefs j c al = Ok a -> forall i, at_ a i = entry a i.
Proof.
  intros j c al a H. unfold offset_coefs in H. destruct (amap2 csub c al); [|discriminate]. cbn [rbind] in H.
  unfold lift2 in H. cbn [rbind] in H. destruct (amap2 pair _ c); [|discriminate]. cbn [rbind] in H.
  exact (amap2_normal _ _ _ _ _ _ _ H).
Qed.
Lemma offset_vec : forall (j : arr nat) (c al : arr CV),
  vec [shp j; shp c; shp al] (fun i => if Nat.eqb (entry j i) 0 then (entry c i - entry al i)%cv else entry c i) (offset_coefs j c al).
Proof.
  intros. unfold offset_coefs. eapply vec_let; [vsolve|isolve|]. intros d Vd.
  eapply vec_by; [vsolve|isolve|isolve|]. intro i. reflexivity.
Qed.

(** C87, the root-finding inverse with the harmonics as a Python sequence: the
    equation solved lacks the constant 1 at harmonic 0, i.e. the result is that
    of a call with arrays for the signal alpha + 1 there, and for the signal
    itself at the other harmonics. *)
Lemma C87_inverse_harmonics_proof : forall eig sb sr (D : Defaults) (alpha alpha' : arr CV) A (ns : list Z) z r L g d_Q0 d_Q1
    n_trapz n_tayl th b1 b2 eps_env,
  plain A -> plain_opt z ->
  compatible ([shp (as_array 0 A); [length ns]; shp alpha] ++ shape_of (as_array_opt 0 z) ++ shape_of r ++ shape_of L
              ++ shape_of g ++ shape_of d_Q0 ++ shape_of d_Q1) ->
  amap2 (fun x k => if Z.eqb k 0 then (x + rc 1)%cv else x) alpha (mkArr [length ns] (fun i => nth (hd O i) ns 0%Z)) = Ok alpha' ->
  fdm_refl_coef_qs_from_eff_pol_n_p eig sb sr D (Arr alpha) A (Seq ns) z r L g d_Q0 d_Q1 n_trapz n_tayl th b1 b2 eps_env
  = fdm_refl_coef_qs_from_eff_pol_n eig sb sr D alpha' (as_array 0 A) (mkArr [length ns] (fun i => nth (hd O i) ns 0%Z))
      (as_array_opt 0 z) r L g d_Q0 d_Q1 n_trapz n_tayl th b1 b2 eps_env.
Proof.
  intros eig sb sr D al al' A ns z r L g dQ0 dQ1 nt ntay th b1 b2 ee PA Pz HC Hal.
  unfold fdm_refl_coef_qs_from_eff_pol_n_p, fdm_refl_coef_qs_from_eff_pol_n.
  change (mkArr [length ns] (fun i => nth (hd O i) ns 0%Z)) with (arr1 0%Z ns) in *. set (n := arr1 0%Z ns) in *.
  change (asanyarray 0%Z (Seq ns)) with n. change (@asanyarray CV None (Arr al)) with al.
  destruct (fdm_defaults_vec' D r L g dQ0 dQ1 None)
    as (L' & g' & d1' & rd & Ed & Vr & VL & Vg & V1 & _ & s0 & gd & Vd & I1 & I2 & _).
  rewrite Ed. set (r' := darr (d_r_tip D) r) in *.
  pose proof (asany_dflt _ (d_z_tip D) 0 z) as Ez. rewrite Ez. set (z' := darr (d_z_tip D) (as_array_opt 0 z)) in *.
  assert (Vz : vec (shape_of (as_array_opt 0 z)) (fun i => dflt (d_z_tip D) (at_index (as_array_opt 0 z) i)) (Ok z')) by apply vec_darr.
  change (asanyarray 0 A) with (as_array 0 A). set (A' := as_array 0 A) in *.
  destruct rd as [d0|e]; [|reflexivity]. cbn [rbind].
  set (TS := [shp A'; [length ns]; shp al] ++ shape_of (as_array_opt 0 z) ++ shape_of r ++ shape_of L
              ++ shape_of g ++ shape_of dQ0 ++ shape_of dQ1) in *.
  assert (NS : bshapes TS <> None) by (intro N; apply bshapes_none in N; exact (N HC)).
  assert (Val : vec [shp al; [length ns]] (fun i => if Z.eqb (entry n i) 0 then (entry al i + rc 1)%cv else entry al i) (Ok al')).
  { rewrite <- Hal. exact (vec_amap2' _ _ _ _ _ _ _ _ _ _ (vec_arr _ al) (vec_arr _ n)). }
  assert (EJ : pad_for_broadcasting O (seq 0 (dflt (d_n_tayl D) ntay))
      [shp z'; shp A'; shp n; shp al; shp r'; shp L'; shp g'; shp d0; shp d1']
    = pad_for_broadcasting O (seq 0 (dflt (d_n_tayl D) ntay))
      [shp z'; shp A'; shp n; shp al'; shp r'; shp L'; shp g'; shp d0; shp d1']).
  { unfold pad_for_broadcasting. replace (ndim_max [shp z'; shp A'; shp n; shp al'; shp r'; shp L'; shp g'; shp d0; shp d1'])
      with (ndim_max [shp z'; shp A'; shp n; shp al; shp r'; shp L'; shp g'; shp d0; shp d1']); [reflexivity|].
    destruct (vec_ok _ _ _ _ Val) as [Bal _]. pose proof (joint_length _ _ Bal) as Hl.
    unfold ndim_max in *. cbn [map fold_right] in *. rewrite Hl. change (shp n) with [length ns]. cbn [length]. lia. }
  rewrite <- EJ. clear EJ.
  set (T9 := [shp z'; shp A'; shp n; shp al; shp r'; shp L'; shp g'; shp d0; shp d1']).
  assert (N9 : bshapes T9 <> None).
  { intro N. pose proof (vec_none CV T9 (fun _ => None) EmptyString N) as W.
    assert (W2 : vec (shape_of dQ1 ++ s0 ++ shape_of g ++ shape_of L ++ shape_of r ++ shape_of (as_array_opt 0 z) ++ [shp A'; shp n; shp al])
       (fun _ => None : CV) (Raise (ValueError EmptyString))).
    { apply (vec_subst _ _ _ _ _ _ _ _ V1).
      eapply vec_incl with (ss := s0 ++ shp d1' :: shape_of g ++ shape_of L ++ shape_of r ++ shape_of (as_array_opt 0 z) ++ [shp A'; shp n; shp al]); [isolve|isolve|].
      apply (vec_subst _ _ _ _ _ _ _ _ Vd).
      eapply vec_incl with (ss := shape_of g ++ shp d0 :: shp d1' :: shape_of L ++ shape_of r ++ shape_of (as_array_opt 0 z) ++ [shp A'; shp n; shp al]); [isolve|isolve|].
      apply (vec_subst _ _ _ _ _ _ _ _ Vg).
      eapply vec_incl with (ss := shape_of L ++ shp g' :: shp d0 :: shp d1' :: shape_of r ++ shape_of (as_array_opt 0 z) ++ [shp A'; shp n; shp al]); [isolve|isolve|].
      apply (vec_subst _ _ _ _ _ _ _ _ VL).
      eapply vec_incl with (ss := shape_of r ++ shp L' :: shp g' :: shp d0 :: shp d1' :: shape_of (as_array_opt 0 z) ++ [shp A'; shp n; shp al]); [isolve|isolve|].
      apply (vec_subst _ _ _ _ _ _ _ _ Vr).
      eapply vec_incl with (ss := shape_of (as_array_opt 0 z) ++ shp r' :: shp L' :: shp g' :: shp d0 :: shp d1' :: [shp A'; shp n; shp al]); [isolve|isolve|].
      apply (vec_subst _ _ _ _ _ _ _ _ Vz).
      eapply vec_incl; [| |exact W]; unfold T9; isolve. }
    destruct (vec_raise _ _ _ _ W2) as [N2 _]. apply NS.
    eapply bshapes_none_incl; [|exact N2]. unfold TS. change (shp n) with [length ns].
    repeat apply incl_app; try isolve. eapply incl_tran; [exact I1|isolve]. }
  destruct (bshapes T9) as [S9|] eqn:E9; [clear N9|contradiction].
  set (j := pad_for_broadcasting O _ _).
  match goal with |- rbind ?cp (fun c => rbind (offset_coefs j c al) ?k) = rbind ?ca (fun c => rbind (offset_coefs j c al') ?k) =>
    assert (EQ : rbind cp (fun c => offset_coefs j c al) = rbind ca (fun c => offset_coefs j c al')) end.
  2: { match goal with |- rbind ?cp (fun c => rbind (offset_coefs j c al) ?k) = rbind ?ca (fun c => rbind (offset_coefs j c al') ?k) =>
        transitivity (rbind (rbind cp (fun c => offset_coefs j c al)) k); [destruct cp; reflexivity|]; rewrite EQ; destruct ca; reflexivity end. }
  assert (Pz' : plain (pdflt (d_z_tip D) z)) by (destruct z as [v|]; [exact Pz|exact I]).
  pose proof (fdm_coef_list_vec D (pdflt (d_z_tip D) z) j A ns (amap rr r') (amap rr L') (amap Some g') d0 (amap rr d1') nt
    (or_intror (or_intror (conj Pz' PA)))) as VP. cbn zeta in VP. rewrite Ez in VP.
  change (asanyarray 0 A) with A' in VP. cbn [amap shp] in VP.
  pose proof (fdm_coef_vec D z' j A' n (amap rr r') (amap rr L') (amap Some g') d0 (amap rr d1') nt) as VA.
  cbn [amap shp] in VA. change (shp n) with [length ns] in VA.
  set (LEAF := [shp z'; shp j; shp A'; [length ns]; shp r'; shp L'; shp g'; shp d0; shp d1'; shp al]).
  apply (vec_same _ LEAF (fun i => if Nat.eqb (entry j i) 0 then (rc 0 - entry al i)%cv else
      value (fdm_taylor_coef D (entry z' i) (entry j i) (entry A' i) (item 0%Z ns i) (rr (entry r' i)) (rr (entry L' i))
                  (Some (entry g' i)) (entry d0 i) (rr (entry d1' i)) nt))).
  - assert (EJ : bshapes (T9 ++ [shp j]) = Some (S9 ++ [dflt (d_n_tayl D) ntay])).
    { unfold j. rewrite pad_shape_gen, seq_length. fold T9. rewrite <- (joint_length _ _ E9). apply pad_joint, E9. }
    rewrite (bshapes_incl LEAF (T9 ++ [shp j])), EJ; [discriminate|unfold LEAF, T9; change (shp n) with [length ns]; isolve..].
  - eapply vec_let; [exact VP|unfold LEAF; isolve|]. intros c Vc.
    eapply vec_by; [exact (vec_subst _ _ _ _ _ _ _ _ Vc
       (vec_incl _ [shp j; shp c; shp al] [shp c; shp j; shp al] _ _ ltac:(isolve) ltac:(isolve) (offset_vec j c al)))
       |unfold LEAF; isolve|unfold LEAF; isolve|].
    intro i. cbn beta. rewrite (proj2 (vec_ok _ _ _ _ Vc)). destruct (Nat.eqb (entry j i) 0); reflexivity.
  - eapply vec_let; [exact VA|unfold LEAF; isolve|]. intros c Vc.
    pose proof (vec_subst _ _ _ _ _ _ _ _ Vc
       (vec_incl _ [shp j; shp c; shp al'] [shp c; shp j; shp al'] _ _ ltac:(isolve) ltac:(isolve) (offset_vec j c al'))) as W.
    apply (vec_incl _ _ (shp al' :: [shp z'; shp j; shp A'; [length ns]; shp r'; shp L'; shp g'; shp d0; shp d1'])) in W; [|isolve..].
    apply (vec_subst _ _ _ _ _ _ _ _ Val) in W.
    eapply vec_by; [exact W|unfold LEAF; isolve|unfold LEAF; isolve|].
    intro i. cbn beta. rewrite (proj2 (vec_ok _ _ _ _ Vc)), (proj2 (vec_ok _ _ _ _ Val)).
    unfold n. rewrite !(entry_arr1 _ 0%Z ns i).
    rewrite (proj2 (fdm_coef_ok _ _ _ _ _ _ _ _ _ _ _)).
    destruct (Nat.eqb (entry j i) 0) eqn:Ej.
    2: { symmetry. rewrite (proj2 (fdm_coef_ok _ _ _ _ _ _ _ _ _ _ _)), Ej. reflexivity. }
    destruct (Z.eqb (item 0%Z ns i) 0); [|reflexivity].
    destruct (entry al i) as [x|]; [|reflexivity]. unfold rc, cadd, csub, olift2. apply f_equal. ring.
  - intros a Ha. destruct (fdm_taylor_coef_p _ _ _ _ _ _ _ _ _ _ _); [|discriminate]. exact (offset_normal _ _ _ _ Ha).
  - intros a Ha. destruct (fdm_taylor_coef_a _ _ _ _ _ _ _ _ _ _ _); [|discriminate]. exact (offset_normal _ _ _ _ Ha).
Qed.

(** ** Concrete calls *)
Definition two : obj := mkObj (Some (mkLayers [] [])) (Some (mkLayers [] [fun _ => rc 1; fun _ => rc 3])) (scalar (rc 1)) None.
Lemma two_consistent : consistent two.
Proof. eexists _, _. split; [reflexivity|]. split; [reflexivity|]. split; reflexivity. Qed.
Lemma two_beta : forall i, refl_coef_qs (sample_at two i) (rr 0) = Ok (Some (RtoC (1 / 2))).
Proof.
  intro i. change (sample_at two i) with (stack [RtoC 1; RtoC 3] [] None). rewrite bulk_qs.
  - do 2 f_equal. rewrite <- RtoC_minus, <- RtoC_plus, <- RtoC_div by lra. f_equal. field.
  - apply RtoC_neq_0. lra.
  - rewrite <- RtoC_plus. apply RtoC_neq_0. lra.
Qed.

Lemma idx2 : index_of [2%nat] [0%nat] /\ index_of [2%nat] [1%nat].
Proof. split; (split; [reflexivity|intros [|k] H; cbn in *; lia]). Qed.

(** C87: "a list of harmonics gives what the same array gives" is false of
    [fdm.eff_pol_n_taylor].  For the harmonics 0 and 1 and one Taylor term the
    array call returns 1 and 0, the list call 0 and 0. *)
Lemma C87_list_harmonics_refuted_proof : forall lag (D : Defaults) A,
  exists a b,
  fdm_eff_pol_n_taylor_p lag D two (Num A) (Arr (mkArr [2%nat] (fun i => nth (hd O i) [0; 1]%Z 0%Z))) None
    None None None None None None None None None (Some 1%nat) = Ok a /\
  fdm_eff_pol_n_taylor_p lag D two (Num A) (Seq [0; 1]%Z) None
    None None None None None None None None None (Some 1%nat) = Ok b /\
  shp a = [2%nat] /\ shp b = [2%nat] /\
  at_ a [0%nat] = rc 1 /\ at_ b [0%nat] = rc 0 /\ at_ a [1%nat] = rc 0 /\ at_ b [1%nat] = rc 0.
Proof.
  intros lag D A.
  pose proof two_consistent as Hc.
  assert (Hm : fdm_call two ["Q_ave"%string] (method_of two "Q_ave" None) (d_n_lag D)) by (left; split; reflexivity).
  assert (SC : forall i k, fdm_eff_pol_n_taylor lag D (sample_at two i) A k None None None None None None None None None None (Some 1%nat)
     = Ok (rc (if Z.eqb k 0 then 1 else 0))).
  { intros i k. unfold fdm_eff_pol_n_taylor. cbn zeta.
    change (multilayer (sample_at two i)) with false. cbn iota.
    destruct (fdm_defaults D None None None None None None) as [[[[[r L] g] d0] d1] da].
    cbn [String.eqb Ascii.eqb Bool.eqb]. rewrite two_beta. cbn [rbind dflt seq mapM].
    rewrite (proj1 (fdm_coef_ok _ _ _ _ _ _ _ _ _ _ _)). cbn [rbind].
    rewrite (proj2 (fdm_coef_ok _ _ _ _ _ _ _ _ _ _ _)). cbn [Nat.eqb].
    destruct (Z.eqb k 0); unfold csum, fold_right, cmul, cadd, cpown, rc, olift2, olift1; cbn [Cpown]; apply f_equal, f_equal; ring. }
  pose proof (C48_fdm_taylor_broadcast_proof lag D two (scalar A) (mkArr [2%nat] (fun i => nth (hd O i) [0; 1]%Z 0%Z))
    None None None None None None None None None None (Some 1%nat) Hc Hm) as VA.
  pose proof (C87_taylor_harmonics_proof lag D two (Num A) [0; 1]%Z None None None None None None None None None None (Some 1%nat)
    Hc Hm ltac:(discriminate) I I) as VP.
  pose proof (proj2 (proj2 (proj2 (C87_converted_proof lag D two (Num A) (Arr (mkArr [2%nat] (fun i => nth (hd O i) [0; 1]%Z 0%Z)))
    None None (Some 1%nat) (or_intror (or_intror (conj I I))))) ) I I None None None None None None None None) as EC.
  assert (J : joint ([shp (scalar A); [2%nat]] ++ fdm_shapes two (method_of two "Q_ave" None) None None None None None None None) [2%nat])
    by (apply bshapes_spec; reflexivity).
  assert (C : compatible ([shp (scalar A); [2%nat]] ++ fdm_shapes two (method_of two "Q_ave" None) None None None None None None None))
    by (eapply joint_compatible, J).
  destruct VA as (VA1 & _ & VA3). destruct (proj2 VA1 C) as [a Ea].
  cbn zeta in VP. destruct VP as (VP1 & _ & VP3). destruct (proj2 VP1 C) as [b Eb].
  cbn [as_array as_array_opt] in EC. change {| shp := []; at_ := fun _ : list nat => A |} with (scalar A) in EC.
  exists a, b. split; [rewrite EC; exact Ea|]. split; [exact Eb|].
  destruct (VA3 a Ea) as [Ja Va]. destruct (VP3 b Eb) as [Jb Vb].
  pose proof (joint_unique _ _ _ Ja J) as Sa. pose proof (joint_unique _ _ _ Jb J) as Sb.
  split; [exact Sa|]. split; [exact Sb|].
  destruct idx2 as [I0 I1].
  rewrite Sa in Va. rewrite Sb in Vb.
  pose proof (Va _ I0) as A0. pose proof (Va _ I1) as A1. pose proof (Vb _ I0) as B0. pose proof (Vb _ I1) as B1.
  cbn [at_index as_array_opt as_array] in A0, A1, B0, B1.
  change (entry (scalar A) [0%nat]) with A in A0. change (entry (scalar A) [1%nat]) with A in A1.
  change (entry {| shp := []; at_ := fun _ : list nat => A |} [0%nat]) with A in B0.
  change (entry {| shp := []; at_ := fun _ : list nat => A |} [1%nat]) with A in B1.
  rewrite SC in A0, A1, B0, B1.
  assert (OK : forall x y : CV, Ok x = Ok y -> y = x) by (intros x y H; congruence).
  apply OK in A0. apply OK in A1. apply OK in B0. apply OK in B1. rewrite A0, A1, B0, B1.
  cbn [item hd nth length Nat.eqb Z.eqb]. unfold csub, rc, olift2.
  repeat split; try reflexivity; apply f_equal; ring.
Qed.

(** C87, concrete case for the heights: one height over a bulk sample, as a
    list: two equal values, for half of the height *)
Lemma C87_heights_example_proof : 
  consistent two /\ many_layers two = false /\ compatible [eps_shape two; t_shape two; [1%nat]] /\
  joint [eps_shape two; t_shape two; [2 * 1]%nat] [2%nat] /\
  item (A:=RV) None [rr 5; rr 5] [1%nat] = rr 5 /\
  (forall lag (D : Defaults), d_n_lag D <> O ->
    exists a, refl_coef_qs_above_surf_p lag D two (Seq [rr 5]) None = Ok a /\ shp a = [2%nat]).
Proof.
  assert (J1 : joint [eps_shape two; t_shape two; [1%nat]] [1%nat]) by (apply bshapes_spec; reflexivity).
  assert (J2 : joint [eps_shape two; t_shape two; [2 * 1]%nat] [2%nat]) by (apply bshapes_spec; reflexivity).
  split; [exact two_consistent|]. split; [reflexivity|]. split; [eapply joint_compatible, J1|]. split; [exact J2|].
  split; [reflexivity|]. intros lag D Hn.
  destruct (C87_heights_doubled_proof lag D two [rr 5] None two_consistent Hn) as [_ H].
  specialize (H (or_introl eq_refl) (joint_compatible _ _ J1)). destruct H as (H1 & _ & H3).
  destruct (proj2 H1 (joint_compatible _ _ J2)) as [a Ea]. exists a. split; [exact Ea|].
  exact (joint_unique _ _ _ (proj1 (H3 a Ea)) J2).
Qed.

(** C87, concrete cases for the inverse (a single signal, harmonics 0 and 1:
    the signals used are a + 1 and a) and for the concatenated heights (1 and 2
    with amplitude 3: the heights are -2, -1 and 0) *)
Lemma C87_example_proof : forall a : C,
  compatible ([[]; [length [0; 1]%Z]; shp (scalar (Some a))] ++ []) /\
  (exists al', amap2 (fun x k => if Z.eqb k 0 then (x + rc 1)%cv else x) (scalar (Some a))
      (mkArr [length [0; 1]%Z] (fun i => nth (hd O i) [0; 1]%Z 0%Z)) = Ok al' /\
    shp al' = [2%nat] /\ at_ al' [0%nat] = Some (a + 1)%C /\ at_ al' [1%nat] = Some a) /\
  map (fun k => nth k ([1; 2] ++ [3]) 0 - 3) [0; 1; 2]%nat = [-2; -1; 0].
Proof.
  intro a. split; [|split].
  - eapply joint_compatible, bshapes_spec. reflexivity.
  - eexists. split; [reflexivity|]. split; [reflexivity|]. split; reflexivity.
  - cbn [map nth app]. repeat (f_equal; try lra).
Qed.
