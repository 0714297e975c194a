(** * The root-finding inverses: examples, and where solutions are lost (C30, C31, C32) *)
From Coq Require Import String Reals Lra Lia ZArith List Bool Permutation Sorted.
From Coquelicot Require Import Rcomplements Complex.
From Verif Require Import Num NumLemmas ModelBase ModelSample ModelTip Spec NArr SpecArr NArrLemmas ModelObj
  ModelArr SpecObj ModelArrTip ModelInv SpecPoly SpecInv FTA ArrSample ProofsArr ProofsArr2 ProofsArrTip
  ProofsArrTip2 ProofsArrTip3 ProofsArrTip4 InvLemmas ProofsInv ProofsInv2 ProofsInv3 ProofsInv4
  ProofsStackQS ProofsTip.
Import ListNotations.
Open Scope nat_scope.

(** ** Library functions with the assumed properties exist *)
Section Sort.
Variables (A : Type) (leb : A -> A -> bool) (d : A).
Hypothesis total : forall x y, leb x y = true \/ leb y x = true.
Hypothesis trans : forall x y z, leb x y = true -> leb y z = true -> leb x z = true.
Fixpoint insert_by (f : nat -> A) (k : nat) (l : list nat) : list nat :=
  match l with [] => [k] | m :: t => if leb (f k) (f m) then k :: l else m :: insert_by f k t end.
Definition sort_by (f : nat -> A) (l : list nat) : list nat := fold_right (insert_by f) [] l.
Lemma insert_perm : forall f k l, Permutation (insert_by f k l) (k :: l).
Proof.
  intros f k l. induction l as [|m t IH]; cbn; [apply Permutation_refl|].
  destruct (leb (f k) (f m)); [apply Permutation_refl|].
  eapply Permutation_trans; [apply perm_skip, IH|apply perm_swap].
Qed.
Lemma sort_perm : forall f l, Permutation (sort_by f l) l.
Proof.
  intros f l. induction l as [|k l IH]; cbn; [constructor|].
  eapply Permutation_trans; [apply insert_perm|]. apply perm_skip, IH.
Qed.
Lemma insert_sorted : forall f k l, StronglySorted (fun x y => leb x y = true) (map f l) ->
  StronglySorted (fun x y => leb x y = true) (map f (insert_by f k l)).
Proof.
  intros f k l. induction l as [|m t IH]; intro H; cbn.
  - constructor; constructor.
  - cbn in H. inversion H as [|? ? Hs Hf]; subst. destruct (leb (f k) (f m)) eqn:E; cbn.
    + constructor; [exact H|]. constructor; [exact E|].
      eapply Forall_impl; [|exact Hf]. intros a Ha. eapply trans; eassumption.
    + constructor; [apply IH, Hs|]. rewrite Forall_forall in *. intros x Hx. apply in_map_iff in Hx.
      destruct Hx as (y & <- & Hy). apply (Permutation_in _ (insert_perm f k t)) in Hy. destruct Hy as [<-|Hy].
      * destruct (total (f k) (f m)) as [T|T]; [congruence|exact T].
      * apply Hf, in_map, Hy.
Qed.
Lemma sort_sorted : forall f l, StronglySorted (fun x y => leb x y = true) (map f (sort_by f l)).
Proof. intros f l. induction l as [|k l IH]; cbn; [constructor|]. apply insert_sorted, IH. Qed.
Lemma sorter_exists : forall le : A -> A -> Prop, (forall x y, leb x y = true -> le x y) ->
  sorts le d (fun l => sort_by (fun k => nth k l d) (seq 0 (length l))).
Proof.
  intros le H l. split; [apply sort_perm|].
  pose proof (sort_sorted (fun k => nth k l d) (seq 0 (length l))) as S. revert S.
  generalize (map (fun k => nth k l d) (sort_by (fun k => nth k l d) (seq 0 (length l)))).
  induction l0 as [|x m IH]; intro S; [constructor|]. inversion S; subst. constructor; [auto|].
  eapply Forall_impl; [|eassumption]. intros; auto.
Qed.
End Sort.
Definition leb_nan (a b : RV) : bool :=
  match a, b with Some x, Some y => Rleb x y | _, None => true | None, Some _ => false end.
Lemma library_exists : exists eig sb sr, library eig sb sr.
Proof.
  exists (fun c => roots_of (pred (length c)) c).
  exists (fun l => sort_by bool implb (fun k => nth k l false) (seq 0 (length l))).
  exists (fun l => sort_by RV leb_nan (fun k => nth k l None) (seq 0 (length l))).
  split.
  - intros c Hc Hl. apply roots_of_spec; [|exact Hl]. destruct c; cbn in *; lia.
  - apply sorter_exists.
    + intros [] []; auto.
    + intros [] [] []; auto.
    + intros [] []; unfold false_first; cbn; auto.
  - apply sorter_exists.
    + intros [x|] [y|]; cbn; auto. unfold Rleb. destruct (Rle_dec x y), (Rle_dec y x); auto; lra.
    + intros [x|] [y|] [z|]; cbn; auto; try discriminate. unfold Rleb.
      destruct (Rle_dec x y), (Rle_dec y z), (Rle_dec x z); auto; try discriminate; lra.
    + intros [x|] [y|]; cbn; auto; try discriminate. unfold Rleb. destruct (Rle_dec x y); [auto|discriminate].
Qed.

(** ** Two quadrature points, first harmonic: half the difference of the values
    at the two turning points *)
Lemma demod_two : forall h x a u v, h (x + a)%R = Some u -> h (x - a)%R = Some v ->
  demod_value h x a 1 2 = Some ((u - v) / RtoC 2)%C.
Proof.
  intros h x a u v Hu Hv. unfold demod_value, thetas. cbn [seq map Nat.add].
  replace (- PI + INR 0 * (2 * PI / INR 2))%R with (- PI)%R by (cbn; ring).
  replace (- PI + INR 1 * (2 * PI / INR 2))%R with 0%R by (cbn; field).
  replace (- PI + INR 2 * (2 * PI / INR 2))%R with PI by (cbn; field).
  rewrite cos_neg, cos_PI, cos_0. replace (x + -1 * a)%R with (x - a)%R by ring. rewrite Rmult_1_l, Hu, Hv.
  unfold demod_integrand, trapezoid. cbn [tl combine map fst snd cexp cmul olift1 olift2 Cexp]. 
  replace (Cexp (0, - (1 * - PI))%R) with (RtoC (-1)).
  2:{ unfold Cexp, Re, Im. cbn [fst snd]. rewrite exp_0. replace (- (1 * - PI))%R with PI by ring. rewrite cos_PI, sin_PI.
      unfold RtoC. f_equal; ring. }
  replace (Cexp (0, - (1 * 0))%R) with (RtoC 1).
  2:{ unfold Cexp, Re, Im. cbn [fst snd]. rewrite exp_0. replace (- (1 * 0))%R with 0%R by ring. rewrite cos_0, sin_0.
      unfold RtoC. f_equal; ring. }
  replace (Cexp (0, - (1 * PI))%R) with (RtoC (-1)).
  2:{ unfold Cexp, Re, Im. cbn [fst snd]. rewrite exp_0. replace (- (1 * PI))%R with (- PI)%R by ring.
      rewrite cos_neg, sin_neg, cos_PI, sin_PI. unfold RtoC. f_equal; ring. }
  unfold rc. cbn [cadd olift2]. rewrite !(cdiv_ok _ _ C2_neq_0).
  unfold csum. cbn [fold_right cadd olift2]. replace (INR 2) with 2%R by (cbn; ring).
  unfold rc. rewrite (cdiv_ok _ _ C2_neq_0). f_equal. replace (RtoC (-1)) with (- RtoC 1)%C by (unfold RtoC, Copp; cbn; f_equal; ring).
  field. exact C2_neq_0.
Qed.

(** ** The point dipole model with tip radius 1 and tip polarisability 16 pi:
    the height enters as 1/(1 + height)^3 *)
Lemma pdm_geom_1 : forall x, (-1 < x)%R -> pdm_geom_func (rr x) (rr 1) (Some (RtoC (16 * PI))) = Some (RtoC (/ (1 + x) ^ 3)).
Proof.
  intros x Hx. pose proof PI_RGT_0. assert (0 < (1 + x) ^ 3)%R by (apply pow_lt; lra).
  unfold pdm_geom_func, rr, ofR. cbn [radd rmul rpow olift1 olift2].
  rewrite cdiv_ok by (apply RtoC_neq_0; nra). f_equal. rewrite <- RtoC_div by nra. f_equal. field.
  split; [lra|]. intro E. assert (1 + x = 0)%R by nra. lra.
Qed.
Lemma pdm_coef_two : forall D A j, (0 <= A)%R ->
  pdm_coef D 0 A 1 (rr 1) (Some (RtoC (16 * PI))) (Some 2) j
  = Some (RtoC ((/ (1 + 2 * A) ^ 3) ^ j - 1) / RtoC 2)%C.
Proof.
  intros D A j HA. unfold pdm_coef. rewrite (proj2 (pdm_coef_ok _ _ _ _ _ _ _ _)). cbn [dflt].
  rewrite (demod_two _ _ _ (RtoC ((/ (1 + 2 * A) ^ 3) ^ j)) (RtoC 1)).
  - f_equal. rewrite RtoC_minus. reflexivity.
  - rewrite pdm_geom_1 by lra. cbn [cpown olift1]. f_equal. rewrite Cpown_R. f_equal. f_equal. f_equal. f_equal. ring.
  - rewrite pdm_geom_1 by lra. cbn [cpown olift1]. f_equal. rewrite Cpown_R. f_equal.
    replace (1 + (0 + A - A))%R with 1%R by ring. rewrite pow1, Rinv_1, pow1. reflexivity.
Qed.
Definition tip_pdm : option (arr C) := Some (scalar (RtoC (16 * PI))).
Lemma half_admissible : admissible 1 true true (RtoC 1) (RtoC (1 / 2)).
Proof.
  assert (E : permitivitty (Some (RtoC (1 / 2))) (Some (RtoC 1)) = Some (RtoC 3)).
  { unfold permitivitty. cbn [cmul cadd csub olift2 rc]. unfold rc. cbn [cmul cadd csub olift2].
    rewrite cdiv_ok.
    - f_equal. rewrite <- !RtoC_plus, <- !RtoC_minus, <- ?RtoC_mult, <- RtoC_div by lra. f_equal. field.
    - rewrite <- RtoC_minus. apply RtoC_neq_0. lra. }
  split; [rewrite Cmod_R, Rabs_pos_eq by lra; lra|]. split; intros _; exists (RtoC 3); (split; [exact E|]).
  - cbn. lra.
  - rewrite Cmod_R, Rabs_pos_eq by lra. lra.
Qed.
Definition invert_pdm eig sb sr D (A : arr R) := 
  pdm_refl_coef_qs_from_eff_pol_n eig sb sr D (scalar (Some (RtoC (-13 / 54)))) A (scalar 1%Z)
    (Some (scalar 0%R)) (Some (scalar 1%R)) None (Some (scalar (RtoC (16 * PI)))) (Some 2) (Some 2) (Some 1%R) true true
    (Some (scalar (RtoC 1))).
Lemma pdm_off_two : forall eig sb sr D A, shp A = [] \/ shp A = [2] -> (forall i, index_of (shp A) i -> 0 <= entry A i)%R ->
  exists OFF, invert_pdm eig sb sr D A = inversion eig sb sr OFF 1 true true (scalar (RtoC 1)) /\
    exists a, OFF = Ok a /\ shp a = shp A ++ [2] /\ forall i, index_of (shp A) i ->
      column a i = [Some (RtoC (13 / 54)); Some (RtoC ((/ (1 + 2 * entry A i) ^ 3 - 1) / 2))].
Proof.
  intros eig sb sr D A HA HP.
  destruct (pdm_inversion eig sb sr D (scalar (Some (RtoC (-13 / 54)))) A (scalar 1%Z)
    (Some (scalar 0%R)) (Some (scalar 1%R)) None (Some (scalar (RtoC (16 * PI)))) (Some 2) (Some 2) (Some 1%R) true true
    (Some (scalar (RtoC 1))) (or_introl eq_refl)) as (OFF & EQ & HO).
  exists OFF. split; [exact EQ|]. unfold off_spec in HO. destruct (bshapes _) as [s|] eqn:E in HO.
  2:{ exfalso. unfold pdm_inverse_operands in E. cbn [shape_of shp scalar app] in E. destruct HA as [HA|HA]; rewrite HA in E; discriminate E. }
  assert (s = shp A). { unfold pdm_inverse_operands in E. cbn [shape_of shp scalar app] in E.
    destruct HA as [HA|HA]; rewrite HA in E |- *; cbn in E; congruence. } subst s.
  destruct HO as (a & -> & Sa & Ca). exists a. split; [reflexivity|]. split; [exact Sa|]. intros i Hi. rewrite (Ca i Hi).
  unfold offset_col, pdm_inv_coef. cbn [dflt seq map Nat.eqb at_index pdm_defaults]. rewrite !entry_scalar.
  rewrite !pdm_coef_two by (apply HP; exact Hi). cbn [csub olift2]. f_equal; [|f_equal]; f_equal.
  - rewrite <- RtoC_div, <- RtoC_minus by lra. f_equal. cbn [pow]. field.
  - rewrite <- RtoC_div by lra. f_equal. cbn [pow]. field. specialize (HP i Hi). lra.
Qed.
Lemma czero_R : forall x, x <> 0%R -> czero (Some (RtoC x)) = false.
Proof. intros x H. cbn. destruct (Ceq_dec (RtoC x) (RtoC 0)) as [E|]; [|reflexivity]. apply RtoC_inj in E. contradiction. Qed.
Lemma czero_0 : czero (Some (RtoC 0)) = true.
Proof. cbn. destruct (Ceq_dec (RtoC 0) (RtoC 0)); [reflexivity|congruence]. Qed.
Lemma roots_flat : forall eig x, x <> 0%R -> polyroots eig [Some (RtoC x); Some (RtoC 0)] = Ok [].
Proof. intros eig x H. unfold polyroots, trimseq. cbn [drop_zeros]. rewrite czero_0, (czero_R _ H). reflexivity. Qed.
Lemma roots_line : forall eig x y, y <> 0%R -> polyroots eig [Some (RtoC x); Some (RtoC y)] = Ok [Some (RtoC (- x / y))].
Proof.
  intros eig x y H. unfold polyroots, trimseq. cbn [drop_zeros]. rewrite (czero_R _ H).
  unfold rc. cbn [csub olift2]. rewrite cdiv_ok by (apply RtoC_neq_0, H). do 3 f_equal.
  rewrite <- RtoC_minus, <- RtoC_div by exact H. f_equal. field. exact H.
Qed.

(** With elements of different degrees a solution can be lost without notice, or
    the whole call fails.  The point dipole model, first harmonic: without
    oscillation there is no signal, hence no solution.  With amplitude 1 alone, the
    reflection coefficient 1/2 is found.  With amplitudes [0, 1] it is not
    reported; with amplitudes [1, 0] the call raises an exception. *)
Lemma C31_solution_lost_refuted_proof : forall eig sb sr D, library eig sb sr ->
  let invert (A : arr R) := pdm_refl_coef_qs_from_eff_pol_n eig sb sr D (scalar (Some (RtoC (-13 / 54)))) A (scalar 1%Z)
    (Some (scalar 0%R)) (Some (scalar 1%R)) None (Some (scalar (RtoC (16 * PI)))) (Some 2) (Some 2) (Some 1%R) true true
    (Some (scalar (RtoC 1))) in
  let s := stack [RtoC 1; RtoC 3] [] None in let b := RtoC (1 / 2) in
  (refl_coef_qs s (rr 0) = Ok (Some b) /\ admissible 1 true true (RtoC 1) b /\
   pdm_eff_pol_n_taylor D s 1 1 (Some 0%R) (Some 1%R) None (Some (RtoC (16 * PI))) (Some 2) (Some 2)
   = Ok (Some (RtoC (-13 / 54)))) /\
  (exists r, invert (scalar 1%R) = Ok r /\ elements r = [] /\ In (Some b) (unmasked r [])) /\
  (exists r, invert (mkArr [2] (fun i => INR (hd 0 i))) = Ok r /\ elements r = [2] /\ unmasked r [1] = []) /\
  (exists m, invert (mkArr [2] (fun i => 1 - INR (hd 0%nat i))%R) = Raise (ValueError m)).
Proof.
  intros eig sb sr D LIB invert s b.
  assert (Hb : refl_coef_qs s (rr 0) = Ok (Some b)).
  { unfold s, b. rewrite (proj1 (bulk_refl_any _ _ None (rr 0) (RtoC_neq_0 3 ltac:(lra)))). f_equal.
    unfold refl_coef_qs_single. cbn [cadd csub olift2]. rewrite cdiv_ok.
    - f_equal. rewrite <- RtoC_minus, <- RtoC_plus, <- RtoC_div by lra. f_equal. field.
    - rewrite <- RtoC_plus. apply RtoC_neq_0. lra. }
  split; [|split; [|split]].
  - split; [exact Hb|]. split; [apply half_admissible|].
    rewrite (pdm_taylor_any D s 1 1 (Some 0%R) (Some 1%R) None (Some (RtoC (16 * PI))) (Some 2) (Some 2) b 1%R (Some (RtoC (16 * PI))) eq_refl Hb).
    rewrite (taylor_value _ b [RtoC 0; RtoC (-13 / 27)]); [|reflexivity|].
    + do 2 f_equal. cbn [peval]. unfold b, RtoC, Cmult, Cplus. cbn [fst snd]. f_equal; field.
    + intros j Hj. rewrite pdm_coef_two by lra. f_equal. rewrite <- RtoC_div by lra.
      destruct j as [|[|j]]; [| |cbn in Hj; lia]; cbn [nth]; f_equal; field.
  - destruct (pdm_off_two eig sb sr D (scalar 1%R)) as (OFF & EQ & a & -> & Sa & Ca); [left; reflexivity|intros; cbn; lra|].
    change (invert (scalar 1%R)) with (invert_pdm eig sb sr D (scalar 1%R)). rewrite EQ.
    unfold inversion. cbn [rbind].
    destruct (apply_along_axis0_succeeds _ _ None (polyroots eig) a [] 2 1 Sa) as (X & EX & SX).
    { exists []. split; [reflexivity|]. intros k Hk. cbn in Hk. lia. }
    { intros i Hi. rewrite (Ca i Hi). rewrite entry_scalar, roots_line by lra. eexists. split; reflexivity. }
    rewrite EX. cbn [rbind].
    destruct (select_roots_spec sb sr 1 true true (scalar (RtoC 1)) X [] 1 (lib_bool _ _ _ LIB) (lib_real _ _ _ LIB) SX)
      as (r & ER & EL & _ & HR & _). { split; [cbn; lia|]. intro k. left. destruct k; reflexivity. }
    exists r. split; [exact ER|]. split; [exact EL|].
    assert (H0 : index_of [] []). { split; [reflexivity|]. intros k Hk. cbn in Hk. lia. }
    destruct (HR [] H0) as [HP _]. apply (Permutation_in _ (Permutation_sym HP)).
    destruct (apply_along_axis0_ok _ _ _ _ _ _ _ _ Sa EX) as (k & Sx' & _ & Hx).
    destruct (Hx [] H0) as (rs & Ers & Has). rewrite (Ca [] H0), entry_scalar, roots_line in Ers by lra.
    assert (k = 1). { rewrite SX in Sx'. cbn in Sx'. congruence. } subst k.
    assert (rs = [Some (RtoC (- (13 / 54) / ((/ (1 + 2 * 1) ^ 3 - 1) / 2)))]) by congruence. subst rs.
    cbn [assign length Nat.eqb] in Has. change CV with (option C) in *.
    match type of Has with Ok ?l = _ => assert (EC : column X [] = l) by congruence end. rewrite EC.
    apply filter_In. split; [left; unfold b; do 2 f_equal; field|]. apply adm_spec. exists b. split; [reflexivity|].
    rewrite entry_scalar. apply half_admissible.
  - destruct (pdm_off_two eig sb sr D (mkArr [2] (fun i => INR (hd 0 i)))) as (OFF & EQ & a & -> & Sa & Ca);
      [right; reflexivity|intros; apply pos_INR|].
    change (invert (mkArr [2] (fun i => INR (hd 0 i)))) with (invert_pdm eig sb sr D (mkArr [2] (fun i => INR (hd 0 i)))). rewrite EQ.
    unfold inversion. cbn [rbind]. cbn [shp] in Sa, Ca.
    assert (I0 : index_of [2] [0]). { apply in_ndindex. cbn. auto. }
    assert (I1 : index_of [2] [1]). { apply in_ndindex. cbn. auto. }
    assert (C0 : polyroots eig (column a [0]) = Ok []).
    { rewrite (Ca _ I0). cbn [entry shp at_ length seq map dim nth Nat.eqb hd INR].
      replace ((/ (1 + 2 * 0) ^ 3 - 1) / 2)%R with 0%R by field. apply roots_flat. lra. }
    assert (C1 : polyroots eig (column a [1]) = Ok [Some b]).
    { rewrite (Ca _ I1). cbn [entry shp at_ length seq map dim nth Nat.eqb hd INR].
      rewrite roots_line by lra. unfold b. do 4 f_equal. field. }
    destruct (apply_along_axis0 None (polyroots eig) a) as [X|er] eqn:EX.
    2:{ exfalso. unfold apply_along_axis0 in EX. rewrite Sa in EX. cbn [removelast app ndindex flat_map map seq] in EX.
        rewrite C0 in EX. cbn [rbind mapM] in EX. rewrite C1 in EX. discriminate EX. }
    destruct (apply_along_axis0_ok _ _ _ _ _ _ _ _ Sa EX) as (k & SX & _ & Hx).
    assert (k = 0).
    { unfold apply_along_axis0 in EX. rewrite Sa in EX. cbn [removelast app ndindex flat_map map seq] in EX.
      rewrite C0 in EX. cbn [rbind mapM] in EX. rewrite C1 in EX. cbn [rbind assign length Nat.eqb] in EX.
      injection EX as EX. rewrite <- EX in SX. cbn in SX. congruence. } subst k.
    cbn [rbind].
    destruct (select_roots_spec sb sr 1 true true (scalar (RtoC 1)) X [2] 0 (lib_bool _ _ _ LIB) (lib_real _ _ _ LIB) SX)
      as (r & ER & EL & _ & HR & _). { split; [cbn; lia|]. intro k. left. destruct k; reflexivity. }
    exists r. split; [exact ER|]. split; [exact EL|]. destruct (HR [1] I1) as [HP _].
    assert (EC : column X [1] = []) by (apply length_zero_iff_nil; apply (column_length _ _ _ _ _ SX)).
    change CV with (option C) in *. rewrite EC in HP. apply Permutation_sym, Permutation_nil in HP. exact HP.
  - destruct (pdm_off_two eig sb sr D (mkArr [2] (fun i => 1 - INR (hd 0%nat i))%R)) as (OFF & EQ & a & -> & Sa & Ca);
      [right; reflexivity| |].
    { intros i Hi. cbn [shp] in Hi. apply in_ndindex in Hi. destruct Hi as [<-|[<-|[]]]; cbn; lra. }
    change (invert (mkArr [2] (fun i => 1 - INR (hd 0%nat i))%R))
      with (invert_pdm eig sb sr D (mkArr [2] (fun i => 1 - INR (hd 0%nat i))%R)). rewrite EQ.
    unfold inversion. cbn [rbind]. cbn [shp] in Sa, Ca.
    assert (I0 : index_of [2] [0]). { apply in_ndindex. cbn. auto. }
    assert (I1 : index_of [2] [1]). { apply in_ndindex. cbn. auto. }
    assert (C0 : polyroots eig (column a [0]) = Ok [Some b]).
    { rewrite (Ca _ I0). cbn [entry shp at_ length seq map dim nth Nat.eqb hd INR].
      rewrite roots_line by lra. unfold b. do 4 f_equal. field. }
    assert (C1 : polyroots eig (column a [1]) = Ok []).
    { rewrite (Ca _ I1). cbn [entry shp at_ length seq map dim nth Nat.eqb hd INR].
      replace ((/ (1 + 2 * (1 - 1)) ^ 3 - 1) / 2)%R with 0%R by field. apply roots_flat. lra. }
    unfold apply_along_axis0. rewrite Sa. cbn [removelast app ndindex flat_map map seq].
    rewrite C0. cbn [rbind mapM length]. rewrite C1. cbn [rbind assign length Nat.eqb]. eauto.
Qed.

(** ** The finite dipole model with unit geometry functions: the Taylor
    polynomial is 1 + x/2 + x^2/2 *)
Lemma demod_one : forall h x u, h x = Some u -> demod_value h (x + 0) 0 0 1 = Some u.
Proof.
  intros h x u Hu. unfold demod_value, thetas. cbn [seq map Nat.add].
  rewrite !Rmult_0_r, !Rplus_0_r, Hu. unfold demod_integrand, trapezoid. rewrite !Rmult_0_l, Ropp_0.
  replace (cexp (Some (0, 0)%R)) with (Some (RtoC 1)).
  2:{ cbn [cexp olift1]. f_equal. unfold Cexp, Re, Im. cbn [fst snd]. rewrite exp_0, cos_0, sin_0. unfold RtoC. f_equal; ring. }
  unfold rc. cbn [tl combine map fst snd cmul cadd olift2]. rewrite (cdiv_ok _ _ C2_neq_0). unfold csum, rc. cbn [fold_right cadd olift2 INR].
  rewrite cdiv_ok by (apply RtoC_neq_0; lra). f_equal. field. repeat split; try exact C2_neq_0; apply RtoC_neq_0; lra.
Qed.
Lemma ln_4_2 : ln 4 = (2 * ln 2)%R.
Proof. replace 4%R with (2 * 2)%R by ring. rewrite ln_mult by lra. ring. Qed.
Lemma geom_unit : fdm_geom_func (rr 0) (rr (1 / 2)) (rr 1) (rr 1) (Some (RtoC (11 / 4))) = Some (RtoC 1).
Proof.
  rewrite geom_ok by (unfold fdm_regular; lra). f_equal. unfold fdm_f.
  replace (4 * 1 / (1 + 4 * 0 + 2 * 1 * (1 / 2)))%R with 2%R by field. replace (4 * 1 / 1)%R with 4%R by field.
  pose proof ln_lt_2. rewrite ln_4_2, <- RtoC_minus, <- RtoC_mult. f_equal. field. lra.
Qed.
Lemma fdm_coef_unit : forall D j, j < 3 ->
  fdm_taylor_coef D 0 j 0 0 (rr 1) (rr 1) (Some (RtoC (11 / 4))) (rr (1 / 2)) (rr (1 / 2)) (Some 1)
  = Ok (Some (nth j [RtoC 1; RtoC (1 / 2); RtoC (1 / 2)] (RtoC 0))).
Proof.
  intros D j Hj. rewrite (proj1 (fdm_coef_ok _ _ _ _ _ _ _ _ _ _ _)), (proj2 (fdm_coef_ok _ _ _ _ _ _ _ _ _ _ _)). f_equal.
  destruct j as [|j]; [reflexivity|]. cbn [Nat.eqb dflt].
  rewrite (demod_one _ _ (RtoC 1)).
  - unfold rc. rewrite (cdiv_ok _ _ C2_neq_0). f_equal. rewrite <- RtoC_div by lra.
    destruct j as [|[|j]]; [reflexivity|reflexivity|lia].
  - unfold fdm_geom_func_taylor. cbn zeta. rewrite geom_unit.
    destruct j as [|[|j]]; [| |lia].
    + change (Z.of_nat 1 - 1)%Z with 0%Z. unfold cpowz, cpown, cmul. cbn [olift1 olift2 Cpown]. f_equal. ring.
    + change (Z.of_nat 2 - 1)%Z with 1%Z. unfold cpowz, cpown, cmul. change (Pos.to_nat 1) with 1. cbn [olift1 olift2 Cpown]. f_equal. ring.
Qed.

(** Example: tip parameters for which the Taylor polynomial is
    1 + x/2 + x^2/2, and the two signals [11/8, 1].  The solutions of the first are 1/2 and
    -3/2 (excluded by the threshold), those of the second 0 and -1. *)
Lemma C31_example_proof : forall D,
  (exists eig sb sr, library eig sb sr) /\
  forall eig sb sr, library eig sb sr ->
  exists r, fdm_refl_coef_qs_from_eff_pol_n eig sb sr D
      (mkArr [2] (fun i => if Nat.eqb (hd 0 i) 0 then Some (RtoC (11 / 8)) else Some (RtoC 1)))
      (scalar 0%R) (scalar 0%Z) (Some (scalar 0%R)) (Some (scalar 1%R)) (Some (scalar 1%R)) (Some (scalar (RtoC (11 / 4))))
      (Some (scalar (1 / 2)%R)) (Some (scalar (1 / 2)%R)) (Some 1) (Some 3) (Some 1%R) true false (Some (scalar (RtoC 1))) = Ok r /\
    elements r = [2] /\
    occurrences (unmasked r [0]) (RtoC (1 / 2)) = 1 /\
    occurrences (unmasked r [1]) (RtoC 0) = 1 /\ occurrences (unmasked r [1]) (RtoC (-1)) = 1.
Proof.
  intro D. split; [exact library_exists|]. intros eig sb sr LIB.
  destruct (C31_fdm_complete_proof eig sb sr D
      (mkArr [2] (fun i => if Nat.eqb (hd 0 i) 0 then Some (RtoC (11 / 8)) else Some (RtoC 1)))
      (scalar 0%R) (scalar 0%Z) (Some (scalar 0%R)) (Some (scalar 1%R)) (Some (scalar 1%R)) (Some (scalar (RtoC (11 / 4))))
      (Some (scalar (1 / 2)%R)) (Some (scalar (1 / 2)%R)) (Some 1) (Some 3) (Some 1%R) true false (Some (scalar (RtoC 1)))
      [2] (fun _ => [RtoC 1; RtoC (1 / 2); RtoC (1 / 2)])
      (fun i => if Nat.eqb (hd 0 i) 0 then RtoC (11 / 8) else RtoC 1) 2 LIB) as (r & ER & EL & HR).
  - intros Sh s HJ Hs. destruct Hs as [<-|[]]. split; [cbn; lia|]. intro k. left. destruct k; reflexivity.
  - apply bshapes_spec. reflexivity.
  - exists [0]. apply in_ndindex. cbn. auto.
  - lia.
  - intros i Hi. split; [|split; [|split]].
    + apply in_ndindex in Hi. destruct Hi as [<-|[<-|[]]]; reflexivity.
    + split; [cbn [nth]; apply RtoC_neq_0; lra|]. intros k Hk. cbn [nth]. destruct k as [|[|[|k]]]; try lia. destruct k; reflexivity.
    + reflexivity.
    + cbn [at_index fdm_defaults dflt]. intros j Hj. cbn [given_or]. rewrite !entry_scalar. apply fdm_coef_unit. exact Hj.
  - exists r. split; [exact ER|]. split; [exact EL|].
    assert (I0 : index_of [2] [0]) by (apply in_ndindex; cbn; auto).
    assert (I1 : index_of [2] [1]) by (apply in_ndindex; cbn; auto).
    assert (HM : forall u v w : R, forall P, (forall x, P x = (peval [RtoC u; RtoC (1 / 2); RtoC (1 / 2)] x)%C) ->
       u = (v * w / 2)%R -> (v + w = -1)%R -> v <> w -> multiplicity P (RtoC v) 1).
    { intros u v w P HP Eu Ev Hne. exists [RtoC (- w / 2); RtoC (1 / 2)]. split.
      - intro x. rewrite HP. cbn [peval Cpown]. replace w with (-1 - v)%R by lra. rewrite Eu.
        replace (RtoC (v * w / 2)) with (RtoC v * (RtoC (-1) - RtoC v) * RtoC (1 / 2))%C.
        + replace (RtoC (- (-1 - v) / 2)) with (RtoC (1 / 2) * (RtoC 1 + RtoC v))%C.
          * replace (RtoC (-1)) with (- RtoC 1)%C by (unfold RtoC, Copp; cbn; f_equal; ring). ring.
          * rewrite <- RtoC_plus, <- RtoC_mult. f_equal. field.
        + rewrite <- RtoC_minus, <- !RtoC_mult. f_equal. replace w with (-1 - v)%R by lra. field.
      - cbn [peval]. rewrite Cmult_0_r, Cplus_0_r, <- RtoC_mult, <- RtoC_plus. apply RtoC_neq_0. lra. }
    assert (HA : forall x : R, (x <> 1)%R -> (Rabs x <= 1)%R -> admissible 1 true false (RtoC 1) (RtoC x)).
    { intros x Hx Ha. split; [rewrite Cmod_R; exact Ha|]. split; [|discriminate]. intros _. exists (RtoC ((1 + x) / (1 - x))). split.
      - unfold permitivitty, rc. cbn [cmul cadd csub olift2]. rewrite <- RtoC_minus. rewrite cdiv_ok by (apply RtoC_neq_0; lra).
        rewrite <- RtoC_plus, <- RtoC_mult, <- RtoC_div by lra. do 2 f_equal. field. lra.
      - cbn. lra. }
    split; [|split].
    + apply (HR [0] (RtoC (1 / 2)) 1 I0).
      * apply HA; [lra|]. rewrite Rabs_pos_eq; lra.
      * apply (HM (-3 / 8)%R (1 / 2)%R (-3 / 2)%R); try lra. intro x. cbn [peval hd Nat.eqb].
        replace (RtoC (-3 / 8)) with (RtoC 1 - RtoC (11 / 8))%C by (rewrite <- RtoC_minus; f_equal; field). ring.
    + apply (HR [1] (RtoC 0) 1 I1).
      * apply HA; [lra|]. rewrite Rabs_pos_eq; lra.
      * apply (HM 0%R 0%R (-1)%R); try lra. intro x. cbn [peval hd Nat.eqb]. ring.
    + apply (HR [1] (RtoC (-1)) 1 I1).
      * apply HA; [lra|]. unfold Rabs. destruct (Rcase_abs (-1)); lra.
      * apply (HM 0%R (-1)%R 0%R); try lra. intro x. cbn [peval hd Nat.eqb]. ring.
Qed.
(** Example: in this call 1/2 is returned for the first element. *)
Lemma C30_example_proof : forall D eig sb sr, library eig sb sr ->
  let alpha := mkArr [2] (fun i => if Nat.eqb (hd 0 i) 0 then Some (RtoC (11 / 8)) else Some (RtoC 1)) in
  let env := Some (scalar (RtoC 1)) in
  env_fits env (fdm_inverse_operands alpha (scalar 0%R) (scalar 0%Z) (Some (scalar 0%R)) (Some (scalar 1%R)) (Some (scalar 1%R))
    (Some (scalar (RtoC (11 / 4)))) (Some (scalar (1 / 2)%R)) (Some (scalar (1 / 2)%R))) /\
  exists r, fdm_refl_coef_qs_from_eff_pol_n eig sb sr D alpha
      (scalar 0%R) (scalar 0%Z) (Some (scalar 0%R)) (Some (scalar 1%R)) (Some (scalar 1%R)) (Some (scalar (RtoC (11 / 4))))
      (Some (scalar (1 / 2)%R)) (Some (scalar (1 / 2)%R)) (Some 1) (Some 3) (Some 1%R) true false env = Ok r /\
    index_of (elements r) [0] /\ In (Some (RtoC (1 / 2))) (unmasked r [0]).
Proof.
  intros D eig sb sr LIB alpha env. split.
  - intros Sh s HJ Hs. destruct Hs as [<-|[]]. split; [cbn; lia|]. intro k. left. destruct k; reflexivity.
  - destruct (C31_example_proof D) as [_ H]. destruct (H eig sb sr LIB) as (r & ER & EL & H0 & _). exists r.
    split; [exact ER|]. split; [rewrite EL; apply in_ndindex; cbn; auto|].
    apply (count_occ_In CV_eq_dec). unfold occurrences in H0. rewrite H0. lia.
Qed.
(** Example: ... and there are two rows of solutions at least, as the second
    element has two. *)
Lemma C32_example_proof : forall D eig sb sr, library eig sb sr ->
  let alpha := mkArr [2] (fun i => if Nat.eqb (hd 0 i) 0 then Some (RtoC (11 / 8)) else Some (RtoC 1)) in
  exists r, fdm_refl_coef_qs_from_eff_pol_n eig sb sr D alpha
      (scalar 0%R) (scalar 0%Z) (Some (scalar 0%R)) (Some (scalar 1%R)) (Some (scalar 1%R)) (Some (scalar (RtoC (11 / 4))))
      (Some (scalar (1 / 2)%R)) (Some (scalar (1 / 2)%R)) (Some 1) (Some 3) (Some 1%R) true false (Some (scalar (RtoC 1))) = Ok r /\
    elements r = [2] /\ 2 <= n_rows r.
Proof.
  intros D eig sb sr LIB alpha.
  destruct (C31_example_proof D) as [_ H]. destruct (H eig sb sr LIB) as (r & ER & EL & _ & H1 & H2). exists r.
  split; [exact ER|]. split; [exact EL|]. eapply Nat.le_trans; [|apply (unmasked_le r [1])].
  apply (Nat.le_trans _ (length [Some (RtoC 0); Some (RtoC (-1))])); [cbn; lia|].
  apply NoDup_incl_length.
  - constructor; [|constructor; [intros []|constructor]]. intros [E|[]]. injection E as E. lra.
  - intros v [<-|[<-|[]]]; apply (count_occ_In CV_eq_dec).
    + unfold occurrences in H1. rewrite H1. lia.
    + unfold occurrences in H2. rewrite H2. lia.
Qed.
