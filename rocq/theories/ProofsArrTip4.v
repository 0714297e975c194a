(** * Broadcasting of the tip models: statements (C48) *)
From Coq Require Import String Reals Lra Lia ZArith List Bool.
From Coquelicot Require Import Rcomplements Complex.
From Verif Require Import Num NumLemmas ModelBase ModelSample ModelTip NArr SpecArr NArrLemmas ModelObj
  ModelArr SpecObj ArrSample ProofsArr ProofsArr2 ModelArrTip ProofsArrTip ProofsArrTip2 ProofsArrTip3.
Import ListNotations.
Open Scope R_scope.

Lemma vec_subst : forall A B ss sa ga (a : arr A) (h : list nat -> B) r,
  vec sa ga (Ok a) -> vec (shp a :: ss) h r -> vec (sa ++ ss) h r.
Proof.
  intros A B ss sa ga a h r Va V. destruct (vec_ok _ _ _ _ Va) as [Ea _].
  eapply vec_shapes; [|exact V].
  rewrite (bshapes_incl (shp a :: ss) (ss ++ [shp a])).
  - rewrite (bshapes_subst _ _ _ Ea). apply bshapes_incl; isolve.
  - apply incl_cons; [in_leaf|isolve].
  - isolve.
Qed.

(** ** Taylor coefficients *)
Lemma fdm_coef_ok : forall D z j A n r L g d0 d1 nt,
  fdm_taylor_coef D z j A n r L g d0 d1 nt = Ok (value (fdm_taylor_coef D z j A n r L g d0 d1 nt)) /\
  value (fdm_taylor_coef D z j A n r L g d0 d1 nt)
  = if Nat.eqb j 0 then (if Z.eqb n 0 then rc 1 else rc 0) else
    (demod_value (fun x => fdm_geom_func_taylor (rr x) j r L g d0 d1) (z + A) A n (dflt (d_n_trapz D) nt) / rc 2)%cv.
Proof.
  intros. unfold fdm_taylor_coef. cbn zeta.
  rewrite (demod_pure _ _ _ _ _ _ _ (fun x => eq_refl)). cbn [rbind value]. split; reflexivity.
Qed.
Lemma fdm_coef_vec : forall D (z : arr R) (j : arr nat) (A : arr R) (n : arr Z) (r L : arr RV) (g : arr CV) (d0 d1 : arr RV) nt,
  vec [shp z; shp j; shp A; shp n; shp r; shp L; shp g; shp d0; shp d1]
      (fun i => value (fdm_taylor_coef D (entry z i) (entry j i) (entry A i) (entry n i) (entry r i) (entry L i)
                  (entry g i) (entry d0 i) (entry d1 i) nt))
      (fdm_taylor_coef_a D z j A n r L g d0 d1 nt).
Proof.
  intros. unfold fdm_taylor_coef_a.
  eapply vec_let; [vsolve|isolve|]. intros z0 Vz0. destruct (vec_ok _ _ _ _ Vz0) as [_ Ez0].
  assert (EL : elementwise [shp j; shp r; shp L; shp g; shp d0; shp d1]
    (fun i x => fdm_geom_func_taylor (rr x) (entry j i) (entry r i) (entry L i) (entry g i) (entry d0 i) (entry d1 i))
    (fun z => fdm_geom_func_taylor_a (amap rr z) j r L g d0 d1)).
  { intro x. eapply vec_by; [eapply geom_taylor_vec; vsolve|isolve|isolve|reflexivity]. }
  pose proof (demod_elementwise D _ _ _ z0 A n nt EL) as VD.
  cbn [app] in VD. eapply vec_let; [exact (vec_subst _ _ _ _ _ _ _ _ Vz0 VD)|isolve|].
  intros d Vd. eapply vec_by; [vsolve|isolve|isolve|]. intro i. cbn [fst snd].
  rewrite (proj2 (fdm_coef_ok _ _ _ _ _ _ _ _ _ _ _)), Ez0. reflexivity.
Qed.

Lemma pdm_coef_ok : forall D z j A n r a nt,
  pdm_taylor_coef D z j A n r a nt = Ok (value (pdm_taylor_coef D z j A n r a nt)) /\
  value (pdm_taylor_coef D z j A n r a nt)
  = demod_value (fun x => cpown (pdm_geom_func (rr x) r a) j) (z + A) A n (dflt (d_n_trapz D) nt).
Proof.
  intros. unfold pdm_taylor_coef. cbn zeta.
  rewrite (demod_pure _ _ _ _ _ _ _ (fun x => eq_refl)). cbn [rbind value]. split; reflexivity.
Qed.
Lemma pdm_coef_vec : forall D (z : arr R) (j : arr nat) (A : arr R) (n : arr Z) (r : arr RV) (a : arr CV) nt,
  vec [shp z; shp j; shp A; shp n; shp r; shp a]
      (fun i => value (pdm_taylor_coef D (entry z i) (entry j i) (entry A i) (entry n i) (entry r i) (entry a i) nt))
      (pdm_taylor_coef_a D z j A n r a nt).
Proof.
  intros. unfold pdm_taylor_coef_a.
  eapply vec_let; [vsolve|isolve|]. intros z0 Vz0. destruct (vec_ok _ _ _ _ Vz0) as [_ Ez0].
  assert (EL : elementwise [shp j; shp r; shp a]
    (fun i x => cpown (pdm_geom_func (rr x) (entry r i) (entry a i)) (entry j i))
    (fun z => let! f := pdm_geom_func_a (amap rr z) r a in amap2 cpown f j)).
  { intro x. eapply vec_let; [eapply pdm_geom_vec; vsolve|isolve|]. intros f Vf.
    eapply vec_by; [vsolve|isolve|isolve|reflexivity]. }
  pose proof (demod_elementwise D _ _ _ z0 A n nt EL) as VD.
  cbn [app] in VD. eapply vec_by; [exact (vec_subst _ _ _ _ _ _ _ _ Vz0 VD)|isolve|isolve|].
  intro i. cbn beta. rewrite (proj2 (pdm_coef_ok _ _ _ _ _ _ _ _)), Ez0. reflexivity.
Qed.

(** ** Sums over a padded index axis *)
Lemma sum_padded : forall T S nt (c : list nat -> nat -> CV) r,
  bshapes T = Some S ->
  (let X := shp (pad_for_broadcasting O (seq 0 nt) T) in
   vec (T ++ [X]) (fun i => c i (entry (pad_for_broadcasting O (seq 0 nt) T) i)) r) ->
  (forall i k j, c (bidx S i ++ [k]) j = c i j) ->
  vec T (fun i => csum (map (c i) (seq 0 nt))) (let! a := r in Ok (sum_axis0 a)).
Proof.
  intros T Sh nt c r E V H. cbn zeta in V. rewrite pad_shape_gen, <- (joint_length _ _ E), seq_length in V.
  eapply vec_ext; [|exact (vec_sum0 _ _ _ _ _ E V)].
  intro i. cbn beta. f_equal. apply map_ext_in. intros k Hk. rewrite H.
  rewrite (pad_entry_gen _ _ _ _ _ _ _ (joint_length _ _ E)) by (rewrite seq_length; apply in_seq in Hk; lia).
  rewrite seq_nth by (apply in_seq in Hk; lia). reflexivity.
Qed.
Lemma mapM_ok_map : forall A B (f : A -> res B) h l, (forall x, f x = Ok (h x)) -> mapM f l = Ok (map h l).
Proof. exact mapM_pure. Qed.

Lemma fdm_taylor_core : forall D (z A : arr R) (n : arr Z) (b : arr CV) (r L : arr R) (g : arr C) (d0 : arr RV) (d1 : arr R) nt ntay,
  let T := [shp z; shp A; shp n; shp b; shp r; shp L; shp g; shp d0; shp d1] in
  vec T (fun i => csum (map (fun j => (value (fdm_taylor_coef D (entry z i) j (entry A i) (entry n i) (rr (entry r i))
             (rr (entry L i)) (Some (entry g i)) (entry d0 i) (rr (entry d1 i)) nt) * cpown (entry b i) j)%cv) (seq 0 ntay)))
    (let j := pad_for_broadcasting O (seq 0 ntay) T in
     let! coefs := fdm_taylor_coef_a D z j A n (amap rr r) (amap rr L) (amap Some g) d0 (amap rr d1) nt in
     let! terms := lift2 cmul (Ok coefs) (amap2 cpown b j) in
     Ok (sum_axis0 terms)).
Proof.
  intros. cbn zeta. set (j := pad_for_broadcasting O (seq 0 ntay) T).
  assert (V : vec (T ++ [shp j]) (fun i => (value (fdm_taylor_coef D (entry z i) (entry j i) (entry A i) (entry n i) (rr (entry r i))
             (rr (entry L i)) (Some (entry g i)) (entry d0 i) (rr (entry d1 i)) nt) * cpown (entry b i) (entry j i))%cv)
     (let! coefs := fdm_taylor_coef_a D z j A n (amap rr r) (amap rr L) (amap Some g) d0 (amap rr d1) nt in
      lift2 cmul (Ok coefs) (amap2 cpown b j))).
  { unfold T. eapply vec_let; [apply fdm_coef_vec|cbn [amap shp]; isolve|]. intros c Vc.
    cbn [amap shp] in Vc. eapply vec_by; [vsolve|isolve|isolve|]. intro i. reflexivity. }
  assert (Hassoc : forall rc : res (arr CV),
     (let! coefs := rc in let! terms := lift2 cmul (Ok coefs) (amap2 cpown b j) in Ok (sum_axis0 terms))
     = (let! t := (let! coefs := rc in lift2 cmul (Ok coefs) (amap2 cpown b j)) in Ok (sum_axis0 t)))
    by (intros [?|?]; reflexivity).
  rewrite Hassoc. clear Hassoc.
  destruct (bshapes T) as [Sh|] eqn:E.
  - apply (sum_padded T Sh ntay (fun i j => (value (fdm_taylor_coef D (entry z i) j (entry A i) (entry n i) (rr (entry r i))
             (rr (entry L i)) (Some (entry g i)) (entry d0 i) (rr (entry d1 i)) nt) * cpown (entry b i) j)%cv) _ E V).
    intros i k j'. cbn beta. rewrite !(entry_in_front _ _ Sh) by (apply (bshapes_fits _ _ _ E); unfold T; in_leaf).
    reflexivity.
  - unfold vec in V. rewrite (bshapes_app_none_l _ _ E) in V. destruct V as (m & ->). apply vec_none, E.
Qed.
Lemma pdm_taylor_core : forall D (z A : arr R) (n : arr Z) (b : arr CV) (r : arr R) (a : arr CV) nt ntay,
  let T := [shp z; shp A; shp n; shp b; shp r; shp a] in
  vec T (fun i => csum (map (fun j => (value (pdm_taylor_coef D (entry z i) j (entry A i) (entry n i) (rr (entry r i))
             (entry a i) nt) * cpown (entry b i) j)%cv) (seq 0 ntay)))
    (let j := pad_for_broadcasting O (seq 0 ntay) T in
     let! coefs := pdm_taylor_coef_a D z j A n (amap rr r) a nt in
     let! terms := lift2 cmul (Ok coefs) (amap2 cpown b j) in
     Ok (sum_axis0 terms)).
Proof.
  intros. cbn zeta. set (j := pad_for_broadcasting O (seq 0 ntay) T).
  assert (V : vec (T ++ [shp j]) (fun i => (value (pdm_taylor_coef D (entry z i) (entry j i) (entry A i) (entry n i) (rr (entry r i))
             (entry a i) nt) * cpown (entry b i) (entry j i))%cv)
     (let! coefs := pdm_taylor_coef_a D z j A n (amap rr r) a nt in
      lift2 cmul (Ok coefs) (amap2 cpown b j))).
  { unfold T. eapply vec_let; [apply pdm_coef_vec|cbn [amap shp]; isolve|]. intros c Vc.
    cbn [amap shp] in Vc. eapply vec_by; [vsolve|isolve|isolve|]. intro i. reflexivity. }
  assert (Hassoc : forall rc : res (arr CV),
     (let! coefs := rc in let! terms := lift2 cmul (Ok coefs) (amap2 cpown b j) in Ok (sum_axis0 terms))
     = (let! t := (let! coefs := rc in lift2 cmul (Ok coefs) (amap2 cpown b j)) in Ok (sum_axis0 t)))
    by (intros [?|?]; reflexivity).
  rewrite Hassoc. clear Hassoc.
  destruct (bshapes T) as [Sh|] eqn:E.
  - apply (sum_padded T Sh ntay (fun i j => (value (pdm_taylor_coef D (entry z i) j (entry A i) (entry n i) (rr (entry r i))
             (entry a i) nt) * cpown (entry b i) j)%cv) _ E V).
    intros i k j'. cbn beta. rewrite !(entry_in_front _ _ Sh) by (apply (bshapes_fits _ _ _ E); unfold T; in_leaf).
    reflexivity.
  - unfold vec in V. rewrite (bshapes_app_none_l _ _ E) in V. destruct V as (m & ->). apply vec_none, E.
Qed.
