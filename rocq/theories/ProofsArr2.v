(** * Broadcasting of the momentum integrals (C47) *)
From Coq Require Import String Reals Lra Lia ZArith List Bool.
From Coquelicot Require Import Rcomplements Complex.
From Verif Require Import Num NumLemmas ModelBase ModelSample NArr SpecArr NArrLemmas ModelObj ModelArr
  SpecObj ArrSample ProofsArr.
Import ListNotations.
Open Scope R_scope.

Lemma bshape_pad : forall (n : nat) s, bshape s (repeat 1 (length s) ++ [n])%nat = Some (s ++ [n]).
Proof.
  intros n s. induction s as [|d s IH]; [reflexivity|].
  cbn [length repeat app bshape]. rewrite bdim_1_r, IH. reflexivity.
Qed.
Lemma pad_joint : forall ss S n, bshapes ss = Some S ->
  bshapes (ss ++ [repeat 1 (length S) ++ [n]])%nat = Some (S ++ [n]).
Proof.
  intros ss Sh n E. rewrite (bshapes_app_bshape _ _ _ _ E (bshapes_1 _)). apply bshape_pad.
Qed.
Lemma bidx_prefix : forall s j t, (length s <= length j)%nat -> bidx s (j ++ t) = bidx s j.
Proof.
  induction s as [|d s IH]; intros [|x j] t L; cbn in L; try lia; [reflexivity..|].
  cbn [app bidx hd tl]. f_equal. apply IH. lia.
Qed.
Lemma entry_prefix : forall A (a : arr A) j t, (length (shp a) <= length j)%nat -> entry a (j ++ t) = entry a j.
Proof. intros. rewrite !entry_bidx, bidx_prefix by assumption. reflexivity. Qed.

(** an operand that fits into [S], read at an index with an axis in front *)
Lemma entry_in_front : forall A (a : arr A) S i t, fits (shp a) S -> entry a (bidx S i ++ t) = entry a i.
Proof.
  intros A a Sh i t F. rewrite entry_prefix by (rewrite bidx_length; apply F).
  apply entry_entry, F.
Qed.

Lemma vec_sum0 : forall ss S n g r, bshapes ss = Some S ->
  vec (ss ++ [repeat 1 (length S) ++ [n]])%nat g r ->
  vec ss (fun i => csum (map (fun k => g (bidx S i ++ [k])) (seq 0 n))) (let! a := r in Ok (sum_axis0 a)).
Proof.
  intros ss Sh n g r E V. unfold vec in *. rewrite (pad_joint _ _ n E) in V. rewrite E.
  destruct V as (a & -> & Ha & Hg). cbn [rbind].
  eexists. split; [reflexivity|]. unfold sum_axis0. cbn [shp]. rewrite Ha, removelast_last.
  split; [reflexivity|]. intro i. rewrite entry_bidx. cbn [shp at_]. rewrite last_last. f_equal. apply map_ext_in.
  intros k Hk. apply in_seq in Hk. rewrite <- Hg, entry_bidx, Ha.
  rewrite bidx_app by apply bidx_length. rewrite bidx_idem. f_equal. f_equal.
  cbn. destruct (Nat.eqb_spec n 1); [f_equal; lia|reflexivity].
Qed.

(** padded lists *)
Lemma pad_shape : forall A (d : A) l s, shp (pad_for_broadcasting d l [s]) = (repeat 1 (length s) ++ [length l])%nat.
Proof. intros. unfold pad_for_broadcasting, ndim_max. cbn. rewrite Nat.max_0_r. reflexivity. Qed.
Lemma pad_entry : forall A (d : A) l s i k, (k < length l)%nat ->
  entry (pad_for_broadcasting d l [s]) (bidx s i ++ [k]) = nth k l d.
Proof.
  intros A d l s i k H. rewrite entry_bidx, pad_shape.
  rewrite bidx_app by (rewrite bidx_length, repeat_length; reflexivity).
  unfold pad_for_broadcasting. cbn [at_]. cbn [bidx hd tl]. rewrite last_last.
  destruct (Nat.eqb_spec (length l) 1); [f_equal; lia|reflexivity].
Qed.

Lemma map_nth_seq : forall A B (h : A -> B) l d,
  map (fun k => h (nth k l d)) (seq 0 (length l)) = map h l.
Proof.
  intros A B h l d. induction l as [|a l IH]; [reflexivity|].
  cbn [length seq map nth]. f_equal. rewrite <- seq_shift, map_map. exact IH.
Qed.

(** the wavenumber of a sample plays no role in the quasistatic functions *)
Lemma refl_qs_nu : forall e t nu nu' q, refl_coef_qs (mkSample e t nu) q = refl_coef_qs (mkSample e t nu') q.
Proof. reflexivity. Qed.

Lemma refl_qs_at : forall o S i t q, fits (eps_shape o) S -> fits (t_shape o) S ->
  refl_coef_qs (sample_at o (bidx S i ++ t)) q = refl_coef_qs (sample_at o i) q.
Proof.
  intros o Sh i t q Fe Ft. unfold sample_at.
  replace (match o_eps o with Some e => map (fun a => entry a (bidx Sh i ++ t)) (slices e) | None => [] end)
    with (match o_eps o with Some e => map (fun a => entry a i) (slices e) | None => [] end).
  2: { unfold eps_shape in Fe. destruct (o_eps o) as [e|]; [|reflexivity]. apply map_ext_in. intros a Ha.
       symmetry. apply entry_in_front. rewrite (slice_shp _ _ _ Ha). exact Fe. }
  replace (match o_t o with Some e => map (fun a => entry a (bidx Sh i ++ t)) (slices e) | None => [] end)
    with (match o_t o with Some e => map (fun a => entry a i) (slices e) | None => [] end).
  2: { unfold t_shape in Ft. destruct (o_t o) as [e|]; [|reflexivity]. apply map_ext_in. intros a Ha.
       symmetry. apply entry_in_front. rewrite (slice_shp _ _ _ Ha). exact Ft. }
  apply refl_qs_nu.
Qed.

Lemma bshapes_fits : forall ss S s, bshapes ss = Some S -> In s ss -> fits s S.
Proof. intros ss Sh s E H. apply bshapes_joint in E. apply E, H. Qed.

(** the value of the sampled reflection coefficients *)
Definition node_beta (o : obj) (z : arr RV) (i : list nat) (xw : R * R) : CV :=
  match refl_coef_qs (sample_at o i) (rr (fst xw) / (rr 2 * entry z i))%rv with Ok v => v | Raise _ => None end.

Lemma sampled_elementwise : forall lag o z n, consistent o -> n <> O ->
  let ss := [eps_shape o; t_shape o; shp z] in
  (bshapes ss = None -> exists m, sampled_beta_a lag o z n = Raise (ValueError m)) /\
  (forall S, bshapes ss = Some S ->
    let X := (repeat 1 (length S) ++ [length (lag n)])%nat in
    exists x w b gx gw gb, sampled_beta_a lag o z n = Ok (x, w, b) /\
      vec [X] gx (Ok x) /\ vec [X] gw (Ok w) /\ vec (ss ++ [X]) gb (Ok b) /\
      (forall i k d, (k < length (lag n))%nat ->
         gx (bidx S i ++ [k]) = rr (fst (nth k (lag n) d)) /\
         gw (bidx S i ++ [k]) = rr (snd (nth k (lag n) d)) /\
         gb (bidx S i ++ [k]) = node_beta o z i (nth k (lag n) d))) /\
  forall i, sampled_beta lag (sample_at o i) (entry z i) n
     = Ok (map (fun xw => (fst xw, snd xw, node_beta o z i xw)) (lag n)).
Proof.
  intros lag o z n Hc Hn ss. assert (En : Nat.eqb n 0 = false) by (apply Nat.eqb_neq, Hn).
  destruct (refl_qs_elementwise o z Hc) as (g & V & S). fold ss in V.
  assert (Htot : forall i q, exists v, refl_coef_qs (sample_at o i) q = Ok v).
  { intros i q. destruct (refl_qs_elementwise o (scalar q) Hc) as (g' & _ & S').
    exists (g' i). exact (S' i). }
  split; [|split].
  - intro E. unfold vec in V. rewrite E in V. destruct V as [m Em]. exists m.
    unfold sampled_beta_a. rewrite En, Em. reflexivity.
  - intros Sh E X. pose proof V as V0. unfold vec in V0. rewrite E in V0. destruct V0 as (r & Er & Hr & Hg).
    set (x := pad_for_broadcasting None (map (fun xw => rr (fst xw)) (lag n)) [shp r]).
    set (w := pad_for_broadcasting None (map (fun xw => rr (snd xw)) (lag n)) [shp r]).
    assert (Sx : shp x = X) by (unfold x, X; rewrite pad_shape, map_length, Hr; reflexivity).
    assert (Sw : shp w = X) by (unfold w, X; rewrite pad_shape, map_length, Hr; reflexivity).
    assert (Vx : vec [X] (entry x) (Ok x)) by (rewrite <- Sx; apply vec_arr).
    assert (Vw : vec [X] (entry w) (Ok w)) by (rewrite <- Sw; apply vec_arr).
    pose proof (vec_amap _ _ (fun z => (rr 2 * z)%rv) _ _ _ (vec_arr _ z)) as Vz. cbn [rbind] in Vz.
    pose proof (vec_amap2' _ _ _ rdiv _ _ _ _ _ _ Vx Vz) as Vq. cbn [rbind] in Vq.
    assert (EX : bshapes (ss ++ [X]) = Some (Sh ++ [length (lag n)])) by (apply pad_joint, E).
    destruct (amap2 rdiv x (amap (fun z => (rr 2 * z)%rv) z)) as [q|e] eqn:Eq.
    2: { exfalso. destruct (vec_raise _ _ _ _ Vq) as [N _].
         apply (bshapes_app_none_r [eps_shape o; t_shape o]) in N.
         rewrite (bshapes_incl _ (ss ++ [X])) in N; [congruence| |]; unfold ss; incl_solve. }
    assert (Bq : bshapes ([X] ++ [shp z]) = Some (shp q) /\ forall i, entry q i = (entry x i / (rr 2 * entry z i))%rv).
    { unfold vec in Vq. destruct (bshapes ([X] ++ [shp z])) as [s|].
      - destruct Vq as (y & [= <-] & Hs & Hx). subst s. split; [reflexivity|exact Hx].
      - destruct Vq as [m Hm]. discriminate. }
    destruct Bq as [Bq Gq].
    destruct (refl_qs_elementwise o q Hc) as (gb & Vb & Sb).
    assert (Vb' : vec (ss ++ [X]) gb (refl_coef_qs_a o q)).
    { refine (vec_shapes _ _ _ _ _ _ Vb).
      etransitivity; [exact (bshapes_subst [eps_shape o; t_shape o] _ _ Bq)|].
      apply bshapes_incl; unfold ss; incl_solve. }
    destruct (refl_coef_qs_a o q) as [b|e] eqn:Eb; [|destruct (vec_raise _ _ _ _ Vb') as [N _]; congruence].
    exists x, w, b, (entry x), (entry w), gb.
    split; [|split; [exact Vx|split; [exact Vw|split; [exact Vb'|]]]].
    + unfold sampled_beta_a. rewrite En, Er. cbn [rbind]. fold x w. rewrite Eq. cbn [rbind]. rewrite Eb. reflexivity.
    + intros i k d Hk.
      assert (Ex : entry x (bidx Sh i ++ [k]) = rr (fst (nth k (lag n) d))).
      { unfold x. rewrite <- Hr. rewrite pad_entry by (rewrite map_length; exact Hk).
        rewrite (nth_indep _ None (rr (fst d))) by (rewrite map_length; exact Hk).
        apply (map_nth (fun xw : R * R => rr (fst xw))). }
      assert (Ew : entry w (bidx Sh i ++ [k]) = rr (snd (nth k (lag n) d))).
      { unfold w. rewrite <- Hr. rewrite pad_entry by (rewrite map_length; exact Hk).
        rewrite (nth_indep _ None (rr (snd d))) by (rewrite map_length; exact Hk).
        apply (map_nth (fun xw : R * R => rr (snd xw))). }
      split; [exact Ex|]. split; [exact Ew|].
      unfold node_beta.
      assert (Fe : fits (eps_shape o) Sh) by (eapply bshapes_fits; [exact E|unfold ss; cbn; auto]).
      assert (Ft : fits (t_shape o) Sh) by (eapply bshapes_fits; [exact E|unfold ss; cbn; auto]).
      assert (Fz : fits (shp z) Sh) by (eapply bshapes_fits; [exact E|unfold ss; cbn; auto]).
      pose proof (Sb (bidx Sh i ++ [k])) as Sbk.
      rewrite Gq, Ex, (refl_qs_at o Sh i [k] _ Fe Ft), (entry_in_front _ z Sh i [k] Fz) in Sbk.
      rewrite Sbk. reflexivity.
  - intro i. unfold sampled_beta. rewrite En, S. cbn [rbind].
    generalize (lag n) as l. induction l as [|xw l IH]; [reflexivity|].
    cbn [mapM map]. unfold node_beta at 1.
    destruct (Htot i (rr (fst xw) / (rr 2 * entry z i))%rv) as [v Ev]. rewrite Ev. cbn [rbind].
    rewrite IH. reflexivity.
Qed.

Lemma vec_sum_nodes : forall (rule : list (R * R)) ss S g r (h : list nat -> R * R -> CV),
  bshapes ss = Some S -> vec (ss ++ [repeat 1 (length S) ++ [length rule]])%nat g r ->
  (forall i k d, (k < length rule)%nat -> g (bidx S i ++ [k]) = h i (nth k rule d)) ->
  vec ss (fun i => csum (map (h i) rule)) (let! a := r in Ok (sum_axis0 a)).
Proof.
  intros rule ss Sh g r h E V H.
  eapply vec_ext; [|exact (vec_sum0 _ _ _ _ _ E V)].
  intro i. cbn beta. f_equal. rewrite <- (map_nth_seq _ _ (h i) rule (0, 0)).
  apply map_ext_in. intros k Hk. apply in_seq in Hk. apply H. lia.
Qed.

Lemma above_elementwise : forall lag D o z n_lag, consistent o -> dflt (d_n_lag D) n_lag <> O ->
  exists g, vec [eps_shape o; t_shape o; shp z] g (refl_coef_qs_above_surf_a lag D o z n_lag) /\
    forall i, refl_coef_qs_above_surf lag D (sample_at o i) (entry z i) n_lag = Ok (g i).
Proof.
  intros lag D o z n_lag Hc Hn. set (n := dflt (d_n_lag D) n_lag) in *.
  destruct (sampled_elementwise lag o z n Hc Hn) as (HN & HS & Hsc).
  set (ss := [eps_shape o; t_shape o; shp z]) in *.
  exists (fun i => csum (map (fun xw => (ofR (rr (snd xw) * rr (fst xw))%rv * node_beta o z i xw)%cv) (lag n))).
  split.
  - unfold refl_coef_qs_above_surf_a. fold n. destruct (bshapes ss) as [Sh|] eqn:E.
    + destruct (HS Sh eq_refl) as (x & w & b & gx & gw & gb & Es & Vx & Vw & Vb & Hg).
      rewrite Es. cbn [rbind].
      pose proof (vec_amap2' _ _ _ rmul _ _ _ _ _ _ Vw Vx) as V1. cbn [rbind] in V1.
      pose proof (vec_amap2' _ _ _ (fun a y => (ofR a * y)%cv) _ _ _ _ _ _ V1 Vb) as V2.
      set (X := (repeat 1 (length Sh) ++ [length (lag n)])%nat) in *.
      apply (vec_incl _ _ (ss ++ [X])) in V2; [|unfold ss; incl_solve..].
      pose proof (vec_sum_nodes (lag n) ss Sh _ _ (fun i xw => (ofR (rr (snd xw) * rr (fst xw))%rv * node_beta o z i xw)%cv) E V2) as V3.
      destruct (amap2 rmul w x) as [wx|e]; cbn [rbind] in V2, V3 |- *.
      * apply V3. intros i k d Hk. cbn beta. destruct (Hg i k d Hk) as (-> & -> & ->). reflexivity.
      * apply V3. intros i k d Hk. cbn beta. destruct (Hg i k d Hk) as (-> & -> & ->). reflexivity.
    + destruct (HN eq_refl) as [m Em]. rewrite Em. apply vec_none, E.
  - intro i. unfold refl_coef_qs_above_surf. fold n. rewrite Hsc. cbn [rbind]. rewrite map_map. reflexivity.
Qed.

Lemma surf_elementwise : forall lag D o z n_lag, consistent o -> dflt (d_n_lag D) n_lag <> O ->
  exists gp gE,
    (bshapes [eps_shape o; t_shape o; shp z] = None ->
       exists m, surf_pot_and_field_a lag D o z n_lag = Raise (ValueError m)) /\
    (bshapes [eps_shape o; t_shape o; shp z] <> None ->
     exists phi E, surf_pot_and_field_a lag D o z n_lag = Ok (phi, E) /\
       vec [eps_shape o; t_shape o; shp z] gp (Ok phi) /\ vec [eps_shape o; t_shape o; shp z] gE (Ok E)) /\
    forall i, surf_pot_and_field lag D (sample_at o i) (entry z i) n_lag = Ok (gp i, gE i).
Proof.
  intros lag D o z n_lag Hc Hn. set (n := dflt (d_n_lag D) n_lag) in *.
  destruct (sampled_elementwise lag o z n Hc Hn) as (HN & HS & Hsc).
  set (ss := [eps_shape o; t_shape o; shp z]) in *.
  exists (fun i => (csum (map (fun xw => rc (snd xw) * node_beta o z i xw) (lag n)) / ofR (rr 2 * entry z i)%rv)%cv).
  exists (fun i => (csum (map (fun xw => ofR (rr (snd xw) * rr (fst xw))%rv * node_beta o z i xw) (lag n))
                    / ofR (rr 4 * entry z i ^ 2)%rv)%cv).
  split; [|split].
  - intro E. destruct (HN E) as [m Em]. exists m. unfold surf_pot_and_field_a. fold n. rewrite Em. reflexivity.
  - intro NE. destruct (bshapes ss) as [Sh|] eqn:E; [clear NE|contradiction].
    destruct (HS Sh eq_refl) as (x & w & b & gx & gw & gb & Es & Vx & Vw & Vb & Hg).
    unfold surf_pot_and_field_a. fold n. rewrite Es. cbn [rbind].
    set (X := (repeat 1 (length Sh) ++ [length (lag n)])%nat) in *.
    assert (EX : bshapes (ss ++ [X]) = Some (Sh ++ [length (lag n)])) by (apply pad_joint, E).
    pose proof (vec_amap2' _ _ _ (fun a y => (ofR a * y)%cv) _ _ _ _ _ _ Vw Vb) as W1. cbn [rbind] in W1.
    apply (vec_incl _ _ (ss ++ [X])) in W1; [|unfold ss; incl_solve..].
    pose proof (vec_sum_nodes (lag n) ss Sh _ _ (fun i xw => (rc (snd xw) * node_beta o z i xw)%cv) E W1) as W2.
    destruct (amap2 (fun a y => (ofR a * y)%cv) w b) as [s1|e]; [|destruct (vec_raise _ _ _ _ W1); congruence].
    cbn [rbind] in W2 |- *.
    specialize (W2 ltac:(intros i k d Hk; cbn beta; destruct (Hg i k d Hk) as (_ & -> & ->); reflexivity)).
    pose proof (vec_amap2' _ _ _ (fun s z => (s / ofR (rr 2 * z)%rv)%cv) _ _ _ _ _ _ W2 (vec_arr _ z)) as W3.
    cbn [rbind] in W3. apply (vec_incl _ _ ss) in W3; [|unfold ss; incl_solve..].
    destruct (amap2 (fun s z => (s / ofR (rr 2 * z)%rv)%cv) (sum_axis0 s1) z) as [phi|e];
      [|destruct (vec_raise _ _ _ _ W3); congruence].
    cbn [rbind].
    pose proof (vec_amap2' _ _ _ rmul _ _ _ _ _ _ Vw Vx) as V1. cbn [rbind] in V1.
    apply (vec_incl _ _ [X]) in V1; [|incl_solve..].
    destruct (amap2 rmul w x) as [wx|e]; [|destruct (vec_raise _ _ _ _ V1) as [N _]; rewrite bshapes_1 in N; discriminate].
    cbn [rbind].
    pose proof (vec_amap2' _ _ _ (fun a y => (ofR a * y)%cv) _ _ _ _ _ _ V1 Vb) as V2. cbn [rbind] in V2.
    apply (vec_incl _ _ (ss ++ [X])) in V2; [|unfold ss; incl_solve..].
    pose proof (vec_sum_nodes (lag n) ss Sh _ _ (fun i xw => (ofR (rr (snd xw) * rr (fst xw))%rv * node_beta o z i xw)%cv) E V2) as V3.
    destruct (amap2 (fun a y => (ofR a * y)%cv) wx b) as [s2|e]; [|destruct (vec_raise _ _ _ _ V2); congruence].
    cbn [rbind] in V3 |- *.
    specialize (V3 ltac:(intros i k d Hk; cbn beta; destruct (Hg i k d Hk) as (-> & -> & ->); reflexivity)).
    pose proof (vec_amap2' _ _ _ (fun s z => (s / ofR (rr 4 * z ^ 2)%rv)%cv) _ _ _ _ _ _ V3 (vec_arr _ z)) as V4.
    cbn [rbind] in V4. apply (vec_incl _ _ ss) in V4; [|unfold ss; incl_solve..].
    destruct (amap2 (fun s z => (s / ofR (rr 4 * z ^ 2)%rv)%cv) (sum_axis0 s2) z) as [Ef|e];
      [|destruct (vec_raise _ _ _ _ V4); congruence].
    exists phi, Ef. split; [reflexivity|]. split; [exact W3|exact V4].
  - intro i. unfold surf_pot_and_field. fold n. rewrite Hsc. cbn [rbind]. rewrite !map_map. reflexivity.
Qed.

Lemma image_elementwise : forall lag D o z n_lag, consistent o -> dflt (d_n_lag D) n_lag <> O ->
  exists gd gb,
    (bshapes [eps_shape o; t_shape o; shp z] = None ->
       exists m, image_depth_and_charge_a lag D o z n_lag = Raise (ValueError m)) /\
    (bshapes [eps_shape o; t_shape o; shp z] <> None ->
     exists d b, image_depth_and_charge_a lag D o z n_lag = Ok (d, b) /\
       vec [eps_shape o; t_shape o; shp z] gd (Ok d) /\ vec [eps_shape o; t_shape o; shp z] gb (Ok b)) /\
    forall i, image_depth_and_charge lag D (sample_at o i) (entry z i) n_lag = Ok (gd i, gb i).
Proof.
  intros lag D o z n_lag Hc Hn.
  destruct (surf_elementwise lag D o z n_lag Hc Hn) as (gp & gE & HN & HS & Hsc).
  set (ss := [eps_shape o; t_shape o; shp z]) in *.
  exists (fun i => (cabs (gp i / gE i)%cv - entry z i)%rv), (fun i => (gp i ^ 2 / gE i)%cv).
  split; [|split].
  - intro E. destruct (HN E) as [m Em]. exists m. unfold image_depth_and_charge_a. rewrite Em. reflexivity.
  - intro NE. destruct (HS NE) as (phi & E & Es & Vp & VE).
    unfold image_depth_and_charge_a. rewrite Es. cbn [rbind fst snd].
    pose proof (vec_amap2' _ _ _ cdiv _ _ _ _ _ _ Vp VE) as V1. cbn [rbind] in V1.
    apply (vec_incl _ _ ss) in V1; [|unfold ss; incl_solve..].
    destruct (amap2 cdiv phi E) as [ra|e]; [|destruct (vec_raise _ _ _ _ V1); congruence]. cbn [rbind].
    pose proof (vec_amap2' _ _ _ (fun x z => (cabs x - z)%rv) _ _ _ _ _ _ V1 (vec_arr _ z)) as V2. cbn [rbind] in V2.
    apply (vec_incl _ _ ss) in V2; [|unfold ss; incl_solve..].
    destruct (amap2 (fun x z => (cabs x - z)%rv) ra z) as [d|e]; [|destruct (vec_raise _ _ _ _ V2); congruence]. cbn [rbind].
    pose proof (vec_amap2' _ _ _ (fun p E => (p ^ 2 / E)%cv) _ _ _ _ _ _ Vp VE) as V3. cbn [rbind] in V3.
    apply (vec_incl _ _ ss) in V3; [|unfold ss; incl_solve..].
    destruct (amap2 (fun p E => (p ^ 2 / E)%cv) phi E) as [b|e]; [|destruct (vec_raise _ _ _ _ V3); congruence]. cbn [rbind].
    exists d, b. repeat split; assumption.
  - intro i. unfold image_depth_and_charge. rewrite Hsc. reflexivity.
Qed.

(** ** The theorems *)
Lemma vec_vectorised : forall A ss (f : list nat -> res A) g r,
  vec ss g r -> (forall i, f i = Ok (g i)) -> vectorised ss f r.
Proof.
  intros A ss f g r V E. destruct (vec_use _ _ _ _ V) as (H1 & H2 & H3).
  split; [exact H1|]. split; [exact H2|]. intros a Ha. destruct (H3 a Ha) as [J K].
  split; [exact J|]. intros i Hi. rewrite (K i Hi). apply E.
Qed.

(** C47, quasistatic reflection and transmission. *)
Lemma C47_qs_broadcast_proof : forall o q, consistent o ->
  let ss := [eps_shape o; t_shape o; shp q] in
  vectorised ss (fun i => refl_coef_qs (sample_at o i) (entry q i)) (refl_coef_qs_a o q) /\
  vectorised ss (fun i => trans_coef_qs (sample_at o i) (entry q i)) (trans_coef_qs_a o q).
Proof.
  intros o q H ss. split.
  - destruct (refl_qs_elementwise o q H) as (g & V & E). eapply vec_vectorised; eassumption.
  - destruct (trans_qs_elementwise o q H) as (g & V & E). eapply vec_vectorised; eassumption.
Qed.

(** C47, far field: calls with at most one of q and theta_in, a wavenumber
    unless the sample is bulk, and polarization "p" or "s". *)
Lemma C47_far_broadcast_proof : forall o q th nu pol, consistent o -> far_call o q th nu pol ->
  let ss := far_shapes o q th nu in
  vectorised ss (fun i => refl_coef (sample_at o i) (at_index q i) (at_index th i) (at_index nu i) pol)
    (refl_coef_a o q th nu pol) /\
  vectorised ss (fun i => trans_coef (sample_at o i) (at_index q i) (at_index th i) (at_index nu i) pol)
    (trans_coef_a o q th nu pol).
Proof.
  intros o q th nu pol H F ss. split.
  - destruct (refl_elementwise o q th nu pol H F) as (g & V & E). eapply vec_vectorised; eassumption.
  - destruct (trans_elementwise o q th nu pol H F) as (g & V & E). eapply vec_vectorised; eassumption.
Qed.

(** C47: every other far-field call is rejected with a ValueError whatever the
    shapes, and so is the scalar call at any index. *)
Lemma C47_far_rejected_proof : forall o q th nu pol, consistent o -> ~ far_call o q th nu pol ->
  (exists m, refl_coef_a o q th nu pol = Raise (ValueError m)) /\
  (exists m, trans_coef_a o q th nu pol = Raise (ValueError m)) /\
  forall i,
   (exists m, refl_coef (sample_at o i) (at_index q i) (at_index th i) (at_index nu i) pol = Raise (ValueError m)) /\
   (exists m, trans_coef (sample_at o i) (at_index q i) (at_index th i) (at_index nu i) pol = Raise (ValueError m)).
Proof.
  intros o q th nu pol H F. destruct (transfer_rejected o q th nu pol H F) as [[m E] S].
  split; [|split].
  - exists m. unfold refl_coef_a. rewrite E. reflexivity.
  - exists m. unfold trans_coef_a. rewrite E. reflexivity.
  - intro i. destruct (S i) as [m' E']. split; exists m'; [unfold refl_coef|unfold trans_coef]; rewrite E'; reflexivity.
Qed.

(** C47, momentum integrals: elementwise in z_Q for any number of quadrature
    nodes (which [laggauss] requires to be positive). *)
Lemma C47_integrals_broadcast_proof : forall lag D o z n_lag,
  consistent o -> (match n_lag with Some n => n | None => d_n_lag D end) <> O ->
  let ss := [eps_shape o; t_shape o; shp z] in
  vectorised ss (fun i => refl_coef_qs_above_surf lag D (sample_at o i) (entry z i) n_lag)
    (refl_coef_qs_above_surf_a lag D o z n_lag) /\
  vectorised ss (fun i => first (surf_pot_and_field lag D (sample_at o i) (entry z i) n_lag))
    (first (surf_pot_and_field_a lag D o z n_lag)) /\
  vectorised ss (fun i => second (surf_pot_and_field lag D (sample_at o i) (entry z i) n_lag))
    (second (surf_pot_and_field_a lag D o z n_lag)) /\
  vectorised ss (fun i => first (image_depth_and_charge lag D (sample_at o i) (entry z i) n_lag))
    (first (image_depth_and_charge_a lag D o z n_lag)) /\
  vectorised ss (fun i => second (image_depth_and_charge lag D (sample_at o i) (entry z i) n_lag))
    (second (image_depth_and_charge_a lag D o z n_lag)).
Proof.
  intros lag D o z n_lag Hc Hn ss.
  destruct (surf_elementwise lag D o z n_lag Hc Hn) as (gp & gE & SN & SS & SE).
  destruct (image_elementwise lag D o z n_lag Hc Hn) as (gd & gb & IN & IS & IE).
  fold ss in SN, SS, IN, IS.
  split; [|split; [|split; [|split]]].
  - destruct (above_elementwise lag D o z n_lag Hc Hn) as (g & V & E). eapply vec_vectorised; eassumption.
  - apply (vec_vectorised _ _ _ gp); [|intro i; rewrite SE; reflexivity].
    destruct (bshapes ss) eqn:E.
    + destruct (SS ltac:(discriminate)) as (p & Ef & -> & V1 & V2). exact V1.
    + destruct (SN eq_refl) as [m ->]. apply vec_none, E.
  - apply (vec_vectorised _ _ _ gE); [|intro i; rewrite SE; reflexivity].
    destruct (bshapes ss) eqn:E.
    + destruct (SS ltac:(discriminate)) as (p & Ef & -> & V1 & V2). exact V2.
    + destruct (SN eq_refl) as [m ->]. apply vec_none, E.
  - apply (vec_vectorised _ _ _ gd); [|intro i; rewrite IE; reflexivity].
    destruct (bshapes ss) eqn:E.
    + destruct (IS ltac:(discriminate)) as (p & Ef & -> & V1 & V2). exact V1.
    + destruct (IN eq_refl) as [m ->]. apply vec_none, E.
  - apply (vec_vectorised _ _ _ gb); [|intro i; rewrite IE; reflexivity].
    destruct (bshapes ss) eqn:E.
    + destruct (IS ltac:(discriminate)) as (p & Ef & -> & V1 & V2). exact V2.
    + destruct (IN eq_refl) as [m ->]. apply vec_none, E.
Qed.

(** C47, concrete case: one film, permittivities of shape (2,), a scalar
    thickness and q of shape (3, 1): the joint shape is (3, 2) and the entry at
    index (2, 1) is that of q[2, 0] over the second sample. *)
Lemma C47_example_proof :
  let o := mkObj (Some (mkLayers [] [fun _ => 1]))
                 (Some (mkLayers [2]%nat [fun _ => rc 1; fun i => rc (INR (hd O i) + 2); fun _ => rc 3]))
                 (scalar (rc 1)) None in
  let q := mkArr [1; 3]%nat (fun i => rr (INR (nth 1 i O))) in
  consistent o /\ compatible [eps_shape o; t_shape o; shp q] /\
  joint [eps_shape o; t_shape o; shp q] [2; 3]%nat /\ index_of [2; 3]%nat [1; 2]%nat /\
  sample_at o [1; 2]%nat = mkSample [rc 1; rc 3; rc 3] [1] None /\ entry q [1; 2]%nat = rr 2.
Proof.
  intros o q.
  assert (J : joint [eps_shape o; t_shape o; shp q] [2; 3]%nat) by (apply bshapes_spec; reflexivity).
  split; [|split; [|split; [|split; [|split]]]].
  - eexists _, _. split; [reflexivity|]. split; [reflexivity|]. split; [reflexivity|discriminate].
  - eapply joint_compatible, J.
  - exact J.
  - split; [reflexivity|]. intros [|[|k]] H; cbn in *; lia.
  - unfold sample_at, o. cbn. repeat (f_equal; try lra).
  - unfold entry, q. cbn. unfold rr. f_equal; try lra.
Qed.
