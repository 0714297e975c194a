(** * Samples given by reflection coefficients: C05, C06, C49, C51 *)
From Coq Require Import String Reals Lra Lia ZArith List Bool.
From Coquelicot Require Import Rcomplements Complex.
From Verif Require Import Num NumLemmas ModelBase ModelSample NArr SpecArr NArrLemmas ModelObj ModelArr
  SpecObj ArrSample ProofsArr ProofsArr2 ProofsObj ProofsObj2.
Import ListNotations.
Open Scope R_scope.

Lemma lcumprod_at : forall l acc i,
  map (fun f => f i) (lcumprod acc l) = cumprod_from (acc i) (map (fun f => f i) l).
Proof. induction l as [|x l IH]; intros acc i; cbn; [reflexivity|]. f_equal. apply IH. Qed.

Lemma map_combine_seq : forall A B (f : nat * A -> B) (l : list A) d n,
  map f (combine (seq n (length l)) l) = map (fun k => f ((n + k)%nat, nth k l d)) (seq 0 (length l)).
Proof.
  intros A B f l d. induction l as [|x l IH]; intro n; [reflexivity|]. cbn [length seq combine map].
  rewrite Nat.add_0_r. f_equal. rewrite IH. rewrite <- seq_shift, map_map. apply map_ext. intro k.
  cbn [nth]. rewrite Nat.add_succ_r. reflexivity.
Qed.

(** the reflection coefficients at one index, before the environment *)
Definition relative (bs : list CV) : list CV := rc 1 :: cumprod_from (rc 1) (map (fun b => permitivitty b (rc 1)) bs).

Lemma env_layers_at : forall beta env i,
  map (fun a => entry a i) (slices (env_layers beta env)) =
  map (fun kx => (snd kx * at_ env (bidx (shp env) (bidx (lsh beta) i ++ [fst kx])))%cv)
      (combine (seq 0 (S (length (lay beta)))) (relative (map (fun a => entry a i) (slices beta)))).
Proof.
  intros beta env i. unfold slices, env_layers. cbn [lsh lay]. rewrite !map_map.
  set (L := lay (beta_layers beta)). set (n := S (length (lay beta))).
  assert (HL : map (fun f => f (bidx (lsh beta) i)) L =
     relative (map (fun x : list nat -> CV => entry (mkArr (lsh beta) x) i) (lay beta))).
  { unfold L, beta_layers, relative. cbn [lay map]. f_equal. rewrite lcumprod_at. f_equal. rewrite !map_map.
    apply map_ext. intro f. rewrite entry_bidx. reflexivity. }
  rewrite <- HL. clear HL. generalize (seq 0 n). clearbody L. clear n.
  induction L as [|f L IH]; intros [|k ks]; cbn [combine map fst snd]; try reflexivity.
  f_equal; [rewrite entry_bidx; reflexivity|]. apply IH.
Qed.

Lemma rebroadcast_at : forall (L : layers CV) i,
  map (fun a => entry a i) (slices (mkLayers (lsh L) (map (fun f i => f (bidx (lsh L) i)) (lay L)))) =
  map (fun a => entry a i) (slices L).
Proof.
  intros L i. unfold slices. cbn [lsh lay]. rewrite !map_map. apply map_ext. intro f.
  rewrite !entry_bidx. cbn [shp at_]. f_equal. apply bidx_fits. split; [lia|auto].
Qed.

(** what the [beta_stack] setter stores *)
Lemma set_beta_stored : forall v o beta env o' r, broadcast_arrays v = Ok beta -> get_eps_env o = Ok env ->
  fits (shp env) (lsh beta ++ [S (length (lay beta))]) -> set_beta v o = (o', r) ->
  o_t o' = o_t o /\ o_env o' = o_env o /\ o_nu o' = o_nu o /\ eps_shape o' = lsh beta /\
  (exists e, o_eps o' = Some e /\ lsh e = lsh beta /\ length (lay e) = S (length (lay beta))) /\
  forall i, eps_stack (sample_at o' i) =
    map (fun kx => (snd kx * at_ env (bidx (shp env) (bidx (lsh beta) i ++ [fst kx])))%cv)
      (combine (seq 0 (S (length v))) (relative (map (fun b => entry b i) v))).
Proof.
  intros v o beta env o' r Eb Ee F H. rewrite (set_beta_fits _ _ _ _ Eb Ee F) in H.
  assert (NE : lay (env_layers beta env) <> []).
  { intro N. apply (f_equal (@length _)) in N. rewrite env_layers_length in N. discriminate. }
  rewrite (set_eps_ok_eq _ _ _ (broadcast_slices _ _ NE)) in H. apply (f_equal fst) in H. cbn [fst] in H. subst o'.
  cbn [o_t o_env o_nu]. split; [reflexivity|]. split; [reflexivity|]. split; [reflexivity|]. split; [reflexivity|]. split.
  - eexists. split; [reflexivity|]. split; [reflexivity|]. cbn [lay]. rewrite map_length, env_layers_length. reflexivity.
  - intro i. unfold sample_at. cbn [o_eps eps_stack]. rewrite (rebroadcast_at (env_layers beta env) i), env_layers_at.
    destruct (broadcast_ok _ _ _ Eb) as (_ & Lb & _ & Hent). rewrite Hent, Lb. reflexivity.
Qed.

Lemma cumprod_length : forall l acc, length (cumprod_from acc l) = length l.
Proof. induction l; intro acc; cbn; [reflexivity|]. f_equal. auto. Qed.
Lemma relative_length : forall bs, length (relative bs) = S (length bs).
Proof. intro bs. unfold relative. cbn. rewrite cumprod_length, map_length. reflexivity. Qed.

(** an environment without the layer axis *)
Lemma fits_app_short : forall s S n, fits s (S ++ [n]) -> (length s <= length S)%nat -> fits s S.
Proof.
  intros s S n [L F] H. split; [exact H|]. intro k. specialize (F k). unfold dim in *.
  destruct (Nat.lt_ge_cases k (length S)) as [K|K].
  - rewrite app_nth1 in F by exact K. exact F.
  - left. apply nth_overflow. lia.
Qed.
Lemma bidx_app_short : forall s i k, (length s <= length i)%nat -> bidx s (i ++ [k]) = bidx s i.
Proof.
  induction s as [|d s IH]; intros i k H; [reflexivity|]. destruct i as [|j i]; [cbn in H; lia|].
  cbn [app bidx hd tl]. f_equal. apply IH. cbn in H. lia.
Qed.
Lemma aligned_eps : forall env S n i (rel : list CV), fits (shp env) (S ++ [n]) -> (length (shp env) <= length S)%nat ->
  map (fun kx => (snd kx * at_ env (bidx (shp env) (bidx S i ++ [fst kx])))%cv) (combine (seq 0 (length rel)) rel) =
  map (fun x => (x * entry env i)%cv) rel.
Proof.
  intros env S n i rel F L. generalize 0%nat. induction rel as [|x rel IH]; intro m; [reflexivity|].
  cbn [length seq combine map fst snd]. f_equal; [|apply IH].
  rewrite bidx_app_short by (rewrite bidx_length; exact L).
  rewrite bidx_fits by (eapply fits_app_short; eassumption). rewrite entry_bidx. reflexivity.
Qed.

(** the permittivities of layers with given reflection coefficients *)
Fixpoint eps_seq (e : C) (cs : list C) : list C :=
  e :: match cs with [] => [] | c :: cs' => eps_seq (e * ((1 + c) / (1 - c)))%C cs' end.

Lemma perm_one : forall c, c <> RtoC 1 -> permitivitty (Some c) (rc 1) = Some ((1 + c) / (1 - c))%C.
Proof.
  intros c H. unfold permitivitty, rc. cbn [cmul cadd csub olift2]. rewrite cdiv_ok.
  - do 2 f_equal. ring.
  - intro N. apply H. apply (f_equal (fun z => (RtoC 1 - z)%C)) in N. ring_simplify in N. exact N.
Qed.
Lemma relative_eps : forall cs e a, Forall (fun c => c <> RtoC 1) cs ->
  map (fun x => (x * Some e)%cv) (Some a :: cumprod_from (Some a) (map (fun b => permitivitty b (rc 1)) (map Some cs)))
  = map Some (eps_seq (a * e)%C cs).
Proof.
  induction cs as [|c cs IH]; intros e a H; [reflexivity|]. apply Forall_cons_iff in H. destruct H as [Hc H].
  cbn [map cumprod_from eps_seq]. f_equal. rewrite perm_one by exact Hc. cbn [cmul olift2].
  specialize (IH e (a * ((1 + c) / (1 - c)))%C H). cbn [map] in IH.
  replace (a * e * ((1 + c) / (1 - c)))%C with (a * ((1 + c) / (1 - c)) * e)%C by ring.
  exact IH.
Qed.
Lemma eps_seq_length : forall cs e, length (eps_seq e cs) = S (length cs).
Proof. induction cs; intro e; cbn; [reflexivity|]. f_equal. apply IHcs. Qed.
Lemma eps_seq_nth : forall cs e k, (k < length cs)%nat ->
  nth (S k) (eps_seq e cs) (RtoC 0) =
  (nth k (eps_seq e cs) 0 * ((1 + nth k cs 0) / (1 - nth k cs 0)))%C.
Proof.
  induction cs as [|c cs IH]; intros e k H; [cbn in H; lia|]. destruct k as [|k].
  - cbn. destruct cs; reflexivity.
  - cbn [eps_seq]. cbn [nth]. specialize (IH (e * ((1 + c) / (1 - c)))%C k). cbn in H. rewrite <- IH by lia. reflexivity.
Qed.

Lemma refl_single_step : forall e c, e <> RtoC 0 -> c <> RtoC 1 -> c <> RtoC (-1) ->
  refl_coef_qs_single (Some e) (Some (e * ((1 + c) / (1 - c))))%C = Some c.
Proof.
  intros e c He H1 H2. unfold refl_coef_qs_single. cbn [cadd csub olift2].
  assert (Hd : (1 - c)%C <> RtoC 0).
  { intro N. apply H1. apply (f_equal (fun z => (RtoC 1 - z)%C)) in N. ring_simplify in N. exact N. }
  assert (E : (e * ((1 + c) / (1 - c)) + e)%C = (2 * e / (1 - c))%C) by (field; exact Hd).
  rewrite cdiv_ok; [|rewrite E; apply Cdiv_neq_0; [apply Cmult_neq_0; [exact C2_neq_0|exact He]|exact Hd]].
  f_equal. rewrite E. field. repeat split; auto using C2_neq_0.
Qed.
Lemma eps_seq_betas : forall cs e, e <> RtoC 0 -> Forall (fun c => c <> RtoC 1 /\ c <> RtoC (-1)) cs ->
  map (fun p => refl_coef_qs_single (fst p) (snd p))
      (combine (removelast (map Some (eps_seq e cs))) (tl (map Some (eps_seq e cs)))) = map Some cs.
Proof.
  induction cs as [|c cs IH]; intros e He H; [reflexivity|]. apply Forall_cons_iff in H. destruct H as [[Hc Hc'] H].
  assert (Hd : (1 - c)%C <> RtoC 0).
  { intro N. apply Hc. apply (f_equal (fun z => (RtoC 1 - z)%C)) in N. ring_simplify in N. exact N. }
  assert (Hn : (1 + c)%C <> RtoC 0).
  { intro N. apply Hc'. apply (f_equal (fun z => (z - RtoC 1)%C)) in N.
    replace (RtoC (-1)) with (RtoC 0 - RtoC 1)%C by (rewrite <- RtoC_minus; f_equal; lra).
    ring_simplify in N. rewrite N. ring. }
  specialize (IH (e * ((1 + c) / (1 - c)))%C).
  assert (He' : (e * ((1 + c) / (1 - c)))%C <> RtoC 0) by (apply Cmult_neq_0; [exact He|apply Cdiv_neq_0; assumption]).
  specialize (IH He' H). cbn [eps_seq map tl].
  set (l := eps_seq (e * ((1 + c) / (1 - c)))%C cs) in *.
  assert (exists l', l = (e * ((1 + c) / (1 - c)))%C :: l') as [l' El] by (unfold l; destruct cs; eexists; reflexivity).
  rewrite El in IH |- *. cbn [map] in IH |- *.
  change (removelast (Some e :: Some (e * ((1 + c) / (1 - c)))%C :: map Some l'))
    with (Some e :: removelast (Some (e * ((1 + c) / (1 - c)))%C :: map Some l')).
  cbn [combine map fst snd tl] in IH |- *. f_equal; [apply refl_single_step; assumption|exact IH].
Qed.

(** [get_beta] at one index *)
Lemma get_beta_at : forall o e, o_eps o = Some e -> exists bl, get_beta o = Ok bl /\ lsh bl = lsh e /\
  length (lay bl) = (length (lay e) - 1)%nat /\
  forall i, map (fun a => entry a i) (slices bl) =
    map (fun p => refl_coef_qs_single (fst p) (snd p))
      (combine (removelast (eps_stack (sample_at o i))) (tl (eps_stack (sample_at o i)))).
Proof.
  intros o e E. unfold get_beta. rewrite E. eexists. split; [reflexivity|]. split; [reflexivity|]. split.
  - cbn [lay]. rewrite map_length, combine_length, removelast_len, tl_len. lia.
  - intro i. unfold sample_at. cbn [eps_stack]. rewrite E. unfold slices. cbn [lsh lay]. rewrite !map_map.
    rewrite removelast_map.
    replace (tl (map (fun x : list nat -> CV => entry (mkArr (lsh e) x) i) (lay e)))
      with (map (fun x : list nat -> CV => entry (mkArr (lsh e) x) i) (tl (lay e)))
      by (destruct (lay e); reflexivity).
    generalize (removelast (lay e)) as l1. generalize (tl (lay e)) as l2. intros l2 l1. revert l2.
    induction l1 as [|f l1 IH]; intros [|g l2]; try reflexivity. cbn [combine map fst snd]. f_equal. apply IH.
Qed.

(** the object just before the constructor assigns [beta_stack] *)
Lemma init_beta : forall D bs t env nu o, init D None (Some bs) t env nu = Ok o ->
  exists tl o1 o2, t_value t = Ok tl /\
    o1 = mkObj (Some tl) None (match env with None => scalar (Some (d_eps_env D)) | Some e => e end) None /\
    set_beta bs o1 = (o2, Ok tt) /\ o = mkObj (o_t o2) (o_eps o2) (o_env o2) nu.
Proof.
  intros D bs t env nu o H. unfold init in H. rewrite set_t_eq in H.
  destruct (t_value t) as [tl|] eqn:Et; [|discriminate]. cbn [check_layers_valid o_t o_eps o_env o_nu] in H.
  destruct (set_beta bs _) as [o2 [u|]] eqn:Es in H; [|discriminate]. injection H as <-. destruct u.
  do 3 eexists. split; [reflexivity|]. split; [reflexivity|]. split; [exact Es|reflexivity].
Qed.
Lemma set_beta_ok_inv : forall v o o' , set_beta v o = (o', Ok tt) ->
  exists beta env, broadcast_arrays v = Ok beta /\ get_eps_env o = Ok env /\
    fits (shp env) (lsh beta ++ [S (length (lay beta))]).
Proof.
  intros v o o' H. destruct (broadcast_arrays v) as [beta|] eqn:Eb.
  2: { unfold set_beta in H. rewrite Eb in H. discriminate. }
  destruct (get_eps_env o) as [env|] eqn:Ee.
  2: { unfold set_beta in H. rewrite Eb, Ee in H. discriminate. }
  exists beta, env. split; [reflexivity|]. split; [reflexivity|].
  destruct (fits_dec (shp env) (lsh beta ++ [S (length (lay beta))])) as [F|F]; [exact F|].
  destruct (set_beta_misfit _ _ _ _ Eb Ee F) as [m E]. congruence.
Qed.

(** ** C49 *)
(** C49: the permittivities the constructor computes from [beta_stack]: layer
    [k] is the product of the factors above it with the entry of the
    environment at the layer's own number on the first axis of the stack. *)
Lemma C49_environment_axis_proof : forall D bs t env nu o S, 
  init D None (Some bs) t (Some env) nu = Ok o -> joint (map shp bs) S ->
  forall i k, index_of S i -> (k <= length bs)%nat ->
  nth k (eps_stack (sample_at o i)) None =
  (nth k (rc 1 :: cumprod_from (rc 1) (map (fun b => permitivitty (entry b i) (rc 1)) bs)) None
   * entry env (i ++ [k]))%cv.
Proof.
  intros D bs t env nu o Sh H J i k Hi Hk.
  destruct (init_beta _ _ _ _ _ _ H) as (tl & o1 & o2 & Et & E1 & Es & Eo).
  destruct (set_beta_ok_inv _ _ _ Es) as (beta & ev & Eb & Ee & F).
  destruct (set_beta_stored _ _ _ _ _ _ Eb Ee F Es) as (_ & _ & _ & _ & _ & Hst).
  destruct (broadcast_ok _ _ _ Eb) as (Jb & Lb & _). rewrite (joint_unique _ _ _ Jb J) in *.
  assert (ev = env) by (subst o1; injection Ee as <-; reflexivity). subst ev.
  specialize (Hst i). replace (eps_stack (sample_at o i)) with (eps_stack (sample_at o2 i)) by (subst o; reflexivity).
  rewrite Hst. rewrite bidx_index by exact Hi.
  set (g := fun kx : nat * CV => (snd kx * at_ env (bidx (shp env) (i ++ [fst kx])))%cv).
  rewrite (nth_indep _ None (g (0%nat, None))) by
    (rewrite map_length, combine_length, seq_length, relative_length, map_length; lia).
  rewrite map_nth. rewrite combine_nth by (rewrite seq_length, relative_length, map_length; reflexivity).
  rewrite seq_nth by lia. unfold g. cbn [fst snd Nat.add]. rewrite entry_bidx. unfold relative. rewrite map_map. reflexivity.
Qed.

Lemma aligned_core : forall D bs t env nu o S,
  init D None (Some bs) t (Some env) nu = Ok o -> joint (map shp bs) S ->
  (length (shp env) <= length S)%nat ->
  forall i, eps_stack (sample_at o i) = eps_from_beta (entry env i) (map (fun b => entry b i) bs).
Proof.
  intros D bs t env nu o Sh H J Ls i.
  destruct (init_beta _ _ _ _ _ _ H) as (tl & o1 & o2 & Et & E1 & Es & Eo).
  destruct (set_beta_ok_inv _ _ _ Es) as (beta & ev & Eb & Ee & F).
  destruct (set_beta_stored _ _ _ _ _ _ Eb Ee F Es) as (_ & _ & _ & _ & _ & Hst).
  destruct (broadcast_ok _ _ _ Eb) as (Jb & Lb & _). rewrite (joint_unique _ _ _ Jb J) in *.
  assert (ev = env) by (subst o1; injection Ee as <-; reflexivity). subst ev.
  replace (eps_stack (sample_at o i)) with (eps_stack (sample_at o2 i)) by (subst o; reflexivity).
  rewrite Hst. replace (S (length bs)) with (length (relative (map (fun b => entry b i) bs))) by (rewrite relative_length, map_length; reflexivity).
  rewrite (aligned_eps env Sh (S (length (lay beta)))) by assumption. reflexivity.
Qed.

Lemma sample_ext : forall a b : sample, eps_stack a = eps_stack b -> t_stack a = t_stack b -> nu_vac a = nu_vac b -> a = b.
Proof. intros [a1 a2 a3] [b1 b2 b3]; cbn; intros -> -> ->; reflexivity. Qed.
Lemma scalars_compatible : forall A (l : list A), compatible (map shp (map scalar l)).
Proof.
  intros A l s t Hs _ k Hk _. rewrite map_map in Hs. apply in_map_iff in Hs. destruct Hs as (x & <- & _).
  destruct Hk. unfold dim. cbn. destruct k; reflexivity.
Qed.
Lemma scalars_joint : forall A (l : list A), joint (map shp (map scalar l)) [].
Proof.
  intros A l. split; [|split; [intro k; left; destruct k; reflexivity|left; reflexivity]].
  intros s Hs. rewrite map_map in Hs. apply in_map_iff in Hs. destruct Hs as (x & <- & _).
  split; [cbn; lia|intro k; right; reflexivity].
Qed.

(** C49: with an environment that has no more axes than the layers, the sample
    at index [i] is the one constructed from the entries at [i]. *)
Lemma C49_aligned_proof : forall D bs t env nu o S,
  init D None (Some bs) t (Some env) nu = Ok o -> joint (map shp bs) S ->
  (length (shp env) <= length S)%nat ->
  forall i, exists oi,
    init D None (Some (map (fun b => scalar (entry b i)) bs)) (Some (map (fun x => scalar (entry x i)) (given t)))
      (Some (scalar (entry env i))) (match nu with Some v => Some (scalar (entry v i)) | None => None end) = Ok oi /\
    sample_at oi [] = sample_at o i.
Proof.
  intros D bs t env nu o Sh H J Ls i.
  destruct (proj1 (C01_accepted_calls_proof D None (Some bs) t (Some env) nu) (ex_intro _ o H))
    as (_ & [(es & X & _)|(bs' & S' & _ & [= <-] & _ & Lb & _)]); [discriminate|].
  rewrite <- (map_map (fun b : arr CV => entry b i) scalar), <- (map_map (fun b : arr R => entry b i) scalar).
  set (bi := map (fun b : arr CV => entry b i) bs). set (ti := map (fun b : arr R => entry b i) (given t)).
  destruct (proj2 (C01_accepted_calls_proof D None (Some (map scalar bi)) (Some (map scalar ti))
     (Some (scalar (entry env i))) (match nu with Some v => Some (scalar (entry v i)) | None => None end))) as [oi Hoi].
  { split; [apply scalars_compatible|]. right. exists (map scalar bi), [].
    split; [reflexivity|]. split; [reflexivity|]. split; [apply scalars_joint|].
    split; [unfold bi, ti; cbn [given]; rewrite !map_length; exact Lb|].
    split; [cbn; lia|]. intro k. left. destruct k; reflexivity. }
  exists oi. split; [exact Hoi|].
  pose proof (aligned_core _ _ _ _ _ _ _ H J Ls i) as E1.
  pose proof (aligned_core _ _ _ _ _ _ _ Hoi (scalars_joint _ _) (Nat.le_refl 0) []) as E2.
  destruct (C01_constructed_proof _ _ _ _ _ _ _ H) as (_ & _ & _ & _ & N1 & T1 & _).
  destruct (C01_constructed_proof _ _ _ _ _ _ _ Hoi) as (_ & _ & _ & _ & N2 & T2 & _).
  specialize (T1 i). specialize (T2 []). cbn [given] in T2.
  assert (E2' : eps_stack (sample_at oi []) = eps_from_beta (entry env i) bi).
  { rewrite E2, map_map, entry_scalar. f_equal. etransitivity; [|apply map_id]. apply map_ext. reflexivity. }
  assert (T2' : t_stack (sample_at oi []) = ti).
  { rewrite T2, map_map. etransitivity; [|apply map_id]. apply map_ext. reflexivity. }
  assert (N : nu_vac (sample_at oi []) = nu_vac (sample_at o i)).
  { unfold sample_at. cbn [nu_vac]. rewrite N1, N2. destruct nu; reflexivity. }
  apply sample_ext; [rewrite E2', E1; reflexivity|rewrite T2', T1; reflexivity|exact N].
Qed.

(** C49, refuting case: [bulk_sample(beta=b, eps_env=[e0, e1])] is one sample,
    with environment e0 and substrate e1 (1+b)/(1-b), not two. *)
Lemma C49_two_environments_refuted_proof : forall D (b e0 e1 : C), b <> RtoC 1 ->
  exists o, bulk_sample D None (Some (scalar (Some b))) (Some (pair_array (Some e0) (Some e1))) None None = Ok o /\
    eps_shape o = [] /\
    eps_stack (sample_at o []) = [Some e0; Some (e1 * ((1 + b) / (1 - b)))%C].
Proof.
  intros D b e0 e1 Hb. unfold bulk_sample.
  destruct (proj2 (C01_accepted_calls_proof D None (Some [scalar (Some b)]) None (Some (pair_array (Some e0) (Some e1))) None)) as [o Ho].
  { split; [intros s t0 []|]. right. exists [scalar (Some b)], []. split; [reflexivity|]. split; [reflexivity|].
    split; [split; [intros s [<-|[]]; split; [cbn; lia|intro k; right; reflexivity]|split; [intro k; left; destruct k; reflexivity|left; reflexivity]]|].
    split; [reflexivity|]. split; [cbn; lia|]. intro k. right. reflexivity. }
  exists o. split; [exact Ho|].
  destruct (init_beta _ _ _ _ _ _ Ho) as (tl & o1 & o2 & Et & E1 & Es & Eo).
  destruct (set_beta_ok_inv _ _ _ Es) as (beta & ev & Eb & Ee & F).
  destruct (set_beta_stored _ _ _ _ _ _ Eb Ee F Es) as (_ & _ & _ & Hsh & _ & Hst).
  injection Eb as <-. split; [subst o; exact Hsh|].
  replace (eps_stack (sample_at o [])) with (eps_stack (sample_at o2 [])) by (subst o; reflexivity).
  rewrite Hst. assert (ev = pair_array (Some e0) (Some e1)) by (subst o1; injection Ee as <-; reflexivity). subst ev.
  cbn [length seq combine map relative cumprod_from]. rewrite entry_scalar, perm_one by exact Hb.
  unfold rc. cbn [cmul olift2 map fst snd bidx lsh app shp pair_array at_ hd Nat.eqb].
  f_equal; [f_equal; ring|]. f_equal. f_equal. ring.
Qed.

(** C49, concrete case: an array-valued environment that is aligned. *)
Lemma C49_example_proof :
  exists o, init defaults0 None (Some [pair_array (rc (1 / 3)) (rc (1 / 2))]) None
              (Some (pair_array (rc 1) (rc 2))) None = Ok o.
Proof. eexists; reflexivity. Qed.

(** ** C05 *)
(** C05: assigning reflection coefficients other than 1 and -1 over a non-zero
    environment computes the permittivities interface by interface, and reading
    [beta_stack] gives the coefficients back; at every index of the arrays. *)
Lemma C05_round_trip_proof : forall D bs t env nu o S i (cs : list C) (e : C),
  init D None (Some bs) t env nu = Ok o -> joint (map shp bs) S ->
  match env with Some a => (length (shp a) <= length S)%nat /\ entry a i = Some e | None => e = d_eps_env D end ->
  map (fun b => entry b i) bs = map Some cs ->
  e <> RtoC 0 -> Forall (fun c => c <> RtoC 1 /\ c <> RtoC (-1)) cs ->
  (exists es, eps_stack (sample_at o i) = map Some es /\ length es = (length cs + 1)%nat /\ nth 0 es 0 = e /\
     forall k, (k < length cs)%nat -> nth (k + 1) es 0 = (nth k es 0 * (1 + nth k cs 0) / (1 - nth k cs 0))%C) /\
  (exists bl, get_beta o = Ok bl /\ lsh bl = S /\ map (fun a => entry a i) (slices bl) = map Some cs).
Proof.
  intros D bs t env nu o Sh i cs e H J Henv Hcs He Hc.
  destruct (init_beta _ _ _ _ _ _ H) as (tl & o1 & o2 & Et & E1 & Es & Eo).
  destruct (set_beta_ok_inv _ _ _ Es) as (beta & ev & Eb & Ee & F).
  destruct (set_beta_stored _ _ _ _ _ _ Eb Ee F Es) as (_ & _ & _ & Hsh & (el & Hel & Hsl & _) & Hst).
  destruct (broadcast_ok _ _ _ Eb) as (Jb & Lb & _). rewrite (joint_unique _ _ _ Jb J) in *.
  assert (Hev : (length (shp ev) <= length Sh)%nat /\ entry ev i = Some e).
  { subst o1. injection Ee as <-. destruct env as [a|]; [exact Henv|]. split; [cbn; lia|]. subst e. reflexivity. }
  destruct Hev as [Ls Hei].
  assert (HE : eps_stack (sample_at o i) = map Some (eps_seq e cs)).
  { replace (eps_stack (sample_at o i)) with (eps_stack (sample_at o2 i)) by (subst o; reflexivity).
    rewrite Hst. replace (S (length bs)) with (length (relative (map (fun b => entry b i) bs))) by (rewrite relative_length, map_length; reflexivity).
    rewrite (aligned_eps ev Sh (S (length (lay beta)))) by assumption. rewrite Hcs, Hei. 
    change (relative (map Some cs)) with (Some (RtoC 1) :: cumprod_from (Some (RtoC 1)) (map (fun b => permitivitty b (rc 1)) (map Some cs))).
    rewrite (relative_eps cs e (RtoC 1)); [f_equal; f_equal; ring|].
    eapply Forall_impl; [|exact Hc]. cbn. tauto. }
  split.
  - exists (eps_seq e cs). split; [exact HE|]. split; [rewrite eps_seq_length; lia|]. split; [destruct cs; reflexivity|].
    intros k Hk. rewrite Nat.add_1_r, eps_seq_nth by exact Hk. unfold Cdiv. ring.
  - destruct (get_beta_at o el) as (bl & Hb & Hs & _ & Hbe); [subst o; exact Hel|].
    exists bl. split; [exact Hb|]. split; [congruence|]. rewrite Hbe, HE. apply eps_seq_betas; assumption.
Qed.

(** C05: the same for an assignment [sample.beta_stack = bs] to an object whose
    current environment has the shape of the new layers. *)
Lemma C05_assignment_round_trip_proof : forall o bs o' i (cs : list C) (e : C),
  consistent o -> run (SetBeta bs) o = (o', Ok tt) -> joint (map shp bs) (eps_shape o) ->
  hd None (eps_stack (sample_at o i)) = Some e ->
  map (fun b => entry b i) bs = map Some cs ->
  e <> RtoC 0 -> Forall (fun c => c <> RtoC 1 /\ c <> RtoC (-1)) cs ->
  t_stack (sample_at o' i) = t_stack (sample_at o i) /\
  (exists es, eps_stack (sample_at o' i) = map Some es /\ length es = (length cs + 1)%nat /\ nth 0 es 0 = e /\
     forall k, (k < length cs)%nat -> nth (k + 1) es 0 = (nth k es 0 * (1 + nth k cs 0) / (1 - nth k cs 0))%C) /\
  (exists bl, get_beta o' = Ok bl /\ map (fun a => entry a i) (slices bl) = map Some cs).
Proof.
  intros o bs o' i cs e Hcon Hr J Hh Hcs He Hc. cbn [run] in Hr.
  destruct (set_beta_ok_inv _ _ _ Hr) as (beta & ev & Eb & Ee & F).
  destruct (set_beta_stored _ _ _ _ _ _ Eb Ee F Hr) as (Ht & _ & _ & Hsh & (el & Hel & Hsl & _) & Hst).
  destruct (broadcast_ok _ _ _ Eb) as (Jb & Lb & _).
  pose proof (joint_unique _ _ _ Jb J) as HS.
  destruct Hcon as (el0 & t0 & H1 & H2 & H3 & _).
  assert (Hev : shp ev = eps_shape o /\ entry ev i = Some e).
  { unfold get_eps_env in Ee. unfold eps_shape. rewrite H1 in *. unfold sample_at in Hh. cbn [eps_stack] in Hh. rewrite H1 in Hh.
    destruct (slices el0) as [|a l] eqn:Es; [discriminate|]. cbn [map hd] in Hh. injection Ee as <-. split; [|exact Hh].
    apply (slices_shp _ el0). rewrite Es. left; reflexivity. }
  destruct Hev as [Hse Hei].
  assert (HE : eps_stack (sample_at o' i) = map Some (eps_seq e cs)).
  { rewrite Hst. replace (S (length bs)) with (length (relative (map (fun b => entry b i) bs))) by (rewrite relative_length, map_length; reflexivity).
    rewrite (aligned_eps ev (lsh beta) (S (length (lay beta)))) by (try assumption; rewrite Hse, HS; lia).
    rewrite Hcs, Hei. 
    change (relative (map Some cs)) with (Some (RtoC 1) :: cumprod_from (Some (RtoC 1)) (map (fun b => permitivitty b (rc 1)) (map Some cs))).
    rewrite (relative_eps cs e (RtoC 1)); [f_equal; f_equal; ring|].
    eapply Forall_impl; [|exact Hc]. cbn. tauto. }
  split; [unfold sample_at; cbn; rewrite Ht; reflexivity|]. split.
  - exists (eps_seq e cs). split; [exact HE|]. split; [rewrite eps_seq_length; lia|]. split; [destruct cs; reflexivity|].
    intros k Hk. rewrite Nat.add_1_r, eps_seq_nth by exact Hk. unfold Cdiv. ring.
  - destruct (get_beta_at o' el Hel) as (bl & Hb & Hs & _ & Hbe).
    exists bl. split; [exact Hb|]. rewrite Hbe, HE. apply eps_seq_betas; assumption.
Qed.

(** C05, concrete case: two interfaces. *)
Lemma C05_example_proof :
  exists o, init defaults0 None (Some [scalar (rc (1 / 3)); scalar (rc (1 / 5))]) (Some [scalar 1]) None None = Ok o /\
    Forall (fun c => c <> RtoC 1 /\ c <> RtoC (-1)) [RtoC (1 / 3); RtoC (1 / 5)].
Proof.
  eexists. split; [reflexivity|].
  assert (W : forall x y, x <> y -> RtoC x <> RtoC y) by (intros x y N E; apply N, RtoC_inj, E).
  repeat constructor; apply W; lra.
Qed.
