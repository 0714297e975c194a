(** * The root-finding inverses: from the roots to the masked array *)
From Coq Require Import String Reals Lra Lia ZArith List Bool Permutation Sorted.
From Coquelicot Require Import Rcomplements Complex.
From Verif Require Import Num NumLemmas ModelBase ModelSample ModelTip NArr SpecArr NArrLemmas ModelObj
  ModelArr ModelArrTip ModelInv SpecPoly SpecInv FTA ArrSample ProofsArr ProofsArr2 InvLemmas.
Import ListNotations.
Open Scope nat_scope.

(** ** Permuting values and flags together, and dropping rows without a flag *)
Lemma unmasked_eq : forall (v : arr CV) (m : arr bool) s k i, shp v = s ++ [k] -> shp m = s ++ [k] ->
  unmasked (v, amap negb m) i = map fst (filter snd (combine (column v i) (column m i))).
Proof.
  intros v m s k i Ev Em. unfold unmasked, n_rows. cbn [fst snd]. rewrite Ev, last_last.
  rewrite (column_eq _ _ _ _ _ Ev), (column_eq _ _ _ _ _ Em), combine_map.
  generalize (seq 0 k) as l. induction l as [|r l IH]; [reflexivity|]. cbn [flat_map map filter]. rewrite IH.
  cbn [amap at_ snd]. destruct (at_ m (i ++ [r])); reflexivity.
Qed.

Section Select.
Variables (argsort_bool : list bool -> list nat) (argsort_real : list RV -> list nat).
Hypothesis HB : sorts false_first false argsort_bool.
Hypothesis HR : sorts nan_last None argsort_real.
Variables (X : arr CV) (V : arr bool) (s : list nat) (k : nat).
Hypothesis (EX : shp X = s ++ [k]) (EV : shp V = s ++ [k]).

Let X1 := take_along_axis0 X (argsort_axis0 argsort_bool V).
Let V1 := take_along_axis0 V (argsort_axis0 argsort_bool V).
Let rows := any_other_axes V1.
Let X2 := select_rows rows X1.
Let V2 := select_rows rows V1.
Let V3 := take_along_axis0 V2 (argsort_axis0 argsort_real (amap cabs X2)).
Let X3 := take_along_axis0 X2 (argsort_axis0 argsort_real (amap cabs X2)).
Let kept := filter (fun r => nth r rows false) (seq 0 k).
Let M := length kept.

Lemma EX1 : shp X1 = s ++ [k]. Proof. exact EV. Qed.
Lemma EV1 : shp V1 = s ++ [k]. Proof. exact EV. Qed.
Lemma EX2 : shp X2 = s ++ [M].
Proof. unfold X2, select_rows. rewrite EX1, removelast_last, last_last. reflexivity. Qed.
Lemma EV2 : shp V2 = s ++ [M].
Proof. unfold V2, select_rows. rewrite EV1, removelast_last, last_last. reflexivity. Qed.
Lemma EX3 : shp X3 = s ++ [M]. Proof. cbn. exact EX2. Qed.
Lemma EV3 : shp V3 = s ++ [M]. Proof. cbn. exact EX2. Qed.

Lemma rows_nth : forall r, r < k ->
  nth r rows false = true <-> exists i, index_of s i /\ at_ V1 (i ++ [r]) = true.
Proof.
  intros r Hr. unfold rows, any_other_axes. rewrite EV1, removelast_last, last_last.
  rewrite (nth_indep _ false (existsb (fun i => at_ V1 (i ++ [0])) (ndindex s)))
    by (rewrite map_length, seq_length; exact Hr).
  rewrite (map_nth (fun q => existsb (fun i => at_ V1 (i ++ [q])) (ndindex s))), seq_nth by exact Hr.
  cbn [Nat.add]. rewrite existsb_exists. split; intros (i & Hi & H); exists i; (split; [apply in_ndindex, Hi|exact H]).
Qed.

Lemma col1 : forall i, Permutation (combine (column X1 i) (column V1 i)) (combine (column X i) (column V i)) /\
  StronglySorted false_first (column V1 i) /\ length (column V1 i) = k /\ length (column X1 i) = k.
Proof.
  intro i. destruct (HB (column V i)) as [P Q].
  unfold X1, V1. rewrite (column_sorted CV _ None argsort_bool X V s k i EX EV P).
  rewrite (column_sorted _ _ false argsort_bool V V s k i EV EV P). rewrite combine_map.
  split; [|split; [exact Q|]].
  - assert (L : length (column X i) = length (column V i))
      by (rewrite (column_length _ _ _ _ _ EX), (column_length _ _ _ _ _ EV); reflexivity).
    rewrite (map_ext _ (fun p => nth p (combine (column X i) (column V i)) (None, false)))
      by (intro p; rewrite combine_nth' by exact L; reflexivity).
    apply perm_map_nth. rewrite combine_length, L, Nat.min_id. exact P.
  - rewrite !map_length, (Permutation_length P), seq_length, (column_length _ _ _ _ _ EV). auto.
Qed.
Lemma col2 : forall i, index_of s i ->
  filter snd (combine (column X2 i) (column V2 i)) = filter snd (combine (column X1 i) (column V1 i)).
Proof.
  intros i Hi. destruct (col1 i) as (_ & _ & L1 & L2).
  unfold X2, V2. rewrite (column_select CV None _ _ _ _ i EX1), (column_select _ false _ _ _ _ i EV1).
  fold kept. rewrite combine_map.
  rewrite (map_ext _ (fun p => nth p (combine (column X1 i) (column V1 i)) (None, false)))
    by (intro p; rewrite combine_nth' by (transitivity k; [exact L2|symmetry; exact L1]); reflexivity).
  unfold kept. replace (seq 0 k) with (seq 0 (length (combine (column X1 i) (column V1 i))))
    by (rewrite combine_length, L1, L2, Nat.min_id; reflexivity).
  apply filter_kept. rewrite combine_length, L1, L2, Nat.min_id. intros r Hr.
  rewrite combine_nth' by (transitivity k; [exact L2|symmetry; exact L1]). cbn [snd]. intro H. apply rows_nth; [exact Hr|]. exists i.
  split; [exact Hi|]. rewrite (column_nth _ _ _ _ _ _ _ EV1 Hr) in H. exact H.
Qed.
Lemma col3 : forall i, Permutation (combine (column X3 i) (column V3 i)) (combine (column X2 i) (column V2 i)) /\
  StronglySorted nan_last (map cabs (column X3 i)).
Proof.
  intro i. assert (EA : shp (amap cabs X2) = s ++ [M]) by exact EX2.
  destruct (HR (column (amap cabs X2) i)) as [P Q].
  unfold X3, V3. rewrite (column_sorted CV _ None argsort_real X2 (amap cabs X2) s M i EX2 EA P).
  rewrite (column_sorted _ _ false argsort_real V2 (amap cabs X2) s M i EV2 EA P). rewrite combine_map. split.
  - assert (L : length (column X2 i) = length (column V2 i))
      by (rewrite (column_length _ _ _ _ _ EX2), (column_length _ _ _ _ _ EV2); reflexivity).
    rewrite (map_ext _ (fun p => nth p (combine (column X2 i) (column V2 i)) (None, false)))
      by (intro p; rewrite combine_nth' by exact L; reflexivity).
    apply perm_map_nth. rewrite combine_length, L, Nat.min_id, <- L.
    rewrite column_amap in *. rewrite map_length in P. exact P.
  - rewrite column_amap in Q. rewrite column_amap, map_map.
    rewrite (map_ext _ (fun q => nth q (map cabs (column X2 i)) None)); [exact Q|].
    intro q. change (@None R) with (cabs None). rewrite map_nth. reflexivity.
Qed.
Lemma selected : forall i, index_of s i ->
  Permutation (unmasked (X3, amap negb V3) i) (map fst (filter snd (combine (column X i) (column V i)))).
Proof.
  intros i Hi. rewrite (unmasked_eq _ _ _ _ _ EX3 EV3).
  apply Permutation_map. eapply Permutation_trans; [apply Permutation_filter, col3|].
  rewrite (col2 i Hi). apply Permutation_filter, col1.
Qed.
Lemma selected_rows : M = 0 \/ exists i, index_of s i /\ length (unmasked (X3, amap negb V3) i) = M.
Proof.
  assert (HK : kept = [] \/ exists r0 rest, kept = r0 :: rest)
    by (generalize kept; intros [|]; [left; reflexivity|right; eauto]).
  destruct HK as [EK|(r0 & rest & EK)]; [left; unfold M; rewrite EK; reflexivity|right].
  assert (H0 : In r0 kept) by (rewrite EK; left; reflexivity).
  assert (Hk : forall r, In r kept -> r < k /\ r0 <= r).
  { assert (HS : StronglySorted lt kept).
    { unfold kept. generalize (fun r => nth r rows false) as f. intro f. clear.
      generalize 0 as a. induction k as [|k' IH]; intro a; cbn; [constructor|].
      destruct (f a); [constructor|]; try apply IH.
      apply Forall_forall. intros x Hx. apply filter_In in Hx. destruct Hx as [Hx _]. apply in_seq in Hx. lia. }
    intros r Hr. split.
    - unfold kept in Hr. apply filter_In in Hr. destruct Hr as [Hr _]. apply in_seq in Hr. lia.
    - rewrite EK in Hr, HS. destruct Hr as [<-|Hr]; [lia|].
      inversion HS as [|? ? _ HF]; subst. rewrite Forall_forall in HF. specialize (HF r Hr). lia. }
  assert (Hr0 : nth r0 rows false = true) by (unfold kept in H0; apply filter_In in H0; apply H0).
  apply rows_nth in Hr0; [|apply Hk, H0]. destruct Hr0 as (i & Hi & Hv).
  exists i. split; [exact Hi|]. rewrite (unmasked_eq _ _ _ _ _ EX3 EV3), map_length.
  destruct (col3 i) as [P _]. rewrite (Permutation_length (Permutation_filter _ snd _ _ P)).
  rewrite filter_all_true.
  - rewrite combine_length, (column_length _ _ _ _ _ EX2), (column_length _ _ _ _ _ EV2). apply Nat.min_id.
  - intros [x b] Hx. cbn [snd]. apply in_combine_r in Hx.
    unfold V2 in Hx. rewrite (column_select _ false _ _ _ _ i EV1) in Hx. fold kept in Hx.
    apply in_map_iff in Hx. destruct Hx as (r & <- & Hr). destruct (Hk r Hr) as [Hrk Hr'].
    destruct (col1 i) as (_ & HS & HL & _).
    assert (Hv' : nth r0 (column V1 i) false = true).
    { rewrite (column_nth _ _ _ _ _ _ _ EV1); [exact Hv|]. lia. }
    destruct (Nat.eq_dec r r0) as [->|Hne]; [exact Hv'|].
    apply (sorted_nth _ _ false _ HS r0 r); [lia|lia|exact Hv'].
Qed.
End Select.

(** ** The tests *)
Lemma abs_le_spec : forall b t, abs_le (Some b) t = true <-> (Cmod b <= t)%R.
Proof. intros. unfold abs_le, Rleb. cbn. destruct Rle_dec; split; congruence. Qed.
Lemma imag_spec : forall v, imag_nonneg v = true <-> exists e, v = Some e /\ (0 <= Im e)%R.
Proof.
  intros [e|]; cbn; unfold Rleb.
  - destruct Rle_dec; split; try congruence; [eauto|]. intros (e' & [= <-] & H). contradiction.
  - split; [discriminate|]. intros (e' & H & _). discriminate.
Qed.
Lemma abs1_spec : forall v, abs_ge_1 v = true <-> exists e, v = Some e /\ (1 <= Cmod e)%R.
Proof.
  intros [e|]; unfold abs_ge_1; cbn; unfold Rleb.
  - destruct Rle_dec; split; try congruence; [eauto|]. intros (e' & [= <-] & H). contradiction.
  - split; [discriminate|]. intros (e' & H & _). discriminate.
Qed.
Definition adm (t : R) (ri ra : bool) (env : C) (v : CV) : bool :=
  abs_le v t && (negb ri || imag_nonneg (permitivitty v (Some env))) && (negb ra || abs_ge_1 (permitivitty v (Some env))).
Lemma adm_spec : forall t ri ra env v,
  adm t ri ra env v = true <-> exists b, v = Some b /\ admissible t ri ra env b.
Proof.
  intros t ri ra env v. unfold adm, admissible. rewrite !andb_true_iff, !orb_true_iff, imag_spec, abs1_spec, !negb_true_iff.
  destruct v as [b|].
  - rewrite abs_le_spec. split.
    + intros [[H1 H2] H3]. exists b. split; [reflexivity|]. split; [exact H1|]. split; intro E.
      * destruct H2; [congruence|assumption].
      * destruct H3; [congruence|assumption].
    + intros (b' & [= <-] & H1 & H2 & H3). repeat split; [exact H1| |].
      * destruct ri; [right; auto|left; reflexivity].
      * destruct ra; [right; auto|left; reflexivity].
  - split; [intros [[H _] _]; discriminate|]. intros (b & H & _). discriminate.
Qed.

(** ** Shapes of the tests *)
Lemma bshape_front : forall s e k, fits e s -> bshape (s ++ [k]) e = Some (s ++ [k]).
Proof.
  intros s e k [L H]. apply bshape_spec. split; [rewrite app_length; cbn; lia|].
  intro j. specialize (H j).
  assert (Hd : dim e j = 1 \/ dim e j = dim (s ++ [k]) j).
  { destruct H as [H|H]; [left; exact H|]. destruct (Nat.lt_ge_cases j (length s)) as [Hj|Hj].
    - right. rewrite H. unfold dim. rewrite app_nth1 by exact Hj. reflexivity.
    - left. apply dim_over. lia. }
  destruct Hd as [->| ->]; [apply bdim_1_r|]. unfold bdim. rewrite Nat.eqb_refl. reflexivity.
Qed.
Lemma index_app : forall s i k r, index_of s i -> r < k -> index_of (s ++ [k]) (i ++ [r]).
Proof.
  intros s i k r [L H] Hr. split; [rewrite !app_length, L; reflexivity|].
  intros j Hj. rewrite app_length in Hj. cbn in Hj. destruct (Nat.lt_ge_cases j (length s)) as [Hs|Hs].
  - rewrite !app_nth1 by lia. apply H, Hs.
  - replace j with (length s) by lia. rewrite (app_nth2 s) by lia. rewrite <- L, app_nth2 by lia.
    rewrite !Nat.sub_diag. exact Hr.
Qed.
Lemma entry_front : forall A (a : arr A) s i k, fits (shp a) s -> index_of s i -> entry a (i ++ [k]) = entry a i.
Proof.
  intros A a s i k F Hi. rewrite <- (bidx_index _ _ Hi) at 1. apply entry_in_front, F.
Qed.

Lemma iand_ok : forall (v t : arr bool) s, shp v = s -> shp t = s ->
  exists w, iand v t = Ok w /\ shp w = s /\ forall i, index_of s i -> at_ w i = at_ v i && at_ t i.
Proof.
  intros v t s Ev Et. unfold iand. rewrite Ev, Et.
  assert (E : bshape s s = Some s).
  { apply bshape_spec. split; [lia|]. intro k. unfold bdim. rewrite Nat.eqb_refl. reflexivity. }
  rewrite E. destruct (list_eq_dec Nat.eq_dec s s); [|contradiction].
  eexists. split; [reflexivity|]. split; [reflexivity|]. intros i Hi. cbn [at_]. rewrite (bidx_index _ _ Hi). reflexivity.
Qed.

Lemma select_roots_spec : forall argsort_bool argsort_real t ri ra (env : arr C) (X : arr CV) s k,
  sorts false_first false argsort_bool -> sorts nan_last None argsort_real ->
  shp X = s ++ [k] -> fits (shp env) s ->
  exists r, select_roots argsort_bool argsort_real t ri ra env X = Ok r /\
    elements r = s /\ shp (snd r) = shp (fst r) /\
    (forall i, index_of s i ->
       Permutation (unmasked r i) (filter (adm t ri ra (entry env i)) (column X i)) /\
       StronglySorted nan_last (map cabs (entries r i))) /\
    (n_rows r = 0 \/ exists i, index_of s i /\ length (unmasked r i) = n_rows r).
Proof.
  intros sb sr t ri ra env X s k HB HR EX F. unfold select_roots. cbn zeta.
  unfold amap2 at 1. rewrite EX, (bshape_front _ _ k F). cbn [rbind].
  match goal with |- context [amap imag_nonneg ?e] => set (eps := e) end.
  assert (Eeps : shp eps = s ++ [k]) by reflexivity.
  assert (Aeps : forall i q, index_of s i -> q < k -> at_ eps (i ++ [q]) = permitivitty (at_ X (i ++ [q])) (Some (entry env i))).
  { intros i q Hi Hq. unfold eps. cbn [at_]. rewrite (bidx_index _ _ (index_app _ _ _ _ Hi Hq)).
    rewrite <- entry_bidx, (entry_front _ _ _ _ _ F Hi). reflexivity. }
  clearbody eps.
  set (V0 := amap (fun x => abs_le x t) X).
  assert (HV : exists V, (let! valid := (if ri then iand V0 (amap imag_nonneg eps) else Ok V0) in
                          if ra then iand valid (amap abs_ge_1 eps) else Ok valid) = Ok V /\
    shp V = s ++ [k] /\ forall i, index_of s i -> column V i = map (adm t ri ra (entry env i)) (column X i)).
  { assert (E0 : shp V0 = s ++ [k]) by exact EX.
    assert (H1 : exists V1, (if ri then iand V0 (amap imag_nonneg eps) else Ok V0) = Ok V1 /\ shp V1 = s ++ [k] /\
       forall i, index_of (s ++ [k]) i -> at_ V1 i = at_ V0 i && (negb ri || imag_nonneg (at_ eps i))).
    { destruct ri.
      - destruct (iand_ok V0 (amap imag_nonneg eps) _ E0 Eeps) as (w & Ew & Sw & Hw). exists w. repeat split; auto.
      - exists V0. repeat split; [exact E0|]. intros i _. cbn. rewrite andb_true_r. reflexivity. }
    destruct H1 as (V1 & -> & E1 & A1). cbn [rbind].
    assert (H2 : exists V2, (if ra then iand V1 (amap abs_ge_1 eps) else Ok V1) = Ok V2 /\ shp V2 = s ++ [k] /\
       forall i, index_of (s ++ [k]) i -> at_ V2 i = at_ V1 i && (negb ra || abs_ge_1 (at_ eps i))).
    { destruct ra.
      - destruct (iand_ok V1 (amap abs_ge_1 eps) _ E1 Eeps) as (w & Ew & Sw & Hw). exists w. repeat split; auto.
      - exists V1. repeat split; [exact E1|]. intros i _. cbn. rewrite andb_true_r. reflexivity. }
    destruct H2 as (V2 & -> & E2 & A2). exists V2. split; [reflexivity|]. split; [exact E2|].
    intros i Hi. rewrite (column_eq _ _ _ _ _ E2), (column_eq _ _ _ _ _ EX), map_map.
    apply map_ext_in. intros q Hq. apply in_seq in Hq. pose proof (index_app s i k q Hi ltac:(lia)) as Hx.
    rewrite (A2 _ Hx), (A1 _ Hx), (Aeps i q Hi) by lia. reflexivity. }
  destruct HV as (V & HVe & EV & CV_).
  destruct (if ri then iand V0 (amap imag_nonneg eps) else Ok V0) as [v1|e]; [|discriminate].
  cbn [rbind] in HVe |- *. rewrite HVe. cbn [rbind].
  eexists. split; [reflexivity|]. unfold elements, n_rows, entries. cbn [fst snd].
  pose proof (EX3 sb sr X V s k EV) as E3. pose proof (EV3 sb sr X V s k EV) as E3'.
  pose proof (selected_rows sb sr HB HR X V s k EX EV) as HM.
  cbv zeta in E3, E3', HM. split; [|split; [|split]].
  - rewrite E3, removelast_last. reflexivity.
  - cbn [amap shp]. rewrite E3, E3'. reflexivity.
  - intros i Hi. split.
    + eapply Permutation_trans; [exact (selected sb sr HB HR X V s k EX EV i Hi)|].
      rewrite (CV_ i Hi), filter_snd_map. apply Permutation_refl.
    + exact (proj2 (col3 sb sr HR X V s k EV i)).
  - rewrite E3, last_last. exact HM.
Qed.

(** ** [Polynomial.roots] *)
Lemma drop_zeros_app : forall c, exists m, c = drop_zeros c ++ repeat (Some (RtoC 0)) m.
Proof.
  induction c as [|a c (m & IH)]; [exists 0; reflexivity|]. cbn [drop_zeros].
  destruct (drop_zeros c) as [|b t].
  - destruct (czero a) eqn:Z.
    + unfold czero in Z. destruct a as [z|]; [|discriminate]. destruct (Ceq_dec z (RtoC 0)) as [->|]; [|discriminate].
      exists (S m). cbn in *. rewrite IH at 1. reflexivity.
    + exists m. cbn in *. rewrite IH at 1. reflexivity.
  - exists m. cbn. rewrite IH at 1. reflexivity.
Qed.
Lemma drop_zeros_last : forall c, drop_zeros c <> [] -> czero (last (drop_zeros c) None) = false.
Proof.
  induction c as [|a c IH]; intro H; cbn [drop_zeros] in *; [congruence|].
  destruct (drop_zeros c) as [|b t].
  - destruct (czero a) eqn:Z; [congruence|exact Z].
  - apply IH. discriminate.
Qed.
Lemma all_finite_spec : forall c l, all_finite c = Some l <-> c = map Some l.
Proof.
  induction c as [|[a|] c IH]; intros l; cbn; split; intro H.
  - injection H as <-. reflexivity.
  - destruct l; [reflexivity|discriminate].
  - destruct (all_finite c) as [l'|]; [|discriminate]. injection H as <-. cbn. f_equal. apply IH. reflexivity.
  - destruct l as [|x l]; [discriminate|]. injection H as -> H. apply IH in H. rewrite H. reflexivity.
  - discriminate.
  - destruct l; discriminate.
Qed.
Lemma peval_app0 : forall l m x, peval (l ++ repeat (RtoC 0) m) x = peval l x.
Proof.
  induction l as [|a l IH]; intros m x; cbn.
  - induction m as [|m IHm]; cbn; [reflexivity|]. rewrite IHm. ring.
  - rewrite IH. reflexivity.
Qed.
Lemma last_map_some : forall l, l <> [] -> last (map Some l) None = Some (last l (RtoC 0)).
Proof.
  induction l as [|a [|b l] IH]; intro H; [congruence|reflexivity|]. cbn [map last] in *. apply IH. discriminate.
Qed.
Lemma map_some_repeat : forall (x : C) m, repeat (Some x) m = map Some (repeat x m).
Proof. intros. induction m; cbn; [reflexivity|]. rewrite IHm. reflexivity. Qed.

Lemma polyroots_sound : forall eig c rs b, finds_roots eig -> polyroots eig c = Ok rs -> In (Some b) rs ->
  exists l, c = map Some l /\ peval l b = RtoC 0.
Proof.
  intros eig c rs b HE H Hin. unfold polyroots in H. destruct c as [|a0 c0]; [discriminate|].
  set (c := a0 :: c0) in *. unfold trimseq in H.
  destruct (drop_zeros_app c) as (m & Hm). pose proof (drop_zeros_last c) as Hl.
  destruct (drop_zeros c) as [|a [|a' t]].
  - cbn in H. injection H as <-. destruct Hin.
  - injection H as <-. destruct Hin.
  - destruct t as [|a'' t].
    + assert (E : rs = [((rc 0 - a) / a')%cv]) by congruence. subst rs. destruct Hin as [Hr|[]].
      apply cdiv_Some in Hr. destruct Hr as (x & y & Hx & -> & Hy & ->).
      destruct a as [z|]; [|discriminate]. cbn in Hx. injection Hx as <-.
      exists ([z; y] ++ repeat (RtoC 0) m). split.
      * rewrite Hm, map_app, map_some_repeat. reflexivity.
      * rewrite peval_app0. cbn. field. exact Hy.
    + destruct (all_finite (a :: a' :: a'' :: t)) as [l|] eqn:El; [|discriminate].
      apply all_finite_spec in El. rewrite El in Hm, Hl. assert (E : rs = map Some (eig l)) by congruence. subst rs.
      apply in_map_iff in Hin. destruct Hin as (b' & [= ->] & Hin).
      exists (l ++ repeat (RtoC 0) m). split; [rewrite Hm, map_app, map_some_repeat; reflexivity|].
      rewrite peval_app0.
      assert (Ll : length l = S (S (S (length t)))) by (rewrite <- (map_length (@Some C)), <- El; reflexivity).
      destruct (HE l) as [_ HEl]; [lia| |].
      * rewrite last_map_some in Hl by (intros ->; discriminate). intros E0. rewrite E0 in Hl. cbn in Hl.
        destruct (Ceq_dec (RtoC 0) (RtoC 0)); [|congruence]. specialize (Hl ltac:(destruct l; discriminate)). discriminate.
      * rewrite HEl. apply (prod_minus_0 (eig l) b) in Hin. rewrite Hin. ring.
Qed.

Lemma drop_zeros_degree : forall l d, degree l d ->
  exists t, drop_zeros (map Some l) = map Some t /\ length t = S d /\ last t (RtoC 0) <> RtoC 0 /\ forall x, peval l x = peval t x.
Proof.
  induction l as [|a l IH]; intros d [H1 H2].
  - exfalso. apply H1. destruct d; reflexivity.
  - destruct d as [|d].
    + assert (Hz : drop_zeros (map Some l) = []).
      { assert (Hl : forall k, nth k l (RtoC 0) = RtoC 0) by (intro k; apply (H2 (S k)); lia). clear - Hl.
        induction l as [|x l IHl]; [reflexivity|]. cbn [map drop_zeros].
        rewrite IHl by (intro k; apply (Hl (S k))). cbn. destruct (Ceq_dec x (RtoC 0)) as [|n]; [reflexivity|].
        exfalso. apply n, (Hl 0). }
      exists [a]. cbn [map drop_zeros]. rewrite Hz. cbn [czero].
      cbn in H1. destruct (Ceq_dec a (RtoC 0)) as [E|]; [contradiction|].
      split; [reflexivity|]. split; [reflexivity|]. split; [exact H1|]. intro x. cbn.
      destruct (drop_zeros_app (map Some l)) as (m & Hm). rewrite Hz, map_some_repeat in Hm. cbn in Hm.
      assert (El : l = repeat (RtoC 0) m).
      { clear - Hm. revert m Hm. induction l as [|y l IHl]; intros [|m] Hm; try discriminate; [reflexivity|].
        cbn in Hm. injection Hm as -> Hm. cbn. f_equal. apply IHl, Hm. }
      rewrite El. pose proof (peval_app0 [] m x) as E0. cbn [app peval] in E0. rewrite E0. reflexivity.
    + destruct (IH d) as (t & Et & Lt & Ht & Hp).
      { split; [exact H1|]. intros k Hk. apply (H2 (S k)). lia. }
      exists (a :: t). cbn [map drop_zeros]. rewrite Et. destruct t as [|b t]; [discriminate|].
      cbn [map]. split; [reflexivity|]. split; [cbn in *; lia|]. split; [exact Ht|].
      intro x. cbn [peval]. rewrite (Hp x). reflexivity.
Qed.
Lemma polyroots_complete : forall eig l d, finds_roots eig -> degree l d -> 1 <= d ->
  exists rs, polyroots eig (map Some l) = Ok (map Some rs) /\ length rs = d /\
    exists lead, lead <> RtoC 0 /\ forall x, peval l x = (lead * prod_minus rs x)%C.
Proof.
  intros eig l d HE Hd H1. destruct (drop_zeros_degree l d Hd) as (t & Et & Lt & Ht & Hp).
  unfold polyroots, trimseq. rewrite Et.
  destruct l as [|a l]. { destruct Hd as [Hd _]. exfalso. apply Hd. destruct d; reflexivity. }
  cbn [map]. destruct t as [|x [|y t]]; cbn in Lt; try lia. cbn [map].
  destruct t as [|z t].
  - exists [(- x / y)%C]. cbn in Ht. split.
    + cbn. rewrite cdiv_ok by exact Ht. do 3 f_equal. unfold Cdiv. f_equal. ring.
    + split; [cbn in *; lia|]. exists y. split; [exact Ht|]. intro w. rewrite Hp. cbn. field. exact Ht.
  - cbn [map]. change (Some x :: Some y :: Some z :: map Some t) with (map Some (x :: y :: z :: t)).
    rewrite (proj2 (all_finite_spec _ _) eq_refl).
    destruct (HE (x :: y :: z :: t)) as [HL HP]; [cbn; lia|exact Ht|].
    exists (eig (x :: y :: z :: t)). split; [reflexivity|]. split; [cbn in *; lia|].
    exists (last (x :: y :: z :: t) (RtoC 0)). split; [exact Ht|]. intro w. rewrite Hp. apply HP.
Qed.
