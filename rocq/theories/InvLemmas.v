(** * Columns, sorting and row selection (lemmas for the inversion) *)
From Coq Require Import String Reals Lra Lia ZArith List Bool Permutation Sorted.
From Coquelicot Require Import Rcomplements Complex.
From Verif Require Import Num NumLemmas ModelBase ModelSample ModelTip NArr SpecArr NArrLemmas ModelObj
  ModelArr ModelArrTip ModelInv SpecPoly SpecInv FTA.
Import ListNotations.
Open Scope nat_scope.

(** ** Lists *)
Lemma map_nth_self : forall A (d : A) l, map (fun k => nth k l d) (seq 0 (length l)) = l.
Proof.
  intros A d l. apply (nth_ext _ _ d d); [rewrite map_length, seq_length; reflexivity|].
  intros n Hn. rewrite map_length, seq_length in Hn.
  rewrite (nth_indep _ d (nth 0 l d)) by (rewrite map_length, seq_length; exact Hn).
  rewrite (map_nth (fun k => nth k l d)), seq_nth by exact Hn. reflexivity.
Qed.
Lemma filter_map_comm : forall A B (f : B -> bool) (g : A -> B) l,
  filter f (map g l) = map g (filter (fun x => f (g x)) l).
Proof. induction l; cbn; [reflexivity|]. rewrite IHl. destruct (f (g a)); reflexivity. Qed.
Lemma filter_twice : forall A (f g : A -> bool) l, (forall x, In x l -> f x = true -> g x = true) ->
  filter f (filter g l) = filter f l.
Proof.
  induction l as [|a l IH]; intros H; cbn; [reflexivity|].
  assert (IHl : filter f (filter g l) = filter f l) by (apply IH; intros; apply H; cbn; auto).
  destruct (g a) eqn:G; cbn; rewrite IHl; [reflexivity|].
  destruct (f a) eqn:F; [|reflexivity]. rewrite (H a (or_introl eq_refl) F) in G. discriminate.
Qed.
Lemma filter_kept : forall A (d : A) f g l,
  (forall k, k < length l -> f (nth k l d) = true -> g k = true) ->
  filter f (map (fun k => nth k l d) (filter g (seq 0 (length l)))) = filter f l.
Proof.
  intros A d f g l H. rewrite filter_map_comm, filter_twice.
  - rewrite <- filter_map_comm, map_nth_self. reflexivity.
  - intros k Hk. apply H. apply in_seq in Hk. lia.
Qed.
Lemma filter_all_true : forall A (f : A -> bool) l, (forall x, In x l -> f x = true) -> filter f l = l.
Proof.
  induction l as [|a l IH]; intros H; cbn; [reflexivity|].
  rewrite (H a (or_introl eq_refl)), IH; [reflexivity|]. intros; apply H; cbn; auto.
Qed.
Lemma perm_map_nth : forall A (d : A) l p, Permutation p (seq 0 (length l)) ->
  Permutation (map (fun k => nth k l d) p) l.
Proof. intros A d l p H. eapply Permutation_trans; [apply Permutation_map, H|]. rewrite map_nth_self. apply Permutation_refl. Qed.
Lemma combine_map : forall A B D (f : A -> B) (g : A -> D) l,
  combine (map f l) (map g l) = map (fun x => (f x, g x)) l.
Proof. induction l; cbn; [reflexivity|]. rewrite IHl. reflexivity. Qed.
Lemma combine_nth' : forall A B (l : list A) (m : list B) x y k, length l = length m ->
  nth k (combine l m) (x, y) = (nth k l x, nth k m y).
Proof. intros. apply combine_nth. assumption. Qed.
Lemma filter_snd_map : forall A (f : A -> bool) l,
  map fst (filter snd (combine l (map f l))) = filter f l.
Proof. induction l; cbn; [reflexivity|]. destruct (f a); cbn; rewrite IHl; reflexivity. Qed.
Lemma Permutation_filter : forall A (f : A -> bool) l m, Permutation l m -> Permutation (filter f l) (filter f m).
Proof.
  intros A f l m H. induction H; cbn.
  - constructor.
  - destruct (f x); [constructor|]; assumption.
  - destruct (f x), (f y); try apply Permutation_refl. constructor.
  - eapply Permutation_trans; eassumption.
Qed.
Lemma sorted_nth : forall A (le : A -> A -> Prop) d l, StronglySorted le l ->
  forall a b, a < b -> b < length l -> le (nth a l d) (nth b l d).
Proof.
  induction l as [|x l IH]; intros H a b Hab Hb; cbn in Hb; [lia|]. inversion H as [|? ? Hs Hf]; subst.
  destruct b; [lia|]. destruct a; cbn.
  - rewrite Forall_forall in Hf. apply Hf, nth_In. lia.
  - apply IH; try assumption; lia.
Qed.

(** ** Indices *)
Lemma in_ndindex : forall s i, In i (ndindex s) <-> index_of s i.
Proof.
  induction s as [|d s IH]; intro i; cbn [ndindex].
  - split.
    + intros [<-|[]]. split; [reflexivity|]. intros k Hk. cbn in Hk. lia.
    + intros [L _]. destruct i; [left; reflexivity|discriminate].
  - rewrite in_flat_map. split.
    + intros (j & Hj & Hi). apply in_map_iff in Hi. destruct Hi as (x & <- & Hx). apply in_seq in Hx.
      apply IH in Hj. destruct Hj as [L H]. split; [cbn; lia|]. intros k Hk. cbn in Hk.
      destruct k; cbn; [lia|]. apply H. lia.
    + intros [L H]. destruct i as [|x j]; [discriminate|]. exists j. split.
      * apply IH. split; [cbn in L; lia|]. intros k Hk. apply (H (S k)). cbn. lia.
      * apply in_map_iff. exists x. split; [reflexivity|]. apply in_seq.
        specialize (H 0). cbn in H. lia.
Qed.

(** ** Columns *)
Lemma column_eq : forall A (a : arr A) s k i, shp a = s ++ [k] ->
  column a i = map (fun r => at_ a (i ++ [r])) (seq 0 k).
Proof. intros A a s k i E. unfold column. rewrite E, last_last. reflexivity. Qed.
Lemma column_length : forall A (a : arr A) s k i, shp a = s ++ [k] -> length (column a i) = k.
Proof. intros A a s k i E. rewrite (column_eq _ _ _ _ _ E), map_length, seq_length. reflexivity. Qed.
Lemma column_nth : forall A (a : arr A) s k i r d, shp a = s ++ [k] -> r < k ->
  nth r (column a i) d = at_ a (i ++ [r]).
Proof.
  intros A a s k i r d E H. rewrite (column_eq _ _ _ _ _ E).
  rewrite (nth_indep _ d (at_ a (i ++ [0]))) by (rewrite map_length, seq_length; exact H).
  rewrite (map_nth (fun r => at_ a (i ++ [r]))), seq_nth by exact H. reflexivity.
Qed.
Lemma column_amap : forall A B (f : A -> B) (a : arr A) i, column (amap f a) i = map f (column a i).
Proof. intros. unfold column. rewrite map_map. reflexivity. Qed.
Lemma column_sorted : forall A B (d : A) (sorter : list B -> list nat) (a : arr A) (b : arr B) s k i,
  shp a = s ++ [k] -> shp b = s ++ [k] ->
  Permutation (sorter (column b i)) (seq 0 (length (column b i))) ->
  column (take_along_axis0 a (argsort_axis0 sorter b)) i
  = map (fun p => nth p (column a i) d) (sorter (column b i)).
Proof.
  intros A B d sorter a b s k i Ea Eb P.
  rewrite (column_length _ _ _ _ _ Eb) in P.
  assert (L : length (sorter (column b i)) = k) by (rewrite (Permutation_length P), seq_length; reflexivity).
  rewrite (column_eq _ _ s k) by (cbn; exact Eb).
  transitivity (map (fun p => nth p (column a i) d) (map (fun r => nth r (sorter (column b i)) 0) (seq 0 k))).
  - rewrite map_map. apply map_ext_in. intros r Hr. apply in_seq in Hr. cbn [at_ take_along_axis0 argsort_axis0].
    rewrite last_last, removelast_last. rewrite (column_nth _ _ _ _ _ _ _ Ea); [reflexivity|].
    assert (Hin : In (nth r (sorter (column b i)) 0) (seq 0 k)).
    { eapply Permutation_in; [exact P|]. apply nth_In. lia. }
    apply in_seq in Hin. lia.
  - replace (seq 0 k) with (seq 0 (length (sorter (column b i)))) by (rewrite L; reflexivity).
    rewrite map_nth_self. reflexivity.
Qed.
Lemma column_select : forall A (d : A) mask (a : arr A) s k i, shp a = s ++ [k] ->
  column (select_rows mask a) i
  = map (fun r => nth r (column a i) d) (filter (fun r => nth r mask false) (seq 0 k)).
Proof.
  intros A d mask a s k i Ea. unfold select_rows. rewrite Ea, last_last, removelast_last.
  set (kept := filter (fun r => nth r mask false) (seq 0 k)).
  rewrite (column_eq _ _ s (length kept)) by reflexivity. cbn [at_].
  transitivity (map (fun r => nth r (column a i) d) (map (fun j => nth j kept 0) (seq 0 (length kept))));
    [|rewrite map_nth_self; reflexivity]. rewrite map_map. apply map_ext_in. intros r Hr. apply in_seq in Hr.
  rewrite last_last, removelast_last. symmetry. apply (column_nth _ _ _ _ _ _ _ Ea).
  assert (Hin : In (nth r kept 0) kept) by (apply nth_In; lia).
  apply filter_In in Hin. destruct Hin as [Hin _]. apply in_seq in Hin. lia.
Qed.

(** ** [apply_along_axis] *)
Lemma mapM_In : forall A B (f : A -> res B) l bs, mapM f l = Ok bs -> forall x, In x l -> exists b, f x = Ok b.
Proof.
  induction l as [|a l IH]; intros bs H x Hx; [destruct Hx|]. cbn in H.
  destruct (f a) as [b|] eqn:E; [|discriminate]. cbn in H.
  destruct (mapM f l) as [bs'|] eqn:E'; [|discriminate].
  destruct Hx as [<-|Hx]; [eauto|]. eapply IH; eauto.
Qed.
Lemma mapM_all_ok : forall A B (f : A -> res B) l, (forall x, In x l -> exists b, f x = Ok b) -> exists bs, mapM f l = Ok bs.
Proof.
  induction l as [|a l IH]; intro H; cbn; [eauto|].
  destruct (H a (or_introl eq_refl)) as (b & ->). cbn.
  destruct IH as (bs & ->). { intros; apply H; cbn; auto. } cbn. eauto.
Qed.
Lemma assign_same : forall A k (r : list A), length r = k -> assign k r = Ok r.
Proof. intros A k r H. unfold assign. rewrite (proj2 (Nat.eqb_eq _ _) H). reflexivity. Qed.
Lemma assign_cases : forall A k (r l : list A), assign k r = Ok l ->
  length l = k /\ (r = l \/ exists x, r = [x] /\ l = repeat x k).
Proof.
  intros A k r l H. unfold assign in H. destruct (Nat.eqb_spec (length r) k) as [E|E].
  - assert (r = l) by congruence. subst. auto.
  - destruct r as [|x [|]]; try discriminate. assert (l = repeat x k) by congruence. subst.
    split; [apply repeat_length|]. right. eauto.
Qed.
Lemma apply_along_axis0_ok : forall A B (d : B) (f : list A -> res (list B)) (a : arr A) b s n,
  shp a = s ++ [n] -> apply_along_axis0 d f a = Ok b ->
  exists k, shp b = s ++ [k] /\
    (exists i0, index_of s i0 /\ exists r0, f (column a i0) = Ok r0 /\ length r0 = k) /\
    forall i, index_of s i -> exists r, f (column a i) = Ok r /\ assign k r = Ok (column b i).
Proof.
  intros A B d f a b s n Ea H. unfold apply_along_axis0 in H. rewrite Ea, removelast_last in H.
  destruct (ndindex s) as [|i0 rest] eqn:EN; [discriminate|].
  destruct (f (column a i0)) as [r0|] eqn:E0; [|discriminate]. cbn [rbind] in H.
  set (store := fun i => let! r := f (column a i) in assign (length r0) r) in *.
  destruct (mapM store rest) as [l|] eqn:EM; [|discriminate]. cbn [rbind] in H.
  match type of H with Ok ?x = _ => assert (Eb : b = x) by congruence end.
  clear H. exists (length r0). subst b. cbn [shp]. split; [reflexivity|]. split.
  { exists i0. split; [apply in_ndindex; rewrite EN; left; reflexivity|]. eauto. }
  intros i Hi. apply in_ndindex in Hi. rewrite EN in Hi.
  assert (HS : exists l, store i = Ok l).
  { destruct Hi as [<-|Hi]; [|eapply mapM_In; eassumption].
    unfold store. rewrite E0. cbn. rewrite assign_same by reflexivity. eauto. }
  destruct HS as (li & Eli). unfold store in Eli. destruct (f (column a i)) as [r|] eqn:Er; [|discriminate].
  cbn [rbind] in Eli. exists r. split; [reflexivity|]. rewrite Eli. f_equal.
  destruct (assign_cases _ _ _ _ Eli) as [L _].
  rewrite (column_eq _ _ s (length r0)) by reflexivity. cbn [at_].
  rewrite <- (map_nth_self _ d li) at 1. rewrite L. apply map_ext. intro k.
  rewrite removelast_last, last_last. unfold store. rewrite Er. cbn [rbind]. rewrite Eli. reflexivity.
Qed.
Lemma apply_along_axis0_succeeds : forall A B (d : B) (f : list A -> res (list B)) (a : arr A) s n k,
  shp a = s ++ [n] -> (exists i, index_of s i) ->
  (forall i, index_of s i -> exists r, f (column a i) = Ok r /\ length r = k) ->
  exists b, apply_along_axis0 d f a = Ok b /\ shp b = s ++ [k].
Proof.
  intros A B d f a s n k Ea (i1 & Hi1) H. unfold apply_along_axis0. rewrite Ea, removelast_last.
  destruct (ndindex s) as [|i0 rest] eqn:EN. { apply in_ndindex in Hi1. rewrite EN in Hi1. destruct Hi1. }
  destruct (H i0) as (r0 & E0 & L0). { apply in_ndindex. rewrite EN. left. reflexivity. }
  rewrite E0. cbn [rbind]. rewrite L0.
  destruct (mapM_all_ok _ _ (fun i => let! r := f (column a i) in assign k r) rest) as (bs & ->).
  - intros i Hi. destruct (H i) as (r & Er & Lr). { apply in_ndindex. rewrite EN. right. exact Hi. }
    rewrite Er. cbn [rbind]. rewrite assign_same by exact Lr. eauto.
  - cbn [rbind]. eauto.
Qed.
Lemma apply_along_axis0_empty : forall A B (d : B) (f : list A -> res (list B)) (a : arr A) s n,
  shp a = s ++ [n] -> (forall i, ~ index_of s i) -> exists m, apply_along_axis0 d f a = Raise (ValueError m).
Proof.
  intros A B d f a s n Ea H. unfold apply_along_axis0. rewrite Ea, removelast_last.
  destruct (ndindex s) as [|i0 rest] eqn:EN; [eauto|]. exfalso. apply (H i0), in_ndindex. rewrite EN. left. reflexivity.
Qed.
