(** * Broadcasting: the model's rule meets the specification *)
From Coq Require Import String Reals List Arith Lia Bool.
From Coquelicot Require Import Complex.
From Verif Require Import Num NArr SpecArr.
Import ListNotations.
Open Scope nat_scope.

Lemma bdim_1_l : forall b, bdim 1 b = Some b.
Proof. intro b; unfold bdim. destruct (Nat.eqb_spec 1 b); subst; reflexivity. Qed.
Lemma bdim_1_r : forall b, bdim b 1 = Some b.
Proof.
  intro b; unfold bdim. destruct (Nat.eqb_spec b 1); subst; [reflexivity|].
  destruct (Nat.eqb_spec b 1); [contradiction|reflexivity].
Qed.
Lemma bdim_spec : forall a b d,
  bdim a b = Some d <-> (a = 1 \/ a = d) /\ (b = 1 \/ b = d) /\ (d = 1 \/ a = d \/ b = d).
Proof.
  intros a b d. unfold bdim.
  destruct (Nat.eqb_spec a b); [split; [intros [= <-]; lia|intros; f_equal; lia]|].
  destruct (Nat.eqb_spec a 1); [split; [intros [= <-]; lia|intros; f_equal; lia]|].
  destruct (Nat.eqb_spec b 1); [split; [intros [= <-]; lia|intros; f_equal; lia]|].
  split; [discriminate|lia].
Qed.

Lemma bdim_assoc : forall a s t S' U U',
  bdim S' t = Some U -> bdim a s = Some S' -> bdim s t = Some U' -> bdim a U' = Some U.
Proof.
  intros a s t S' U U'. unfold bdim.
  destruct (Nat.eqb_spec a s); [intros H [= <-] H'; subst|].
  - revert H H'. destruct (Nat.eqb_spec s t); [intros [= <-] [= <-]|];
      [rewrite Nat.eqb_refl; reflexivity|].
    destruct (Nat.eqb_spec s 1); [intros [= <-] [= <-]|].
    + subst. destruct (Nat.eqb_spec 1 t); [congruence|reflexivity].
    + destruct (Nat.eqb_spec t 1); [intros [= <-] [= <-]|discriminate].
      rewrite Nat.eqb_refl; reflexivity.
  - destruct (Nat.eqb_spec a 1); [intros H [= <-] H'|].
    + assert (U = U') by congruence. subst a U. destruct (Nat.eqb_spec 1 U'); congruence.
    + destruct (Nat.eqb_spec s 1); [intros H [= <-] H'|discriminate].
      subst s. revert H'. destruct (Nat.eqb_spec 1 t); [intros [= <-]|intros [= <-]].
      * revert H. subst t. destruct (Nat.eqb_spec a 1); [congruence|].
        cbn. intros [= <-]. reflexivity.
      * revert H. destruct (Nat.eqb_spec a 1); [congruence|]. intro H; exact H.
Qed.

Lemma dim_nil : forall k, dim [] k = 1.
Proof. destruct k; reflexivity. Qed.
Lemma dim_over : forall s k, length s <= k -> dim s k = 1.
Proof. intros; apply nth_overflow; assumption. Qed.

Lemma shape_ext : forall s t, length s = length t -> (forall k, dim s k = dim t k) -> s = t.
Proof.
  induction s as [|a s IH]; intros [|b t] L E; cbn in L; try discriminate; [reflexivity|].
  f_equal; [apply (E 0)|]. apply IH; [lia|]. intro k; apply (E (S k)).
Qed.

Lemma bshape_spec : forall s t u,
  bshape s t = Some u <->
  length u = Nat.max (length s) (length t) /\
  forall k, bdim (dim s k) (dim t k) = Some (dim u k).
Proof.
  induction s as [|a s IH]; intros t u.
  - cbn [bshape]. split.
    + intros [= <-]. split; [reflexivity|]. intro k. rewrite dim_nil. apply bdim_1_l.
    + intros [L E]. f_equal. apply shape_ext; [cbn in L; lia|].
      intro k. specialize (E k). rewrite dim_nil, bdim_1_l in E. congruence.
  - destruct t as [|b t].
    + cbn [bshape]. split.
      * intros [= <-]. split; [cbn; lia|]. intro k. rewrite dim_nil. apply bdim_1_r.
      * intros [L E]. f_equal. apply shape_ext; [cbn in *; lia|].
        intro k. specialize (E k). rewrite dim_nil, bdim_1_r in E. congruence.
    + cbn [bshape]. split.
      * destruct (bdim a b) as [d|] eqn:Ed; [|discriminate].
        destruct (bshape s t) as [r|] eqn:Er; [|discriminate].
        intros [= <-]. apply IH in Er. destruct Er as [L E].
        split; [cbn; lia|]. intros [|k]; [exact Ed|apply E].
      * intros [L E]. destruct u as [|d u]; [discriminate|].
        pose proof (E 0) as E0. cbn in E0. rewrite E0.
        assert (Er : bshape s t = Some u).
        { apply IH. split; [cbn in L; lia|]. intro k; apply (E (S k)). }
        rewrite Er. reflexivity.
Qed.

(** ** Several shapes *)
Definition ndims (ss : list (list nat)) : nat := fold_right Nat.max 0 (map (@length nat) ss).

Lemma joint_nil : joint [] [].
Proof.
  split; [intros s []|]. split; [|left; reflexivity].
  intro k; left; apply dim_nil.
Qed.

Lemma joint_cons : forall a ss S T,
  joint ss S -> bshape a S = Some T -> joint (a :: ss) T.
Proof.
  intros a ss S T (J1 & J2 & J3) B. apply bshape_spec in B. destruct B as [L E].
  assert (E' : forall k, (dim a k = 1 \/ dim a k = dim T k) /\ (dim S k = 1 \/ dim S k = dim T k)
               /\ (dim T k = 1 \/ dim a k = dim T k \/ dim S k = dim T k)).
  { intro k. apply bdim_spec, E. }
  split; [|split].
  - intros s [<-|Hs].
    + split; [lia|]. intro k. apply E'.
    + destruct (J1 s Hs) as [L1 F]. split; [lia|]. intro k.
      destruct (F k) as [F1|F1]; [left; exact F1|].
      destruct (E' k) as (_ & [E2|E2] & _); [left; lia|right; congruence].
  - intro k. destruct (E' k) as (_ & _ & [E2|[E2|E2]]).
    + left; exact E2.
    + right; exists a; split; [left; reflexivity|exact E2].
    + destruct (J2 k) as [F|(s & Hs & F)].
      * left; congruence.
      * right; exists s; split; [right; exact Hs|congruence].
  - destruct (Nat.max_dec (length a) (length S)) as [M|M].
    + right; exists a; split; [left; reflexivity|lia].
    + destruct J3 as [->|(s & Hs & F)].
      * right; exists a; split; [left; reflexivity|]. cbn in *; lia.
      * right; exists s; split; [right; exact Hs|lia].
Qed.

Lemma joint_unique : forall ss S T, joint ss S -> joint ss T -> S = T.
Proof.
  assert (W : forall ss S T, joint ss S -> joint ss T -> length S <= length T /\
                forall k, dim S k = 1 \/ dim S k = dim T k).
  { intros ss S T (J1 & J2 & J3) (K1 & K2 & K3). split.
    - destruct J3 as [->|(s & Hs & F)]; [cbn; lia|]. rewrite <- F. apply (K1 s Hs).
    - intro k. destruct (J2 k) as [F|(s & Hs & F)]; [left; exact F|].
      destruct (K1 s Hs) as [_ G]. destruct (G k); [left|right]; congruence. }
  intros ss S T J K. pose proof (W _ _ _ J K) as [A B]. pose proof (W _ _ _ K J) as [A' B'].
  apply shape_ext; [lia|]. intro k. destruct (B k); destruct (B' k); congruence.
Qed.

Lemma joint_compatible : forall ss S, joint ss S -> compatible ss.
Proof.
  intros ss S (J1 & _) s t Hs Ht k A B.
  destruct (J1 s Hs) as [_ F]. destruct (J1 t Ht) as [_ G].
  destruct (F k); destruct (G k); congruence.
Qed.

Lemma bshapes_joint : forall ss S, bshapes ss = Some S -> joint ss S.
Proof.
  induction ss as [|a ss IH]; intros S E; cbn in E.
  - injection E as <-. apply joint_nil.
  - destruct (bshapes ss) as [S'|] eqn:E'; [|discriminate].
    eapply joint_cons; [apply IH; reflexivity|exact E].
Qed.

Lemma bshape_none : forall s t, bshape s t = None ->
  exists k, bdim (dim s k) (dim t k) = None.
Proof.
  induction s as [|a s IH]; intros [|b t] E; cbn in E; try discriminate.
  destruct (bdim a b) as [d|] eqn:Ed.
  - destruct (bshape s t) as [r|] eqn:Er; [discriminate|].
    destruct (IH t Er) as [k Hk]. exists (S k). exact Hk.
  - exists 0. exact Ed.
Qed.

Lemma bdim_none : forall a b, bdim a b = None -> a <> 1 /\ b <> 1 /\ a <> b.
Proof.
  intros a b. unfold bdim.
  destruct (Nat.eqb_spec a b); [discriminate|].
  destruct (Nat.eqb_spec a 1); [discriminate|].
  destruct (Nat.eqb_spec b 1); [discriminate|]. auto.
Qed.

Lemma bshapes_none : forall ss, bshapes ss = None -> ~ compatible ss.
Proof.
  induction ss as [|a ss IH]; cbn; intros E; [discriminate|].
  destruct (bshapes ss) as [S|] eqn:E'.
  - destruct (bshape_none _ _ E) as [k Hk]. apply bdim_none in Hk. destruct Hk as (A & B & N).
    apply bshapes_joint in E'. destruct E' as (_ & J2 & _).
    destruct (J2 k) as [F|(s & Hs & F)]; [contradiction|].
    intro Cm. apply N. rewrite <- F. apply Cm; [left; reflexivity|right; exact Hs|exact A|congruence].
  - intro Cm. apply (IH eq_refl). intros s t Hs Ht. apply Cm; right; assumption.
Qed.

Lemma bshapes_spec : forall ss S, bshapes ss = Some S <-> joint ss S.
Proof.
  intros ss S. split; [apply bshapes_joint|]. intro J.
  destruct (bshapes ss) as [T|] eqn:E.
  - f_equal. eapply joint_unique; [apply bshapes_joint, E|exact J].
  - destruct (bshapes_none _ E). eapply joint_compatible, J.
Qed.

Lemma compatible_joint : forall ss, compatible ss <-> exists S, joint ss S.
Proof.
  intro ss. split.
  - intro Cm. destruct (bshapes ss) as [S|] eqn:E.
    + exists S. apply bshapes_joint, E.
    + destruct (bshapes_none _ E Cm).
  - intros [S J]. eapply joint_compatible, J.
Qed.

(** the joint shape only depends on which shapes occur *)
Lemma joint_incl : forall ss ts S, incl ss ts -> incl ts ss -> joint ss S -> joint ts S.
Proof.
  intros ss ts S I I' (J1 & J2 & J3). split; [|split].
  - intros s Hs. apply J1, I', Hs.
  - intro k. destruct (J2 k) as [F|(s & Hs & F)]; [left; exact F|right; exists s; auto].
  - destruct J3 as [F|(s & Hs & F)]; [left; exact F|right; exists s; auto].
Qed.
Lemma bshapes_incl : forall ss ts, incl ss ts -> incl ts ss -> bshapes ss = bshapes ts.
Proof.
  intros ss ts I I'.
  destruct (bshapes ss) as [S|] eqn:E; destruct (bshapes ts) as [T|] eqn:E'; try reflexivity.
  - f_equal. apply bshapes_joint in E, E'. eapply joint_unique; [|exact E'].
    eapply joint_incl; eauto.
  - apply bshapes_joint in E. apply (joint_incl _ _ _ I I') in E. apply bshapes_spec in E. congruence.
  - apply bshapes_joint in E'. apply (joint_incl _ _ _ I' I) in E'. apply bshapes_spec in E'. congruence.
Qed.

Lemma joint_app : forall ss ts S T U, joint ss S -> joint ts T ->
  (bshape S T = Some U <-> joint (ss ++ ts) U).
Proof.
  assert (W : forall ss ts S T U, joint ss S -> joint ts T -> bshape S T = Some U -> joint (ss ++ ts) U).
  { induction ss as [|a ss IH]; intros ts S T U J K B.
    - assert (S = []) by (eapply joint_unique; [exact J|apply joint_nil]). subst S.
      cbn in B. injection B as <-. exact K.
    - apply bshapes_spec in J. cbn in J. destruct (bshapes ss) as [S'|] eqn:E; [|discriminate].
      apply bshapes_joint in E.
      assert (exists U', bshape S' T = Some U').
      { destruct (bshape S' T) as [U'|] eqn:B'; [exists U'; reflexivity|].
        destruct (bshape_none _ _ B') as [k Hk]. apply bdim_none in Hk. destruct Hk as (A1 & A2 & A3).
        apply bshape_spec in B. destruct B as [_ B]. specialize (B k).
        apply bshape_spec in J. destruct J as [_ J]. specialize (J k).
        apply bdim_spec in B, J. lia. }
      destruct H as [U' B'].
      pose proof (IH ts S' T U' E K B') as JU. cbn [app].
      eapply joint_cons; [exact JU|].
      apply bshape_spec. apply bshape_spec in B, J, B'.
      destruct B as [L1 B], J as [L2 J], B' as [L3 B']. split; [lia|].
      intro k. specialize (B k). specialize (J k). specialize (B' k).
      clear - B J B'. eapply bdim_assoc; eassumption. }
  intros ss ts S T U J K. split; [apply W; assumption|].
  intro JU. destruct (bshape S T) as [V|] eqn:B.
  - f_equal. apply (joint_unique (ss ++ ts)); [exact (W ss ts S T V J K B)|exact JU].
  - destruct (bshape_none _ _ B) as [k Hk]. apply bdim_none in Hk. destruct Hk as (A1 & A2 & A3).
    destruct J as (_ & J2 & _). destruct K as (_ & K2 & _). destruct JU as (U1 & _).
    destruct (J2 k) as [F|(s & Hs & F)]; [contradiction|].
    destruct (K2 k) as [G|(t & Ht & G)]; [contradiction|].
    destruct (U1 s (in_or_app _ _ _ (or_introl Hs))) as [_ H1].
    destruct (U1 t (in_or_app _ _ _ (or_intror Ht))) as [_ H2].
    destruct (H1 k); destruct (H2 k); congruence.
Qed.

(** ** Indices *)
Lemma bidx_spec : forall s i,
  bidx s i = map (fun k => if Nat.eqb (dim s k) 1 then 0 else nth k i 0) (seq 0 (length s)).
Proof.
  induction s as [|d s IH]; intro i; [reflexivity|].
  cbn [bidx length seq map]. f_equal.
  - change (dim (d :: s) 0) with d. destruct (Nat.eqb d 1); [reflexivity|].
    destruct i; reflexivity.
  - rewrite IH, <- seq_shift, map_map. apply map_ext. intro k.
    change (dim (d :: s) (S k)) with (dim s k).
    destruct (Nat.eqb (dim s k) 1); [reflexivity|].
    destruct i; [destruct k; reflexivity|reflexivity].
Qed.
Lemma entry_bidx : forall A (a : arr A) i, entry a i = at_ a (bidx (shp a) i).
Proof. intros. unfold entry. rewrite bidx_spec. reflexivity. Qed.

Lemma fits_cons : forall d s e S, fits (d :: s) (e :: S) <-> (d = 1 \/ d = e) /\ fits s S.
Proof.
  intros. unfold fits. cbn [length]. split.
  - intros [L F]. split; [apply (F 0)|]. split; [lia|]. intro k; apply (F (Datatypes.S k)).
  - intros [E [L F]]. split; [lia|]. intros [|k]; [exact E|apply F].
Qed.
Lemma bidx_fits : forall s S i, fits s S -> bidx s (bidx S i) = bidx s i.
Proof.
  induction s as [|d s IH]; intros S i F; [reflexivity|].
  destruct S as [|e S]; [destruct F as [L _]; cbn in L; lia|].
  apply fits_cons in F. destruct F as [E F]. cbn [bidx hd tl]. f_equal.
  - destruct (Nat.eqb_spec d 1); [reflexivity|].
    destruct (Nat.eqb_spec e 1); [lia|reflexivity].
  - apply IH, F.
Qed.
Lemma bidx_index : forall S i, index_of S i -> bidx S i = i.
Proof.
  induction S as [|d S IH]; intros i [L B].
  - destruct i; [reflexivity|discriminate].
  - destruct i as [|j i]; [discriminate|]. cbn [bidx hd tl]. f_equal.
    + pose proof (B 0 ltac:(cbn; lia)) as B0. cbn in B0.
      destruct (Nat.eqb_spec d 1); lia.
    + apply IH. split; [cbn in L; lia|]. intros k Hk. apply (B (Datatypes.S k)). cbn; lia.
Qed.
Lemma bidx_length : forall s i, length (bidx s i) = length s.
Proof. induction s; intro i; cbn; [reflexivity|]. f_equal. apply IHs. Qed.
Lemma bidx_app : forall s t i j, length i = length s ->
  bidx (s ++ t) (i ++ j) = bidx s i ++ bidx t j.
Proof.
  induction s as [|d s IH]; intros t [|x i] j L; cbn in L; try discriminate; [reflexivity|].
  cbn [app bidx hd tl]. f_equal. apply IH. lia.
Qed.

(** the index an operand that fits into [S] is read at is one of its indices *)
Lemma bidx_in : forall s S i, fits s S -> index_of S i -> index_of s (bidx s i).
Proof.
  induction s as [|d s IH]; intros S i F [L B]; [split; [reflexivity|cbn; lia]|].
  destruct S as [|e S]; [destruct F as [L' _]; cbn in L'; lia|].
  destruct i as [|j i]; [discriminate|].
  apply fits_cons in F. destruct F as [E F]. cbn [bidx hd tl].
  destruct (IH S i F) as [L1 B1].
  { split; [cbn in L; lia|]. intros k Hk. apply (B (1 + k)). cbn; lia. }
  split; [cbn; lia|]. intros [|k] Hk; cbn [nth].
  - pose proof (B 0 ltac:(cbn; lia)) as B0. cbn in B0. destruct (Nat.eqb_spec d 1); lia.
  - apply B1. cbn in Hk; lia.
Qed.

Lemma entry_self : forall A (a : arr A) i, index_of (shp a) i -> entry a i = at_ a i.
Proof. intros. rewrite entry_bidx, bidx_index; auto. Qed.

(** ** Elementwise computations *)

(** [r] is an elementwise computation on operands of shapes [ss]: it fails with
    a ValueError if they are incompatible, and otherwise returns an array of
    their joint shape whose entries are [g] *)
Definition vec {A} (ss : list (list nat)) (g : list nat -> A) (r : res (arr A)) : Prop :=
  match bshapes ss with
  | None => exists m, r = Raise (ValueError m)
  | Some sh => exists a, r = Ok a /\ shp a = sh /\ forall i, entry a i = g i
  end.

Lemma vec_arr : forall A (a : arr A), vec [shp a] (entry a) (Ok a).
Proof.
  intros. unfold vec. cbn. destruct (shp a) eqn:E; exists a; repeat split; assumption.
Qed.

Lemma vec_incl : forall A ss ts (g : list nat -> A) r,
  incl ss ts -> incl ts ss -> vec ss g r -> vec ts g r.
Proof. intros A ss ts g r I I' V. unfold vec in *. rewrite <- (bshapes_incl ss ts I I'). exact V. Qed.

Lemma vec_ext : forall A ss (g h : list nat -> A) r, (forall i, g i = h i) -> vec ss g r -> vec ss h r.
Proof.
  intros A ss g h r E V. unfold vec in *. destruct (bshapes ss); [|exact V].
  destruct V as (a & V1 & V2 & V3). exists a. repeat split; auto. intro i; rewrite V3; apply E.
Qed.

Lemma vec_amap : forall A B (f : A -> B) ss g r,
  vec ss g r -> vec ss (fun i => f (g i)) (let! a := r in Ok (amap f a)).
Proof.
  intros A B f ss g r V. unfold vec in *. destruct (bshapes ss).
  - destruct V as (a & -> & V2 & V3). cbn. exists (amap f a). repeat split; [exact V2|].
    intro i. rewrite <- V3. rewrite !entry_bidx. reflexivity.
  - destruct V as [m ->]. exists m. reflexivity.
Qed.

Lemma fits_bshape : forall s t u, bshape s t = Some u -> fits s u /\ fits t u.
Proof.
  intros s t u B. apply bshape_spec in B. destruct B as [L E].
  split; (split; [lia|]); intro k; specialize (E k); apply bdim_spec in E; lia.
Qed.

Lemma entry_amap2 : forall A B D (f : A -> B -> D) a b c i,
  amap2 f a b = Ok c -> entry c i = f (entry a i) (entry b i).
Proof.
  intros A B D f a b c i E. unfold amap2 in E.
  destruct (bshape (shp a) (shp b)) as [s|] eqn:Es; [|discriminate].
  injection E as <-. rewrite !entry_bidx. cbn [shp at_].
  destruct (fits_bshape _ _ _ Es). rewrite !bidx_fits by assumption. reflexivity.
Qed.

Lemma vec_amap2' : forall A B D (f : A -> B -> D) ss ts g h r1 r2,
  vec ss g r1 -> vec ts h r2 ->
  vec (ss ++ ts) (fun i => f (g i) (h i)) (let! a := r1 in let! b := r2 in amap2 f a b).
Proof.
  intros A B D f ss ts g h r1 r2 V W. unfold vec in *.
  destruct (bshapes ss) as [Sh|] eqn:ES.
  - destruct V as (a & -> & V2 & V3). cbn.
    destruct (bshapes ts) as [T|] eqn:ET.
    + destruct W as (b & -> & W2 & W3). cbn.
      apply bshapes_joint in ES, ET.
      destruct (bshapes (ss ++ ts)) as [U|] eqn:EU.
      * apply bshapes_joint in EU. apply (joint_app _ _ _ _ _ ES ET) in EU.
        unfold amap2. rewrite V2, W2, EU. eexists. split; [reflexivity|]. split; [reflexivity|].
        intro i. rewrite <- V3, <- W3.
        eapply entry_amap2. unfold amap2. rewrite V2, W2, EU. reflexivity.
      * unfold amap2. rewrite V2, W2. destruct (bshape Sh T) as [U|] eqn:BS.
        -- apply (joint_app _ _ _ _ _ ES ET) in BS. apply bshapes_spec in BS. congruence.
        -- eexists; reflexivity.
    + destruct W as [m ->]. cbn.
      destruct (bshapes (ss ++ ts)) as [U|] eqn:EU; [|exists m; reflexivity].
      exfalso. apply (bshapes_none _ ET). apply bshapes_joint, joint_compatible in EU.
      intros s t Hs Ht. apply EU; apply in_or_app; right; assumption.
  - destruct V as [m ->]. cbn.
    destruct (bshapes (ss ++ ts)) as [U|] eqn:EU; [|exists m; reflexivity].
    exfalso. apply (bshapes_none _ ES). apply bshapes_joint, joint_compatible in EU.
    intros s t Hs Ht. apply EU; apply in_or_app; left; assumption.
Qed.

(** what [vec] says in the terms of the specification *)
Lemma vec_use : forall A ss (g : list nat -> A) r, vec ss g r ->
  ((exists a, r = Ok a) <-> compatible ss) /\
  (forall e, r = Raise e -> exists m, e = ValueError m) /\
  (forall a, r = Ok a -> joint ss (shp a) /\ forall i, index_of (shp a) i -> at_ a i = g i).
Proof.
  intros A ss g r V. unfold vec in V. destruct (bshapes ss) as [Sh|] eqn:E.
  - destruct V as (a & -> & V2 & V3). apply bshapes_joint in E. split; [|split].
    + split; [intros _; eapply joint_compatible, E|intros _; eexists; reflexivity].
    + discriminate.
    + intros b [= <-]. rewrite V2. split; [exact E|].
      intros i Hi. rewrite <- V3. symmetry. apply entry_self. rewrite V2. exact Hi.
  - destruct V as [m ->]. split; [|split].
    + split; [intros [a Ha]; discriminate|intro Cm; destruct (bshapes_none _ E Cm)].
    + intros e [= <-]. exists m; reflexivity.
    + discriminate.
Qed.

(** results computed from arrays read at [entry] *)
Lemma entry_scalar : forall A (x : A) i, entry (scalar x) i = x.
Proof. reflexivity. Qed.
Lemma entry_entry : forall A (a : arr A) S i, fits (shp a) S -> entry a (bidx S i) = entry a i.
Proof. intros. rewrite !entry_bidx, bidx_fits by assumption. reflexivity. Qed.
