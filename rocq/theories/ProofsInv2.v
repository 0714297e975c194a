(** * The root-finding inverses: soundness, completeness, layout for any coefficients *)
From Coq Require Import String Reals Lra Lia ZArith List Bool Permutation Sorted.
From Coquelicot Require Import Rcomplements Complex.
From Verif Require Import Num NumLemmas ModelBase ModelSample ModelTip NArr SpecArr NArrLemmas ModelObj
  ModelArr ModelArrTip ModelInv SpecPoly SpecInv FTA ArrSample ProofsArr ProofsArr2 ProofsArrTip InvLemmas ProofsInv.
Import ListNotations.
Open Scope nat_scope.

(** ** Multiplicities *)
Definition add_head (a : C) (v : list C) : list C := match v with [] => [a] | h :: t => (a + h)%C :: t end.
Fixpoint mul_lin (r : C) (u : list C) : list C :=
  match u with [] => [] | a :: u' => (- r * a)%C :: add_head a (mul_lin r u') end.
Lemma peval_add_head : forall a v x, peval (add_head a v) x = (a + peval v x)%C.
Proof. intros a [|h t] x; cbn [add_head peval]; ring. Qed.
Lemma peval_mul_lin : forall r u x, peval (mul_lin r u) x = ((x - r) * peval u x)%C.
Proof. induction u; intro x; cbn [mul_lin peval]; [ring|]. rewrite peval_add_head, IHu. ring. Qed.
Lemma prod_poly : forall l rs, exists u, forall x, peval u x = (l * prod_minus rs x)%C.
Proof.
  intros l. induction rs as [|r rs (u & IH)].
  - exists [l]. intro x. cbn [peval prod_minus]. ring.
  - exists (mul_lin r u). intro x. rewrite peval_mul_lin, IH. cbn [prod_minus]. ring.
Qed.
Lemma vanishes : forall a q b d, 1 <= d -> (forall x, x <> b -> peval a x = (Cpown (x - b)%C d * peval q x)%C) ->
  peval a b = RtoC 0.
Proof.
  intros a q b d Hd H. destruct (Ceq_dec (peval a b) (RtoC 0)) as [E|E]; [exact E|exfalso].
  pose proof (proj1 (Cmod_gt_0 _) E) as HE.
  destruct (peval_lip a (Cmod b + 1)) as (K & HK & HL). { pose proof (Cmod_ge_0 b). lra. }
  destruct (peval_bound q (Cmod b + 1)) as (B & HB & Hb). { pose proof (Cmod_ge_0 b). lra. }
  set (e := Rmin 1 (Cmod (peval a b) / (2 * (B + K + 1)))).
  assert (He1 : (e <= 1)%R) by apply Rmin_l.
  assert (He2 : (e <= Cmod (peval a b) / (2 * (B + K + 1)))%R) by apply Rmin_r.
  assert (He0 : (0 < e)%R). { unfold e. apply Rmin_pos; [lra|]. apply Rdiv_lt_0_compat; lra. }
  assert (He3 : (e * (B + K) <= Cmod (peval a b) / 2)%R).
  { apply (Rmult_le_compat_r (B + K + 1)) in He2; [|lra].
    replace (Cmod (peval a b) / (2 * (B + K + 1)) * (B + K + 1))%R with (Cmod (peval a b) / 2)%R in He2 by (field; lra).
    nra. }
  set (x := (b + RtoC e)%C).
  assert (Hxb : (x - b)%C = RtoC e) by (unfold x; ring).
  assert (Hx : x <> b). { intros Hx. rewrite Hx in Hxb. replace (b - b)%C with (RtoC 0) in Hxb by ring. apply RtoC_inj in Hxb. lra. }
  assert (Hxm : (Cmod x <= Cmod b + 1)%R).
  { unfold x. eapply Rle_trans; [apply Cmod_triangle|]. rewrite Cmod_R, Rabs_pos_eq by lra. lra. }
  assert (HA : (Cmod (peval a x) <= e * B)%R).
  { rewrite (H x Hx), Cmod_mult, Cmod_Cpown, Hxb, Cmod_R, Rabs_pos_eq by lra.
    specialize (Hb x Hxm). pose proof (Cmod_ge_0 (peval q x)).
    assert (Hpow : (0 <= e ^ d <= e)%R).
    { destruct d; [lia|]. cbn [pow]. pose proof (pow_le e d (Rlt_le _ _ He0)).
      assert (e ^ d <= 1)%R by (rewrite <- (pow1 d); apply pow_incr; lra). nra. }
    nra. }
  pose proof (HL b x ltac:(lra) Hxm) as HLx.
  replace (b - x)%C with (- (x - b))%C in HLx by ring.
  rewrite Cmod_opp, Hxb, Cmod_R, Rabs_pos_eq in HLx by lra.
  pose proof (Cmod_triangle (peval a b - peval a x)%C (peval a x)) as HT.
  replace (peval a b - peval a x + peval a x)%C with (peval a b) in HT by ring. nra.
Qed.
Lemma same_order : forall a q b m n, peval a b <> RtoC 0 ->
  (forall x, (Cpown (x - b)%C m * peval a x = Cpown (x - b)%C n * peval q x)%C) -> n <= m.
Proof.
  intros a q b m n Ha H. destruct (Nat.le_gt_cases n m) as [|L]; [assumption|exfalso]. apply Ha.
  apply (vanishes a q b (n - m)); [lia|]. intros x Hx.
  assert (Hn : Cpown (x - b)%C m <> RtoC 0) by (apply Cpown_neq_0; intro E; apply Hx, Csub_eq0, E).
  specialize (H x). replace n with (m + (n - m)) in H by lia. rewrite Cpown_add in H.
  transitivity (Cpown (x - b)%C m * peval a x / Cpown (x - b)%C m)%C; [field; exact Hn|]. rewrite H. field. exact Hn.
Qed.
Lemma prod_split : forall b rs x, prod_minus rs x
  = (Cpown (x - b)%C (count_occ Ceq_dec rs b) * prod_minus (filter (fun r => if Ceq_dec r b then false else true) rs) x)%C.
Proof.
  induction rs as [|r rs IH]; intro x; cbn [count_occ filter prod_minus]; [cbn [Cpown]; ring|].
  destruct (Ceq_dec r b) as [->|n]; cbn [prod_minus Cpown]; rewrite IH; ring.
Qed.
Lemma multiplicity_count : forall P lead rs b m, lead <> RtoC 0 -> (forall x, P x = (lead * prod_minus rs x)%C) ->
  multiplicity P b m -> count_occ Ceq_dec rs b = m.
Proof.
  intros P lead rs b m Hl HP (q & Hq & Hqb).
  set (rs' := filter (fun r => if Ceq_dec r b then false else true) rs).
  destruct (prod_poly lead rs') as (u & Hu).
  assert (Hub : peval u b <> RtoC 0).
  { rewrite Hu. apply Cmult_neq_0; [exact Hl|]. rewrite prod_minus_0. unfold rs'. rewrite filter_In.
    intros [_ H]. destruct (Ceq_dec b b); [discriminate|congruence]. }
  assert (H : forall x, (Cpown (x - b)%C (count_occ Ceq_dec rs b) * peval u x = Cpown (x - b)%C m * peval q x)%C).
  { intro x. rewrite <- Hq, HP, Hu, (prod_split b rs x). fold rs'. ring. }
  apply Nat.le_antisymm.
  - apply (same_order q u b m _ Hqb). intro x. symmetry. apply H.
  - apply (same_order u q b _ m Hub). exact H.
Qed.
Lemma occurrences_filter : forall t ri ra env rs b, admissible t ri ra env b ->
  occurrences (filter (adm t ri ra env) (map Some rs)) b = count_occ Ceq_dec rs b.
Proof.
  intros t ri ra env rs b Hb. unfold occurrences. induction rs as [|r rs IH]; [reflexivity|].
  cbn [map filter count_occ]. destruct (Ceq_dec r b) as [->|n].
  - rewrite (proj2 (adm_spec t ri ra env (Some b)) (ex_intro _ b (conj eq_refl Hb))).
    cbn [count_occ]. destruct (CV_eq_dec (Some b) (Some b)); [|congruence]. rewrite IH. reflexivity.
  - destruct (adm t ri ra env (Some r)); [|exact IH]. cbn [count_occ].
    destruct (CV_eq_dec (Some r) (Some b)) as [E|_]; [congruence|exact IH].
Qed.
Lemma occurrences_perm : forall l m b, Permutation l m -> occurrences l b = occurrences m b.
Proof. intros l m b H. unfold occurrences. apply (Permutation_count_occ CV_eq_dec). exact H. Qed.

(** ** Any coefficients *)
Definition inversion eig sb sr (OFF : res (arr CV)) t ri ra env : res (arr CV * arr bool) :=
  let! o := OFF in let! X := apply_along_axis0 None (polyroots eig) o in select_roots sb sr t ri ra env X.
Definition offset_col (coef : nat -> CV) (alpha : CV) (nt : nat) : list CV :=
  map (fun j => if Nat.eqb j 0 then (coef j - alpha)%cv else coef j) (seq 0 nt).
Definition off_spec (ss : list (list nat)) (coef : list nat -> nat -> CV) (alpha : list nat -> CV) (nt : nat)
    (OFF : res (arr CV)) : Prop :=
  match bshapes ss with
  | None => exists m, OFF = Raise (ValueError m)
  | Some s => exists a, OFF = Ok a /\ shp a = s ++ [nt] /\
      forall i, index_of s i -> column a i = offset_col (coef i) (alpha i) nt
  end.

Lemma offset_col_finite : forall coef alpha nt l, offset_col coef alpha nt = map Some l -> l <> [] ->
  exists c al, length c = nt /\ alpha = Some al /\ (forall j, j < nt -> coef j = Some (nth j c (RtoC 0))) /\
    forall x, peval l x = (peval c x - al)%C.
Proof.
  intros coef alpha nt l H Hl. unfold offset_col in H. destruct nt as [|nt]; [destruct l; [congruence|discriminate]|].
  cbn [seq map Nat.eqb] in H. destruct l as [|l0 l]; [congruence|]. cbn [map] in H.
  assert (H0 : (coef 0 - alpha)%cv = Some l0) by congruence.
  assert (H1 : map (fun j => if Nat.eqb j 0 then (coef j - alpha)%cv else coef j) (seq 1 nt) = map Some l) by congruence.
  destruct (coef 0) as [c0|] eqn:E0; [|discriminate]. destruct alpha as [al|]; [|discriminate].
  cbn in H0. injection H0 as H0. exists (c0 :: l), al.
  assert (L : length l = nt) by (rewrite <- (map_length (@Some C)), <- H1, map_length, seq_length; reflexivity).
  split; [cbn; lia|]. split; [reflexivity|]. split.
  - intros [|j] Hj; [exact E0|]. cbn [nth].
    assert (H2 : nth j (map (fun j => if Nat.eqb j 0 then (coef j - Some al)%cv else coef j) (seq 1 nt)) None = coef (S j)).
    { rewrite (nth_indep _ None (coef 1)) by (rewrite map_length, seq_length; lia).
      change (coef 1) with ((fun j => if Nat.eqb j 0 then (coef j - Some al)%cv else coef j) 1).
      rewrite map_nth, seq_nth by lia. reflexivity. }
    rewrite H1 in H2. rewrite <- H2. rewrite (nth_indep _ None (Some (RtoC 0))) by (rewrite map_length; lia).
    apply map_nth.
  - intro x. cbn [peval]. rewrite <- H0. ring.
Qed.
Lemma offset_col_ok : forall coef al c, c <> [] -> (forall j, j < length c -> coef j = Some (nth j c (RtoC 0))) ->
  exists l, offset_col coef (Some al) (length c) = map Some l /\ (forall x, peval l x = (peval c x - al)%C) /\
    forall d, 1 <= d -> degree c d -> degree l d.
Proof.
  intros coef al c Hc H. destruct c as [|c0 c]; [congruence|]. exists ((c0 - al)%C :: c). split; [|split].
  - unfold offset_col. cbn [length seq map Nat.eqb]. rewrite (H 0) by (cbn; lia). cbn [nth csub olift2]. f_equal.
    rewrite <- (map_nth_self _ None (map Some c)), map_length, <- seq_shift, map_map.
    apply map_ext_in. intros j Hj. apply in_seq in Hj. cbn [Nat.eqb]. rewrite (H (S j)) by (cbn; lia). cbn [nth].
    rewrite (nth_indep _ None (Some (RtoC 0))) by (rewrite map_length; lia). symmetry. apply map_nth.
  - intro x. cbn [peval]. ring.
  - intros d Hd [H1 H2]. split.
    + destruct d; [lia|]. exact H1.
    + intros k Hk. destruct k; [lia|]. apply (H2 (S k)). lia.
Qed.

Section Generic.
Variables (eig : list C -> list C) (sb : list bool -> list nat) (sr : list RV -> list nat).
Hypothesis LIB : library eig sb sr.
Variables (ss : list (list nat)) (coef : list nat -> nat -> CV) (alpha : list nat -> CV) (nt : nat) (OFF : res (arr CV)).
Hypothesis HO : off_spec ss coef alpha nt OFF.
Variables (t : R) (ri ra : bool) (env : arr C).

(** everything that a normal return says *)
Lemma inversion_ok : forall r, inversion eig sb sr OFF t ri ra env = Ok r ->
  (forall s, bshapes ss = Some s -> fits (shp env) s) ->
  bshapes ss = Some (elements r) /\ shp (snd r) = shp (fst r) /\
  (exists i, index_of (elements r) i) /\
  (forall i, index_of (elements r) i -> StronglySorted nan_last (map cabs (entries r i)) /\
     exists rs X, polyroots eig (offset_col (coef i) (alpha i) nt) = Ok rs /\
       (rs = X \/ exists x k, rs = [x] /\ X = repeat x k) /\
       Permutation (unmasked r i) (filter (adm t ri ra (entry env i)) X)) /\
  (n_rows r = 0 \/ exists i, index_of (elements r) i /\ length (unmasked r i) = n_rows r).
Proof.
  intros r H HF. unfold inversion in H. unfold off_spec in HO.
  destruct (bshapes ss) as [s|] eqn:ES; [|destruct HO as (m & EO); rewrite EO in H; discriminate].
  destruct HO as (a & EO & Ea & Ca). rewrite EO in H. cbn [rbind] in H.
  destruct (apply_along_axis0 None (polyroots eig) a) as [X|] eqn:EX; [|discriminate]. cbn [rbind] in H.
  destruct (apply_along_axis0_ok _ _ _ _ _ _ _ _ Ea EX) as (k & Sx & (i0 & Hi0 & _) & Hx).
  destruct (select_roots_spec sb sr t ri ra env X s k (lib_bool _ _ _ LIB) (lib_real _ _ _ LIB) Sx (HF s eq_refl))
    as (r' & Er & El & Esh & Hc & Hr).
  assert (r' = r) by congruence. subst r'. rewrite El in *.
  split; [reflexivity|]. split; [exact Esh|]. split; [eauto|]. split; [|exact Hr].
  intros i Hi. destruct (Hc i Hi) as [HP HS]. split; [exact HS|].
  destruct (Hx i Hi) as (rs & Ers & Has). exists rs, (column X i). rewrite <- (Ca i Hi). split; [exact Ers|].
  split; [|exact HP]. destruct (assign_cases _ _ _ _ Has) as [_ [->|(x & -> & ->)]]; [left; reflexivity|right; eauto].
Qed.

Lemma inversion_sound : forall r, inversion eig sb sr OFF t ri ra env = Ok r ->
  (forall s, bshapes ss = Some s -> fits (shp env) s) ->
  forall i v, index_of (elements r) i -> In v (unmasked r i) ->
  exists b, v = Some b /\ admissible t ri ra (entry env i) b /\
    exists c al, length c = nt /\ alpha i = Some al /\ (forall j, j < nt -> coef i j = Some (nth j c (RtoC 0))) /\
      peval c b = al.
Proof.
  intros r H HF i v Hi Hv. destruct (inversion_ok r H HF) as (_ & _ & _ & HC & _).
  destruct (HC i Hi) as (_ & rs & X & Ers & HX & HP).
  apply (Permutation_in _ HP) in Hv. apply filter_In in Hv. destruct Hv as [Hin Ha].
  apply adm_spec in Ha. destruct Ha as (b & -> & Ha). exists b. split; [reflexivity|]. split; [exact Ha|].
  assert (Hin' : In (Some b) rs).
  { destruct HX as [->|(x & k & -> & ->)]; [exact Hin|]. apply repeat_spec in Hin. left. auto. }
  destruct (polyroots_sound eig _ _ b (lib_roots _ _ _ LIB) Ers Hin') as (l & El & Hl).
  destruct (offset_col_finite _ _ _ _ El) as (c & al & Lc & Eal & Hc & Hp).
  { intros ->. cbn in El. rewrite El in Ers. discriminate. }
  exists c, al. repeat split; try assumption. rewrite Hp in Hl. apply Csub_eq0, Hl.
Qed.

Lemma inversion_complete : forall s (c : list nat -> list C) (al : list nat -> C) d,
  bshapes ss = Some s -> fits (shp env) s -> (exists i, index_of s i) -> 1 <= d ->
  (forall i, index_of s i -> length (c i) = nt /\ (forall j, j < nt -> coef i j = Some (nth j (c i) (RtoC 0))) /\
     degree (c i) d /\ alpha i = Some (al i)) ->
  exists r, inversion eig sb sr OFF t ri ra env = Ok r /\ elements r = s /\
    forall i b, index_of s i -> admissible t ri ra (entry env i) b ->
      (forall m, multiplicity (fun x => (peval (c i) x - al i)%C) b m -> occurrences (unmasked r i) b = m) /\
      (peval (c i) b = al i -> In (Some b) (unmasked r i)).
Proof.
  intros s c al d ES HF HI Hd HC. pose proof HO as HO'. unfold off_spec in HO'. rewrite ES in HO'.
  destruct HO' as (a & EO & Ea & Ca).
  assert (Hroots : forall i, index_of s i -> exists rs, polyroots eig (column a i) = Ok (map Some rs) /\ length rs = d /\
     exists lead, lead <> RtoC 0 /\ forall x, (peval (c i) x - al i = lead * prod_minus rs x)%C).
  { intros i Hi. destruct (HC i Hi) as (Lc & Hc & Hdeg & Hal). rewrite (Ca i Hi), Hal, <- Lc.
    destruct (offset_col_ok (coef i) (al i) (c i)) as (l & El & Hp & Hdl).
    { intros E. destruct Hdeg as [Hdeg _]. apply Hdeg. rewrite E. destruct d; reflexivity. }
    { intros j Hj. apply Hc. lia. }
    rewrite El. destruct (polyroots_complete eig l d (lib_roots _ _ _ LIB) (Hdl d Hd Hdeg) Hd) as (rs & Ers & Lrs & lead & Hlead & Hpl).
    exists rs. split; [exact Ers|]. split; [exact Lrs|]. exists lead. split; [exact Hlead|]. intro x. rewrite <- Hp. apply Hpl. }
  destruct (apply_along_axis0_succeeds _ _ None (polyroots eig) a s nt d Ea HI) as (X & EX & Sx).
  { intros i Hi. destruct (Hroots i Hi) as (rs & Ers & Lrs & _). exists (map Some rs). split; [exact Ers|].
    rewrite map_length. exact Lrs. }
  destruct (select_roots_spec sb sr t ri ra env X s d (lib_bool _ _ _ LIB) (lib_real _ _ _ LIB) Sx HF)
    as (r & Er & El & Esh & Hcol & Hr).
  exists r. split; [unfold inversion; rewrite EO; cbn [rbind]; rewrite EX; exact Er|]. split; [exact El|].
  intros i b Hi Hb. destruct (Hcol i Hi) as [HP _].
  destruct (Hroots i Hi) as (rs & Ers & Lrs & lead & Hlead & Hpl).
  destruct (apply_along_axis0_ok _ _ _ _ _ _ _ _ Ea EX) as (k & Sx' & _ & Hx).
  destruct (Hx i Hi) as (rs' & Ers' & Has). assert (rs' = map Some rs) by congruence. subst rs'.
  assert (k = d). { rewrite Sx in Sx'. apply app_inj_tail in Sx'. symmetry. apply Sx'. } subst k.
  rewrite assign_same in Has by (rewrite map_length; exact Lrs).
  change CV with (option C) in *.
  assert (EX' : column X i = map Some rs) by congruence. rewrite EX' in HP. split.
  - intros m Hm. rewrite (occurrences_perm _ _ _ HP), occurrences_filter by exact Hb.
    exact (multiplicity_count _ _ _ _ _ Hlead Hpl Hm).
  - intro Hroot. apply (Permutation_in _ (Permutation_sym HP)). apply filter_In. split.
    + apply in_map. apply prod_minus_0. specialize (Hpl b). rewrite Hroot in Hpl.
      replace (al i - al i)%C with (RtoC 0) in Hpl by ring.
      destruct (Ceq_dec (prod_minus rs b) (RtoC 0)) as [E0|E0]; [exact E0|]. exfalso.
      exact (Cmult_neq_0 _ _ Hlead E0 (eq_sym Hpl)).
    + apply adm_spec. eauto.
Qed.
End Generic.
