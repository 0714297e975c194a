(** * Proofs: the cached quadrature rule in any session (C92) *)
From Coq Require Import String Reals Lra Lia ZArith List Bool.
From Coquelicot Require Import Complex.
From Verif Require Import Num NumLemmas ModelBase ModelSample ModelTip ModelCache Spec SpecCache ProofsPassive ProofsCache.
Import ListNotations.
Open Scope R_scope.

(** C92. With an integer of any type as the order the cache cannot be noticed: after any
    program whatsoever a call returns, or raises, what the function without cache does. *)
Lemma C92_integer_orders_proof :
  forall (rule : laggauss_t) (D : Defaults) (d : pyarg) (p : list stmt) (x : stmt) (v : pyarg) (n : Z),
  let st := exec rule p (fresh D d) in
  order_of x st = Some v -> py_index v = Some n ->
  snd (step rule x st) = uncached rule (s_defaults st) x (Z.to_nat n).
Proof.
  intros rule D d p x v n st O I. apply (step_det rule x st v O).
  apply (ask_index rule (orders rule p (fresh D d))); [apply sound_fresh|exact I].
Qed.

(** C92. With anything else as the order a call either does what it would do in a fresh session
    (a TypeError, unless the method needs no rule), or what it does for the integer
    of the same value; the latter only if that value has been used before, as a
    NumPy integer or bool. *)
Lemma C92_other_orders_proof :
  forall (rule : laggauss_t) (D : Defaults) (d : pyarg) (p : list stmt) (x : stmt) (v : pyarg),
  let st := exec rule p (fresh D d) in
  order_of x st = Some v -> py_index v = None ->
  snd (step rule x st) = snd (step rule x (fresh (s_defaults st) (s_n_lag st))) \/
  exists k : Z, (0 < k)%Z /\ number v = Some (RtoC (IZR k)) /\ In (PyIndex k) (orders rule p (fresh D d)) /\
    snd (step rule x st) = uncached rule (s_defaults st) x (Z.to_nat k).
Proof.
  intros rule D d p x v st O I. destruct (step_det rule x st v O) as (H1 & H2 & _).
  assert (S : sound rule (orders rule p (fresh D d)) (s_cache st)) by apply sound_fresh.
  assert (F : fst (cached_laggauss rule v empty_cache) = Raise TypeError).
  { unfold cached_laggauss, np_laggauss. rewrite I. destruct (make_key v); reflexivity. }
  destruct (cached_laggauss rule v (s_cache st)) as [r c] eqn:E.
  unfold cached_laggauss in E. destruct (make_key v) as [k|] eqn:K.
  - destruct (find _ _) as [e|] eqn:Fe.
    + right. apply find_key in Fe. destruct (S _ _ Fe) as (n & N1 & N2 & N3).
      assert (V : number v = Some (RtoC (IZR n)) /\ In (PyIndex n) (orders rule p (fresh D d))).
      { destruct v; cbn in I, K |- *; try discriminate; injection K as <-; destruct N3 as [[X _]|[X Y]]; try discriminate; split; congruence. }
      exists n. split; [exact N1|]. split; [apply V|]. split; [apply V|]. apply H1. rewrite (nodes_pos rule n N1).
      injection E as <- <-. cbn [fst]. now rewrite N2.
    + left. symmetry. apply (H2 empty_cache). rewrite F. unfold np_laggauss in E. rewrite I in E. now injection E as <- <-.
  - left. symmetry. apply (H2 empty_cache). rewrite F. now injection E as <- <-.
Qed.

(** ** Orders stay in the cache *)
Definition holds (c : cache) (k : key) : Prop := exists r, In (k, r) (entries c).
Lemma holds_ask rule v c k : holds c k -> holds (snd (cached_laggauss rule v c)) k.
Proof.
  intros [r H]. unfold cached_laggauss. destruct (make_key v); [|now exists r]. destruct (find _ _); [now exists r|].
  destruct (np_laggauss rule v); [|now exists r]. exists r. cbn. now right.
Qed.
Lemma holds_step rule x st k : holds (s_cache st) k -> holds (s_cache (fst (step rule x st))) k.
Proof.
  intro H. destruct (order_of x st) as [v|] eqn:O.
  - destruct (step_det rule x st v O) as (_ & _ & [E|E]); rewrite E; [exact H|now apply holds_ask].
  - now rewrite (step_other rule x st O).
Qed.
Lemma holds_exec rule p k : forall st, holds (s_cache st) k -> holds (s_cache (exec rule p st)) k.
Proof. induction p as [|x p IH]; intros st H; cbn [exec]; [exact H|]. apply IH, holds_step, H. Qed.
Lemma exec_app rule p q st : exec rule (p ++ q) st = exec rule q (exec rule p st).
Proof. revert st. induction p as [|x p IH]; intro st; cbn [app exec]; [reflexivity|apply IH]. Qed.

(** C92. Once a charge has been put over any sample with the NumPy integer [k] as the order, the
    float or complex number of the same value is accepted as the order of every
    later call, for good, with the result that [k] gives. *)
Lemma C92_float_after_numpy_proof :
  forall (rule : laggauss_t) (D : Defaults) (d : pyarg) (p q : list stmt) (s : sample) (z : R) (k : Z) (x : stmt) (v : pyarg),
  let st := exec rule (p ++ AboveSurf s z (Some (PyIndex k)) :: q) (fresh D d) in
  (0 < k)%Z -> order_of x st = Some v -> number v = Some (RtoC (IZR k)) ->
  snd (step rule x st) = uncached rule (s_defaults st) x (Z.to_nat k).
Proof.
  intros rule D d p q s z k x v st Hk O Nv. apply (step_det rule x st v O). rewrite (nodes_pos rule k Hk).
  assert (S : sound rule (orders rule (p ++ AboveSurf s z (Some (PyIndex k)) :: q) (fresh D d)) (s_cache st)) by apply sound_fresh.
  assert (K : make_key v = Some (KTuple (RtoC (IZR k)))) by (destruct v; cbn in Nv |- *; congruence).
  assert (Hh : holds (s_cache st) (KTuple (RtoC (IZR k)))).
  { unfold st. rewrite exec_app. cbn [exec]. apply holds_exec. set (st1 := exec rule p (fresh D d)).
    assert (E : s_cache (fst (step rule (AboveSurf s z (Some (PyIndex k))) st1)) = snd (cached_laggauss rule (PyIndex k) (s_cache st1))).
    { cbn [step]. unfold calling, c_refl_coef_qs_above_surf, c_sampled_beta, abind, pure. cbn [dflt].
      destruct (cached_laggauss rule (PyIndex k) (s_cache st1)) as [[nd|e] c1]; cbn; [|reflexivity].
      destruct (rbind _ _); reflexivity. }
    rewrite E. unfold cached_laggauss. cbn [make_key].
    destruct (find _ _) as [e|] eqn:F; [apply find_key in F; now exists (snd e)|].
    cbn [np_laggauss py_index]. destruct (Z.leb_spec k 0); [lia|]. exists (rule (Z.to_nat k)). cbn. now left. }
  destruct Hh as [r Hr]. unfold cached_laggauss. rewrite K.
  destruct (find _ _) as [e|] eqn:F.
  - apply find_key in F. destruct (S _ _ F) as (n & N1 & N2 & N3). cbn [fst]. rewrite N2. do 2 f_equal.
    destruct N3 as [[X _]|[X _]]; try discriminate. injection X as X. apply eq_IZR in X. congruence.
  - exfalso. pose proof (find_none _ _ F _ Hr) as Z0. cbn in Z0. destruct (Ceq_dec (RtoC (IZR k)) (RtoC (IZR k))); congruence.
Qed.

(** C92. So the same call can fail or succeed, depending on what the session did before: a float as the order
    is rejected at first, also after the [int] of the same value has been used, and
    accepted after the NumPy integer. *)
Lemma C92_history_matters_refuted_proof :
  forall (rule : laggauss_t) (D : Defaults) (d : pyarg),
  let s := stack [RtoC 1; RtoC 3] [] None in
  let go n := AboveSurf s 1 (Some n) in
  snd (step rule (go (PyFloat 4)) (fresh D d)) = Raise TypeError /\
  snd (step rule (go (PyFloat 4)) (exec rule [go (PyInt 4)] (fresh D d))) = Raise TypeError /\
  snd (step rule (go (PyFloat 4)) (exec rule [go (PyInt 4); go (PyIndex 4)] (fresh D d))) =
  snd (step rule (go (PyInt 4)) (fresh D d)) /\
  exists b, snd (step rule (go (PyInt 4)) (fresh D d)) = Ok (VC b).
Proof.
  intros rule D d s go.
  assert (T : forall c, (forall r, ~ In (KTuple (RtoC 4), r) (entries c)) -> fst (cached_laggauss rule (PyFloat 4) c) = Raise TypeError).
  { intros c H. unfold cached_laggauss. cbn [make_key]. destruct (find _ _) as [e|] eqn:F; [|reflexivity].
    apply find_key in F. now apply H in F. }
  assert (U : forall st, fst (cached_laggauss rule (PyFloat 4) (s_cache st)) = Raise TypeError -> snd (step rule (go (PyFloat 4)) st) = Raise TypeError).
  { intros st H. cbn [step go]. unfold calling, c_refl_coef_qs_above_surf, c_sampled_beta, abind. cbn [dflt].
    destruct (cached_laggauss rule (PyFloat 4) (s_cache st)) as [r c1]. cbn in H. subst r. reflexivity. }
  split; [apply U, T; intros r []|]. split.
  - apply U, T. intros r H.
    pose proof (sound_fresh rule D d [go (PyInt 4)] _ _ H) as (n & _ & _ & [[X _]|[_ X]]); [discriminate|].
    cbn in X. destruct X as [X|[]]; discriminate.
  - assert (I0 : snd (step rule (go (PyInt 4)) (fresh D d)) = uncached rule D (go (PyInt 4)) 4).
    { apply (C92_integer_orders_proof rule D d [] (go (PyInt 4)) (PyInt 4) 4); reflexivity. }
    split.
    + rewrite I0. change 4%nat with (Z.to_nat 4).
      refine (C92_float_after_numpy_proof rule D d [go (PyInt 4)] [] s 1 4 (go (PyFloat 4)) (PyFloat 4) _ _ _); [lia|reflexivity|reflexivity].
    + rewrite I0. cbn [uncached go]. unfold refl_coef_qs_above_surf, sampled_beta. cbn [dflt Nat.eqb].
      assert (N3 : RtoC 3 <> RtoC 0) by (apply RtoC_neq_0; lra).
      assert (R0 : forall q, exists b, refl_coef_qs s q = Ok b).
      { intro q. unfold refl_coef_qs, transfer_matrix_qs. cbn. eexists; reflexivity. }
      destruct (R0 (rr 1)) as [b0 E0]. rewrite E0. cbn [rbind].
      assert (M : forall l, exists bs, mapM (fun xw : R * R => let! b := refl_coef_qs s (rr (fst xw) / (rr 2 * rr 1))%rv in Ok (fst xw, snd xw, b)) l = Ok bs).
      { induction l as [|xw l [bs IH]]; [now exists []|]. cbn [mapM]. destruct (R0 (rr (fst xw) / (rr 2 * rr 1))%rv) as [b Eb].
        rewrite Eb. cbn [rbind]. rewrite IH. cbn [rbind]. eexists; reflexivity. }
      destruct (M (rule 4%nat)) as [bs Ebs]. rewrite Ebs. cbn [rbind]. eexists; reflexivity.
Qed.

(** C92. A call with an unusable order leaves the cache as it was. *)
Lemma C92_rejected_orders_proof :
  forall (rule : laggauss_t) (st : session) (x : stmt) (v : pyarg),
  order_of x st = Some v -> (forall n, py_index v = Some n -> (n <= 0)%Z) ->
  s_cache (fst (step rule x st)) = s_cache st.
Proof.
  intros rule st x v O H. destruct (step_det rule x st v O) as (_ & _ & [E|E]); [exact E|]. rewrite E.
  unfold cached_laggauss. destruct (make_key v); [|reflexivity]. destruct (find _ _); [reflexivity|].
  unfold np_laggauss. destruct (py_index v) as [n|]; [|reflexivity]. specialize (H n eq_refl). destruct (Z.leb_spec n 0); [reflexivity|lia].
Qed.

(** ** How often the rule is computed *)
Definition tally (c : cache) : Prop :=
  exists l : list key, NoDup l /\ map fst (entries c) = l /\
    computed c = map (fun k => match k with KInt n => n | KTuple z => Int_part (Re z) end) l /\
    Forall (fun k => match k with KInt _ => True | KTuple z => exists n : Z, z = RtoC (IZR n) end) l.
Lemma Int_part_IZR n : Int_part (IZR n) = n.
Proof.
  destruct (base_Int_part (IZR n)) as [A B]. apply le_IZR in A.
  assert (X : IZR (n - 1) < IZR (Int_part (IZR n))) by (rewrite minus_IZR; lra). apply lt_IZR in X. lia.
Qed.
Lemma tally_ask rule v c : tally c -> tally (snd (cached_laggauss rule v c)).
Proof.
  intros (l & ND & E & C & W). unfold cached_laggauss. destruct (make_key v) as [k|] eqn:K; [|now exists l].
  destruct (find _ _) as [e|] eqn:F; [now exists l|]. unfold np_laggauss.
  destruct (py_index v) as [n|] eqn:I; [|now exists l]. destruct (Z.leb_spec n 0); [now exists l|]. cbn [snd].
  exists (k :: l). split; [|split; [|split]].
  - constructor; [|exact ND]. rewrite <- E. intro H1. apply in_map_iff in H1. destruct H1 as (e & E1 & E2).
    pose proof (find_none _ _ F _ E2) as Z0. cbn in Z0. rewrite E1 in Z0. now rewrite key_eq_refl in Z0.
  - cbn. now rewrite E.
  - cbn. rewrite C. f_equal. destruct v; cbn in I, K; try discriminate; injection I as ->; injection K as <-; [reflexivity|].
    unfold RtoC, Re. cbn [fst]. now rewrite Int_part_IZR.
  - constructor; [|exact W]. destruct v; cbn in I, K; try discriminate; injection I as ->; injection K as <-; [exact Logic.I|now exists n].
Qed.
Lemma tally_exec rule p : forall st, tally (s_cache st) -> tally (s_cache (exec rule p st)).
Proof.
  induction p as [|x p IH]; intros st T; cbn [exec]; [exact T|]. apply IH. destruct (order_of x st) as [v|] eqn:O.
  - destruct (step_det rule x st v O) as (_ & _ & [E|E]); rewrite E; [exact T|now apply tally_ask].
  - now rewrite (step_other rule x st O).
Qed.
Lemma tally_count (n : Z) (l : list key) :
  NoDup l -> Forall (fun k => match k with KInt _ => True | KTuple z => exists m : Z, z = RtoC (IZR m) end) l ->
  (count_occ Z.eq_dec (map (fun k => match k with KInt a => a | KTuple z => Int_part (Re z) end) l) n
   <= (if existsb (key_eq (KInt n)) l then 1 else 0) + (if existsb (key_eq (KTuple (RtoC (IZR n)))) l then 1 else 0))%nat.
Proof.
  induction l as [|k l IH]; intros ND W; [cbn; lia|].
  inversion ND as [|? ? Hk ND']. inversion W as [|? ? Wk W']. subst. specialize (IH ND' W'). cbn [map count_occ].
  assert (NE : forall k', existsb (key_eq k') l = true -> k <> k').
  { intros k' H E. subst k'. apply existsb_exists in H. destruct H as (y & Y1 & Y2). apply key_eq_spec in Y2. subst y. contradiction. }
  destruct k as [a|z].
  - cbn [existsb key_eq]. destruct (Z.eq_dec a n) as [->|Ha].
    + rewrite Z.eqb_refl. cbn [orb]. destruct (existsb (key_eq (KInt n)) l) eqn:X; [|lia]. now apply NE in X.
    + destruct (Z.eqb_spec n a); [congruence|]. cbn [orb]. exact IH.
  - destruct Wk as [m ->]. change (Re (RtoC (IZR m))) with (IZR m). rewrite (Int_part_IZR m). cbn [existsb key_eq].
    destruct (Z.eq_dec m n) as [->|Hm].
    + destruct (Ceq_dec (RtoC (IZR n)) (RtoC (IZR n))); [|congruence]. cbn [orb].
      destruct (existsb (key_eq (KTuple (RtoC (IZR n)))) l) eqn:X; [|lia]. now apply NE in X.
    + destruct (Ceq_dec (RtoC (IZR n)) (RtoC (IZR m))) as [E|_]; [injection E as E; apply eq_IZR in E; congruence|]. cbn [orb]. exact IH.
Qed.

(** C92. In a whole session NumPy's function is run at most twice for each order, and at most
    once if the order is always given as an [int]. *)
Lemma C92_computed_once_proof :
  forall (rule : laggauss_t) (D : Defaults) (d : pyarg) (p : list stmt) (n : Z),
  let times := count_occ Z.eq_dec (computed (s_cache (exec rule p (fresh D d)))) n in
  (times <= 2)%nat /\ (~ In (PyIndex n) (orders rule p (fresh D d)) -> (times <= 1)%nat).
Proof.
  intros rule D d p n times.
  assert (T : tally (s_cache (exec rule p (fresh D d)))).
  { apply tally_exec. exists []. split; [constructor|]. split; [reflexivity|]. split; [reflexivity|constructor]. }
  pose proof (sound_fresh rule D d p) as S.
  destruct T as (l & ND & E & C & W). pose proof (tally_count n l ND W) as T. unfold times. rewrite C.
  split.
  - destruct (existsb _ l), (existsb _ l); lia.
  - intro H. destruct (existsb (key_eq (KTuple (RtoC (IZR n)))) l) eqn:X; [|destruct (existsb (key_eq (KInt n)) l); cbn in T; lia].
    exfalso. apply existsb_exists in X. destruct X as (y & Y1 & Y2). apply key_eq_spec in Y2. subst y.
    rewrite <- E in Y1. apply in_map_iff in Y1. destruct Y1 as ([k r] & K1 & K2). cbn in K1. subst k.
    destruct (S _ _ K2) as (m & _ & _ & [[Z0 _]|[Z0 Z1]]); [discriminate|]. injection Z0 as Z0. apply eq_IZR in Z0. subst m. contradiction.
Qed.

Lemma abind_pure {A B} (m : act A) (f : A -> res B) c : snd (abind m (fun a => pure (f a)) c) = snd (m c).
Proof. unfold abind, pure. destruct (m c) as [[a|e] c1]; reflexivity. Qed.

(** C92. A concrete session: a default is changed, an order is rejected, and the order four is used as an [int], as a
    NumPy integer and by default; both bounds above are reached, and the next call is the one without cache. *)
Lemma C92_session_example_proof :
  forall (rule : laggauss_t) (D : Defaults),
  let s := stack [RtoC 1; RtoC 3; RtoC 5] [1] None in
  let go n := AboveSurf s 1 n in
  let p := [go (Some (PyInt 4)); go (Some (PyInt (-4))); SetNLag (PyIndex 4); SurfPot s 2 None; go (Some (PyInt 4))] in
  let st := exec rule p (fresh D (PyInt 32)) in
  computed (s_cache (exec rule (firstn 3 p) (fresh D (PyInt 32)))) = [4%Z] /\
  computed (s_cache st) = [4%Z; 4%Z] /\
  snd (step rule (EffPol s None None None None None None None None (Some "Q_ave"%string)) st) =
  uncached rule D (EffPol s None None None None None None None None (Some "Q_ave"%string)) 4.
Proof.
  intros rule D s go p st.
  assert (A' : forall d v z c, snd (c_refl_coef_qs_above_surf rule d s (rr z) (Some v) c) = snd (cached_laggauss rule v c)).
  { intros d v z c. unfold c_refl_coef_qs_above_surf. rewrite abind_pure. unfold c_sampled_beta. apply abind_pure. }
  assert (B : forall d z c, snd (c_surf_pot_and_field rule d s (rr z) None c) = snd (cached_laggauss rule d c)).
  { intros d z c. unfold c_surf_pot_and_field. rewrite abind_pure. unfold c_sampled_beta. apply abind_pure. }
  assert (G : forall d v c, fst (step rule (go (Some v)) (mkSession D d c)) = mkSession D d (snd (cached_laggauss rule v c))).
  { intros d v c. cbn [step go]. unfold calling. cbn [s_cache s_defaults s_n_lag]. rewrite <- (A' d v 1 c). now destruct (c_refl_coef_qs_above_surf rule d s (rr 1) (Some v) c). }
  assert (H : forall d c, fst (step rule (SurfPot s 2 None) (mkSession D d c)) = mkSession D d (snd (cached_laggauss rule d c))).
  { intros d c. cbn [step]. unfold calling. cbn [s_cache s_defaults s_n_lag]. rewrite <- (B d 2 c). now destruct (c_surf_pot_and_field rule d s (rr 2) None c). }
  assert (K : forall d v c, fst (step rule (SetNLag v) (mkSession D d c)) = mkSession D v c) by reflexivity.
  assert (E : st = mkSession D (PyIndex 4) (mkCache [(KTuple (RtoC 4), rule 4%nat); (KInt 4, rule 4%nat)] [4%Z; 4%Z]) /\
              exec rule (firstn 3 p) (fresh D (PyInt 32)) = mkSession D (PyIndex 4) (mkCache [(KInt 4, rule 4%nat)] [4%Z])).
  { unfold st, p, fresh. cbn [exec firstn]. rewrite !G, K, H, G.
    split; reflexivity. }
  destruct E as [E1 E2]. rewrite E1 at 1. rewrite E2. split; [reflexivity|]. split; [reflexivity|].
  assert (O : order_of (EffPol s None None None None None None None None (Some "Q_ave"%string)) st = Some (PyIndex 4)) by (rewrite E1; reflexivity).
  pose proof (C92_integer_orders_proof rule D (PyInt 32) p _ (PyIndex 4) 4 O eq_refl) as X. cbv zeta in X.
  change (exec rule p (fresh D (PyInt 32))) with st in X. rewrite X, E1. reflexivity.
Qed.
