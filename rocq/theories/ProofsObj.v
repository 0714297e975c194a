(** * Life cycle of [Sample] objects: C01, C02, C03 *)
From Coq Require Import String Reals Lra Lia ZArith List Bool.
From Coquelicot Require Import Rcomplements Complex.
From Verif Require Import Num NumLemmas ModelBase ModelSample NArr SpecArr NArrLemmas ModelObj ModelArr
  SpecObj ArrSample ProofsArr ProofsArr2.
Import ListNotations.
Open Scope R_scope.

Lemma broadcast_ok : forall A (l : list (arr A)) L, broadcast_arrays l = Ok L ->
  joint (map shp l) (lsh L) /\ length (lay L) = length l /\ (lay L = [] -> lsh L = []) /\
  (forall i, map (fun a => entry a i) (slices L) = map (fun a => entry a i) l).
Proof.
  intros A l L E. unfold broadcast_arrays in E. destruct (bshapes (map shp l)) as [s|] eqn:Es; [|discriminate].
  injection E as <-. apply bshapes_joint in Es. cbn [lsh lay]. split; [exact Es|].
  split; [apply map_length|]. split.
  - destruct l; [|discriminate]. intros _. destruct Es as (_ & _ & [H|(x & [] & _)]); exact H.
  - intro i. unfold slices. cbn [lsh lay]. rewrite !map_map. apply map_ext_in. intros a Ha.
    rewrite (entry_bidx _ (mkArr s _)). cbn [shp at_]. rewrite entry_bidx. f_equal. apply bidx_fits.
    apply Es, in_map, Ha.
Qed.
Lemma broadcast_total : forall A (l : list (arr A)), compatible (map shp l) -> exists L, broadcast_arrays l = Ok L.
Proof.
  intros A l Cm. unfold broadcast_arrays. destruct (bshapes (map shp l)) as [s|] eqn:Es; [eexists; reflexivity|].
  destruct (bshapes_none _ Es Cm).
Qed.
Lemma broadcast_raise : forall A (l : list (arr A)) e, broadcast_arrays l = Raise e ->
  ~ compatible (map shp l) /\ e = ValueError msg_broadcast.
Proof.
  intros A l e E. unfold broadcast_arrays in E. destruct (bshapes (map shp l)) as [s|] eqn:Es; [discriminate|].
  injection E as <-. split; [apply bshapes_none, Es|reflexivity].
Qed.

(** value of the thickness argument *)
Definition t_value (v : option (list (arr R))) : res (layers R) :=
  match v with None => Ok (mkLayers [] []) | Some v => broadcast_arrays v end.
Lemma t_value_ok : forall v L, t_value v = Ok L ->
  joint (map shp (given v)) (lsh L) /\ length (lay L) = length (given v) /\ (lay L = [] -> lsh L = []) /\
  (forall i, map (fun a => entry a i) (slices L) = map (fun a => entry a i) (given v)).
Proof.
  intros [v|] L E; [apply broadcast_ok, E|]. injection E as <-. split; [apply joint_nil|]. repeat split.
Qed.
Lemma t_value_total : forall v, compatible (map shp (given v)) -> exists L, t_value v = Ok L.
Proof. intros [v|] Cm; [apply broadcast_total, Cm|eexists; reflexivity]. Qed.
Lemma t_value_raise : forall v e, t_value v = Raise e ->
  ~ compatible (map shp (given v)) /\ e = ValueError msg_broadcast.
Proof. intros [v|] e E; [apply broadcast_raise, E|discriminate]. Qed.

Lemma set_t_eq : forall v o, set_t v o =
  match t_value v with
  | Raise e => (o, Raise e)
  | Ok t => let o' := mkObj (Some t) (o_eps o) (o_env o) (o_nu o) in (o', check_layers_valid o')
  end.
Proof. intros [v|] o; reflexivity. Qed.

Lemma bshape_full : forall s t, bshape s t = Some s <-> fits t s.
Proof.
  intros s t. rewrite bshape_spec. split.
  - intros [L E]. split; [lia|]. intro k. specialize (E k). apply bdim_spec in E. lia.
  - intros [L F]. split; [lia|]. intro k. apply bdim_spec. destruct (F k); lia.
Qed.

Lemma imul_ok : forall a b, fits (shp b) (lsh a ++ [length (lay a)]) ->
  imul_stack a b = Ok (mkLayers (lsh a)
                 (map (fun kx i => (snd kx i * at_ b (bidx (shp b) (i ++ [fst kx])))%cv)
                      (combine (seq 0 (length (lay a))) (lay a)))).
Proof.
  intros a b F. unfold imul_stack. apply bshape_full in F. rewrite F.
  destruct (list_eq_dec Nat.eq_dec (lsh a ++ [length (lay a)]) (lsh a ++ [length (lay a)])) as [_|N]; [reflexivity|congruence].
Qed.
Lemma imul_raise : forall a b, ~ fits (shp b) (lsh a ++ [length (lay a)]) ->
  exists m, imul_stack a b = Raise (ValueError m).
Proof.
  intros a b F. unfold imul_stack. destruct (bshape (lsh a ++ [length (lay a)]) (shp b)) as [s|] eqn:E; [|eexists; reflexivity].
  destruct (list_eq_dec Nat.eq_dec s (lsh a ++ [length (lay a)])) as [->|N]; [|eexists; reflexivity].
  apply bshape_full in E. contradiction.
Qed.

Lemma lcumprod_length : forall l acc, length (lcumprod acc l) = length l.
Proof. induction l as [|x l IH]; intro acc; cbn; [reflexivity|]. f_equal. apply IH. Qed.

(** the permittivities the [beta_stack] setter computes before the environment *)
Definition beta_layers (beta : layers CV) : layers CV :=
  let ones := fun _ : list nat => rc 1 in
  mkLayers (lsh beta) (ones :: lcumprod ones (map (fun b i => permitivitty (b i) (rc 1)) (lay beta))).
Lemma beta_layers_length : forall beta, length (lay (beta_layers beta)) = S (length (lay beta)).
Proof. intro beta. cbn. rewrite lcumprod_length, map_length. reflexivity. Qed.

(** re-broadcasting layers of equal shape keeps them *)
Lemma broadcast_slices : forall A (L : layers A), lay L <> [] ->
  broadcast_arrays (slices L) = Ok (mkLayers (lsh L) (map (fun f i => f (bidx (lsh L) i)) (lay L))).
Proof.
  intros A L N. unfold broadcast_arrays, slices. rewrite !map_map. cbn [shp at_].
  assert (bshapes (map (fun _ => lsh L) (lay L)) = Some (lsh L)) as ->.
  { rewrite (bshapes_incl _ [lsh L]); [apply bshapes_1| |].
    - intros x Hx. apply in_map_iff in Hx. destruct Hx as (y & <- & _). left; reflexivity.
    - intros x [<-|[]]. destruct (lay L) as [|y l]; [contradiction N; reflexivity|left; reflexivity]. }
  reflexivity.
Qed.

Definition env_layers (beta : layers CV) (env : arr CV) : layers CV :=
  mkLayers (lsh beta)
    (map (fun kx i => (snd kx i * at_ env (bidx (shp env) (i ++ [fst kx])))%cv)
         (combine (seq 0 (S (length (lay beta)))) (lay (beta_layers beta)))).
Lemma env_layers_length : forall beta env, length (lay (env_layers beta env)) = S (length (lay beta)).
Proof.
  intros. unfold env_layers. cbn [lay]. rewrite map_length, combine_length, seq_length, beta_layers_length. lia.
Qed.


Lemma set_beta_fits : forall v o beta env, broadcast_arrays v = Ok beta -> get_eps_env o = Ok env ->
  fits (shp env) (lsh beta ++ [S (length (lay beta))]) ->
  set_beta v o = set_eps (slices (env_layers beta env)) o.
Proof.
  intros v o beta env E1 E2 F. unfold set_beta. rewrite E1, E2. fold (beta_layers beta).
  rewrite imul_ok; [|rewrite beta_layers_length; exact F].
  rewrite beta_layers_length. reflexivity.
Qed.
Lemma set_beta_misfit : forall v o beta env, broadcast_arrays v = Ok beta -> get_eps_env o = Ok env ->
  ~ fits (shp env) (lsh beta ++ [S (length (lay beta))]) ->
  exists m, set_beta v o = (o, Raise (ValueError m)).
Proof.
  intros v o beta env E1 E2 F. unfold set_beta. rewrite E1, E2. fold (beta_layers beta).
  destruct (imul_raise (beta_layers beta) env) as [m ->]; [rewrite beta_layers_length; exact F|].
  exists m; reflexivity.
Qed.

Lemma set_eps_ok_eq : forall v o L, broadcast_arrays v = Ok L ->
  set_eps v o = (mkObj (o_t o) (Some L) (o_env o) (o_nu o),
                 check_layers_valid (mkObj (o_t o) (Some L) (o_env o) (o_nu o))).
Proof. intros v o L E. unfold set_eps. rewrite E. reflexivity. Qed.

Lemma check_ok : forall t e env nu, check_layers_valid (mkObj (Some t) (Some e) env nu) =
  if Nat.eqb (length (lay e)) (length (lay t) + 2) then Ok tt else Raise (ValueError msg_layers).
Proof. reflexivity. Qed.

(** decidability of [fits] *)
Lemma fits_dec : forall s t, fits s t \/ ~ fits s t.
Proof.
  intros s t. destruct (bshape t s) as [u|] eqn:E.
  - destruct (list_eq_dec Nat.eq_dec u t) as [->|N].
    + left. apply bshape_full, E.
    + right. intro F. apply bshape_full in F. congruence.
  - right. intro F. apply bshape_full in F. congruence.
Qed.

Definition env_shape (o : option (arr CV)) : list nat := match o with Some a => shp a | None => [] end.

(** C01: which calls of the constructor return. *)
Lemma C01_accepted_calls_proof : forall D eps beta t env nu,
  (exists o, init D eps beta t env nu = Ok o) <->
  compatible (map shp (given t)) /\
  ((exists es, eps = Some es /\ beta = None /\
      compatible (map shp es) /\ length es = (length (given t) + 2)%nat) \/
   (exists bs S, eps = None /\ beta = Some bs /\
      joint (map shp bs) S /\ length bs = (length (given t) + 1)%nat /\
      fits (match env with Some a => shp a | None => [] end) (S ++ [length bs + 1])%nat)).
Proof.
  intros D eps beta t env nu. unfold init.
  set (ev := match env with Some e => e | None => scalar (Some (d_eps_env D)) end).
  assert (Sev : match env with Some a => shp a | None => [] end = shp ev) by (destruct env; reflexivity).
  rewrite Sev. clearbody ev. clear Sev env.
  destruct eps as [es|]; destruct beta as [bs|].
  - split; [intros [o H]; discriminate|]. intros (_ & [(es' & _ & H & _)|(bs' & S & H & _)]); discriminate.
  - rewrite set_t_eq. destruct (t_value t) as [tl|e] eqn:Et.
    2: { destruct (t_value_raise _ _ Et) as [N _]. split; [intros [o H]; discriminate|]. intros [Cm _]. contradiction. }
    destruct (t_value_ok _ _ Et) as (Jt & Lt & _). cbn [check_layers_valid o_t o_eps o_env o_nu].
    destruct (broadcast_arrays es) as [el|e] eqn:Ee.
    + destruct (broadcast_ok _ _ _ Ee) as (Je & Le & _). rewrite (set_eps_ok_eq _ _ _ Ee). cbn [o_t o_eps o_env o_nu].
      rewrite check_ok. split.
      * destruct (Nat.eqb_spec (length (lay el)) (length (lay tl) + 2)) as [Hl|Hl]; [intros _|intros [o H]; discriminate].
        split; [eapply joint_compatible, Jt|]. left. exists es. repeat split; [eapply joint_compatible, Je|lia].
      * intros (_ & [(es' & [= <-] & _ & _ & Hl)|(bs' & S & H & _)]); [|discriminate].
        rewrite (proj2 (Nat.eqb_eq _ _)) by lia. eexists; reflexivity.
    + destruct (broadcast_raise _ _ _ Ee) as [N _]. unfold set_eps. rewrite Ee. split; [intros [o H]; discriminate|].
      intros (_ & [(es' & [= <-] & _ & Cm & _)|(bs' & S & H & _)]); [contradiction|discriminate].
  - rewrite set_t_eq. destruct (t_value t) as [tl|e] eqn:Et.
    2: { destruct (t_value_raise _ _ Et) as [N _]. split; [intros [o H]; discriminate|]. intros [Cm _]. contradiction. }
    destruct (t_value_ok _ _ Et) as (Jt & Lt & _). cbn [check_layers_valid o_t o_eps o_env o_nu].
    destruct (broadcast_arrays bs) as [bl|e] eqn:Eb.
    + destruct (broadcast_ok _ _ _ Eb) as (Jb & Lb & _).
      set (o1 := mkObj (Some tl) None ev None).
      destruct (fits_dec (shp ev) (lsh bl ++ [S (length (lay bl))])) as [F|F].
      * rewrite (set_beta_fits bs o1 bl ev Eb eq_refl F).
        assert (NE : lay (env_layers bl ev) <> []).
        { intro H. apply (f_equal (@length _)) in H. rewrite env_layers_length in H. discriminate. }
        rewrite (set_eps_ok_eq _ _ _ (broadcast_slices _ _ NE)). unfold o1. cbn [o_t o_eps o_env o_nu].
        rewrite check_ok. cbn [lay]. rewrite map_length, env_layers_length. split.
        -- destruct (Nat.eqb_spec (S (length (lay bl))) (length (lay tl) + 2)) as [Hl|Hl]; [intros _|intros [o H]; discriminate].
           split; [eapply joint_compatible, Jt|]. right. exists bs, (lsh bl).
           split; [reflexivity|]. split; [reflexivity|]. split; [exact Jb|]. split; [lia|].
           rewrite Nat.add_1_r, <- Lb. exact F.
        -- intros (_ & [(es' & H & _)|(bs' & Sh & _ & [= <-] & J & Hl & _)]); [discriminate|].
           rewrite (proj2 (Nat.eqb_eq _ _)) by lia. eexists; reflexivity.
      * destruct (set_beta_misfit bs o1 bl ev Eb eq_refl F) as [m ->]. split; [intros [o H]; discriminate|].
        intros (_ & [(es' & H & _)|(bs' & Sh & _ & [= <-] & J & Hl & F')]); [discriminate|].
        exfalso. apply F. rewrite (joint_unique _ _ _ Jb J), Lb, <- Nat.add_1_r. exact F'.
    + destruct (broadcast_raise _ _ _ Eb) as [N _]. unfold set_beta. rewrite Eb. split; [intros [o H]; discriminate|].
      intros (_ & [(es' & H & _)|(bs' & S & _ & [= <-] & J & _)]); [discriminate|].
      exfalso. apply N. eapply joint_compatible, J.
  - split; [intros [o H]; discriminate|]. intros (_ & [(es' & H & _)|(bs' & S & _ & H & _)]); discriminate.
Qed.

(** C01: every other call raises a ValueError; in particular with both or
    neither of the two stacks. *)
Lemma C01_rejected_calls_proof : forall D eps beta t env nu,
  (forall e, init D eps beta t env nu = Raise e -> exists m, e = ValueError m) /\
  ((eps = None <-> beta = None) -> init D eps beta t env nu = Raise (ValueError msg_stack_args)).
Proof.
  intros D eps beta t env nu. split.
  - intros e H. unfold init in H.
    set (ev := match env with Some e => e | None => scalar (Some (d_eps_env D)) end) in H. clearbody ev.
    destruct eps as [es|]; destruct beta as [bs|]; try (injection H as <-; eexists; reflexivity).
    + rewrite set_t_eq in H. destruct (t_value t) as [tl|e'] eqn:Et.
      2: { destruct (t_value_raise _ _ Et) as [_ ->]. injection H as <-. eexists; reflexivity. }
      cbn [check_layers_valid o_t o_eps o_env o_nu] in H. unfold set_eps in H.
      destruct (broadcast_arrays es) as [el|e'] eqn:Ee.
      * cbn [o_t o_env o_nu] in H. rewrite check_ok in H.
        destruct (Nat.eqb (length (lay el)) (length (lay tl) + 2)); [discriminate|]. injection H as <-. eexists; reflexivity.
      * destruct (broadcast_raise _ _ _ Ee) as [_ ->]. injection H as <-. eexists; reflexivity.
    + rewrite set_t_eq in H. destruct (t_value t) as [tl|e'] eqn:Et.
      2: { destruct (t_value_raise _ _ Et) as [_ ->]. injection H as <-. eexists; reflexivity. }
      cbn [check_layers_valid o_t o_eps o_env o_nu] in H.
      set (o1 := mkObj (Some tl) None ev None) in H.
      destruct (broadcast_arrays bs) as [bl|e'] eqn:Eb.
      2: { unfold set_beta in H. rewrite Eb in H. destruct (broadcast_raise _ _ _ Eb) as [_ ->]. injection H as <-. eexists; reflexivity. }
      destruct (fits_dec (shp ev) (lsh bl ++ [S (length (lay bl))])) as [F|F].
      * rewrite (set_beta_fits bs o1 bl ev Eb eq_refl F) in H. unfold set_eps in H.
        destruct (broadcast_arrays (slices (env_layers bl ev))) as [el|e'] eqn:Ee.
        -- unfold o1 in H. cbn [o_t o_env o_nu] in H. rewrite check_ok in H.
           destruct (Nat.eqb (length (lay el)) (length (lay tl) + 2)); [discriminate|]. injection H as <-. eexists; reflexivity.
        -- destruct (broadcast_raise _ _ _ Ee) as [_ ->]. injection H as <-. eexists; reflexivity.
      * destruct (set_beta_misfit bs o1 bl ev Eb eq_refl F) as [m Em]. rewrite Em in H. injection H as <-. eexists; reflexivity.
  - intros H. unfold init. destruct eps as [es|]; destruct beta as [bs|]; try reflexivity.
    + destruct H as [_ H]. discriminate (H eq_refl).
    + destruct H as [H _]. discriminate (H eq_refl).
Qed.

(** an object both of whose stacks have been assigned *)
Definition assigned (o : obj) : Prop :=
  exists e t, o_eps o = Some e /\ o_t o = Some t /\ (lay t = [] -> lsh t = []).

Lemma consistent_assigned : forall o, consistent o -> assigned o.
Proof. intros o (e & t & A & B & C & E). exists e, t. auto. Qed.

Lemma checked_consistent : forall o, assigned o -> check_layers_valid o = Ok tt -> consistent o.
Proof.
  intros o (e & t & Ee & Et & Lt) H. exists e, t. repeat split; auto.
  unfold check_layers_valid in H. rewrite Ee, Et in H.
  destruct (Nat.eqb_spec (length (lay e)) (length (lay t) + 2)); [assumption|discriminate].
Qed.

(** what each assignment does *)
Lemma run_cases : forall a o, assigned o -> forall o' r, run a o = (o', r) ->
  assigned o' /\
  ((o' = o /\ exists e, r = Raise e) \/
   (r = check_layers_valid o' /\ o_env o' = o_env o /\ o_nu o' = o_nu o /\
     ((exists t, o_t o' = Some t /\ o_eps o' = o_eps o) \/ (exists e, o_eps o' = Some e /\ o_t o' = o_t o))) \/
   (exists v, a = SetNu v /\ r = Ok tt /\ o' = mkObj (o_t o) (o_eps o) (o_env o) v)).
Proof.
  intros a o (e & t & Ee & Et & Lt) o' r H. 
  assert (HE : forall v, set_eps v o = (o', r) ->
     assigned o' /\ ((o' = o /\ exists e, r = Raise e) \/
       (r = check_layers_valid o' /\ o_env o' = o_env o /\ o_nu o' = o_nu o /\ exists e, o_eps o' = Some e /\ o_t o' = o_t o))).
  { intros v Hv. unfold set_eps in Hv. destruct (broadcast_arrays v) as [L|x] eqn:Eb.
    - injection Hv as <- <-. split.
      + exists L, t. repeat split; cbn; auto.
      + right. repeat split. exists L. repeat split.
    - injection Hv as <- <-. split; [exists e, t; auto|]. left. split; [reflexivity|eexists; reflexivity]. }
  destruct a as [v|v|v|v]; cbn [run] in H.
  - rewrite set_t_eq in H. destruct (t_value v) as [tl|x] eqn:Ev.
    + injection H as <- <-. destruct (t_value_ok _ _ Ev) as (_ & _ & Hn & _). split.
      * exists e, tl. repeat split; cbn; auto.
      * right; left. repeat split. left. exists tl. repeat split.
    + injection H as <- <-. split; [exists e, t; auto|]. left. split; [reflexivity|eexists; reflexivity].
  - destruct (HE v H) as [A [B|(B1 & B2 & B3 & B4)]]; (split; [exact A|]); [left; exact B|right; left; auto].
  - assert (Hx : (o' = o /\ exists e, r = Raise e) \/ exists v', set_eps v' o = (o', r)).
    { unfold set_beta in H. destruct (broadcast_arrays v) as [bl|x]; [|injection H as <- <-; left; eauto].
      destruct (get_eps_env o) as [env|x]; [|injection H as <- <-; left; eauto].
      match type of H with context [imul_stack ?a ?b] => destruct (imul_stack a b) as [el|x] end;
        [right; eauto|injection H as <- <-; left; eauto]. }
    destruct Hx as [Hx|[v' Hv']].
    + split; [|left; exact Hx]. destruct Hx as [-> _]. exists e, t; auto.
    + destruct (HE v' Hv') as [A [B|(B1 & B2 & B3 & B4)]]; (split; [exact A|]); [left; exact B|right; left; auto].
  - injection H as <- <-. split; [exists e, t; auto|]. right; right. exists v. auto.
Qed.

Lemma init_consistent : forall D eps beta t env nu o, init D eps beta t env nu = Ok o ->
  consistent o /\ o_nu o = nu /\
  exists tl, o_t o = Some tl /\ t_value t = Ok tl.
Proof.
  intros D eps beta t env nu o H. unfold init in H.
  set (ev := match env with Some e => e | None => scalar (Some (d_eps_env D)) end) in H. clearbody ev.
  assert (W : forall tl o2, t_value t = Ok tl -> 
     assigned o2 /\ check_layers_valid o2 = Ok tt /\ o_t o2 = Some tl ->
     let o := mkObj (o_t o2) (o_eps o2) (o_env o2) nu in
     consistent o /\ o_nu o = nu /\ exists tl, o_t o = Some tl /\ t_value t = Ok tl).
  { intros tl o2 Et (A & Ck & T) oo. split; [|split; [reflexivity|]].
    - destruct (checked_consistent _ A Ck) as (e & t' & H1 & H2 & H3 & H4). exists e, t'. auto.
    - exists tl. auto. }
  assert (WE : forall tl v o2 u, set_eps v (mkObj (Some tl) None ev None) = (o2, Ok u) -> t_value t = Ok tl ->
     assigned o2 /\ check_layers_valid o2 = Ok tt /\ o_t o2 = Some tl).
  { intros tl v o2 u Hs Et. unfold set_eps in Hs. destruct (broadcast_arrays v) as [L|]; [|discriminate].
    injection Hs as <- Hs. destruct u. split; [|split; [exact Hs|reflexivity]].
    exists L, tl. destruct (t_value_ok _ _ Et) as (_ & _ & Hn & _). auto. }
  destruct eps as [es|]; destruct beta as [bs|]; try discriminate.
  - rewrite set_t_eq in H. destruct (t_value t) as [tl|e'] eqn:Et; [|discriminate].
    cbn [check_layers_valid o_t o_eps o_env o_nu] in H.
    destruct (set_eps es _) as [o2 [u|x]] eqn:Es; [|discriminate]. injection H as <-.
    apply (W tl); [reflexivity|]. eapply WE; [exact Es|reflexivity].
  - rewrite set_t_eq in H. destruct (t_value t) as [tl|e'] eqn:Et; [|discriminate].
    cbn [check_layers_valid o_t o_eps o_env o_nu] in H.
    destruct (set_beta bs _) as [o2 [u|x]] eqn:Es; [|discriminate]. injection H as <-.
    apply (W tl); [reflexivity|].
    unfold set_beta in Es. destruct (broadcast_arrays bs) as [bl|x]; [|discriminate].
    destruct (get_eps_env _) as [env'|x]; [|discriminate].
    match type of Es with context [imul_stack ?a ?b] => destruct (imul_stack a b) as [el|x] end; [|discriminate].
    eapply WE; [exact Es|reflexivity].
Qed.

(** C01: what a constructed object looks like. *)
Lemma C01_constructed_proof : forall D eps beta t env nu o, init D eps beta t env nu = Ok o ->
  consistent o /\
  get_n_layers o = Ok (length (given t) + 2)%nat /\
  (get_multilayer o = Ok true <-> given t <> []) /\ (get_multilayer o = Ok false <-> given t = []) /\
  o_nu o = nu /\
  (forall i, t_stack (sample_at o i) = map (fun a => entry a i) (given t)) /\
  exists e0 rest, o_eps o = Some (mkLayers (eps_shape o) (e0 :: rest)) /\
                  get_eps_env o = Ok (mkArr (eps_shape o) e0).
Proof.
  intros D eps beta t env nu o H. destruct (init_consistent _ _ _ _ _ _ _ H) as (Hc & Hn & tl & Ht & Hv).
  pose proof Hc as (e & t' & Ee & Et & L & Lt). assert (t' = tl) by congruence. subst t'.
  destruct (t_value_ok _ _ Hv) as (J & Ll & _ & Hent).
  assert (Hg : get_n_layers o = Ok (length (given t) + 2)%nat) by (unfold get_n_layers; rewrite Ee; f_equal; lia).
  assert (Hm : get_multilayer o = Ok (Nat.ltb 2 (length (given t) + 2))) by (unfold get_multilayer; rewrite Hg; reflexivity).
  split; [exact Hc|]. split; [exact Hg|].
  split; [|split; [|split; [exact Hn|split]]].
  - rewrite Hm. destruct (given t) as [|x l]; [split; [discriminate|intro N; destruct (N eq_refl)]|].
    cbn [length Nat.add]. rewrite Nat.add_comm. split; [discriminate|reflexivity].
  - rewrite Hm. destruct (given t) as [|x l]; [split; reflexivity|].
    cbn [length Nat.add]. rewrite Nat.add_comm. split; discriminate.
  - intro i. unfold sample_at. cbn. rewrite Ht. apply Hent.
  - destruct e as [s [|e0 rest]]; [cbn in L; lia|]. exists e0, rest. unfold eps_shape, get_eps_env. rewrite Ee. split; reflexivity.
Qed.

(** C01, concrete case: a film on a substrate is accepted, a missing thickness
    rejected. *)
Lemma C01_example_proof :
  (exists o, init defaults0 (Some [scalar (rc 1); scalar (rc 2); scalar (rc 3)]) None
               (Some [scalar 1]) None None = Ok o) /\
  ~ (exists o, init defaults0 (Some [scalar (rc 1); scalar (rc 2); scalar (rc 3)]) None None None None = Ok o).
Proof.
  split; [eexists; reflexivity|]. intros [o H]. discriminate.
Qed.

(** C02: objects stay consistent, with the number of layers they were built
    with, as long as no assignment raises. *)
Lemma C02_history_consistent_proof : forall D eps beta t env nu o o',
  init D eps beta t env nu = Ok o -> normal_history o o' ->
  consistent o' /\ get_n_layers o' = get_n_layers o /\
  forall i, length (eps_stack (sample_at o' i)) = (length (t_stack (sample_at o' i)) + 2)%nat.
Proof.
  intros D eps beta t env nu o o' Hi Hh.
  assert (Hc : consistent o' /\ get_n_layers o' = get_n_layers o).
  { induction Hh as [|a o1 o2 Hh IH Hr].
    - split; [apply (init_consistent _ _ _ _ _ _ _ Hi)|reflexivity].
    - destruct IH as [Hc Hn]. destruct (run_cases a o1 (consistent_assigned _ Hc) _ _ Hr) as [A [B|[B|B]]].
      + destruct B as [_ [e B]]. discriminate.
      + destruct B as (B & _ & _ & X). pose proof (checked_consistent _ A (eq_sym B)) as Hc2. split; [exact Hc2|].
        rewrite <- Hn. destruct Hc as (e & t' & Ee & Et & L & _). destruct Hc2 as (e2 & t2 & Ee2 & Et2 & L2 & _).
        unfold get_n_layers. rewrite Ee, Ee2. f_equal.
        destruct X as [(t3 & _ & X)|(e3 & _ & X)].
        * assert (e2 = e) by congruence. subst; reflexivity.
        * assert (t2 = t') by congruence. subst; lia.
      + destruct B as (v & _ & _ & ->). split; [|exact Hn].
        destruct Hc as (e & t' & Ee & Et & L & Lt). exists e, t'. auto. }
  split; [apply Hc|]. split; [apply Hc|].
  intro i. destruct Hc as [(e & t' & Ee & Et & L & _) _].
  unfold sample_at. cbn. rewrite Ee, Et, !map_length, !slices_length. exact L.
Qed.

(** C02: whatever failed before, an assignment to one of the stacks that
    returns normally leaves a consistent object. *)
Lemma C02_normal_return_consistent_proof : forall D eps beta t env nu o o1 a o2,
  init D eps beta t env nu = Ok o -> any_history o o1 ->
  run a o1 = (o2, Ok tt) -> (forall v, a <> SetNu v) -> consistent o2.
Proof.
  intros D eps beta t env nu o o1 a o2 Hi Hh Hr Na.
  assert (A : assigned o1).
  { clear Hr. induction Hh as [|b o1 Hh IH].
    - apply consistent_assigned, (init_consistent _ _ _ _ _ _ _ Hi).
    - destruct (run b o1) as [o' r] eqn:E. apply (run_cases b o1 IH _ _ E). }
  destruct (run_cases a o1 A _ _ Hr) as [A' [B|[B|B]]].
  - destruct B as [_ [e B]]. discriminate.
  - destruct B as (B & _). apply checked_consistent; [exact A'|symmetry; exact B].
  - destruct B as (v & Hv & _). destruct (Na v Hv).
Qed.

(** C02, concrete case: a film's permittivities, thickness and wavenumber are
    changed, one after the other. *)
Lemma C02_example_proof :
  exists o o', init defaults0 (Some [scalar (rc 1); scalar (rc 2); scalar (rc 3)]) None
               (Some [scalar 1]) None None = Ok o /\
    normal_history o o' /\ t_stack (sample_at o' []) = [5] /\
    eps_stack (sample_at o' []) = [rc 1; rc 7; rc 3] /\ nu_vac (sample_at o' []) = Some 10.
Proof.
  set (o := mkObj (Some (mkLayers [] [fun _ => 1])) (Some (mkLayers [] [fun _ => rc 1; fun _ => rc 2; fun _ => rc 3]))
              (scalar (Some (RtoC 1))) None).
  set (o1 := fst (run (SetEps [scalar (rc 1); scalar (rc 7); scalar (rc 3)]) o)).
  set (o2 := fst (run (SetT (Some [scalar 5])) o1)).
  set (o3 := fst (run (SetNu (Some (scalar 10))) o2)).
  exists o, o3. split; [reflexivity|]. split; [|repeat split; reflexivity].
  apply (nh_step _ (SetNu (Some (scalar 10))) o2); [|reflexivity].
  apply (nh_step _ (SetT (Some [scalar 5])) o1); [|reflexivity].
  apply (nh_step _ (SetEps [scalar (rc 1); scalar (rc 7); scalar (rc 3)]) o); [|reflexivity].
  apply nh_start.
Qed.
