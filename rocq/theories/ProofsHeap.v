(** * Proofs: memory of [Sample] objects (C81) *)
From Coq Require Import String Reals Lra Lia ZArith List Bool Arith.
From Coquelicot Require Import Rcomplements Complex.
From Verif Require Import Num NumLemmas ModelBase ModelSample NArr SpecArr ModelObj SpecObj ProofsObj ModelHeap SpecHeap.
Import ListNotations.
Open Scope nat_scope.

Definition in_range (h : heap) (o : hobj) : Prop :=
  (forall b, h_t o = Some b -> b < length h) /\
  (forall b, h_eps o = Some b -> b < length h) /\
  (forall r b, h_nu o = Some r -> In b (ref_buffer r) -> b < length h).
Definition complete (h : heap) (o : hobj) : Prop :=
  in_range h o /\
  (exists b l, h_t o = Some b /\ stack_r h b = Some l) /\
  (exists b l, h_eps o = Some b /\ stack_c h b = Some l).
Definition wf (st : state) : Prop := forall o, In o (objs st) -> complete (mem st) o.

Lemma nth_old (h x : heap) b : b < length h -> nth_error (h ++ x) b = nth_error h b.
Proof. apply nth_error_app1. Qed.
Lemma nth_new (h : heap) d x : nth_error (h ++ d :: x) (length h) = Some d.
Proof. rewrite nth_error_app2 by lia. rewrite Nat.sub_diag. reflexivity. Qed.
Lemma stack_r_old h x b : b < length h -> stack_r (h ++ x) b = stack_r h b.
Proof. intro H; unfold stack_r; now rewrite nth_old. Qed.
Lemma stack_c_old h x b : b < length h -> stack_c (h ++ x) b = stack_c h b.
Proof. intro H; unfold stack_c; now rewrite nth_old. Qed.
Lemma read_c_old h x r : (forall b, In b (names_c r) -> b < length h) -> read_c (h ++ x) r = read_c h r.
Proof. intro H; destruct r as [v|b|b k]; cbn; trivial; rewrite nth_old; trivial; apply H; left; trivial. Qed.
Lemma read_r_old h x r : (forall b, In b (ref_buffer r) -> b < length h) -> read_r (h ++ x) r = read_r h r.
Proof. intro H; destruct r as [v|b|b k]; cbn; trivial; rewrite nth_old; trivial; apply H; left; trivial. Qed.
Lemma map_read_c_old h x v : (forall b, In b (flat_map names_c v) -> b < length h) ->
  map (read_c (h ++ x)) v = map (read_c h) v.
Proof.
  induction v as [|r v IH]; cbn; trivial; intro H.
  rewrite read_c_old, IH; trivial; intros b Hb; apply H, in_or_app; auto.
Qed.
Lemma map_read_r_old h x v : (forall b, In b (flat_map ref_buffer v) -> b < length h) ->
  map (read_r (h ++ x)) v = map (read_r h) v.
Proof.
  induction v as [|r v IH]; cbn; trivial; intro H.
  rewrite read_r_old, IH; trivial; intros b Hb; apply H, in_or_app; auto.
Qed.

Lemma same_refl a : same_sample a a.
Proof. repeat split. Qed.
Lemma same_trans a b c : same_sample a b -> same_sample b c -> same_sample a c.
Proof. intros (A & B & E) (A' & B' & E'); repeat split; congruence. Qed.
Lemma same_sym a b : same_sample a b -> same_sample b a.
Proof. intros (A & B & E); repeat split; congruence. Qed.

Lemma in_range_old h x o : in_range h o -> in_range (h ++ x) o.
Proof.
  intros (A & B & E); repeat split; intros; rewrite app_length.
  - specialize (A b H); lia.
  - specialize (B b H); lia.
  - specialize (E r b H H0); lia.
Qed.
Lemma value_old h x o : in_range h o -> same_sample (value (h ++ x) o) (value h o).
Proof.
  intros (A & B & E); unfold same_sample, value; cbn; repeat split.
  - destruct (h_t o); trivial. apply stack_r_old; auto.
  - destruct (h_eps o); trivial. apply stack_c_old; auto.
  - destruct (h_nu o) as [r|] eqn:Hr; trivial. rewrite read_r_old; trivial. eauto.
Qed.
Lemma complete_old h x o : complete h o -> complete (h ++ x) o.
Proof.
  intros (R & (b & l & Hb & Hl) & (b' & l' & Hb' & Hl')). split; [now apply in_range_old|].
  pose proof R as (A & B & _). split.
  - exists b, l; split; trivial. rewrite stack_r_old; auto.
  - exists b', l'; split; trivial. rewrite stack_c_old; auto.
Qed.

Lemma check_same a b : same_sample a b -> check_layers_valid a = check_layers_valid b.
Proof. intros (A & B & _); unfold check_layers_valid; now rewrite A, B. Qed.

(** one setter on the heap, and the same setter on values *)
Definition refines (h : heap) (o : hobj) (c : hcall) (c' : call) : Prop :=
  match c with (h', o', r) =>
    (exists x, h' = h ++ x) /\ in_range h' o' /\ h_env o' = h_env o /\
    same_sample (value h' o') (fst c') /\ r = snd c'
  end.

Lemma set_t_refines h o v a : in_range h o -> same_sample (value h o) a ->
  refines h o (h_set_t v h o) (set_t (option_map (map (read_r h)) v) a).
Proof.
  intros R S. unfold refines, h_set_t, set_t.
  assert (Hv : (match option_map (map (read_r h)) v with None => Ok (mkLayers [] []) | Some v => broadcast_arrays v end)
               = match v with None => Ok (mkLayers [] []) | Some v => broadcast_arrays (map (read_r h) v) end)
    by (destruct v; reflexivity).
  rewrite Hv; clear Hv.
  destruct (match v with None => Ok (mkLayers [] []) | Some v => broadcast_arrays (map (read_r h) v) end) as [t|e];
    cbn [fst snd].
  - assert (SS : same_sample (value (h ++ [StackR t]) (mkH (Some (length h)) (h_eps o) (h_env o) (h_nu o)))
                   (mkObj (Some t) (o_eps a) (o_env a) (o_nu a))).
    { pose proof (value_old h [StackR t] o R) as (_ & E1 & E2). destruct S as (_ & S1 & S2).
      repeat split; cbn.
      - unfold stack_r. now rewrite nth_new.
      - rewrite <- S1, <- E1. reflexivity.
      - rewrite <- S2, <- E2. reflexivity. }
    split; [eauto|]. split; [|split; [reflexivity|split; [exact SS|now apply check_same]]].
    pose proof R as (A & B & E). repeat split; cbn; intros; rewrite app_length; cbn.
    + injection H as <-; lia.
    + specialize (B b H); lia.
    + specialize (E r b H H0); lia.
  - split; [exists []; now rewrite app_nil_r|]. repeat split; trivial; try apply S; apply R.
Qed.
Lemma set_eps_arrays_refines h o v a : in_range h o -> same_sample (value h o) a ->
  refines h o (h_set_eps_arrays v h o) (set_eps v a).
Proof.
  intros R S. unfold refines, h_set_eps_arrays, set_eps.
  destruct (broadcast_arrays v) as [t|e]; cbn [fst snd].
  - assert (SS : same_sample (value (h ++ [StackC t]) (mkH (h_t o) (Some (length h)) (h_env o) (h_nu o)))
                   (mkObj (o_t a) (Some t) (o_env a) (o_nu a))).
    { pose proof (value_old h [StackC t] o R) as (E1 & _ & E2). destruct S as (S1 & _ & S2).
      repeat split; cbn.
      - rewrite <- S1, <- E1. reflexivity.
      - unfold stack_c. now rewrite nth_new.
      - rewrite <- S2, <- E2. reflexivity. }
    split; [eauto|]. split; [|split; [reflexivity|split; [exact SS|now apply check_same]]].
    pose proof R as (A & B & E). repeat split; cbn; intros; rewrite app_length; cbn.
    + specialize (A b H); lia.
    + injection H as <-; lia.
    + specialize (E r b H H0); lia.
  - split; [exists []; now rewrite app_nil_r|]. repeat split; trivial; try apply S; apply R.
Qed.
Lemma set_eps_refines h o v a : in_range h o -> same_sample (value h o) a ->
  refines h o (h_set_eps v h o) (set_eps (map (read_c h) v) a).
Proof. apply set_eps_arrays_refines. Qed.
Lemma set_beta_refines h o v a : in_range h o -> same_sample (value h o) a ->
  get_eps_env (value h o) = get_eps_env a ->
  refines h o (h_set_beta v h o) (set_beta (map (read_c h) v) a).
Proof.
  intros R S G. unfold h_set_beta, set_beta. rewrite G.
  assert (Same : forall e, refines h o (h, o, Raise e) (a, Raise e)).
  { intro e. split; [exists []; now rewrite app_nil_r|]. repeat split; trivial; try apply S; apply R. }
  destruct (broadcast_arrays (map (read_c h) v)) as [beta|e]; [|apply Same].
  destruct (get_eps_env a) as [env|e]; [|apply Same].
  destruct (imul_stack _ env) as [eps|e]; [|apply Same].
  pose proof (set_eps_arrays_refines (h ++ [StackC eps]) o (slices eps) a (in_range_old _ _ _ R)
                (same_trans _ _ _ (value_old _ _ _ R) S)) as Q.
  unfold refines in *. destruct (h_set_eps_arrays (slices eps) (h ++ [StackC eps]) o) as [[h' o'] r].
  destruct Q as ((x & ->) & Q). split; [|exact Q]. exists (StackC eps :: x). now rewrite <- app_assoc.
Qed.
Lemma set_nu_refines h o v a : in_range h o -> same_sample (value h o) a ->
  (forall r b, v = Some r -> In b (ref_buffer r) -> b < length h) ->
  refines h o (h_set_nu v h o) (set_nu (option_map (read_r h) v) a).
Proof.
  intros R S L. unfold refines, h_set_nu, set_nu; cbn [fst snd].
  split; [exists []; now rewrite app_nil_r|]. split.
  - pose proof R as (A & B & E). repeat split; cbn; trivial.
  - split; [reflexivity|]. split; [|reflexivity]. destruct S as (S1 & S2 & _).
    repeat split; cbn; trivial. 
Qed.

(** completeness is kept *)
Definition keeps (h : heap) (c : hcall) : Prop := match c with (h', o', _) => complete h' o' end.
Lemma set_t_keeps h o v : complete h o -> keeps h (h_set_t v h o).
Proof.
  intro K. unfold keeps, h_set_t.
  destruct (match v with None => Ok (mkLayers [] []) | Some v => broadcast_arrays (map (read_r h) v) end) as [t|e]; trivial.
  pose proof (complete_old h [StackR t] o K) as ((A & B & E) & _ & Q).
  split; [|split].
  - repeat split; cbn; trivial. intros b [= <-]; rewrite app_length; cbn; lia.
  - exists (length h), t; split; trivial. unfold stack_r; now rewrite nth_new.
  - exact Q.
Qed.
Lemma set_eps_arrays_keeps h o v : complete h o -> keeps h (h_set_eps_arrays v h o).
Proof.
  intro K. unfold keeps, h_set_eps_arrays. destruct (broadcast_arrays v) as [t|e]; trivial.
  pose proof (complete_old h [StackC t] o K) as ((A & B & E) & Q & _).
  split; [|split].
  - repeat split; cbn; trivial. intros b [= <-]; rewrite app_length; cbn; lia.
  - exact Q.
  - exists (length h), t; split; trivial. unfold stack_c; now rewrite nth_new.
Qed.
Lemma set_beta_keeps h o v : complete h o -> keeps h (h_set_beta v h o).
Proof.
  intro K. unfold h_set_beta.
  destruct (broadcast_arrays (map (read_c h) v)) as [beta|e]; [|exact K].
  destruct (get_eps_env (value h o)) as [env|e]; [|exact K].
  destruct (imul_stack _ env) as [eps|e]; [|exact K].
  apply (set_eps_arrays_keeps (h ++ [StackC eps]) o). now apply complete_old.
Qed.
Lemma set_nu_keeps h o v : complete h o -> (forall r b, v = Some r -> In b (ref_buffer r) -> b < length h) ->
  keeps h (h_set_nu v h o).
Proof.
  intros ((A & B & E) & Q1 & Q2) L. split; [|split; [exact Q1|exact Q2]]. repeat split; cbn; trivial.
Qed.

(** the constructor *)
Lemma get_env_full h o a : same_sample (value h o) a -> o_env a = read_c h (h_env o) ->
  get_eps_env (value h o) = get_eps_env a.
Proof.
  intros (_ & S & _) E. unfold get_eps_env. rewrite <- S. destruct (o_eps (value h o)); trivial.
  rewrite E. reflexivity.
Qed.
Lemma get_env_complete h o a : complete h o -> same_sample (value h o) a -> get_eps_env (value h o) = get_eps_env a.
Proof.
  intros (_ & _ & (b & l & Hb & Hl)) (_ & S & _). unfold get_eps_env. rewrite <- S.
  cbn. rewrite Hb, Hl. reflexivity.
Qed.

Lemma init_refines D e b t env nu h :
  (forall x, In x (names (Make e b t env nu)) -> x < length h) ->
  match h_init D e b t env nu h with
  | (h', Ok o) =>
      (exists x, h' = h ++ x) /\ complete h' o /\ (forall x, In x (buffers_of o) -> length h <= x) /\
      (forall r, h_nu o = Some r -> exists c, r = BufR c) /\
      exists a, init D (option_map (map (read_c h)) e) (option_map (map (read_c h)) b)
                  (option_map (map (read_r h)) t) (option_map (read_c h) env) (option_map (read_r h) nu) = Ok a /\
                same_sample (value h' o) a
  | (h', Raise x) =>
      (exists x, h' = h ++ x) /\
      init D (option_map (map (read_c h)) e) (option_map (map (read_c h)) b)
        (option_map (map (read_r h)) t) (option_map (read_c h) env) (option_map (read_r h) nu) = Raise x
  end.
Proof.
  intro L. cbn [names] in L.
  assert (Le : forall x, In x (flat_map names_c (given e)) -> x < length h) by (intros; apply L; rewrite !in_app_iff; auto).
  assert (Lb : forall x, In x (flat_map names_c (given b)) -> x < length h) by (intros; apply L; rewrite !in_app_iff; auto).
  assert (Lt : forall x, In x (flat_map ref_buffer (given t)) -> x < length h) by (intros; apply L; rewrite !in_app_iff; auto).
  assert (Lv : forall r x, env = Some r -> In x (names_c r) -> x < length h)
    by (intros r x -> H; apply L; rewrite !in_app_iff; auto).
  assert (Ln : forall r x, nu = Some r -> In x (ref_buffer r) -> x < length h)
    by (intros r x -> H; apply L; rewrite !in_app_iff; auto 6).
  clear L. unfold h_init, init.
  assert (Hx : exists x, h = h ++ x) by (exists []; now rewrite app_nil_r).
  set (env_r := match env with None => NumC (Some (d_eps_env D)) | Some e => e end).
  set (env_v := match option_map (read_c h) env with None => scalar (Some (d_eps_env D)) | Some e => e end).
  assert (Hev : env_v = read_c h env_r) by (unfold env_v, env_r; destruct env; reflexivity).
  assert (Lev : forall x, In x (names_c env_r) -> x < length h).
  { unfold env_r; destruct env as [r|]; cbn; [eauto|tauto]. }
  assert (Main : (exists es, e = Some es /\ b = None) \/ (exists bs, e = None /\ b = Some bs) ->
    match
      match h_set_t t h (mkH None None env_r None) with
      | (h1, _, Raise e0) => (h1, Raise e0)
      | (h1, o1, Ok _) =>
          match (match e, b with Some e0, _ => h_set_eps e0 h1 o1 | _, Some b0 => h_set_beta b0 h1 o1 | _, _ => (h1, o1, Ok tt) end) with
          | (h2, _, Raise e0) => (h2, Raise e0)
          | (h2, o2, Ok _) =>
              match nu with
              | None => (h2, Ok (mkH (h_t o2) (h_eps o2) (h_env o2) None))
              | Some v => (h2 ++ [ArrR (read_r h2 v)], Ok (mkH (h_t o2) (h_eps o2) (h_env o2) (Some (BufR (length h2)))))
              end
          end
      end
    with
    | (h', Ok o) =>
        (exists x, h' = h ++ x) /\ complete h' o /\ (forall x, In x (buffers_of o) -> length h <= x) /\
        (forall r, h_nu o = Some r -> exists c, r = BufR c) /\
        exists a, match set_t (option_map (map (read_r h)) t) (mkObj None None env_v None) with
                  | (_, Raise e) => Raise e
                  | (o1, Ok _) =>
                      match (match option_map (map (read_c h)) e, option_map (map (read_c h)) b with
                             | Some e, _ => set_eps e o1 | _, Some b => set_beta b o1 | _, _ => (o1, Ok tt) end) with
                      | (_, Raise e) => Raise e
                      | (o2, Ok _) => Ok (mkObj (o_t o2) (o_eps o2) (o_env o2) (option_map (read_r h) nu))
                      end
                  end = Ok a /\ same_sample (value h' o) a
    | (h', Raise x) =>
        (exists x, h' = h ++ x) /\
        match set_t (option_map (map (read_r h)) t) (mkObj None None env_v None) with
                  | (_, Raise e) => Raise e
                  | (o1, Ok _) =>
                      match (match option_map (map (read_c h)) e, option_map (map (read_c h)) b with
                             | Some e, _ => set_eps e o1 | _, Some b => set_beta b o1 | _, _ => (o1, Ok tt) end) with
                      | (_, Raise e) => Raise e
                      | (o2, Ok _) => Ok (mkObj (o_t o2) (o_eps o2) (o_env o2) (option_map (read_r h) nu))
                      end
                  end = Raise x
    end).
  2:{ destruct e as [es|], b as [bs|]; cbn [option_map].
      - split; trivial.
      - apply Main; left; eauto.
      - apply Main; right; eauto.
      - split; trivial. }
  intro Hcase.
  assert (R0 : in_range h (mkH None None env_r None)) by (repeat split; cbn; intros; discriminate).
  pose proof (set_t_refines h (mkH None None env_r None) t (mkObj None None env_v None) R0) as Q.
  unfold refines in Q.
  assert (Ft : forall h1 o1, h_set_t t h (mkH None None env_r None) = (h1, o1, Ok tt) ->
            exists tl, h1 = h ++ [StackR tl] /\ o1 = mkH (Some (length h)) None env_r None).
  { intros h1 o1. unfold h_set_t.
    destruct (match t with None => Ok (mkLayers [] []) | Some v => broadcast_arrays (map (read_r h) v) end) as [tl|e0];
      [|discriminate]. intros [= <- <- _]. eauto. }
  assert (Et : forall o1 r, set_t (option_map (map (read_r h)) t) (mkObj None None env_v None) = (o1, r) -> o_env o1 = env_v).
  { intros o1 r. unfold set_t.
    destruct (match option_map (map (read_r h)) t with None => Ok (mkLayers [] []) | Some v => broadcast_arrays v end);
      intros [= <- _]; reflexivity. }
  destruct (h_set_t t h (mkH None None env_r None)) as [[h1 o1] r1] eqn:Est.
  destruct (set_t (option_map (map (read_r h)) t) (mkObj None None env_v None)) as [a1 r1'] eqn:Esv.
  cbn [fst snd] in Q. destruct Q as (X1 & R1 & E1 & S1 & ->).
  { repeat split; reflexivity. }
  destruct r1' as [[]|x1]; [|split; trivial].
  destruct (Ft h1 o1 eq_refl) as (tl & -> & ->). clear Ft X1. specialize (Et _ _ eq_refl).
  set (h1 := h ++ [StackR tl]) in *. set (o1 := mkH (Some (length h)) None env_r None) in *.
  assert (Lh1 : length h1 = S (length h)) by (unfold h1; rewrite app_length; cbn; lia).
  assert (Q2 : exists c c', refines h1 o1 c c' /\
     (match e, b with Some e0, _ => h_set_eps e0 h1 o1 | _, Some b0 => h_set_beta b0 h1 o1 | _, _ => (h1, o1, Ok tt) end) = c /\
     (match option_map (map (read_c h)) e, option_map (map (read_c h)) b with
                             | Some e, _ => set_eps e a1 | _, Some b => set_beta b a1 | _, _ => (a1, Ok tt) end) = c' /\
     match c with (h2, o2, Ok _) => h_t o2 = Some (length h) /\ (exists k l, h_eps o2 = Some k /\ stack_c h2 k = Some l /\ S (length h) <= k) /\ h_nu o2 = None
                | _ => True end).
  { assert (FE : forall v h0 h2 o2, S (length h) <= length h0 -> h_set_eps_arrays v h0 o1 = (h2, o2, Ok tt) ->
       h_t o2 = Some (length h) /\ (exists k l, h_eps o2 = Some k /\ stack_c h2 k = Some l /\ S (length h) <= k) /\ h_nu o2 = None).
    { intros v h0 h2 o2 Hl. unfold h_set_eps_arrays. destruct (broadcast_arrays v) as [l|]; [|discriminate].
      intros [= <- <- _]. cbn. split; [reflexivity|split; [|reflexivity]].
      exists (length h0), l. split; [reflexivity|split; [|exact Hl]]. unfold stack_c; now rewrite nth_new. }
    destruct Hcase as [(es & -> & ->)|(bs & -> & ->)]; cbn [option_map].
    - exists (h_set_eps es h1 o1), (set_eps (map (read_c h) es) a1). split; [|repeat split].
      + cbn in Le. rewrite <- (map_read_c_old h [StackR tl] es Le). now apply set_eps_refines.
      + destruct (h_set_eps es h1 o1) as [[h2 o2] [[]|]] eqn:Eq; [|exact I].
        apply (FE (map (read_c h1) es) h1 h2 o2); [lia|exact Eq].
    - exists (h_set_beta bs h1 o1), (set_beta (map (read_c h) bs) a1). split; [|repeat split].
      + cbn in Lb. rewrite <- (map_read_c_old h [StackR tl] bs Lb). apply set_beta_refines; trivial.
        apply get_env_full; trivial. rewrite Et, Hev. cbn. symmetry. apply read_c_old, Lev.
      + destruct (h_set_beta bs h1 o1) as [[h2 o2] [[]|]] eqn:Eq; [|exact I].
        unfold h_set_beta in Eq.
        destruct (broadcast_arrays (map (read_c h1) bs)) as [beta|]; [|discriminate].
        destruct (get_eps_env (value h1 o1)) as [en|]; [|discriminate].
        destruct (imul_stack _ en) as [ep|]; [|discriminate].
        apply (FE (slices ep) (h1 ++ [StackC ep]) h2 o2); [rewrite app_length; cbn; lia|exact Eq]. }
  cbv beta iota. destruct Q2 as (c & c' & Q2 & EQ & EQ' & F2). unfold heap, hcall in *. rewrite EQ, EQ'; clear EQ EQ'. destruct c as [[h2 o2] r2], c' as [a2 r2'].
  unfold refines in Q2; cbn [fst snd] in Q2. destruct Q2 as ((x2 & ->) & R2 & E2 & S2 & ->).
  assert (X2 : exists x, h1 ++ x2 = h ++ x) by (unfold h1; rewrite <- app_assoc; eauto).
  destruct r2' as [[]|x2']; [|split; trivial].
  destruct F2 as (F1 & (k & l & F2 & F3 & F4) & F5).
  assert (K2 : complete (h1 ++ x2) o2).
  { split; [exact R2|]. split; [|eauto]. exists (length h), tl; split; [exact F1|].
    rewrite stack_r_old by lia. unfold stack_r, h1. now rewrite nth_new. }
  destruct nu as [v|]; cbn [option_map].
  - split; [|split; [|split; [|split]]].
    + destruct X2 as (x & ->). rewrite <- app_assoc. eauto.
    + pose proof (complete_old _ [ArrR (read_r (h1 ++ x2) v)] _ K2) as ((A & B & _) & Q1 & Q2).
      split; [|split; [exact Q1|exact Q2]]. repeat split; cbn; trivial.
      intros r c [= <-]; cbn; intros [<-|[]]. rewrite (app_length _ [_]); cbn; lia.
    + unfold buffers_of; cbn [h_t h_eps h_nu]. rewrite F1, F2. cbn. intros x [<-|[<-|[<-|[]]]]; try lia.
      rewrite app_length; lia.
    + cbn. intros r [= <-]; eauto.
    + eexists; split; [reflexivity|].
      pose proof (value_old _ [ArrR (read_r (h1 ++ x2) v)] _ R2) as V.
      destruct (same_trans _ _ _ V S2) as (V1 & V2 & _). repeat split; cbn.
      * exact V1.
      * exact V2.
      * rewrite nth_new. destruct X2 as (x & ->). rewrite read_r_old; [reflexivity|]. eauto.
  - split; [exact X2|split; [|split; [|split]]].
    + destruct K2 as ((A & B & _) & Q1 & Q2). split; [|split; [exact Q1|exact Q2]].
      repeat split; cbn; trivial. intros; discriminate.
    + unfold buffers_of; cbn [h_t h_eps h_nu]. rewrite F1, F2. cbn. intros x [<-|[<-|[]]]; lia.
    + cbn; intros; discriminate.
    + eexists; split; [reflexivity|]. destruct S2 as (V1 & V2 & _). repeat split; trivial.
Qed.

Lemma run_same x a b : same_sample a b -> o_eps a <> None ->
  same_sample (fst (run x a)) (fst (run x b)) /\ snd (run x a) = snd (run x b) /\ o_eps (fst (run x a)) <> None.
Proof.
  intros S N. pose proof S as (S1 & S2 & S3).
  assert (Epsc : forall v, same_sample (fst (set_eps v a)) (fst (set_eps v b)) /\
            snd (set_eps v a) = snd (set_eps v b) /\ o_eps (fst (set_eps v a)) <> None).
  { intro v. unfold set_eps. destruct (broadcast_arrays v) as [l|e]; cbn [fst snd].
    - assert (Q : same_sample (mkObj (o_t a) (Some l) (o_env a) (o_nu a)) (mkObj (o_t b) (Some l) (o_env b) (o_nu b)))
        by (repeat split; trivial).
      split; [exact Q|split; [now apply check_same|discriminate]].
    - auto. }
  destruct x as [v|v|v|v]; cbn [run].
  - unfold set_t. destruct (match v with None => _ | Some v => _ end) as [l|e]; cbn [fst snd].
    + assert (Q : same_sample (mkObj (Some l) (o_eps a) (o_env a) (o_nu a)) (mkObj (Some l) (o_eps b) (o_env b) (o_nu b)))
        by (repeat split; trivial).
      split; [exact Q|split; [now apply check_same|exact N]].
    + auto.
  - apply Epsc.
  - unfold set_beta. destruct (broadcast_arrays v) as [beta|e]; cbn [fst snd]; [|auto].
    assert (G : get_eps_env a = get_eps_env b).
    { unfold get_eps_env. rewrite <- S2. destruct (o_eps a); [reflexivity|congruence]. }
    rewrite G. destruct (get_eps_env b) as [env|e]; [|auto].
    match goal with |- context [imul_stack ?u env] => destruct (imul_stack u env) as [eps|e] end; [apply Epsc|auto].
  - unfold set_nu; cbn. repeat split; trivial.
Qed.
Lemma run_all_same l : forall a b, same_sample a b -> o_eps a <> None -> same_sample (run_all l a) (run_all l b).
Proof.
  induction l as [|x l IH]; intros a b S N; [exact S|]. cbn.
  destruct (run_same x a b S N) as (Q & _ & N'). apply IH; trivial.
Qed.
Lemma complete_eps h o : complete h o -> o_eps (value h o) <> None.
Proof. intros (_ & _ & (b & l & Hb & Hl)). cbn. rewrite Hb, Hl. discriminate. Qed.

(** updating one element *)
Lemma update_length {A} b (f : A -> A) l : length (update b f l) = length l.
Proof. revert b; induction l as [|d l IH]; intros [|b]; cbn; auto. Qed.
Lemma update_same {A} b (f : A -> A) l : nth_error (update b f l) b = option_map f (nth_error l b).
Proof. revert b; induction l as [|d l IH]; intros [|b]; cbn; auto. Qed.
Lemma update_other {A} b (f : A -> A) l c : c <> b -> nth_error (update b f l) c = nth_error l c.
Proof. revert b c; induction l as [|d l IH]; intros [|b] [|c] H; cbn; auto; congruence. Qed.
Lemma in_update {A} b (f : A -> A) l x : In x (update b f l) -> In x l \/ exists y, nth_error l b = Some y /\ x = f y.
Proof.
  revert b; induction l as [|d l IH]; intros [|b]; cbn; auto.
  - intros [<-|H]; [right; eauto|auto].
  - intros [<-|H]; [auto|]. destruct (IH b H) as [Q|Q]; auto.
Qed.

(** writing to a buffer *)
Definition write (s : stmt) : option (nat * (data -> data)) :=
  match s with
  | WriteC b i x => Some (b, write_c i x)
  | WriteR b i x => Some (b, write_r i x)
  | _ => None
  end.
Definition kind_kept (f : data -> data) : Prop :=
  forall d, match d, f d with
            | ArrC _, ArrC _ | ArrR _, ArrR _ => True
            | StackC l, StackC l' => lsh l' = lsh l /\ length (lay l') = length (lay l)
            | StackR l, StackR l' => lsh l' = lsh l /\ length (lay l') = length (lay l)
            | _, _ => False end.
Lemma put_stack_kept {A} i (x : A) l : lsh (put_stack i x l) = lsh l /\ length (lay (put_stack i x l)) = length (lay l).
Proof. unfold put_stack; cbn. rewrite map_length, combine_length, seq_length, Nat.min_id. auto. Qed.
Lemma write_kind s b f : write s = Some (b, f) -> kind_kept f.
Proof.
  destruct s; cbn; try discriminate; intros [= <- <-] [a|a|l|l]; cbn; trivial; split; trivial; apply put_stack_kept.
Qed.
Lemma write_mem D s b f st : write s = Some (b, f) ->
  fst (step D s st) = mkState (update b f (mem st)) (objs st) /\ snd (step D s st) = Ok tt.
Proof. destruct s; cbn; try discriminate; intros [= <- <-]; split; reflexivity. Qed.

Lemma stack_r_update h b f c : kind_kept f ->
  match stack_r h c, stack_r (update b f h) c with
  | Some l, Some l' => lsh l' = lsh l /\ length (lay l') = length (lay l)
  | None, None => True
  | _, _ => False end.
Proof.
  intro K. unfold stack_r. destruct (Nat.eq_dec c b) as [->|N].
  - rewrite update_same. destruct (nth_error h b) as [d|]; cbn; trivial.
    specialize (K d). destruct d, (f _); trivial; contradiction.
  - rewrite update_other by trivial. destruct (nth_error h c) as [[]|]; auto.
Qed.
Lemma stack_c_update h b f c : kind_kept f ->
  match stack_c h c, stack_c (update b f h) c with
  | Some l, Some l' => lsh l' = lsh l /\ length (lay l') = length (lay l)
  | None, None => True
  | _, _ => False end.
Proof.
  intro K. unfold stack_c. destruct (Nat.eq_dec c b) as [->|N].
  - rewrite update_same. destruct (nth_error h b) as [d|]; cbn; trivial.
    specialize (K d). destruct d, (f _); trivial; contradiction.
  - rewrite update_other by trivial. destruct (nth_error h c) as [[]|]; auto.
Qed.
Lemma complete_update h b f o : kind_kept f -> complete h o -> complete (update b f h) o.
Proof.
  intros K ((A & B & E) & (c & l & Hc & Hl) & (c' & l' & Hc' & Hl')). split; [|split].
  - repeat split; intros; rewrite update_length; eauto.
  - pose proof (stack_r_update h b f c K) as Q. rewrite Hl in Q.
    destruct (stack_r (update b f h) c) eqn:Z; [eauto|contradiction].
  - pose proof (stack_c_update h b f c' K) as Q. rewrite Hl' in Q.
    destruct (stack_c (update b f h) c') eqn:Z; [eauto|contradiction].
Qed.
Lemma value_update h b f o : ~ In b (buffers_of o) -> same_sample (value (update b f h) o) (value h o).
Proof.
  unfold buffers_of. rewrite !in_app_iff. intro H. unfold same_sample; cbn. repeat split.
  - destruct (h_t o) as [c|]; trivial. unfold stack_r. rewrite update_other; trivial. intros ->; apply H; left; left; trivial.
  - destruct (h_eps o) as [c|]; trivial. unfold stack_c. rewrite update_other; trivial.
    intros ->; apply H; right; left; left; trivial.
  - destruct (h_nu o) as [[x|c|c k]|]; trivial; cbn; rewrite update_other; trivial;
    intros ->; apply H; right; right; left; trivial.
Qed.

(** one assignment to object [k] *)
Lemma assign_cases k s h : assignment k s h <> [] ->
  exists a f, assignment k s h = [a] /\
   (forall D st, h = mem st -> step D s st = assign_to k f st) /\
   (forall o v, complete h o -> (forall b, In b (names s) -> b < length h) -> same_sample (value h o) v ->
       refines h o (f h o) (run a v) /\ keeps h (f h o)).
Proof.
  intro N.
  destruct s as [| | | | |k' v|k' v|k' v|k' v|]; cbn [assignment] in *; try (destruct (N eq_refl));
  (destruct (Nat.eqb_spec k' k) as [->|]; [|destruct (N eq_refl)]).
  - exists (SetT (option_map (map (read_r h)) v)), (h_set_t v). split; [reflexivity|split; [reflexivity|]].
    intros o a K _ S. split; [apply set_t_refines; trivial; apply K|now apply set_t_keeps].
  - exists (SetEps (map (read_c h) v)), (h_set_eps v). split; [reflexivity|split; [reflexivity|]].
    intros o a K _ S. split; [apply set_eps_refines; trivial; apply K|now apply set_eps_arrays_keeps].
  - exists (SetBeta (map (read_c h) v)), (h_set_beta v). split; [reflexivity|split; [reflexivity|]].
    intros o a K _ S. split; [apply set_beta_refines; trivial; [apply K|now apply get_env_complete]|now apply set_beta_keeps].
  - exists (SetNu (option_map (read_r h) v)), (h_set_nu v). split; [reflexivity|split; [reflexivity|]].
    intros o a K L S. assert (L' : forall r b, v = Some r -> In b (ref_buffer r) -> b < length h) by (intros r b -> H; apply L; exact H).
    split; [apply set_nu_refines; trivial; apply K|now apply set_nu_keeps].
Qed.
(** the object a statement assigns to *)
Definition target (s : stmt) : option nat :=
  match s with AssignT k _ | AssignEps k _ | AssignBeta k _ | AssignNu k _ => Some k | _ => None end.
Lemma target_assignment s k h : target s = Some k -> assignment k s h <> [].
Proof. destruct s; cbn; try discriminate; intros [= ->]; rewrite Nat.eqb_refl; discriminate. Qed.
Lemma no_target_assignment s k h : target s <> Some k -> assignment k s h = [].
Proof.
  destruct s as [| | | | |k' v|k' v|k' v|k' v|]; cbn; trivial; intro H;
  destruct (Nat.eqb_spec k' k) as [->|]; trivial; congruence.
Qed.

(** everything a statement other than a write does *)
Lemma step_cases D s st : wf st -> (forall b, In b (names s) -> b < length (mem st)) -> write s = None ->
  (exists x, mem (fst (step D s st)) = mem st ++ x) /\ wf (fst (step D s st)) /\
  (forall k, target s <> Some k -> k < length (objs st) -> nth_error (objs (fst (step D s st))) k = nth_error (objs st) k) /\
  (forall k o, target s = Some k -> nth_error (objs st) k = Some o ->
     exists a o', assignment k s (mem st) = [a] /\ nth_error (objs (fst (step D s st))) k = Some o' /\
        same_sample (value (mem (fst (step D s st))) o') (fst (run a (value (mem st) o))) /\
        snd (step D s st) = snd (run a (value (mem st) o))).
Proof.
  intros W L NW.
  destruct (target s) as [k0|] eqn:T.
  - destruct (assign_cases k0 s (mem st) (target_assignment _ _ _ T)) as (a & f & Ha & Hs & Hf).
    rewrite (Hs D st eq_refl). unfold assign_to. destruct (nth_error (objs st) k0) as [o|] eqn:Eo.
    + assert (K : complete (mem st) o) by (apply W, (nth_error_In _ _ Eo)).
      destruct (Hf o (value (mem st) o) K L (same_refl _)) as (Q & Q').
      destruct (f (mem st) o) as [[h' o'] r]. unfold refines in Q; unfold keeps in Q'.
      destruct Q as ((x & ->) & _ & _ & S & ->). cbn [fst snd mem objs].
      split; [eauto|split; [|split]].
      * intros o1 H. destruct (in_update _ _ _ _ H) as [H'|(y & _ & ->)]; [apply complete_old, W, H'|exact Q'].
      * intros k Hk _. apply update_other. congruence.
      * intros k o1 [= ->] H. rewrite Eo in H; injection H as <-. exists a, o'.
        rewrite update_same, Eo. auto.
    + cbn [fst snd]. split; [exists []; now rewrite app_nil_r|split; [exact W|split; [auto|]]].
      intros k o [= ->] H; congruence.
  - split; [|split; [|split; [|discriminate]]]; destruct s as [c|c|b i x|b i x|e b t env nu| | | | |k]; cbn in NW, T; try discriminate.
    + cbn; eauto.
    + cbn; eauto.
    + cbn [step]. pose proof (init_refines D e b t env nu (mem st) L) as Q.
      destruct (h_init D e b t env nu (mem st)) as [h' [o|x]]; apply Q.
    + cbn. destruct (nth_error (objs st) k); [|exists []; now rewrite app_nil_r].
      destruct (get_beta _); cbn; [eauto|exists []; now rewrite app_nil_r].
    + intros o H; cbn; apply complete_old, W, H.
    + intros o H; cbn; apply complete_old, W, H.
    + cbn [step]. pose proof (init_refines D e b t env nu (mem st) L) as Q.
      destruct (h_init D e b t env nu (mem st)) as [h' [o|x]].
      * destruct Q as ((x & ->) & K & _). intros o' H. cbn [fst objs mem] in *. apply in_app_iff in H.
        destruct H as [H|[<-|[]]]; [apply complete_old, W, H|exact K].
      * destruct Q as ((y & ->) & _). intros o' H. apply complete_old, W, H.
    + cbn. destruct (nth_error (objs st) k); [|exact W].
      destruct (get_beta _); cbn; [|exact W]. intros o H; apply complete_old, W, H.
    + auto.
    + auto.
    + cbn [step]. destruct (h_init D e b t env nu (mem st)) as [h' [o|x]]; cbn [fst objs]; auto.
      intros k _ Hk. now apply nth_error_app1.
    + cbn. destruct (nth_error (objs st) k); [|auto]. destruct (get_beta _); cbn; auto.
Qed.
Lemma step_wf D s st : wf st -> (forall b, In b (names s) -> b < length (mem st)) -> wf (fst (step D s st)).
Proof.
  intros W L. destruct (write s) as [[b f]|] eqn:E; [|now apply step_cases].
  destruct (write_mem D s b f st E) as (-> & _). intros o H. apply complete_update, W, H. exact (write_kind _ _ _ E).
Qed.
Lemma exec_wf D p : forall st, wf st -> legal D p st -> wf (exec D p st).
Proof. induction p as [|s p IH]; intros st W L; [exact W|]. cbn. apply IH; [apply step_wf; [exact W|apply L]|apply L]. Qed.
Lemma reachable_wf D st : reachable D st -> wf st.
Proof. intros (p & L & ->). apply exec_wf; trivial. intros o []. Qed.
Lemma value_of_nth st k o : value_of st k = Some o -> exists ho, nth_error (objs st) k = Some ho /\ o = value (mem st) ho.
Proof. unfold value_of. destruct (nth_error (objs st) k) as [ho|]; [|discriminate]. intros [= <-]; eauto. Qed.

Lemma step_value D s st k o : wf st -> (forall b, In b (names s) -> b < length (mem st)) -> value_of st k = Some o ->
  match s with WriteC b _ _ | WriteR b _ _ => ~ In b (buffers st k) | _ => True end ->
  exists o', value_of (fst (step D s st)) k = Some o' /\
             same_sample o' (run_all (assignment k s (mem st)) o) /\
             (forall a, assignment k s (mem st) = [a] -> snd (step D s st) = snd (run a o)).
Proof.
  intros W L V NW. destruct (value_of_nth _ _ _ V) as (ho & Ho & ->).
  destruct (write s) as [[b f]|] eqn:E.
  - destruct (write_mem D s b f st E) as (-> & _). unfold value_of; cbn. rewrite Ho. eexists; split; [reflexivity|].
    assert (Ha : assignment k s (mem st) = []) by (destruct s; cbn in E |- *; trivial; discriminate).
    rewrite Ha. split; [|discriminate]. cbn. apply value_update. unfold buffers in NW. rewrite Ho in NW.
    destruct s; cbn in E; try discriminate; injection E as <- _; exact NW.
  - destruct (step_cases D s st W L E) as ((x & Hx) & _ & Hother & Hsame).
    destruct (target s) as [k0|] eqn:T.
    + destruct (Nat.eq_dec k0 k) as [->|N].
      * destruct (Hsame k ho eq_refl Ho) as (a & o' & Ha & Hn & S & R).
        unfold value_of. rewrite Hn. eexists; split; [reflexivity|]. rewrite Ha. split; [exact S|intros a' [= <-]; exact R].
      * assert (Lk : k < length (objs st)) by (apply nth_error_Some; congruence).
        unfold value_of. rewrite Hother, Ho by (trivial; congruence). eexists; split; [reflexivity|].
        rewrite no_target_assignment by congruence. split; [|discriminate].
        rewrite Hx. apply value_old, (W ho), (nth_error_In _ _ Ho).
    + assert (Lk : k < length (objs st)) by (apply nth_error_Some; congruence).
      unfold value_of. rewrite Hother, Ho by (trivial; congruence). eexists; split; [reflexivity|].
      rewrite no_target_assignment by congruence. split; [|discriminate].
      rewrite Hx. apply value_old, (W ho), (nth_error_In _ _ Ho).
Qed.
Lemma value_of_eps st k o : wf st -> value_of st k = Some o -> o_eps o <> None.
Proof.
  intros W V. destruct (value_of_nth _ _ _ V) as (ho & Ho & ->). apply complete_eps, W, (nth_error_In _ _ Ho).
Qed.

Lemma run_all_app l l' o : run_all (l ++ l') o = run_all l' (run_all l o).
Proof. apply fold_left_app. Qed.

(** C81.  A sample keeps its own data: whatever a program does with its arrays
    and with other samples, as long as it does not write to the arrays that are
    this sample's attributes, the sample is what the assignments to its own
    attributes make of it. *)
Lemma C81_value_semantics_proof : forall D p st k o,
  reachable D st -> legal D p st -> never_writes_to D k p st -> value_of st k = Some o ->
  exists o', value_of (exec D p st) k = Some o' /\ same_sample o' (run_all (assignments D k p st) o).
Proof.
  intros D p st k o R L NW V. apply reachable_wf in R. revert st o R L NW V.
  induction p as [|s p IH]; intros st o W L NW V.
  - exists o; split; [exact V|apply same_refl].
  - destruct L as (L & L'), NW as (NW & NW').
    destruct (step_value D s st k o W L V NW) as (o1 & V1 & S1 & _).
    pose proof (step_wf D s st W L) as W1.
    destruct (IH _ o1 W1 L' NW' V1) as (o2 & V2 & S2).
    exists o2; split; [exact V2|]. cbn [assignments]. rewrite run_all_app.
    apply (same_trans _ _ _ S2). apply run_all_same; [exact S1|]. now apply (value_of_eps _ k _ W1).
Qed.

(** C81.  An assignment in memory returns or raises exactly as the assignment of
    the values. *)
Lemma C81_results_proof : forall D s st k o a,
  reachable D st -> legal D [s] st -> value_of st k = Some o -> assignment k s (mem st) = [a] ->
  snd (step D s st) = snd (run a o).
Proof.
  intros D s st k o a R (L & _) V Ha.
  destruct (step_value D s st k o (reachable_wf _ _ R) L V) as (_ & _ & _ & Q); [|now apply Q].
  destruct s; trivial; discriminate.
Qed.

(** C81.  A constructor call makes the sample that the contents of its arguments
    describe, in arrays that did not exist before, or raises what the values make
    it raise and leaves no sample. *)
Lemma C81_constructed_proof : forall D e b t env nu st,
  legal D [Make e b t env nu] st ->
  let read := read_c (mem st) in let read_real := read_r (mem st) in
  match init D (option_map (map read) e) (option_map (map read) b) (option_map (map read_real) t)
          (option_map read env) (option_map read_real nu) with
  | Ok a => snd (step D (Make e b t env nu) st) = Ok tt /\
            exists o, value_of (fst (step D (Make e b t env nu) st)) (length (objs st)) = Some o /\
                      same_sample o a /\ consistent o /\
                      forall c, In c (buffers (fst (step D (Make e b t env nu) st)) (length (objs st))) ->
                                length (mem st) <= c
  | Raise x => snd (step D (Make e b t env nu) st) = Raise x /\
               objs (fst (step D (Make e b t env nu) st)) = objs st
  end.
Proof.
  intros D e b t env nu st (L & _). cbv zeta. cbn [step].
  pose proof (init_refines D e b t env nu (mem st) L) as Q.
  destruct (h_init D e b t env nu (mem st)) as [h' [o|x]].
  - destruct Q as (_ & K & F & _ & a & Ei & S). rewrite Ei.
    split; [reflexivity|]. unfold value_of, buffers; cbn [fst objs mem].
    rewrite nth_error_app2, Nat.sub_diag by lia. cbn. eexists; split; [reflexivity|]. split; [exact S|split; [|exact F]].
    destruct (init_consistent _ _ _ _ _ _ _ Ei) as ((l & tl & H1 & H2 & H3) & _).
    destruct S as (S1 & S2 & _). exists l, tl. rewrite S1, S2. auto.
  - destruct Q as (_ & ->). split; reflexivity.
Qed.

(** C81.  No statement but a write changes the contents of an existing array:
    constructors and assignments leave their arguments alone, whether they return
    or raise. *)
Lemma C81_arguments_kept_proof : forall D s st,
  reachable D st -> legal D [s] st ->
  (forall b i x, s <> WriteC b i x) -> (forall b i x, s <> WriteR b i x) ->
  forall b, b < length (mem st) -> nth_error (mem (fst (step D s st))) b = nth_error (mem st) b.
Proof.
  intros D s st R (L & _) N1 N2 b Hb.
  assert (E : write s = None) by (destruct s; trivial; [destruct (N1 _ _ _ eq_refl)|destruct (N2 _ _ _ eq_refl)]).
  destruct (step_cases D s st (reachable_wf _ _ R) L E) as ((x & ->) & _). now apply nth_error_app1.
Qed.

(** the buffers an object can get in one statement *)
Definition fresh_of (h h' : heap) (o o' : hobj) : Prop :=
  forall b, In b (buffers_of o') -> In b (buffers_of o) \/ length h <= b.
Lemma set_eps_arrays_fresh v h o : match h_set_eps_arrays v h o with (h', o', _) => fresh_of h h' o o' end.
Proof.
  unfold h_set_eps_arrays. destruct (broadcast_arrays v) as [l|e]; unfold fresh_of, buffers_of; cbn; intros b.
  - rewrite !in_app_iff; cbn. intros [H|[<-|H]]; auto.
  - auto.
Qed.
Lemma assign_fresh k s h : plain s -> assignment k s h <> [] ->
  forall D st o, h = mem st -> nth_error (objs st) k = Some o ->
  exists o', objs (fst (step D s st)) = update k (fun _ => o') (objs st) /\ fresh_of h (mem (fst (step D s st))) o o'.
Proof.
  intros P N D st o -> Ho.
  destruct s as [| | | | |k' v|k' v|k' v|k' v|]; cbn [assignment] in *; try (destruct (N eq_refl));
  (destruct (Nat.eqb_spec k' k) as [->|]; [|destruct (N eq_refl)]); cbn [step]; unfold assign_to; rewrite Ho.
  - destruct (h_set_t v (mem st) o) as [[h' o'] r] eqn:E. exists o'; split; [reflexivity|].
    unfold h_set_t in E. destruct (match v with None => _ | Some v => _ end) as [l|x]; injection E as <- <- _;
      unfold fresh_of, buffers_of; cbn; intros b.
    + rewrite !in_app_iff; cbn. intros [<-|[H|H]]; auto.
    + auto.
  - unfold h_set_eps. pose proof (set_eps_arrays_fresh (map (read_c (mem st)) v) (mem st) o) as Q.
    destruct (h_set_eps_arrays _ _ _) as [[h' o'] r]. exists o'; split; [reflexivity|exact Q].
  - assert (Z : exists o', update k (fun _ => o) (objs st) = update k (fun _ => o') (objs st) /\ fresh_of (mem st) (mem st) o o').
    { exists o; split; [reflexivity|intros b; auto]. }
    unfold h_set_beta. destruct (broadcast_arrays _) as [beta|x]; [|exact Z].
    destruct (get_eps_env _) as [env|x]; [|exact Z]. destruct (imul_stack _ env) as [eps|x]; [|exact Z].
    pose proof (set_eps_arrays_fresh (slices eps) (mem st ++ [StackC eps]) o) as Q.
    destruct (h_set_eps_arrays _ _ _) as [[h' o'] r]. exists o'; split; [reflexivity|].
    intros b H. destruct (Q b H) as [H'|H']; [auto|]. rewrite app_length in H'. cbn [mem]. right; lia.
  - cbn. eexists; split; [reflexivity|]. intros b. unfold buffers_of; cbn. rewrite !in_app_iff.
    destruct v as [[x|c|c j]|]; cbn in P |- *; tauto.
Qed.
(** at most one object gets buffers, and those are new ones *)
Lemma step_buffers D s st : wf st -> (forall b, In b (names s) -> b < length (mem st)) -> plain s ->
  exists k0, (forall k, k <> k0 -> buffers (fst (step D s st)) k = buffers st k) /\
             (forall b, In b (buffers (fst (step D s st)) k0) -> In b (buffers st k0) \/ length (mem st) <= b).
Proof.
  intros W L P. unfold buffers.
  assert (Z : forall st', objs st' = objs st -> exists k0 : nat,
     (forall k, k <> k0 -> match nth_error (objs st') k with Some o => buffers_of o | None => [] end =
                           match nth_error (objs st) k with Some o => buffers_of o | None => [] end) /\
     (forall b, In b (match nth_error (objs st') k0 with Some o => buffers_of o | None => [] end) ->
                In b (match nth_error (objs st) k0 with Some o => buffers_of o | None => [] end) \/ length (mem st) <= b)).
  { intros st' ->. exists 0; auto. }
  destruct (target s) as [k0|] eqn:T.
  - destruct (nth_error (objs st) k0) as [o|] eqn:Ho.
    + destruct (assign_fresh k0 s (mem st) P (target_assignment _ _ _ T) D st o eq_refl Ho) as (o' & -> & F).
      exists k0. rewrite update_same, Ho. cbn. split; [|exact F]. intros k N. now rewrite update_other.
    + apply Z. destruct (assign_cases k0 s (mem st) (target_assignment _ _ _ T)) as (a & f & _ & Hs & _).
      rewrite (Hs D st eq_refl). unfold assign_to. now rewrite Ho.
  - destruct s as [c|c|b i x|b i x|e b t env nu| | | | |k]; cbn in T; try discriminate; try (apply Z; reflexivity).
    + cbn [step]. pose proof (init_refines D e b t env nu (mem st) L) as Q.
      destruct (h_init D e b t env nu (mem st)) as [h' [o|x]]; [|apply Z; reflexivity].
      destruct Q as (_ & _ & F & _). exists (length (objs st)); cbn. split.
      * intros k N. destruct (lt_dec k (length (objs st))) as [Hk|Hk].
        -- now rewrite nth_error_app1.
        -- assert (E1 : nth_error (objs st ++ [o]) k = None) by (apply nth_error_None; rewrite app_length; cbn; lia).
           assert (E2 : nth_error (objs st) k = None) by (apply nth_error_None; lia). now rewrite E1, E2.
      * rewrite nth_error_app2, Nat.sub_diag by lia. cbn. auto.
    + apply Z. cbn. destruct (nth_error (objs st) k); [|reflexivity]. destruct (get_beta _); reflexivity.
Qed.
Lemma buffers_range st k b : wf st -> In b (buffers st k) -> b < length (mem st).
Proof.
  intros W. unfold buffers. destruct (nth_error (objs st) k) as [o|] eqn:E; [|intros []].
  destruct (W o (nth_error_In _ _ E)) as ((A & B & Q) & _). unfold buffers_of. rewrite !in_app_iff.
  destruct (h_t o) as [c|] eqn:E1, (h_eps o) as [c'|] eqn:E2, (h_nu o) as [r|] eqn:E3; cbn;
  intros [H|[H|H]]; try destruct H as [<-|[]]; try contradiction; eauto.
Qed.
Lemma step_length D s st : wf st -> (forall b, In b (names s) -> b < length (mem st)) ->
  length (mem st) <= length (mem (fst (step D s st))).
Proof.
  intros W L. destruct (write s) as [[b f]|] eqn:E.
  - destruct (write_mem D s b f st E) as (-> & _). cbn. rewrite update_length. lia.
  - destruct (step_cases D s st W L E) as ((x & ->) & _). rewrite app_length; lia.
Qed.

(** C81.  In programs that assign no array to [nu_vac] after construction: an
    array that is no attribute of any sample never becomes one, and two samples
    never share an array. *)
Lemma C81_separate_proof : forall D p st,
  reachable D st -> legal D p st -> Forall plain p ->
  (forall b, b < length (mem st) -> (forall k, ~ In b (buffers st k)) ->
     forall k, ~ In b (buffers (exec D p st) k)) /\
  ((forall b k k', In b (buffers st k) -> In b (buffers st k') -> k = k') ->
   forall b k k', In b (buffers (exec D p st) k) -> In b (buffers (exec D p st) k') -> k = k').
Proof.
  intros D p st R L P. apply reachable_wf in R. revert st R L P.
  induction p as [|s p IH]; intros st W L P; [split; trivial|].
  destruct L as (L & L'). inversion P as [|s' p' P1 P2]; subst.
  pose proof (step_wf D s st W L) as W1. destruct (IH _ W1 L' P2) as (I1 & I2).
  destruct (step_buffers D s st W L P1) as (k0 & B1 & B2). pose proof (step_length D s st W L) as Len.
  assert (B : forall k b, In b (buffers (fst (step D s st)) k) -> In b (buffers st k) \/ k = k0 /\ length (mem st) <= b).
  { intros k b H. destruct (Nat.eq_dec k k0) as [->|N]; [destruct (B2 b H); auto|]. rewrite B1 in H; auto. }
  split.
  - intros b Hb Nb. apply I1; [lia|]. intros k H. destruct (B k b H) as [H'|(_ & H')]; [apply (Nb k H')|lia].
  - intros Dj. apply I2. intros b k k' H H'.
    destruct (B k b H) as [Q|(Q & Q1)], (B k' b H') as [Q'|(Q' & Q1')].
    + eauto.
    + pose proof (buffers_range st k b W Q); lia.
    + pose proof (buffers_range st k' b W Q'); lia.
    + congruence.
Qed.

Lemma put_stack_nth {A} i j (x d : A) l j' i' : j' < length (lay l) ->
  nth j' (lay (put_stack (i ++ [j]) x l)) (fun _ => d) i' =
  if Nat.eqb j' j then (if list_eq_dec Nat.eq_dec i' i then x else nth j' (lay l) (fun _ => d) i')
  else nth j' (lay l) (fun _ => d) i'.
Proof.
  intro H. unfold put_stack; cbn [lay]. rewrite last_last, removelast_last.
  set (g := fun (kf : nat * (list nat -> A)) (j0 : list nat) =>
     if Nat.eqb (fst kf) j then (if list_eq_dec Nat.eq_dec j0 i then x else snd kf j0) else snd kf j0).
  rewrite (nth_indep _ (fun _ => d) (g (0, fun _ => d))) by (rewrite map_length, combine_length, seq_length; lia).
  rewrite map_nth. rewrite (nth_indep _ (0, fun _ : list nat => d) (length (lay l) + 0, fun _ => d))
    by (rewrite combine_length, seq_length; lia).
  rewrite combine_nth by apply seq_length. unfold g; cbn [fst snd].
  rewrite seq_nth by exact H. rewrite Nat.add_0_l. reflexivity.
Qed.

(** C81.  Writing to the array that [eps_stack] (or [t_stack]) returns changes
    the written entry of the sample and nothing else. *)
Lemma C81_written_through_proof : forall D st k o ho b j i,
  reachable D st -> value_of st k = Some o -> nth_error (objs st) k = Some ho ->
  (forall x e, h_eps ho = Some b -> o_eps o = Some e -> j < length (lay e) ->
     exists e' v, let o' := mkObj (o_t o) (Some e') v (o_nu o) in
       value_of (fst (step D (WriteC b (i ++ [j]) x) st)) k = Some o' /\
       eps_shape o' = eps_shape o /\ length (lay e') = length (lay e) /\
       forall j' i', j' < length (lay e) ->
         nth j' (lay e') (fun _ => None) i' =
           if Nat.eqb j' j then (if list_eq_dec Nat.eq_dec i' i then x else nth j' (lay e) (fun _ => None) i')
           else nth j' (lay e) (fun _ => None) i') /\
  (forall x t, h_t ho = Some b -> o_t o = Some t -> j < length (lay t) -> ~ In b (match h_nu ho with Some r => ref_buffer r | None => [] end) ->
     exists t' v, let o' := mkObj (Some t') (o_eps o) v (o_nu o) in
       value_of (fst (step D (WriteR b (i ++ [j]) x) st)) k = Some o' /\
       t_shape o' = t_shape o /\ length (lay t') = length (lay t) /\
       forall j' i', j' < length (lay t) ->
         nth j' (lay t') (fun _ => 0%R) i' =
           if Nat.eqb j' j then (if list_eq_dec Nat.eq_dec i' i then x else nth j' (lay t) (fun _ => 0%R) i')
           else nth j' (lay t) (fun _ => 0%R) i').
Proof.
  intros D st k o ho b j i R V Ho. apply reachable_wf in R.
  unfold value_of in V. rewrite Ho in V. injection V as <-.
  destruct (R ho (nth_error_In _ _ Ho)) as (_ & (bt & lt & Ht & Hlt) & (be & le & He & Hle)).
  assert (Kt : nth_error (mem st) bt = Some (StackR lt)).
  { unfold stack_r in Hlt. destruct (nth_error (mem st) bt) as [[]|]; congruence. }
  assert (Ke : nth_error (mem st) be = Some (StackC le)).
  { unfold stack_c in Hle. destruct (nth_error (mem st) be) as [[]|]; congruence. }
  assert (Nb : bt <> be) by congruence.
  split.
  - intros x e Hb Oe Hj. rewrite He in Hb; injection Hb as <-.
    cbn in Oe. rewrite He, Hle in Oe. injection Oe as <-.
    exists (put_stack (i ++ [j]) x le). eexists. cbv zeta. cbn [step fst]. unfold value_of; cbn [objs mem]. rewrite Ho.
    split; [|split; [|split]].
    + f_equal. unfold value; cbn. rewrite He, Ht. f_equal.
      * unfold stack_r. now rewrite update_other.
      * unfold stack_c. now rewrite update_same, Ke.
      * destruct (h_nu ho) as [[y|c|c q]|]; trivial; cbn; f_equal;
        (destruct (Nat.eq_dec c be) as [->|N]; [rewrite update_same, Ke; reflexivity|now rewrite update_other]).
    + unfold eps_shape; cbn. rewrite He, Hle. reflexivity.
    + apply put_stack_kept.
    + intros j' i' H'. now apply put_stack_nth.
  - intros x t Hb Ot Hj Nn. rewrite Ht in Hb; injection Hb as <-.
    cbn in Ot. rewrite Ht, Hlt in Ot. injection Ot as <-.
    exists (put_stack (i ++ [j]) x lt). eexists. cbv zeta. cbn [step fst]. unfold value_of; cbn [objs mem]. rewrite Ho.
    split; [|split; [|split]].
    + f_equal. unfold value; cbn. rewrite He, Ht. f_equal.
      * unfold stack_r. now rewrite update_same, Kt.
      * unfold stack_c. rewrite update_other; congruence.
      * destruct (h_nu ho) as [[y|c|c q]|]; trivial; cbn in Nn |- *; f_equal; rewrite update_other; trivial; intros ->; tauto.
    + unfold t_shape; cbn. rewrite Ht, Hlt. reflexivity.
    + apply put_stack_kept.
    + intros j' i' H'. now apply put_stack_nth.
Qed.

Lemma run_consistent a o o' : consistent o -> run a o = (o', Ok tt) -> consistent o' /\ get_n_layers o' = get_n_layers o.
Proof.
  intros Hc Hr. destruct (run_cases a o (consistent_assigned _ Hc) _ _ Hr) as [A [B|[B|B]]].
  - destruct B as [_ [e B]]. discriminate.
  - destruct B as (B & _ & _ & X). pose proof (checked_consistent _ A (eq_sym B)) as Hc2. split; [exact Hc2|].
    destruct Hc as (e & t' & Ee & Et & L & _). destruct Hc2 as (e2 & t2 & Ee2 & Et2 & L2 & _).
    unfold get_n_layers. rewrite Ee, Ee2. f_equal.
    destruct X as [(t3 & _ & X)|(e3 & _ & X)].
    + assert (e2 = e) by congruence. subst; reflexivity.
    + assert (t2 = t') by congruence. subst; lia.
  - destruct B as (v & _ & _ & ->). split; [|reflexivity].
    destruct Hc as (e & t' & Ee & Et & L & Lt). exists e, t'. auto.
Qed.
Lemma same_consistent a b : same_sample a b -> consistent b -> consistent a /\ get_n_layers a = get_n_layers b.
Proof.
  intros (S1 & S2 & _) (e & t & He & Ht & Q). split; [exists e, t; rewrite S1, S2; auto|].
  unfold get_n_layers. now rewrite S2.
Qed.

(** C81.  No program makes a sample inconsistent or changes its number of layers
    without seeing an exception, even one that writes to all arrays it can reach. *)
Lemma C81_consistent_proof : forall D p st k o,
  reachable D st -> legal D p st -> assigns_normally D k p st -> value_of st k = Some o -> consistent o ->
  exists o', value_of (exec D p st) k = Some o' /\ consistent o' /\ get_n_layers o' = get_n_layers o.
Proof.
  intros D p st k o R L N V Hc. apply reachable_wf in R. revert st o R L N V Hc.
  induction p as [|s p IH]; intros st o W L N V Hc; [eauto|].
  destruct L as (L & L'), N as (N & N'). pose proof (step_wf D s st W L) as W1.
  assert (Q : exists o1, value_of (fst (step D s st)) k = Some o1 /\ consistent o1 /\ get_n_layers o1 = get_n_layers o).
  { destruct (write s) as [[b f]|] eqn:E.
    - pose proof (write_kind _ _ _ E) as K. destruct (write_mem D s b f st E) as (-> & _).
      destruct (value_of_nth _ _ _ V) as (ho & Ho & ->). unfold value_of; cbn [objs mem]. rewrite Ho.
      eexists; split; [reflexivity|].
      destruct Hc as (e & t & He & Ht & Hl & Hs). cbn in He, Ht.
      destruct (h_eps ho) as [be|] eqn:Ee; [|discriminate]. destruct (h_t ho) as [bt|] eqn:Et; [|discriminate].
      pose proof (stack_c_update (mem st) b f be K) as Q1. pose proof (stack_r_update (mem st) b f bt K) as Q2.
      rewrite He in Q1. rewrite Ht in Q2.
      destruct (stack_c (update b f (mem st)) be) as [e'|] eqn:E1; [|contradiction].
      destruct (stack_r (update b f (mem st)) bt) as [t'|] eqn:E2; [|contradiction].
      destruct Q1 as (Q1 & Q1'), Q2 as (Q2 & Q2'). split.
      + exists e', t'. cbn. rewrite Ee, Et, E1, E2. repeat split; [lia|].
        intro Z. rewrite Q2. apply Hs. apply length_zero_iff_nil. rewrite <- Q2', Z. reflexivity.
      + unfold get_n_layers; cbn. rewrite Ee, E1, He. now rewrite Q1'.
    - destruct (step_value D s st k o W L V) as (o1 & V1 & S1 & R1).
      { destruct s; trivial; discriminate. }
      exists o1; split; [exact V1|].
      destruct (assignment k s (mem st)) as [|a l] eqn:Ea; [now apply same_consistent|].
      assert (l = []).
      { destruct s; cbn in Ea; try discriminate; destruct (Nat.eqb _ k); congruence. }
      subst l. cbn in S1. specialize (R1 a eq_refl). rewrite N in R1 by discriminate.
      destruct (run a o) as [o2 r] eqn:Er. cbn in S1, R1. subst r.
      destruct (run_consistent a o o2 Hc Er) as (C1 & C2).
      destruct (same_consistent _ _ S1 C1) as (C3 & C4). split; [exact C3|congruence]. }
  destruct Q as (o1 & V1 & C1 & G1). destruct (IH _ o1 W1 L' N' V1 C1) as (o2 & V2 & C2 & G2).
  exists o2. split; [exact V2|split; [exact C2|congruence]].
Qed.

(** C81.  Reading [beta_stack] makes an array that belongs to no sample: writing
    to it changes no sample. *)
Lemma C81_beta_written_proof : forall D st k i x,
  reachable D st -> snd (step D (ReadBeta k) st) = Ok tt -> k < length (objs st) ->
  let st' := fst (step D (ReadBeta k) st) in
  length (mem st') = S (length (mem st)) /\
  forall k' o, value_of st k' = Some o ->
    exists o', value_of (fst (step D (WriteC (length (mem st)) i x) st')) k' = Some o' /\ same_sample o' o.
Proof.
  intros D st k i x R Hok Hk. apply reachable_wf in R. cbn [step] in Hok |- *.
  destruct (nth_error (objs st) k) as [ho|] eqn:Ho; [|apply nth_error_None in Ho; lia].
  destruct (get_beta (value (mem st) ho)) as [b|e]; [|discriminate]. cbv zeta; cbn [fst mem objs].
  split; [rewrite app_length; cbn; lia|].
  intros k' o V. destruct (value_of_nth _ _ _ V) as (ho' & Ho' & ->). unfold value_of; cbn [objs mem]. rewrite Ho'.
  eexists; split; [reflexivity|]. apply (same_trans _ (value (mem st ++ [StackC b]) ho')).
  - apply value_update. intro H. pose proof (buffers_range st k' (length (mem st)) R) as Q.
    unfold buffers in Q. rewrite Ho' in Q. specialize (Q H). lia.
  - apply value_old, (R ho'), (nth_error_In _ _ Ho').
Qed.

(** C81, refuted without the restriction to writes to other arrays: [nu_vac] is
    copied by the constructor but not by assignment.  After [s.nu_vac = a], a
    write to the program's own array [a] changes the sample, without assignment to
    it. *)
Lemma C81_nu_vac_shared_refuted_proof :
  ~ (forall D p k o b i x, legal D p nothing -> value_of (exec D p nothing) k = Some o ->
       (exists a p1 p2, p = p1 ++ NewR a :: p2 /\ b = length (mem (exec D p1 nothing))) ->
       exists o', value_of (exec D (p ++ [WriteR b i x]) nothing) k = Some o' /\ same_sample o' o).
Proof.
  intro H.
  set (p := [NewR (scalar 1%R); Make (Some [NumC (rc 1); NumC (rc 2)]) None None None None; AssignNu 0 (Some (BufR 0))]).
  destruct (H defaults0 p 0 (mkObj (Some (mkLayers [] [])) (Some (mkLayers [] [fun _ => rc 1; fun _ => rc 2]))
     (scalar (Some (d_eps_env defaults0))) (Some (scalar 1%R))) 0 [] 2%R) as (o' & V & (_ & _ & S)).
  - cbn. repeat split; intros b; cbn; try tauto. intros [<-|[]]; lia.
  - reflexivity.
  - exists (scalar 1%R), [], (tl p). split; reflexivity.
  - cbn in V. injection V as <-. cbn in S. injection S as S.
    pose proof (f_equal (fun f => f []) S) as Z. cbn in Z. lra.
Qed.

(** C81, concrete case: a sample made from an array, the array overwritten
    afterwards; a second sample made from the first one's [eps_stack], whose
    permittivity is then changed in place. *)
Lemma C81_example_proof :
  let p := [NewC (scalar (rc 2)); Make (Some [NumC (rc 1); BufC 0]) None None None (Some (NumR 1000%R));
            WriteC 0 [] (rc 7);
            Make (Some [RowC 2 0; RowC 2 1]) None None None None;
            WriteC 2 [1] (rc 5)] in
  legal defaults0 p nothing /\ Forall plain p /\
  (exists o, value_of (exec defaults0 p nothing) 0 = Some o /\ eps_stack (sample_at o []) = [rc 1; rc 5] /\
             nu_vac (sample_at o []) = Some 1000%R) /\
  (exists o, value_of (exec defaults0 p nothing) 1 = Some o /\ eps_stack (sample_at o []) = [rc 1; rc 2]).
Proof.
  cbv zeta. split; [|split; [|split]].
  - cbn. repeat split; intros b; cbn; try tauto; intuition lia.
  - repeat constructor.
  - eexists; split; [reflexivity|]. split; reflexivity.
  - eexists; split; [reflexivity|]. reflexivity.
Qed.
