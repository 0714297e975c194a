(** * Proofs: the cached quadrature rule (C92) *)
From Coq Require Import String Reals Lra Lia ZArith List Bool.
From Coquelicot Require Import Complex.
From Verif Require Import Num NumLemmas ModelBase ModelSample ModelTip ModelCache SpecCache.
Import ListNotations.
Open Scope R_scope.

Lemma key_eq_spec a b : key_eq a b = true <-> a = b.
Proof.
  destruct a as [n|c], b as [m|d]; cbn; try (split; congruence).
  - rewrite Z.eqb_eq. split; congruence.
  - destruct (Ceq_dec c d); split; congruence.
Qed.
Lemma key_eq_refl a : key_eq a a = true.
Proof. now apply key_eq_spec. Qed.

Section Cache.
  Variable rule : laggauss_t.
  Notation ask v := (cached_laggauss rule v).
  (** the result of asking for [n] nodes without cache *)
  Definition nodes (n : nat) : res (list (R * R)) :=
    if Nat.eqb n 0 then Raise (ValueError msg_laggauss) else Ok (rule n).

  (** asking twice changes nothing *)
  Lemma ask_twice v c : ask v (snd (ask v c)) = ask v c.
  Proof.
    unfold cached_laggauss. destruct (make_key v) as [k|] eqn:K; [|reflexivity].
    destruct (find (fun e => key_eq k (fst e)) (entries c)) as [e|] eqn:F.
    - cbn [snd]. now rewrite F.
    - destruct (np_laggauss rule v) as [r|x] eqn:N.
      + cbn [snd entries find fst]. rewrite key_eq_refl. reflexivity.
      + cbn [snd]. now rewrite F, ?N.
  Qed.

  (** [m] asks for [v] at most, and gives [P n] when [n] nodes come back *)
  Definition det {A} (v : pyarg) (m : act A) (P : nat -> res A) : Prop :=
    forall c, (forall n, fst (ask v c) = nodes n -> fst (m c) = P n) /\
              (forall c', fst (ask v c') = fst (ask v c) -> fst (m c') = fst (m c)) /\
              (snd (m c) = c \/ snd (m c) = snd (ask v c)).
  Lemma det_pure {A} v (r : res A) : det v (pure r) (fun _ => r).
  Proof. intro c. unfold pure. cbn. split; [reflexivity|]. split; [reflexivity|now left]. Qed.
  Lemma det_ask v : det v (ask v) nodes.
  Proof. intro c. split; [tauto|]. split; [tauto|now right]. Qed.
  Lemma ask_after v c c1 : c1 = c \/ c1 = snd (ask v c) -> ask v c1 = (fst (ask v c), snd (ask v c1)) /\ (snd (ask v c1) = snd (ask v c)).
  Proof.
    intros [->| ->].
    - destruct (ask v c); split; reflexivity.
    - rewrite ask_twice. destruct (ask v c); split; reflexivity.
  Qed.
  Lemma det_bind {A B} v (m : act A) (k : A -> act B) P Q :
    det v m P -> (forall a, det v (k a) (Q a)) -> det v (abind m k) (fun n => let! a := P n in Q a n).
  Proof.
    intros Hm Hk c. destruct (Hm c) as (H1 & H2 & H3). unfold abind.
    destruct (m c) as [r c1] eqn:E. cbn [fst snd] in *.
    assert (S1 : fst (ask v c1) = fst (ask v c)).
    { destruct (ask_after v c c1 H3) as [X _]. now rewrite X. }
    assert (S2 : snd (ask v c1) = snd (ask v c)) by now apply (ask_after v c c1 H3).
    split; [|split].
    - intros n Hn. rewrite <- (H1 n Hn). destruct r as [a|e]; [|reflexivity]. cbn [rbind].
      destruct (Hk a c1) as (K1 & _). apply K1. now rewrite S1.
    - intros c' Hc'. specialize (H2 c' Hc'). destruct (Hm c') as (_ & _ & H3').
      destruct (m c') as [r' c1']. cbn [fst snd] in *. subst r'. destruct r as [a|e]; [|reflexivity].
      destruct (Hk a c1) as (_ & K2 & _). apply K2.
      assert (S1' : fst (ask v c1') = fst (ask v c')) by (destruct (ask_after v c' c1' H3') as [X _]; now rewrite X).
      congruence.
    - destruct r as [a|e]; [|exact H3]. destruct (Hk a c1) as (_ & _ & [K3|K3]).
      + rewrite K3. exact H3.
      + rewrite K3, S2. now right.
  Qed.
  Lemma det_ext {A} v (m : act A) P Q : det v m P -> (forall n, P n = Q n) -> det v m Q.
  Proof.
    intros H E c. destruct (H c) as (H1 & H2 & H3). split; [|split; assumption].
    intros n Hn. rewrite <- E. now apply H1.
  Qed.
  Lemma det_map {A B} v (f : A -> act B) P l :
    (forall a, det v (f a) (P a)) -> det v (mapA f l) (fun n => mapM (fun a => P a n) l).
  Proof.
    intro H. induction l as [|a l IH]; [apply det_pure|]. cbn [mapA mapM].
    apply (det_bind v (f a) _ (P a) (fun b n => let! bs := mapM (fun a0 => P a0 n) l in Ok (b :: bs))); [apply H|].
    intro b. apply (det_bind v (mapA f l) _ _ (fun bs _ => Ok (b :: bs))); [exact IH|]. intro bs. apply det_pure.
  Qed.

  Lemma sampled_nodes s z n :
    sampled_beta rule s z n = let! l := nodes n in let! _ := refl_coef_qs s z in
      mapM (fun xw => let! b := refl_coef_qs s (rr (fst xw) / (rr 2 * z))%rv in Ok (fst xw, snd xw, b)) l.
  Proof. unfold sampled_beta, nodes. destruct (Nat.eqb n 0); reflexivity. Qed.
  Lemma det_sampled v s z : det v (c_sampled_beta rule s z v) (sampled_beta rule s z).
  Proof.
    unfold c_sampled_beta. eapply det_ext; [apply det_bind; [apply det_ask|intro a; apply det_pure]|].
    intro n. symmetry. apply sampled_nodes.
  Qed.
  Lemma rbind_assoc {A B E} (m : res A) (f : A -> res B) (g : B -> res E) :
    (let! b := (let! a := m in f a) in g b) = let! a := m in let! b := f a in g b.
  Proof. now destruct m. Qed.
  Lemma rbind_ext {A B} (m : res A) (f g : A -> res B) : (forall a, f a = g a) -> rbind m f = rbind m g.
  Proof. intro H. destruct m; cbn; [apply H|reflexivity]. Qed.
  Section Fixed.
    Variables (D : Defaults) (d : pyarg) (o : option pyarg).
    Let v := dflt d o.
    Lemma det_above s z : det v (c_refl_coef_qs_above_surf rule d s z o) (fun n => refl_coef_qs_above_surf rule D s z (Some n)).
    Proof. apply det_bind; [apply det_sampled|intro a; apply det_pure]. Qed.
    Lemma det_surf s z : det v (c_surf_pot_and_field rule d s z o) (fun n => surf_pot_and_field rule D s z (Some n)).
    Proof. unfold c_surf_pot_and_field, surf_pot_and_field. cbn [dflt]. apply det_bind; [apply det_sampled|intro a; apply det_pure]. Qed.
    Lemma det_image s z : det v (c_image_depth_and_charge rule d s z o) (fun n => image_depth_and_charge rule D s z (Some n)).
    Proof. unfold c_image_depth_and_charge, image_depth_and_charge. apply det_bind; [apply det_surf|intro a; apply det_pure]. Qed.
    Lemma det_eff_pol s z r L g d0 d1 da m :
      det v (c_fdm_eff_pol rule D d s z r L g d0 d1 da o m) (fun n => fdm_eff_pol rule D s z r L g d0 d1 da (Some n) m).
    Proof.
      unfold c_fdm_eff_pol, fdm_eff_pol. destruct (fdm_defaults D r L g d0 d1 da) as [[[[[r' L'] g'] d0'] d1'] da']. cbv zeta.
      apply (det_bind v _ _ (fun n => _) (fun bf _ => match bf with (b0, b1, f0, f1) => _ end)).
      - destruct (String.eqb _ "bulk"); [apply det_pure|].
        destruct (String.eqb _ "multi").
        + apply (det_bind v _ _ (fun n => _) (fun i0 n => _)); [apply det_image|]. intro i0.
          apply (det_bind v _ _ (fun n => _) (fun i1 n => _)); [apply det_image|]. intro i1. apply det_pure.
        + destruct (String.eqb _ "Q_ave"); [|apply det_pure].
          apply (det_bind v _ _ (fun n => _) (fun b n => _)); [apply det_above|]. intro b. apply det_pure.
      - intros [[[b0 b1] f0] f1]. apply det_pure.
    Qed.
    Lemma det_demod (f : R -> act CV) (P : R -> nat -> res CV) x a n N :
      (forall x, det v (f x) (P x)) -> det v (c_demod D f x a n N) (fun k => demod D (fun x => P x k) x a n N).
    Proof.
      intro H. unfold c_demod, demod. cbv zeta.
      apply (det_bind v _ _ (fun n => _) (fun _ n => _)); [apply H|]. intros _.
      apply (det_bind v _ _ (fun n => _) (fun fs n => _)); [|intro fs; apply det_pure].
      apply (det_map v _ (fun theta k => P (x + cos theta * a) k)). intro t. apply H.
    Qed.
    Lemma det_eff_pol_n s A n z N r L g d0 d1 da m :
      det v (c_fdm_eff_pol_n rule D d s A n z N r L g d0 d1 da o m)
            (fun k => fdm_eff_pol_n rule D s A n z N r L g d0 d1 da (Some k) m).
    Proof. unfold c_fdm_eff_pol_n, fdm_eff_pol_n. apply det_demod. intro x. apply det_eff_pol. Qed.
    Lemma det_taylor s A n z r L g d0 d1 da m N J :
      det v (c_fdm_eff_pol_n_taylor rule D d s A n z r L g d0 d1 da o m N J)
            (fun k => fdm_eff_pol_n_taylor rule D s A n z r L g d0 d1 da (Some k) m N J).
    Proof.
      unfold c_fdm_eff_pol_n_taylor, fdm_eff_pol_n_taylor. destruct (fdm_defaults D r L g d0 d1 da) as [[[[[r' L'] g'] d0'] d1'] da']. cbv zeta.
      apply (det_bind v _ _ (fun n => _) (fun b n => _)).
      - destruct (String.eqb _ "bulk"); [apply det_pure|]. destruct (String.eqb _ "Q_ave"); [apply det_above|apply det_pure].
      - intro b. apply det_pure.
    Qed.
  End Fixed.

  (** every statement *)
  Lemma step_det x st v : order_of x st = Some v ->
    (forall n, fst (ask v (s_cache st)) = nodes n -> snd (step rule x st) = uncached rule (s_defaults st) x n) /\
    (forall c', fst (ask v c') = fst (ask v (s_cache st)) ->
       snd (step rule x (mkSession (s_defaults st) (s_n_lag st) c')) = snd (step rule x st)) /\
    (s_cache (fst (step rule x st)) = s_cache st \/ s_cache (fst (step rule x st)) = snd (ask v (s_cache st))).
  Proof.
    intro Hv.
    assert (G : forall A (f : A -> value) (m : act A) P, det v m P -> 
      step rule x st = calling f m st -> (forall n, uncached rule (s_defaults st) x n = let! a := P n in Ok (f a)) ->
      (forall c', step rule x (mkSession (s_defaults st) (s_n_lag st) c') = calling f m (mkSession (s_defaults st) (s_n_lag st) c')) ->
      (forall n, fst (ask v (s_cache st)) = nodes n -> snd (step rule x st) = uncached rule (s_defaults st) x n) /\
      (forall c', fst (ask v c') = fst (ask v (s_cache st)) ->
         snd (step rule x (mkSession (s_defaults st) (s_n_lag st) c')) = snd (step rule x st)) /\
      (s_cache (fst (step rule x st)) = s_cache st \/ s_cache (fst (step rule x st)) = snd (ask v (s_cache st)))).
    { intros A f m P Hm E U E'. destruct (Hm (s_cache st)) as (H1 & H2 & H3). rewrite E. unfold calling in *. 
      destruct (m (s_cache st)) as [r c1] eqn:M. cbn [fst snd s_cache] in *. split; [|split].
      - intros n Hn. rewrite U, <- (H1 n Hn). reflexivity.
      - intros c' Hc'. rewrite E'. cbn [s_cache]. specialize (H2 c' Hc'). destruct (m c') as [r' c1']. cbn in *. now subst r'.
      - exact H3. }
    unfold order_of in Hv. destruct st as [D d c]. cbn [s_defaults s_n_lag s_cache] in *.
    destruct x; cbn [n_lag_argument] in Hv; try discriminate;
      match type of Hv with match ?o with _ => _ end = _ => assert (Ev : v = dflt d o) by (destruct o; cbn; congruence) end; subst v;
      (eapply G; [| reflexivity | intro n'; reflexivity | intro c'; reflexivity]).
    - apply det_above.
    - apply det_surf.
    - apply det_image.
    - apply det_eff_pol.
    - apply det_eff_pol_n.
    - apply det_taylor.
  Qed.
  Lemma step_other x st : order_of x st = None -> s_cache (fst (step rule x st)) = s_cache st.
  Proof. unfold order_of. destruct x; cbn [n_lag_argument]; try discriminate; try reflexivity; destruct n_lag; discriminate. Qed.

  (** every entry of the cache is right, and was asked for *)
  Definition sound (asked : list pyarg) (c : cache) : Prop :=
    forall k r, In (k, r) (entries c) ->
      exists n, (0 < n)%Z /\ r = rule (Z.to_nat n) /\
        ((k = KInt n /\ In (PyInt n) asked) \/ (k = KTuple (RtoC (IZR n)) /\ In (PyIndex n) asked)).
  Lemma find_key k (l : list (key * list (R * R))) e : find (fun e => key_eq k (fst e)) l = Some e -> In (k, snd e) l.
  Proof.
    intro F. apply find_some in F. destruct F as [I E]. apply key_eq_spec in E. subst k. now destruct e.
  Qed.
  Lemma sound_ask asked v c : sound asked c -> sound (asked ++ [v]) (snd (ask v c)).
  Proof.
    intro S.
    assert (W : sound (asked ++ [v]) c).
    { intros k r H. destruct (S k r H) as (n & H1 & H2 & H3). exists n. split; [exact H1|]. split; [exact H2|].
      destruct H3 as [[E I]|[E I]]; [left|right]; (split; [exact E|apply in_or_app; now left]). }
    unfold cached_laggauss. destruct (make_key v) as [k|] eqn:K; [|exact W].
    destruct (find _ _) as [e|]; [exact W|]. destruct (np_laggauss rule v) as [r|e] eqn:N; [|exact W].
    cbn [snd]. intros k' r' [E|H]; [|now apply W]. injection E as -> ->.
    unfold np_laggauss in N. destruct v as [n|n| | | |]; cbn in N, K; try discriminate; destruct (Z.leb_spec n 0); try discriminate; exists n; (split; [assumption|]).
    - split; [congruence|]. left. split; [congruence|]. apply in_or_app. right. now left.
    - split; [congruence|]. right. split; [congruence|]. apply in_or_app. right. now left.
  Qed.
  Lemma sound_more asked more c : sound asked c -> sound (asked ++ more) c.
  Proof.
    intros S k r H. destruct (S k r H) as (n & H1 & H2 & H3). exists n. split; [exact H1|]. split; [exact H2|].
    destruct H3 as [[E I]|[E I]]; [left|right]; (split; [exact E|apply in_or_app; now left]).
  Qed.
  Lemma sound_exec p : forall st asked, sound asked (s_cache st) -> sound (asked ++ orders rule p st) (s_cache (exec rule p st)).
  Proof.
    induction p as [|x p IH]; intros st asked S; cbn [orders exec].
    - now rewrite app_nil_r.
    - rewrite app_assoc. apply IH. destruct (order_of x st) as [v|] eqn:O.
      + destruct (step_det x st v O) as (_ & _ & [E|E]); rewrite E; [now apply sound_more|now apply sound_ask].
      + rewrite app_nil_r, (step_other x st O). exact S.
  Qed.
  Lemma sound_fresh D d p : sound (orders rule p (fresh D d)) (s_cache (exec rule p (fresh D d))).
  Proof. apply (sound_exec p (fresh D d) []). intros k r []. Qed.

  Lemma nodes_pos n : (0 < n)%Z -> nodes (Z.to_nat n) = Ok (rule (Z.to_nat n)).
  Proof. intro H. unfold nodes. destruct (Nat.eqb_spec (Z.to_nat n) 0); [lia|reflexivity]. Qed.
  Lemma np_index v n : py_index v = Some n -> np_laggauss rule v = nodes (Z.to_nat n).
  Proof.
    intro H. unfold np_laggauss. rewrite H. destruct (Z.leb_spec n 0).
    - unfold nodes. destruct (Nat.eqb_spec (Z.to_nat n) 0); [reflexivity|lia].
    - now rewrite nodes_pos.
  Qed.
  Lemma ask_index asked v n c : sound asked c -> py_index v = Some n -> fst (ask v c) = nodes (Z.to_nat n).
  Proof.
    intros S H. unfold cached_laggauss.
    destruct (make_key v) as [k|] eqn:K; [|destruct v; discriminate].
    destruct (find _ _) as [e|] eqn:F.
    - apply find_key in F. destruct (S _ _ F) as (m & M1 & M2 & M3). cbn [fst]. rewrite M2.
      assert (n = m).
      { destruct v as [a|a| | | |]; cbn in H, K; try discriminate; injection H as ->; injection K as <-; destruct M3 as [[E _]|[E _]]; try discriminate.
        - congruence.
        - injection E as E. now apply eq_IZR. }
      subst m. now rewrite nodes_pos.
    - rewrite (np_index v n H). destruct (nodes (Z.to_nat n)) eqn:N; cbn; congruence.
  Qed.
End Cache.
