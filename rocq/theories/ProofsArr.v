(** * Broadcasting of the sample methods (C47) *)
From Coq Require Import String Reals Lra Lia ZArith List Bool.
From Coquelicot Require Import Rcomplements Complex.
From Verif Require Import Num NumLemmas ModelBase ModelSample NArr SpecArr NArrLemmas ModelObj ModelArr
  SpecObj ArrSample.
Import ListNotations.
Open Scope R_scope.

Lemma bshapes_nil_in : forall ss, bshapes ([] :: ss) = bshapes ss.
Proof. intro ss. cbn. destruct (bshapes ss) as [s|]; [destruct s; reflexivity|reflexivity]. Qed.

Lemma vec_shapes : forall A ss ts (g : list nat -> A) r, bshapes ss = bshapes ts -> vec ss g r -> vec ts g r.
Proof. intros A ss ts g r E V. unfold vec in *. rewrite <- E. exact V. Qed.
Lemma vecm_shapes : forall ss ts g r, bshapes ss = bshapes ts -> vecm ss g r -> vecm ts g r.
Proof. intros ss ts g r E V. unfold vecm in *. rewrite <- E. exact V. Qed.
Lemma vecm_none : forall ss g m, bshapes ss = None -> vecm ss g (Raise (ValueError m)).
Proof. intros ss g m E. unfold vecm. rewrite E. exists m; reflexivity. Qed.

Lemma pairs_map : forall A B (f : A -> B) l,
  combine (removelast (map f l)) (tl (map f l))
  = map (fun p => (f (fst p), f (snd p))) (combine (removelast l) (tl l)).
Proof.
  intros A B f l. induction l as [|a l IH]; [reflexivity|].
  destruct l as [|b l]; [reflexivity|]. cbn [map removelast tl combine fst snd] in *.
  f_equal. exact IH.
Qed.
Lemma pairs_in : forall A (l : list A) p, In p (combine (removelast l) (tl l)) -> In (fst p) l /\ In (snd p) l.
Proof.
  intros A l [a b] H. split.
  - apply in_combine_l in H. cbn. revert H. clear. induction l as [|x l IH]; [intros []|].
    destruct l as [|y l]; [intros []|]. intros [->|H]; [left; reflexivity|right; apply IH, H].
  - apply in_combine_r in H. destruct l; [destruct H|right; exact H].
Qed.
Lemma pairs_length : forall A (l : list A), length (combine (removelast l) (tl l)) = (length l - 1)%nat.
Proof.
  intros A l. induction l as [|a l IH]; [reflexivity|]. destruct l as [|b l]; [reflexivity|].
  cbn [removelast tl combine length] in *. lia.
Qed.

Lemma slice_shp : forall A (l : layers A) a, In a (slices l) -> shp a = lsh l.
Proof. intros A l a H. apply in_map_iff in H. destruct H as (f & <- & _). reflexivity. Qed.
Lemma slices_length : forall A (l : layers A), length (slices l) = length (lay l).
Proof. intros. apply map_length. Qed.

Lemma bshapes_1 : forall s, bshapes [s] = Some s.
Proof. intro s. cbn. destruct s; reflexivity. Qed.

Lemma vec_slice : forall A (l : layers A) a, In a (slices l) -> vec [lsh l] (entry a) (Ok a).
Proof. intros A l a H. rewrite <- (slice_shp _ _ _ H). apply vec_arr. Qed.

Lemma Forall2_map_l : forall A B D (R : B -> D -> Prop) (f : A -> B) l m,
  Forall2 (fun a d => R (f a) d) l m -> Forall2 R (map f l) m.
Proof. intros A B D R f l m H. induction H; cbn; constructor; auto. Qed.

Lemma Forall2_length : forall A B (R : A -> B -> Prop) l m, Forall2 R l m -> length l = length m.
Proof. intros A B R l m H. induction H; cbn; congruence. Qed.

(** the list of interface matrices *)
Lemma trans_list : forall e,
  exists Ts, mapM (fun p => let! f := amap2 cdiv (fst p) (snd p) in trans_matrix_a f)
               (combine (removelast (slices e)) (tl (slices e))) = Ok Ts /\
    Forall2 (fun g r => vecm [lsh e] g (Ok r))
      (map (fun p i => trans_matrix (entry (fst p) i / entry (snd p) i)%cv)
           (combine (removelast (slices e)) (tl (slices e)))) Ts.
Proof.
  intro e.
  destruct (mapM_vecm _ (fun p => let! f := amap2 cdiv (fst p) (snd p) in trans_matrix_a f)
              [lsh e] (fun p i => trans_matrix (entry (fst p) i / entry (snd p) i)%cv)
              (combine (removelast (slices e)) (tl (slices e))) (lsh e) (bshapes_1 _)) as (Ts & E & F).
  - intros p H. apply pairs_in in H. destruct H as [H1 H2].
    pose proof (vec_amap2' _ _ _ cdiv _ _ _ _ _ _ (vec_slice _ _ _ H1) (vec_slice _ _ _ H2)) as V.
    cbn [rbind] in V.
    eapply vecm_incl; [| |exact (vecm_trans _ _ _ V)].
    + apply incl_app; apply incl_refl.
    + apply incl_appl, incl_refl.
  - exists Ts. split; [exact E|]. apply Forall2_map_l. exact F.
Qed.

Lemma map_pointwise : forall A (l : list A) (B : Type) (G : A -> list nat -> B) i,
  map (fun h => h i) (map G l) = map (fun a => G a i) l.
Proof. intros. rewrite map_map. reflexivity. Qed.

Lemma trans_list_scalar : forall o e i, o_eps o = Some e ->
  trans_matrices_qs (sample_at o i)
  = map (fun h => h i) (map (fun p i => trans_matrix (entry (fst p) i / entry (snd p) i)%cv)
           (combine (removelast (slices e)) (tl (slices e)))).
Proof.
  intros o e i E. unfold trans_matrices_qs, sample_at. cbn [eps_stack]. rewrite E.
  rewrite pairs_map, map_map, map_map. reflexivity.
Qed.

Lemma combine_nonnil : forall A B (l : list A) (m : list B), l <> [] -> m <> [] -> combine l m <> [].
Proof. intros A B [|a l] [|b m] H H'; [contradiction H; reflexivity|contradiction H; reflexivity|contradiction H'; reflexivity|discriminate]. Qed.

Lemma transfer_qs_elementwise : forall o q, consistent o ->
  exists g, vecm [eps_shape o; t_shape o; shp q] g (transfer_matrix_qs_a o q) /\
    forall i, transfer_matrix_qs (sample_at o i) (entry q i) = Ok (g i).
Proof.
  intros o q (e & t & Ee & Et & L & Lt).
  destruct (trans_list e) as (Ts & ET & FT).
  assert (HS : forall i, transfer_matrix_qs (sample_at o i) (entry q i) =
    match trans_matrices_qs (sample_at o i) with
    | [] => Raise IndexError
    | T0 :: Tl => if Nat.ltb 2 (length (lay e))
        then Ok (chain T0 (combine Tl (prop_matrices_qs (sample_at o i) (entry q i))))
        else Ok {| m00 := m00 T0 * rc 1; m01 := m01 T0 * rc 1;
                 m10 := m10 T0 * rc 1; m11 := m11 T0 * rc 1 |}%cv
    end).
  { intro i. unfold transfer_matrix_qs, multilayer, n_layers.
    replace (length (eps_stack (sample_at o i))) with (length (lay e)); [reflexivity|].
    unfold sample_at. cbn [eps_stack]. rewrite Ee, map_length, slices_length. reflexivity. }
  remember (combine (removelast (slices e)) (tl (slices e))) as P eqn:EP.
  assert (LP : length P = (length (lay t) + 1)%nat).
  { rewrite EP, pairs_length, slices_length. lia. }
  destruct P as [|p P]; [cbn in LP; lia|].
  cbn [map] in FT. inversion FT as [|g0 T0 gT Ts' V0 FT' E0]; subst g0 gT Ts. clear FT.
  pose proof (trans_list_scalar o e) as TS. rewrite <- EP in TS. cbn [map] in TS.
  unfold eps_shape, t_shape, transfer_matrix_qs_a. rewrite Ee, Et, <- EP, ET. cbn [rbind].
  destruct (lay t) as [|t0 ts] eqn:Elt.
  - (* no inner layer *)
    replace (Nat.ltb 2 (length (lay e))) with false in * by (symmetry; apply Nat.ltb_ge; cbn in L; lia).
    rewrite (Lt eq_refl).
    eexists. split.
    + apply (vecm_shapes ([lsh e] ++ [shp q])).
      { etransitivity; [symmetry; apply bshapes_nil_in|].
        apply bshapes_incl; intros x; cbn; intuition. }
      exact (vecm_scale _ [shp q] _ _ q V0 (bshapes_1 _)).
    + intro i. rewrite HS, TS by exact Ee. cbn iota. reflexivity.
  - (* film stack *)
    replace (Nat.ltb 2 (length (lay e))) with true in * by (symmetry; apply Nat.ltb_lt; cbn in L; lia).
    set (f := fun x : arr R => let! p := amap2 rmul q (amap rr x) in prop_matrix_qs_a (amap clip p)).
    set (G := fun (x : arr R) i => prop_matrix (cexp (ofR (rr 1 * clip (entry q i * rr (entry x i))%rv)%rv))
                                  (cexp (ofR (rr (-1) * clip (entry q i * rr (entry x i))%rv)%rv))).
    assert (HV : forall x, In x (slices t) -> vecm [shp q; lsh t] (G x) (f x)).
    { intros x Hx. pose proof (vec_amap _ _ rr _ _ _ (vec_slice _ _ _ Hx)) as V1. cbn [rbind] in V1.
      pose proof (vec_amap2' _ _ _ rmul _ _ _ _ _ _ (vec_arr _ q) V1) as V2. cbn [rbind] in V2.
      pose proof (vecm_prop_qs _ _ _ (vec_amap _ _ clip _ _ _ V2)) as V3. cbn [app] in V3.
      unfold f. destruct (amap2 rmul q (amap rr x)); exact V3. }
    assert (HP : forall i, prop_matrices_qs (sample_at o i) (entry q i)
                 = map (fun h => h i) (map G (slices t))).
    { intro i. unfold prop_matrices_qs, sample_at. cbn [t_stack]. rewrite Et, !map_map. reflexivity. }
    eexists. split.
    + apply (vecm_shapes ([lsh e] ++ [shp q; lsh t])).
      { apply bshapes_incl; intros x; cbn; intuition. }
      destruct (bshapes [shp q; lsh t]) as [u|] eqn:Eu.
      * destruct (mapM_vecm _ f [shp q; lsh t] G (slices t) u Eu HV) as (Ps & EPs & FP).
        change (mapM _ (slices t)) with (mapM f (slices t)).
        rewrite EPs. cbn [rbind].
        refine (chain_vec _ _ _ _ _ _ _ _ FT' (Forall2_map_l _ _ _ (fun g r => vecm [shp q; lsh t] g (Ok r)) G _ _ FP) V0 _).
        apply combine_nonnil.
        -- intro Hn. subst Ts'. apply Forall2_length in FT'. rewrite map_length in FT'. cbn in *. lia.
        -- intro Hn. subst Ps. apply Forall2_length in FP. rewrite slices_length, Elt in FP. cbn in FP. lia.
      * assert (Hsl : slices t = mkArr (lsh t) t0 :: map (mkArr (lsh t)) ts) by (unfold slices; rewrite Elt; reflexivity).
        assert (V : vecm [shp q; lsh t] (G (mkArr (lsh t) t0)) (f (mkArr (lsh t) t0))).
        { apply HV. rewrite Hsl. left; reflexivity. }
        unfold vecm in V. rewrite Eu in V. destruct V as [m Em].
        change (mapM _ (slices t)) with (mapM f (slices t)).
        rewrite Hsl, (mapM_raise_head _ _ f _ _ _ Em). cbn [rbind].
        apply vecm_none. apply bshapes_app_none_r, Eu.
    + intro i. rewrite HS, TS, HP by exact Ee. reflexivity.
Qed.

Lemma refl_qs_elementwise : forall o q, consistent o ->
  exists g, vec [eps_shape o; t_shape o; shp q] g (refl_coef_qs_a o q) /\
    forall i, refl_coef_qs (sample_at o i) (entry q i) = Ok (g i).
Proof.
  intros o q H. destruct (transfer_qs_elementwise o q H) as (g & V & E).
  eexists. split; [exact (vecm_refl _ _ _ V)|].
  intro i. unfold refl_coef_qs. rewrite E. reflexivity.
Qed.
Lemma trans_qs_elementwise : forall o q, consistent o ->
  exists g, vec [eps_shape o; t_shape o; shp q] g (trans_coef_qs_a o q) /\
    forall i, trans_coef_qs (sample_at o i) (entry q i) = Ok (g i).
Proof.
  intros o q H. destruct (transfer_qs_elementwise o q H) as (g & V & E).
  eexists. split; [exact (vecm_transm _ _ _ V)|].
  intro i. unfold trans_coef_qs. rewrite E. reflexivity.
Qed.

(** ** Far field *)
Lemma bshapes_subst : forall ss ts S, bshapes ts = Some S -> bshapes (ss ++ [S]) = bshapes (ss ++ ts).
Proof.
  intros ss ts Sh E. destruct (bshapes ss) as [U|] eqn:EU.
  - rewrite (bshapes_app_bshape _ _ _ _ EU E), (bshapes_app_bshape _ _ _ _ EU (bshapes_1 Sh)). reflexivity.
  - rewrite !(bshapes_app_none_l _ _ EU). reflexivity.
Qed.

Lemma factors_pairs : forall pol_p (eps nuz : list CV), length eps = length nuz ->
  map (trans_factor pol_p eps nuz) (seq 0 (length eps - 1))
  = map (fun p : (CV * CV) * (CV * CV) =>
           if pol_p then (fst (fst p) * snd (snd p) / (fst (snd p) * snd (fst p)))%cv
           else (snd (snd p) / snd (fst p))%cv)
        (combine (removelast (combine eps nuz)) (tl (combine eps nuz))).
Proof.
  intros pol_p eps. induction eps as [|e eps IH]; intros nuz L; [reflexivity|].
  destruct nuz as [|z nuz]; [discriminate|]. destruct eps as [|e' eps]; [reflexivity|].
  destruct nuz as [|z' nuz]; [discriminate|].
  specialize (IH (z' :: nuz) ltac:(cbn in *; lia)).
  replace (length (e :: e' :: eps) - 1)%nat with (S (length (e' :: eps) - 1)) by (cbn; lia).
  cbn [seq map combine removelast tl fst snd]. f_equal.
  rewrite <- seq_shift, map_map.
  transitivity (map (trans_factor pol_p (e' :: eps) (z' :: nuz)) (seq 0 (length (e' :: eps) - 1))).
  - apply map_ext. intro k. unfold trans_factor. cbn [nth]. rewrite Nat.add_1_r. cbn [nth].
    replace (k + 1)%nat with (S k) by lia. cbn [nth]. reflexivity.
  - rewrite IH. reflexivity.
Qed.

Lemma combine_map2 : forall A B X Y (f : A -> X) (g : B -> Y) l m,
  combine (map f l) (map g m) = map (fun p => (f (fst p), g (snd p))) (combine l m).
Proof.
  intros A B X Y f g l. induction l as [|a l IH]; intros [|b m]; [reflexivity..|].
  cbn. f_equal. apply IH.
Qed.
Lemma combine_combine_map : forall A B (f : A -> B) l m, Forall2 (fun a b => f a = b) l m ->
  combine l m = map (fun a => (a, f a)) l.
Proof. intros A B f l m H. induction H; cbn; [reflexivity|]. subst. f_equal. assumption. Qed.
Lemma removelast_map : forall A B (f : A -> B) l, removelast (map f l) = map f (removelast l).
Proof.
  intros A B f l. induction l as [|a l IH]; [reflexivity|]. destruct l; [reflexivity|].
  cbn in *. f_equal. exact IH.
Qed.
Lemma in_removelast : forall A (l : list A) x, In x (removelast l) -> In x l.
Proof.
  intros A l x. induction l as [|a l IH]; [intros []|]. destruct l as [|b l]; [intros []|].
  intros [->|H]; [left; reflexivity|right; apply IH, H].
Qed.
Lemma in_tl : forall A (l : list A) x, In x (tl l) -> In x l.
Proof. intros A [|a l] x H; [destruct H|right; exact H]. Qed.

Lemma Forall2_tl : forall A B (P : A -> B -> Prop) l m, Forall2 P l m -> Forall2 P (tl l) (tl m).
Proof. intros A B P l m H. destruct H; [constructor|assumption]. Qed.
Lemma Forall2_removelast : forall A B (P : A -> B -> Prop) l m, Forall2 P l m -> Forall2 P (removelast l) (removelast m).
Proof.
  intros A B P l m F. induction F as [|a z l m H F IH]; cbn; [constructor|].
  destruct F; [constructor|]. constructor; assumption.
Qed.
Ltac incl_solve := intros ?x; cbn; intuition (subst; auto).

Lemma transfer_core : forall o (nu q : arr R) pol, consistent o -> pol = "p"%string \/ pol = "s"%string ->
  exists g, vecm [eps_shape o; t_shape o; shp nu; shp q] g (transfer_matrix_a o (Some q) None (Some nu) pol) /\
    forall i, transfer_matrix (sample_at o i) (Some (entry q i)) None (Some (entry nu i)) pol = Ok (g i).
Proof.
  intros o nu q pol (e & t & Ee & Et & L & Lt) Hpol.
  set (ss := [lsh e; shp nu; shp q]).
  set (b := String.eqb pol "p").
  assert (Hb : forall X (k : bool -> res X),
    (let! pol_p := (if String.eqb pol "p" then Ok true else if String.eqb pol "s" then Ok false
                         else Raise (ValueError msg_pol)) in k pol_p) = k b).
  { intros X k. destruct Hpol as [-> | ->]; reflexivity. }
  (* normal wavenumbers *)
  set (Z := fun (a : arr CV) i => nu_z_of (entry nu i) (entry q i) (entry a i)).
  assert (HZ : forall a, In a (slices e) -> vec ss (Z a) (nu_z_a nu q a)).
  { intros a Ha.
    pose proof (vec_amap2' _ _ _ (fun e v => (e * ofR (rr v ^ 2)%rv)%cv) _ _ _ _ _ _
                  (vec_slice _ _ _ Ha) (vec_arr _ nu)) as V1.
    pose proof (vec_amap2' _ _ _ (fun x v => csqrt (x - ofR (rr v ^ 2)%rv)%cv) _ _ _ _ _ _
                  V1 (vec_arr _ q)) as V2.
    exact V2. }
  (* the scalar side *)
  assert (HE : forall i, eps_stack (sample_at o i) = map (fun a => entry a i) (slices e)).
  { intro i. unfold sample_at. cbn. rewrite Ee. reflexivity. }
  assert (HT : forall i, t_stack (sample_at o i) = map (fun a => entry a i) (slices t)).
  { intro i. unfold sample_at. cbn. rewrite Et. reflexivity. }
  assert (Ln : forall i, n_layers (sample_at o i) = length (lay e)).
  { intro i. unfold n_layers. rewrite HE, map_length, slices_length. reflexivity. }
  assert (NZ : forall i, map (nu_z_of (entry nu i) (entry q i)) (eps_stack (sample_at o i))
                 = map (fun a => Z a i) (slices e)).
  { intro i. rewrite HE, map_map. reflexivity. }
  set (fac := fun (p : arr CV * arr CV) i =>
      if b then (entry (fst p) i * Z (snd p) i / (entry (snd p) i * Z (fst p) i))%cv
      else (Z (snd p) i / Z (fst p) i)%cv).
  set (PR := combine (removelast (slices e)) (tl (slices e))).
  assert (HF : forall i, map (trans_factor b (eps_stack (sample_at o i))
       (map (nu_z_of (entry nu i) (entry q i)) (eps_stack (sample_at o i)))) (seq 0 (n_layers (sample_at o i) - 1))
       = map (fun p => fac p i) PR).
  { intro i. unfold n_layers. rewrite factors_pairs by (rewrite map_length; reflexivity).
    rewrite NZ, HE. rewrite combine_map2.
    replace (combine (slices e) (slices e)) with (map (fun a => (a, a)) (slices e))
      by (generalize (slices e); intro l; induction l; cbn; congruence).
    rewrite map_map, pairs_map, map_map. reflexivity. }
  assert (HS : forall i, transfer_matrix (sample_at o i) (Some (entry q i)) None (Some (entry nu i)) pol =
     match map trans_matrix (map (fun p => fac p i) PR) with
     | [] => Raise (ValueError msg_stack)
     | T0 :: Ts => if Nat.ltb 2 (length (lay e)) then
          Ok (chain T0 (combine Ts (map (fun p => let phi := (fst p * rc (snd p))%cv in
                        prop_matrix (cexp (Some (0, -1)%R * phi)%cv)
                                    (cexp (Some (0, 1)%R * phi)%cv))
              (combine (removelast (tl (map (fun a => Z a i) (slices e)))) (map (fun a => entry a i) (slices t))))))
          else Ok T0
     end).
  { intro i. unfold transfer_matrix. cbn [resolve_nu resolve_q rbind].
    rewrite Ln. replace (Nat.eqb (length (lay e)) 0) with false by (symmetry; apply Nat.eqb_neq; lia).
    rewrite Hb. rewrite <- (Ln i), HF. unfold multilayer. rewrite Ln, NZ, HT. reflexivity. }
  unfold eps_shape, t_shape, transfer_matrix_a. rewrite Ee, Et. cbn [resolve_nu_a resolve_q_a rbind].
  destruct (bshapes ss) as [Sh|] eqn:Ess.
  2: { (* the wavenumbers do not broadcast *)
    assert (N4 : bshapes [lsh e; lsh t; shp nu; shp q] = None).
    { rewrite <- (bshapes_incl (ss ++ [lsh t])) by (unfold ss; incl_solve).
      apply bshapes_app_none_l, Ess. }
    destruct (slices e) as [|a es] eqn:Esl; [apply (f_equal (@length _)) in Esl; rewrite slices_length in Esl; cbn in Esl; lia|].
    pose proof (HZ a (or_introl eq_refl)) as V. unfold vec in V. rewrite Ess in V. destruct V as [m Em].
    rewrite (mapM_raise_head _ _ _ _ _ _ Em). cbn [rbind].
    destruct PR as [|p PR'] eqn:EPR.
    { apply (f_equal (@length _)) in EPR. unfold PR in EPR. rewrite pairs_length in EPR.
      apply (f_equal (@length _)) in Esl. rewrite slices_length in Esl. cbn in *. lia. }
    destruct (Nat.ltb 2 (length (lay e))); (eexists; split; [apply vecm_none, N4|intro i; rewrite HS; cbn [map]; reflexivity]). }
  destruct (mapM_vec _ _ (nu_z_a nu q) ss Z (slices e) Sh Ess HZ) as (nuz & Enuz & FZ).
  rewrite Enuz. cbn [rbind].
  assert (Lz : length nuz = length (lay e)).
  { rewrite <- (Forall2_length _ _ _ _ _ FZ). apply slices_length. }
  destruct nuz as [|z0 nuz0] eqn:Ez; [cbn in Lz; lia|]. rewrite <- Ez in *. clear Ez z0 nuz0.
  rewrite Hb.
  (* interface matrices *)
  set (ez := combine (slices e) nuz).
  assert (Fez : forall x, In x ez -> In (fst x) (slices e) /\ vec ss (Z (fst x)) (Ok (snd x))).
  { intros [a z] H. unfold ez in H. split; [apply in_combine_l in H; exact H|].
    clear - FZ H. induction FZ as [|a' z' l m [_ Hv] _ IH]; [destruct H|].
    destruct H as [[= <- <-]|H]; [exact Hv|apply IH, H]. }
  set (fT := fun p : (arr CV * arr CV) * (arr CV * arr CV) =>
     let! f := trans_factor_a b (fst p) (snd p) in trans_matrix_a f).
  assert (HTm : forall p, In p (combine (removelast ez) (tl ez)) ->
     vecm ss (fun i => trans_matrix (fac (fst (fst p), fst (snd p)) i)) (fT p)).
  { intros p H. apply pairs_in in H. destruct H as [H1 H2].
    apply Fez in H1, H2. destruct H1 as [I1 V1], H2 as [I2 V2].
    apply (vecm_trans ss (fac (fst (fst p), fst (snd p))) (trans_factor_a b (fst p) (snd p))).
    unfold trans_factor_a, fac. cbn [fst snd]. destruct b.
    - pose proof (vec_amap2' _ _ _ cmul _ _ _ _ _ _ (vec_slice _ _ _ I1) V2) as A1.
      pose proof (vec_amap2' _ _ _ cmul _ _ _ _ _ _ (vec_slice _ _ _ I2) V1) as A2.
      cbn [rbind] in A1, A2.
      pose proof (vec_amap2' _ _ _ cdiv _ _ _ _ _ _ A1 A2) as A3.
      eapply vec_incl; [| |exact A3]; unfold ss; incl_solve.
    - pose proof (vec_amap2' _ _ _ cdiv _ _ _ _ _ _ V2 V1) as A3. cbn [rbind] in A3.
      eapply vec_incl; [| |exact A3]; unfold ss; incl_solve. }
  destruct (mapM_vecm _ fT ss _ _ Sh Ess HTm) as (Ts & ETs & FT).
  change (mapM _ (combine (removelast ez) (tl ez))) with (mapM fT (combine (removelast ez) (tl ez))).
  rewrite ETs. cbn [rbind].
  apply (Forall2_map_l _ _ _ (fun g r => vecm ss g (Ok r))
          (fun p i => trans_matrix (fac (fst (fst p), fst (snd p)) i))) in FT.
  assert (EPR : map (fun p : (arr CV * arr CV) * (arr CV * arr CV) => (fst (fst p), fst (snd p)))
                    (combine (removelast ez) (tl ez)) = PR).
  { unfold PR. rewrite <- (pairs_map _ _ fst ez).
    replace (map fst ez) with (slices e); [reflexivity|]. unfold ez.
    clear - Lz. revert Lz. rewrite <- (slices_length _ e). generalize (slices e) nuz.
    intro l; induction l as [|a l IH]; intros [|z m] H; cbn in *; try lia; [reflexivity|].
    f_equal. apply IH; lia. }
  rewrite <- (map_map (fun p : (arr CV * arr CV) * (arr CV * arr CV) => (fst (fst p), fst (snd p)))
                      (fun p i => trans_matrix (fac p i))) in FT.
  rewrite EPR in FT.
  assert (LPR : length PR = (length (lay t) + 1)%nat) by (unfold PR; rewrite pairs_length, slices_length; lia).
  destruct PR as [|p PR']; [cbn in LPR; lia|].
  cbn [map] in FT. inversion FT as [|g0 T0 gT Ts' V0 FT' E0]; subst g0 gT Ts. clear FT.
  destruct (lay t) as [|t0 ts] eqn:Elt.
  - (* no inner layer *)
    replace (Nat.ltb 2 (length (lay e))) with false in * by (symmetry; apply Nat.ltb_ge; cbn in L; lia).
    rewrite (Lt eq_refl).
    eexists. split.
    + apply (vecm_shapes ss); [|exact V0]. unfold ss.
      etransitivity; [symmetry; apply bshapes_nil_in|].
      apply bshapes_incl; incl_solve.
    + intro i. rewrite HS. cbn [map]. reflexivity.
  - replace (Nat.ltb 2 (length (lay e))) with true in * by (symmetry; apply Nat.ltb_lt; cbn in L; lia).
    set (fP := fun zt : arr CV * arr R => let! p := amap2 (fun z x => (z * rc x)%cv) (fst zt) (snd zt) in prop_matrix_a p).
    set (zt := combine (removelast (tl nuz)) (slices t)).
    set (at' := combine (removelast (tl (slices e))) (slices t)).
    set (G := fun (p : arr CV * arr R) i => let phi := (Z (fst p) i * rc (entry (snd p) i))%cv in
                 prop_matrix (cexp (Some (0, -1)%R * phi)%cv) (cexp (Some (0, 1)%R * phi)%cv)).
    (* pairs of layers and thicknesses *)
    assert (FZ' : Forall2 (fun a z => In a (slices e) /\ vec ss (Z a) (Ok z)) (removelast (tl (slices e))) (removelast (tl nuz))).
    { assert (F0 : Forall2 (fun a z => In a (slices e) /\ vec ss (Z a) (Ok z)) (slices e) nuz).
      { assert (W : forall l m, Forall2 (fun a z => nu_z_a nu q a = Ok z /\ vec ss (Z a) (Ok z)) l m ->
             incl l (slices e) -> Forall2 (fun a z => In a (slices e) /\ vec ss (Z a) (Ok z)) l m).
        { intros l m F. induction F as [|a z l m [_ Hv] _ IH]; intro Hin; constructor.
          - split; [apply Hin; left; reflexivity|exact Hv].
          - apply IH. intros x Hx. apply Hin. right; exact Hx. }
        apply W; [exact FZ|apply incl_refl]. }
      apply Forall2_removelast, Forall2_tl, F0. }
    assert (FP0 : forall Q, bshapes (ss ++ [lsh t]) = Some Q ->
        exists Ps, mapM fP zt = Ok Ps /\ Forall2 (fun a r => vecm (ss ++ [lsh t]) (G a) (Ok r)) at' Ps).
    { intros Q EQ. unfold zt, at'.
      assert (W : forall l m, Forall2 (fun a z => In a (slices e) /\ vec ss (Z a) (Ok z)) l m ->
        forall lt', incl lt' (slices t) ->
        exists Ps, mapM fP (combine m lt') = Ok Ps /\
          Forall2 (fun a r => vecm (ss ++ [lsh t]) (G a) (Ok r)) (combine l lt') Ps);
        [|apply W; [exact FZ'|apply incl_refl]].
      intros l m F. induction F as [|a z l m [Ha Hv] F IH]; intros lt' Hin; [exists []; split; [reflexivity|constructor]|].
      destruct lt' as [|x lt']; [exists []; split; [reflexivity|constructor]|].
      destruct (IH lt') as (Ps & E1 & F1); [intros y Hy; apply Hin; right; exact Hy|].
      assert (V : vecm (ss ++ [lsh t]) (G (a, x)) (fP (z, x))).
      { apply (vecm_prop (ss ++ [lsh t]) (fun i => (Z a i * rc (entry x i))%cv)
                 (amap2 (fun z x => (z * rc x)%cv) z x)).
        exact (vec_amap2' _ _ _ (fun z x => (z * rc x)%cv) _ _ _ _ _ _ Hv
                 (vec_slice _ _ _ (Hin x (or_introl eq_refl)))). }
      cbn [combine mapM]. destruct (fP (z, x)) as [r|er] eqn:Er; [|destruct (vecm_raise _ _ _ V); congruence].
      cbn [rbind]. rewrite E1. exists (r :: Ps). split; [reflexivity|]. constructor; assumption. }
    assert (LZT : length (removelast (tl nuz)) = length (slices t)).
    { rewrite slices_length, Elt. 
      assert (R : forall A (l : list A), length (removelast l) = (length l - 1)%nat).
      { intros A l. induction l as [|a l IH]; [reflexivity|]. destruct l; [reflexivity|]. cbn in *. lia. }
      rewrite R. destruct nuz; cbn in *; lia. }
    change (mapM _ zt) with (mapM fP zt).
    eexists. split.
    + apply (vecm_shapes (ss ++ (ss ++ [lsh t]))).
      { apply bshapes_incl; unfold ss; incl_solve. }
      destruct (bshapes (ss ++ [lsh t])) as [Q'|] eqn:EQ.
      * destruct (FP0 Q' eq_refl) as (Ps & EPs & FP). rewrite EPs. cbn [rbind].
        refine (chain_vec _ _ _ _ _ _ _ _ FT' (Forall2_map_l _ _ _ (fun g r => vecm (ss ++ [lsh t]) g (Ok r)) G _ _ FP) V0 _).
        apply combine_nonnil.
        -- intro Hn. subst Ts'. apply Forall2_length in FT'. rewrite map_length in FT'. cbn in *. lia.
        -- intro Hn. subst Ps. apply Forall2_length in FP. unfold at' in FP.
           rewrite combine_length, (Forall2_length _ _ _ _ _ FZ'), LZT, slices_length, Elt in FP. cbn in FP. lia.
      * unfold zt. destruct FZ' as [|a z l m [Ha Hv] F].
        { rewrite slices_length, Elt in LZT. discriminate. }
        assert (Hsl : slices t = mkArr (lsh t) t0 :: map (mkArr (lsh t)) ts) by (unfold slices; rewrite Elt; reflexivity).
        assert (V : vecm (ss ++ [lsh t]) (G (a, mkArr (lsh t) t0)) (fP (z, mkArr (lsh t) t0))).
        { apply (vecm_prop (ss ++ [lsh t]) (fun i => (Z a i * rc (entry (mkArr (lsh t) t0) i))%cv)
                 (amap2 (fun z x => (z * rc x)%cv) z (mkArr (lsh t) t0))).
          exact (vec_amap2' _ _ _ (fun z x => (z * rc x)%cv) _ _ _ _ _ _ Hv (vec_arr _ (mkArr (lsh t) t0))). }
        unfold vecm in V. rewrite EQ in V. destruct V as [mm Em].
        rewrite Hsl. cbn [combine]. rewrite (mapM_raise_head _ _ fP _ _ _ Em). cbn [rbind].
        apply vecm_none. apply bshapes_app_none_r, EQ.
    + intro i. rewrite HS. cbn [map]. f_equal. f_equal. f_equal; [rewrite !map_map; reflexivity|].
      replace (tl (map (fun a => Z a i) (slices e))) with (map (fun a => Z a i) (tl (slices e)))
        by (destruct (slices e); reflexivity).
      rewrite removelast_map, combine_map2, !map_map. reflexivity.
Qed.

Lemma resolve_nu_elem : forall o nu, consistent o ->
  (nu <> None \/ o_nu o <> None \/ exists t, o_t o = Some t /\ lay t = []) ->
  exists v, resolve_nu_a o nu = Ok v /\
    (forall i, resolve_nu (sample_at o i) (at_index nu i) = Ok (entry v i)) /\
    bshapes [shp v] = bshapes (match nu with Some v => [shp v] | None => shape_of (o_nu o) end).
Proof.
  intros o nu (e & t & Ee & Et & L & Lt) H. destruct nu as [v|].
  - exists v. repeat split; reflexivity.
  - unfold resolve_nu_a. cbn [at_index]. unfold resolve_nu, sample_at. cbn [nu_vac].
    destruct (o_nu o) as [v|] eqn:En.
    + exists v. repeat split; reflexivity.
    + destruct H as [H|[H|(t' & Et' & Hl)]]; [contradiction|contradiction|].
      assert (t' = t) by congruence. subst t'. rewrite Hl in L. cbn in L.
      exists (scalar 1). split; [|split; [|reflexivity]].
      * unfold get_multilayer, get_n_layers. rewrite Ee, L. reflexivity.
      * intro i. unfold multilayer, n_layers. cbn [eps_stack]. rewrite Ee, map_length, slices_length, L.
        reflexivity.
Qed.

Lemma resolve_q_elem : forall nu q th, (q = None \/ th = None) ->
  vec (match th with Some a => shp nu :: [shp a] | None => match q with Some a => [shp a] | None => [] end end)
      (fun i => match th with
                | Some a => entry nu i * sin (Rabs (entry a i))
                | None => match q with Some a => entry a i | None => 0 end end)
      (resolve_q_a nu q th) /\
  forall i, resolve_q (entry nu i) (at_index q i) (at_index th i) = Ok
    (match th with
                | Some a => entry nu i * sin (Rabs (entry a i))
                | None => match q with Some a => entry a i | None => 0 end end).
Proof.
  intros nu q th [-> | ->].
  - destruct th as [a|]; cbn [resolve_q_a at_index resolve_q].
    + split; [|reflexivity].
      exact (vec_amap2' _ _ _ (fun v t => v * sin (Rabs t)) _ _ _ _ _ _ (vec_arr _ nu) (vec_arr _ a)).
    + split; [|reflexivity]. exists (scalar 0). repeat split.
  - destruct q as [a|]; cbn [resolve_q_a at_index resolve_q].
    + split; [apply vec_arr|reflexivity].
    + split; [|reflexivity]. exists (scalar 0). repeat split.
Qed.

Lemma transfer_elementwise : forall o q th nu pol, consistent o -> far_call o q th nu pol ->
  exists g, vecm (far_shapes o q th nu) g (transfer_matrix_a o q th nu pol) /\
    forall i, transfer_matrix (sample_at o i) (at_index q i) (at_index th i) (at_index nu i) pol = Ok (g i).
Proof.
  intros o q th nu pol Hc (Hq & Hnu & Hpol).
  destruct (resolve_nu_elem o nu Hc Hnu) as (v & Ev & Sv & Bv).
  destruct (resolve_q_elem v q th Hq) as [Vq Sq].
  set (gq := fun i => match th with
                | Some a => entry v i * sin (Rabs (entry a i))
                | None => match q with Some a => entry a i | None => 0 end end) in *.
  set (qs := match th with Some a => shp v :: [shp a] | None => match q with Some a => [shp a] | None => [] end end) in *.
  assert (HB : bshapes ([eps_shape o; t_shape o; shp v] ++ qs) = bshapes (far_shapes o q th nu)).
  { unfold far_shapes.
    set (N := match nu with Some v => [shp v] | None => shape_of (o_nu o) end) in *.
    transitivity (bshapes (([eps_shape o; t_shape o] ++ shape_of q ++ shape_of th) ++ [shp v])).
    - apply bshapes_incl; unfold qs; destruct Hq as [-> | ->]; [destruct th|destruct q|destruct th|destruct q]; incl_solve.
    - rewrite (bshapes_subst _ N (shp v)) by (rewrite <- Bv; apply bshapes_1).
      rewrite <- !app_assoc. reflexivity. }
  unfold transfer_matrix_a at 1. rewrite Ev. cbn [rbind].
  destruct (resolve_q_a v q th) as [qa|er] eqn:Eq.
  - (* both resolved *)
    assert (Eqs : bshapes qs = Some (shp qa) /\ forall i, entry qa i = gq i).
    { unfold vec in Vq. destruct (bshapes qs) as [s|].
      - destruct Vq as (x & [= <-] & Hs & Hx). subst s. split; [reflexivity|exact Hx].
      - destruct Vq as [m Hm]. discriminate. }
    destruct Eqs as [Bq Gq].
    destruct (transfer_core o v qa pol Hc Hpol) as (g & V & S).
    exists g. split.
    + apply (vecm_shapes [eps_shape o; t_shape o; shp v; shp qa]).
      { rewrite <- HB. exact (bshapes_subst [eps_shape o; t_shape o; shp v] qs (shp qa) Bq). }
      exact V.
    + intro i. specialize (S i). unfold transfer_matrix in *. cbn [resolve_nu resolve_q rbind] in S.
      rewrite Sv. cbn [rbind]. rewrite Sq. cbn [rbind]. fold (gq i). rewrite <- Gq. exact S.
  - destruct (vec_raise _ _ _ _ Vq) as [Nq [m ->]]. cbn [rbind].
    assert (Hrun : forall i, exists M, transfer_matrix (sample_at o i) (at_index q i) (at_index th i) (at_index nu i) pol = Ok M).
    { intro i. destruct (transfer_core o (scalar (entry v i)) (scalar (gq i)) pol Hc Hpol) as (g & _ & S).
      exists (g i). specialize (S i). unfold transfer_matrix in *. cbn [resolve_nu resolve_q rbind] in S.
      rewrite Sv. cbn [rbind]. rewrite Sq. cbn [rbind]. exact S. }
    exists (fun i => match transfer_matrix (sample_at o i) (at_index q i) (at_index th i) (at_index nu i) pol with
                     | Ok M => M | Raise _ => mkMat None None None None end).
    split.
    + apply vecm_none. rewrite <- HB. apply bshapes_app_none_r, Nq.
    + intro i. destruct (Hrun i) as [M EM]. rewrite EM. reflexivity.
Qed.

Lemma refl_elementwise : forall o q th nu pol, consistent o -> far_call o q th nu pol ->
  exists g, vec (far_shapes o q th nu) g (refl_coef_a o q th nu pol) /\
    forall i, refl_coef (sample_at o i) (at_index q i) (at_index th i) (at_index nu i) pol = Ok (g i).
Proof.
  intros o q th nu pol H F. destruct (transfer_elementwise o q th nu pol H F) as (g & V & E).
  eexists. split; [exact (vecm_refl _ _ _ V)|].
  intro i. unfold refl_coef. rewrite E. reflexivity.
Qed.
Lemma trans_elementwise : forall o q th nu pol, consistent o -> far_call o q th nu pol ->
  exists g, vec (far_shapes o q th nu) g (trans_coef_a o q th nu pol) /\
    forall i, trans_coef (sample_at o i) (at_index q i) (at_index th i) (at_index nu i) pol = Ok (g i).
Proof.
  intros o q th nu pol H F. destruct (transfer_elementwise o q th nu pol H F) as (g & V & E).
  eexists. split; [exact (vecm_transm _ _ _ V)|].
  intro i. unfold trans_coef. rewrite E. reflexivity.
Qed.

(** the other calls are rejected, for arrays as for scalars *)
Lemma transfer_rejected : forall o q th nu pol, consistent o -> ~ far_call o q th nu pol ->
  (exists m, transfer_matrix_a o q th nu pol = Raise (ValueError m)) /\
  forall i, exists m, transfer_matrix (sample_at o i) (at_index q i) (at_index th i) (at_index nu i) pol = Raise (ValueError m).
Proof.
  intros o q th nu pol Hc NF. pose proof Hc as (e & t & Ee & Et & L & Lt).
  assert (Dnu : (nu <> None \/ o_nu o <> None \/ exists t, o_t o = Some t /\ lay t = []) \/
                (nu = None /\ o_nu o = None /\ lay t <> [])).
  { destruct nu; [left; left; discriminate|]. destruct (o_nu o); [left; right; left; discriminate|].
    destruct (lay t) eqn:El; [left; right; right; exists t; auto|right; repeat split; discriminate]. }
  destruct Dnu as [Hnu|(-> & En & El)].
  2: { assert (L2 : (2 <? length (lay e))%nat = true).
       { apply Nat.ltb_lt. destruct (lay t); [contradiction El; reflexivity|cbn in L; lia]. }
       split.
       - eexists. unfold transfer_matrix_a, resolve_nu_a. rewrite En.
         unfold get_multilayer, get_n_layers. rewrite Ee. cbn [rbind]. rewrite L2. reflexivity.
       - intro i. eexists. unfold transfer_matrix, resolve_nu. cbn [at_index sample_at nu_vac]. rewrite En.
         unfold multilayer, n_layers. unfold sample_at; cbn [eps_stack].
         rewrite Ee, map_length, slices_length, L2. reflexivity. }
  destruct (resolve_nu_elem o nu Hc Hnu) as (v & Ev & Sv & Bv).
  assert (Dq : (q = None \/ th = None) \/ exists a b, q = Some a /\ th = Some b).
  { destruct q; destruct th; eauto 6. }
  destruct Dq as [Hq|(a & b & -> & ->)].
  2: { split; [|intro i]; eexists.
       - unfold transfer_matrix_a. rewrite Ev. reflexivity.
       - unfold transfer_matrix. rewrite Sv. reflexivity. }
  assert (Np : (pol =? "p")%string = false /\ (pol =? "s")%string = false).
  { split; apply String.eqb_neq; intros ->; apply NF; split; [exact Hq|split; [exact Hnu|]| exact Hq|split; [exact Hnu|]]; auto. }
  destruct Np as [N1 N2].
  destruct (resolve_q_elem v q th Hq) as [Vq Sq].
  split.
  - unfold transfer_matrix_a. rewrite Ev. cbn [rbind].
    destruct (resolve_q_a v q th) as [qa|er] eqn:Eq.
    + cbn [rbind]. rewrite Ee, Et.
      destruct (mapM (nu_z_a v qa) (slices e)) as [nuz|er] eqn:En; cbn [rbind].
      * destruct nuz; [eexists; reflexivity|]. rewrite N1, N2. eexists; reflexivity.
      * assert (W : forall l er, mapM (nu_z_a v qa) l = Raise er -> exists m, er = ValueError m).
        { clear. induction l as [|a l IH]; intros er; cbn; [discriminate|].
          destruct (nu_z_a v qa a) as [z|e0] eqn:E0; cbn [rbind].
          - destruct (mapM (nu_z_a v qa) l) as [zs|e1] eqn:E1; cbn; [discriminate|].
            intros [= <-]. apply (IH _ eq_refl).
          - intros [= <-]. unfold nu_z_a, amap2 in E0.
            destruct (bshape (shp a) (shp v)) as [s|]; cbn [rbind shp] in E0.
            + destruct (bshape s (shp qa)); [discriminate|]. injection E0 as <-. eexists; reflexivity.
            + injection E0 as <-. eexists; reflexivity. }
        destruct (W _ _ En) as [m ->]. exists m; reflexivity.
    + destruct (vec_raise _ _ _ _ Vq) as [_ [m ->]]. exists m; reflexivity.
  - intro i. unfold transfer_matrix. rewrite Sv. cbn [rbind]. rewrite Sq. cbn [rbind].
    destruct (Nat.eqb (n_layers (sample_at o i)) 0); [eexists; reflexivity|].
    rewrite N1, N2. eexists; reflexivity.
Qed.
